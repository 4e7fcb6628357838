(** * C62: Equal expressions give equal regions *)
From Coq Require Import List Arith Bool NArith ZArith QArith Qminmax Lqa Lia Permutation.
From Verif Require Import Model_base Proof_base Model_soup Model_geometry Spec_candidates Model_aabb Spec_aabb Model_parallel_do Model_boolean Model_candidates Model_classify Model_local Model_corefine Model_side Model_mix Model_schedule.
From Verif Require Import Model_defects Spec_defects Model_overlap Spec_ffi Spec_overlap.
From Verif Require Import Model_find Spec_boolean Spec_radial Spec_local Spec_conform Spec_mix Spec_cut Spec_side Spec_solid Spec_corefine Spec_whole Spec_delaunay Spec_again Spec_find Spec_visible Spec_same Proof_find.
From Verif Require Import Proof_fan Proof_extreme Proof_exact Proof_bridge Proof_planes Proof_clip Proof_pairs Proof_whole Proof_whole_ex Proof_again Prop_aabb Prop_local Prop_corefine Prop_cut Prop_side Prop_solid Prop_conform Prop_whole Prop_schedule Prop_again Prop_again_ex Prop_connected Prop_whole_ex Proof_visible Proof_same.
From Verif Require Import Spec_corefine Spec_side Spec_solid Spec_visible.
Import ListNotations.
Local Open Scope nat_scope.

Lemma region_bounds : forall {P D} coords (r : region P D) S, represents coords r S -> no_flat (located coords (boundary r)) /\ bounds (located coords (boundary r)) S.
Proof.
  intros P D coords r S (W & R). unfold wf_region in W. destruct (kind r).
  - rewrite W. split; [ intros fi a b c J; destruct fi; discriminate J | ]. split; [ | intros fi a b c q v J; destruct fi; discriminate J ]. intros x y _. split; intro H; destruct (R _ H).
  - rewrite W. split; [ intros fi a b c J; destruct fi; discriminate J | ]. split; [ | intros fi a b c q v J; destruct fi; discriminate J ]. intros x y _. split; intros _; apply R.
  - destruct R as (Pf & Bd & _). split; [ exact (pf_nondegenerate _ Pf) | exact Bd ].
Qed.

Lemma given_triangles : forall {P D} coords (e : expression P D), all_given (represents coords) e ->
  exists l, (forall T, In T l -> ~ flat T) /\ forall x, on_given coords e x -> exists T, In T l /\ on_tri x T.
Proof.
  intros P D coords e. induction e as [ r A | op pf e1 IH1 e2 IH2 ]; cbn [all_given on_given].
  - intro R. destruct (region_bounds coords r A R) as (F & _). destruct (all_triangles D (located coords (boundary r))) as (l & Hl). exists l. split.
    + intros [ [a b] c] I. apply Hl in I. destruct I as (fi & J). exact (F fi a b c J).
    + intros x (fi & a & b & c & J & O). exists (a, b, c). split; [ apply Hl; exists fi; exact J | exact O ].
  - intros (G1 & G2). destruct (IH1 G1) as (l1 & F1 & H1), (IH2 G2) as (l2 & F2 & H2). exists (l1 ++ l2). split.
    + intros T I. apply in_app_iff in I. destruct I; auto.
    + intros x [O | O]; [ destruct (H1 x O) as (T & I & OT) | destruct (H2 x O) as (T & I & OT) ]; exists T; (split; [ apply in_app_iff; auto | exact OT ]).
Qed.

(** Two regions that represent the sets of two expressions, off the boundaries of what these are
    made of, are the same region if the sets are. *)
Theorem C62_same_sets : forall {P D} coords (e e' : expression P D) (r r' : region P D) S S',
  all_given (represents coords) e -> all_given (represents coords) e' ->
  represents coords r S -> (forall x, ~ on_given coords e x -> (S x <-> denotes e x)) ->
  represents coords r' S' -> (forall x, ~ on_given coords e' x -> (S' x <-> denotes e' x)) ->
  same_set coords e e' -> same_region coords r r'.
Proof.
  intros P D coords e e' r r' S S' G G' R HS R' HS' Eq.
  destruct (given_triangles coords e G) as (l1 & F1 & H1). destruct (given_triangles coords e' G') as (l2 & F2 & H2).
  assert (Fl : forall T, In T (l1 ++ l2) -> ~ flat T) by (intros T I; apply in_app_iff in I; destruct I; auto).
  assert (E : forall x, (forall T, In T (l1 ++ l2) -> ~ on_tri x T) -> (S x <-> S' x)).
  { intros x H. assert (N1 : ~ on_given coords e x) by (intro O; destruct (H1 x O) as (T & I & OT); apply (H T); [ apply in_app_iff; auto | exact OT ]).
    assert (N2 : ~ on_given coords e' x) by (intro O; destruct (H2 x O) as (T & I & OT); apply (H T); [ apply in_app_iff; auto | exact OT ]).
    rewrite (HS x N1), (HS' x N2). exact (Eq x N1 N2). }
  assert (E' : forall x, (forall T, In T (l1 ++ l2) -> ~ on_tri x T) -> (S' x <-> S x)) by (intros x H; symmetry; exact (E x H)).
  destruct (region_bounds coords r S R) as (F & Bd), (region_bounds coords r' S' R') as (F' & Bd').
  assert (Su : forall x, on_surface coords r x <-> on_surface coords r' x).
  { intro x. split; [ apply (surface_within (l1 ++ l2) S S' Fl E _ _ x F F' Bd Bd') | apply (surface_within (l1 ++ l2) S' S Fl E' _ _ x F' F Bd' Bd) ]. }
  split; [ | split; [ exact Su | ] ].
  - assert (Some_face : forall (q : region P D) A, represents coords q A -> kind q = BOUNDARY_DEFINED -> exists x, on_surface coords q x).
    { intros q A (W & Q) Kq. unfold wf_region in W. rewrite Kq in W, Q. destruct W as (_ & W). destruct (valid_triangle _ _ 0 (pf_valid _ (proj1 Q))) as ([ [a b] c] & J).
      - unfold num_faces, located. cbn [faces]. destruct (faces (boundary q)); [ congruence | cbn; lia ].
      - exists (centroid a b c), 0, a, b, c. split; [ exact J | apply open_on, centroid_open ]. }
    assert (No_face : forall (q : region P D) A, represents coords q A -> kind q <> BOUNDARY_DEFINED -> forall x, ~ on_surface coords q x).
    { intros q A (W & _) Kq x (fi & a & b & c & J & _). unfold wf_region in W. destruct (kind q); try congruence; rewrite W in J; destruct fi; discriminate J. }
    destruct (agree_somewhere (l1 ++ l2) S S' Fl E) as (y & Y). pose proof (proj2 R) as Q. pose proof (proj2 R') as Q'. cbn beta in Q, Q'.
    destruct (kind r) eqn:K, (kind r') eqn:K'; try reflexivity; exfalso.
    + apply (Q y), Y, Q'.
    + destruct (Some_face r' S' R' K') as (x & O). apply (No_face r S R ltac:(congruence) x), Su, O.
    + apply (Q' y), Y, Q.
    + destruct (Some_face r' S' R' K') as (x & O). apply (No_face r S R ltac:(congruence) x), Su, O.
    + destruct (Some_face r S R K) as (x & O). apply (No_face r' S' R' ltac:(congruence) x), Su, O.
    + destruct (Some_face r S R K) as (x & O). apply (No_face r' S' R' ltac:(congruence) x), Su, O.
  - intros A A' RA RA' x Off. rewrite (C58_one_set coords r A S RA R x Off). assert (Off' : ~ on_surface coords r' x) by (intro O; apply Off, Su, O).
    rewrite (C58_one_set coords r' A' S' RA' R' x Off'). exact (sides_same (l1 ++ l2) S S' Fl E _ _ x F F' Bd Bd' Off Off').
Qed.
Print Assumptions C62_same_sets.

Lemma given_represents : forall {P D} coords (e : expression P D), all_given (fun r A => represents coords r A /\ meets_conditions coords (boundary r)) e -> all_given (represents coords) e.
Proof. intros P D coords e. induction e as [ r A | op pf e1 IH1 e2 IH2 ]; cbn; tauto. Qed.

(** Two expressions that denote the same set and whose evaluations end without an exception give
    the same region.  The numbers of threads may differ, and so may what the threads do. *)
Theorem C62_equal_expressions : forall {P D} P_eqb coords pbox longest_axis sort_by nth_element_by cll cpl accepts cdt_faces
    base1 base2 sort_around centroid side_of num_threads num_threads' (d0 : D) (e e' : expression P D) r r' w w',
  right_oracles P_eqb coords pbox sort_by nth_element_by cll cpl accepts base1 base2 sort_around centroid num_threads ->
  right_oracles P_eqb coords pbox sort_by nth_element_by cll cpl accepts base1 base2 sort_around centroid num_threads' ->
  let evaluates := fun n => evaluates P_eqb coords pbox longest_axis sort_by nth_element_by cll cpl accepts cdt_faces base1 base2 sort_around centroid
    side_of n d0 in
  let can_be_mixed := can_be_mixed P_eqb coords pbox longest_axis sort_by nth_element_by cll cpl accepts cdt_faces side_of in
  all_given (fun r A => represents coords r A /\ meets_conditions coords (boundary r)) e ->
  all_given (fun r A => represents coords r A /\ meets_conditions coords (boundary r)) e' ->
  all_operands (evaluates num_threads) (can_be_mixed num_threads) e -> all_operands (evaluates num_threads') (can_be_mixed num_threads') e' ->
  same_set coords e e' ->
  evaluates num_threads e (Ok (r, w)) -> evaluates num_threads' e' (Ok (r', w')) -> same_region coords r r'.
Proof.
  intros P D P_eqb coords pbox la sb nb cll cpl accepts cdt_faces base1 base2 sa centroid side_of nt nt' d0 e e' r r' w w' Hor Hor' ev cm G G' M M' Eq H H'.
  destruct (C52_expressions _ _ _ _ _ _ _ _ _ _ _ _ _ _ _ _ _ e _ Hor G M H) as [ (q & E & _ & _ & S & R & HS) | (E & _) ]; [ injection E as <- _ | discriminate E ].
  destruct (C52_expressions _ _ _ _ _ _ _ _ _ _ _ _ _ _ _ _ _ e' _ Hor' G' M' H') as [ (q & E & _ & _ & S' & R' & HS') | (E & _) ]; [ injection E as <- _ | discriminate E ].
  exact (C62_same_sets coords e e' r r' S S' (given_represents coords e G) (given_represents coords e' G') R HS R' HS' Eq).
Qed.
Print Assumptions C62_equal_expressions.

(** ** Laws *)
Lemma denotes_dec : forall {P D} coords (e : expression P D), all_given (represents coords) e -> forall x, denotes e x \/ ~ denotes e x.
Proof.
  intros P D coords e. induction e as [ r A | op pf e1 IH1 e2 IH2 ]; cbn [all_given denotes].
  - intros (_ & R) x. destruct (kind r); [ right; apply R | left; apply R | apply R ].
  - intros (G1 & G2) x. destruct (IH1 G1 x), (IH2 G2 x); destruct op; cbn [set_of]; tauto.
Qed.

(** The laws of the algebra of sets: expressions that stand on the two sides of a law denote the
    same set, whatever they are made of.  [p], [q], ... are the arguments [prefer_first]. *)
Theorem C62_laws : forall {P D} coords (a b c : expression P D) (p q s t : bool),
  all_given (represents coords) a -> all_given (represents coords) b -> all_given (represents coords) c ->
  let union p := Combine op_UNION p in let inter p := Combine op_INTERSECTION p in let minus p := Combine op_DIFFERENCE p in
  let xor p := Combine op_SYMMETRIC_DIFFERENCE p in let same := same_set coords in
  same (union p a b) (union q b a) /\ same (inter p a b) (inter q b a) /\ same (xor p a b) (xor q b a) /\
  same (union p (union q a b) c) (union s a (union t b c)) /\
  same (inter p (inter q a b) c) (inter s a (inter t b c)) /\
  same (xor p (xor q a b) c) (xor s a (xor t b c)) /\
  same (inter p a (union q b c)) (union s (inter t a b) (inter t a c)) /\
  same (union p a (inter q b c)) (inter s (union t a b) (union t a c)) /\
  same (minus p a (union q b c)) (inter s (minus t a b) (minus t a c)) /\
  same (minus p a (inter q b c)) (union s (minus t a b) (minus t a c)) /\
  same (minus p (minus q a b) c) (minus s a (union t b c)) /\
  same (xor p a b) (union q (minus s a b) (minus t b a)) /\
  same (minus p a (minus q a b)) (inter s a b) /\
  same (union p a (inter q a b)) a /\ same (inter p a (union q a b)) a /\ same (union p a a) a /\ same (inter p a a) a.
Proof.
  intros P D coords a b c p q s t Ga Gb Gc union inter minus xor sm. unfold union, inter, minus, xor, sm, same_set.
  repeat split; cbn [denotes set_of op_UNION op_INTERSECTION op_DIFFERENCE op_SYMMETRIC_DIFFERENCE] in *;
    destruct (denotes_dec coords a Ga x), (denotes_dec coords b Gb x), (denotes_dec coords c Gc x); tauto.
Qed.
Print Assumptions C62_laws.

(** ** With the side of a point found by shooting rays *)
Theorem C62_equal_expressions_with_rays : forall {P D} P_eqb coords pbox longest_axis sort_by nth_element_by cll cpl accepts cdt_faces
    base1 base2 sort_around centroid pbox3 ray_triangle ray_meets_box partial_sort2 tree_of num_threads num_threads' (d0 : D) (e e' : expression P D) r r' w w',
  right_oracles P_eqb coords pbox sort_by nth_element_by cll cpl accepts base1 base2 sort_around centroid num_threads ->
  right_oracles P_eqb coords pbox sort_by nth_element_by cll cpl accepts base1 base2 sort_around centroid num_threads' ->
  (forall x, in_box x (pbox3 x)) -> exact_intersection ray_triangle -> sound_box_test ray_meets_box -> sorts_two partial_sort2 ->
  let evaluates := fun n => evaluates P_eqb coords pbox longest_axis sort_by nth_element_by cll cpl accepts cdt_faces base1 base2 sort_around centroid
    (shoot coords ray_triangle ray_meets_box partial_sort2 tree_of) n d0 in
  let can_be_mixed := can_be_mixed_with_rays P_eqb coords pbox longest_axis sort_by nth_element_by cll cpl accepts cdt_faces pbox3 tree_of in
  all_given (fun r A => represents coords r A /\ meets_conditions coords (boundary r)) e ->
  all_given (fun r A => represents coords r A /\ meets_conditions coords (boundary r)) e' ->
  all_operands (evaluates num_threads) (can_be_mixed num_threads) e -> all_operands (evaluates num_threads') (can_be_mixed num_threads') e' ->
  same_set coords e e' ->
  evaluates num_threads e (Ok (r, w)) -> evaluates num_threads' e' (Ok (r', w')) -> same_region coords r r' /\ w = 0%N /\ w' = 0%N.
Proof.
  intros P D P_eqb coords pbox la sb nb cll cpl accepts cdt_faces base1 base2 sa centroid pbox3 rt rm ps tree_of nt nt' d0 e e' r r' w w' Hor Hor' Hpb3 Hrt Hrm Hps ev cm G G' M M' Eq H H'.
  destruct (C52_expressions_with_rays _ _ _ _ _ _ _ _ _ _ _ _ _ _ _ _ _ _ _ _ _ e _ Hor Hpb3 Hrt Hrm Hps G M H) as [ (q & E & _ & _ & S & R & HS) | (E & _) ]; [ injection E as <- -> | discriminate E ].
  destruct (C52_expressions_with_rays _ _ _ _ _ _ _ _ _ _ _ _ _ _ _ _ _ _ _ _ _ e' _ Hor' Hpb3 Hrt Hrm Hps G' M' H') as [ (q & E & _ & _ & S' & R' & HS') | (E & _) ]; [ injection E as <- -> | discriminate E ].
  split; [ | auto ]. exact (C62_same_sets coords e e' r r' S S' (given_represents coords e G) (given_represents coords e' G') R HS R' HS' Eq).
Qed.
Print Assumptions C62_equal_expressions_with_rays.

(** ** An example *)

(** [ex_expression] of C52 with the operands of the union exchanged. *)
Definition ex_expression' : expression exact unit :=
  Combine opL true (Combine opA false (Given region_empty (fun _ => False)) (Given (ex_region upright) in_tetra)) (Given (ex_region leaning) in_lean).
Lemma first_step' : forall nt r w, ex_evaluates nt (Combine opA false (Given region_empty (fun _ => False)) (Given (ex_region upright) in_tetra)) (Ok (r, w)) ->
  r = ex_region upright_again.
Proof.
  intros nt r w H. remember (Ok (r, w)) as o eqn:Eo. inversion H as [ | op pf e1 e2 a b w1 w2 mix H1 H2 Hm | op pf e1 e2 o' r' H1 F | op pf e1 e2 o' r' H1 F ]; subst.
  - inversion H1; subst. inversion H2; subst.
    assert (X : (let* bd := build mix region_empty (ex_region upright) in let* r0 := run tt bd opA false in
      Ok (r0, N.lor (N.lor 0 0) (Model_boolean.warnings bd))) = Ok (ex_region upright_again, 0%N)) by reflexivity.
    congruence.
  - inversion H1; subst. destruct F.
  - inversion H1; subst. destruct F.
Qed.

(** Both are evaluated to a region, and to the same one, with any numbers of threads. *)
Example C62_example : forall n n', 1 <= n -> 1 <= n' ->
  (exists r w, ex_evaluates n ex_expression (Ok (r, w))) /\ (exists r w, ex_evaluates n' ex_expression' (Ok (r, w))) /\
  forall r w r' w', ex_evaluates n ex_expression (Ok (r, w)) -> ex_evaluates n' ex_expression' (Ok (r', w')) -> same_region value r r'.
Proof.
  assert (Hor : forall nt, 1 <= nt -> right_oracles exact_eqb value exact_box (fun _ l => l) (fun _ _ l => l) exact_ll exact_pl (fun _ _ _ => true) ex_base1 ex_base2 ex_sort middle_point nt).
  { intros nt Hnt. split; [ exact ex_kernel | ]. split; [ intros t a b c h k vs _ _; reflexivity | ]. split; [ exact ex_bases | ]. split; [ exact ex_sorts | ]. split; [ | exact Hnt ].
    intros p q r. unfold middle_point. destruct (value_reduce (ex_centroid (value p) (value q) (value r))) as (S1 & S2 & S3). exists (1 # 3)%Q, (1 # 3)%Q, (1 # 3)%Q. rewrite S1, S2, S3. unfold ex_centroid. cbn [vx vy vz fst snd]. repeat split; try lra; ring. }
  assert (Hu : represents value (ex_region upright) in_tetra /\ meets_conditions value (boundary (ex_region upright))) by (split; [ split; [ split; [ exact upright_wf | discriminate ] | exact tetra_solid ] | exact (conditions_of _ _ upright_wf tetra_solid upright_simplicial) ]).
  assert (He : represents value (@region_empty exact unit) (fun _ => False) /\ meets_conditions value (boundary (@region_empty exact unit))).
  { split; [ split; [ reflexivity | intros x X; exact X ] | ]. apply (represents_conditions value region_empty (fun _ => False)); [ split; [ reflexivity | intros x X; exact X ] | apply empty_simplicial ]. }
  assert (Hl : represents value (ex_region leaning) in_lean /\ meets_conditions value (boundary (ex_region leaning))) by (split; [ split; [ split; [ exact leaning_wf | discriminate ] | exact lean_solid ] | exact (conditions_of _ _ leaning_wf lean_solid leaning_simplicial) ]).
  assert (Hm : forall nt, 1 <= nt -> all_operands (ex_evaluates nt) (can_be_mixed exact_eqb value exact_box (fun _ => 0) (fun _ l => l) (fun _ _ l => l) exact_ll exact_pl (fun _ _ _ => true) (fan_faces value) which_side nt) ex_expression).
  { intros nt Hnt. cbn [all_operands ex_expression]. split; [ | split; [ exact I | ] ].
    - split; [ exact I | ]. split; [ exact I | ]. intros a b w1 w2 _ H2. inversion H2; subst. intros _ Z. discriminate.
    - intros a b w1 w2 H1 H2. rewrite (first_step nt a w1 H1). inversion H2; subst. exact (ex_can_be_mixed nt Hnt). }
  assert (Hm' : forall nt, 1 <= nt -> all_operands (ex_evaluates nt) (can_be_mixed exact_eqb value exact_box (fun _ => 0) (fun _ l => l) (fun _ _ l => l) exact_ll exact_pl (fun _ _ _ => true) (fan_faces value) which_side nt) ex_expression').
  { intros nt Hnt. cbn [all_operands ex_expression']. split; [ | split; [ exact I | ] ].
    - split; [ exact I | ]. split; [ exact I | ]. intros a b w1 w2 H1 _. inversion H1; subst. intros Z. discriminate.
    - intros a b w1 w2 H1 H2. rewrite (first_step' nt a w1 H1). inversion H2; subst. exact (ex_can_be_mixed nt Hnt). }
  assert (Ends : forall nt e, 1 <= nt -> all_given (fun r A => represents value r A /\ meets_conditions value (boundary r)) e ->
    all_operands (ex_evaluates nt) (can_be_mixed exact_eqb value exact_box (fun _ => 0) (fun _ l => l) (fun _ _ l => l) exact_ll exact_pl (fun _ _ _ => true) (fan_faces value) which_side nt) e ->
    exists r w, ex_evaluates nt e (Ok (r, w))).
  { intros nt e Hnt G M. destruct (C52_evaluation_ends _ _ _ _ _ _ _ _ _ _ _ _ _ _ _ _ _ e (Hor nt Hnt) G M) as (o & H).
    destruct (C52_expressions _ _ _ _ _ _ _ _ _ _ _ _ _ _ _ _ _ e o (Hor nt Hnt) G M H) as [ (r & -> & _) | (_ & a & b & _ & _ & _ & [ (x & _ & X) | (x & _ & X) ]) ]; [ exists r, 0%N; exact H | discriminate X .. ]. }
  intros n n' Hn Hn'.
  assert (G : all_given (fun r A => represents value r A /\ meets_conditions value (boundary r)) ex_expression) by (cbn [all_given ex_expression]; tauto).
  assert (G' : all_given (fun r A => represents value r A /\ meets_conditions value (boundary r)) ex_expression') by (cbn [all_given ex_expression']; tauto).
  split; [ apply (Ends n _ Hn G (Hm n Hn)) | ]. split; [ apply (Ends n' _ Hn' G' (Hm' n' Hn')) | ].
  intros r w r' w' H H'. eapply (C62_equal_expressions _ _ _ _ _ _ _ _ _ _ _ _ _ _ _ n n' tt ex_expression ex_expression' r r' w w' (Hor n Hn) (Hor n' Hn') G G' (Hm n Hn) (Hm' n' Hn')); [ | exact H | exact H' ].
  intros x _ _. cbn [denotes set_of ex_expression ex_expression']. tauto.
Qed.
