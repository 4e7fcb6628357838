(** * C57: meshes in which Find_defects finds nothing as operands *)
From Coq Require Import List Arith Bool NArith ZArith QArith Qminmax Lqa Lia Permutation.
From Verif Require Import Model_base Proof_base Model_soup Model_geometry Spec_candidates Model_aabb Spec_aabb Model_parallel_do Model_boolean Model_candidates Model_classify Model_local Model_corefine Model_side Model_mix.
From Verif Require Import Model_defects Spec_defects Prop_defects Model_overlap Spec_ffi Spec_overlap Prop_overlap.
From Verif Require Import Model_find Spec_boolean Spec_radial Spec_local Spec_conform Spec_mix Spec_cut Spec_side Spec_solid Spec_corefine Spec_whole Spec_delaunay Spec_again Spec_find Proof_find Prop_find.
From Verif Require Import Proof_fan Proof_extreme Proof_exact Proof_planes Proof_whole Prop_local Prop_corefine Prop_cut Prop_side Prop_solid Prop_conform Prop_whole Prop_delaunay Proof_whole_ex.
From Verif Require Import Spec_side Spec_solid.
Import ListNotations.
Local Open Scope nat_scope.

(** Some run of Find_defects reports no edges and no faces (it may report vertices). *)
Definition nothing_found {P D} (P_eqb : P -> P -> bool) (d0 : D) coords pbox longest_axis sort_by nth_element_by (m : soup P D) : Prop :=
  exists num_threads d, 1 <= num_threads /\ find_defects P_eqb d0 coords pbox longest_axis sort_by nth_element_by num_threads m (Ok d) /\
    d_boundary d = [] /\ d_inconsistent d = [] /\ d_edges d = [] /\ d_trivial d = [] /\ d_flat d = [] /\ d_overlapping d = [].

Lemma found_nothing : forall {P D} (P_eqb : P -> P -> bool) (d0 : D) coords pbox longest_axis sort_by nth_element_by (m : soup P D),
  (forall p q, P_eqb p q = true <-> p = q) -> (forall p, in_box (coords p) (pbox p)) -> rearranges sort_by nth_element_by ->
  valid_faces m -> (N.of_nat (num_faces m) < 2 ^ 32)%N ->
  nothing_found P_eqb d0 coords pbox longest_axis sort_by nth_element_by m -> meets_conditions coords m /\ closed_mesh m.
Proof.
  intros P D P_eqb d0 coords pbox la sb ne m He Hb Hre V Hn (nt & d & Hnt & R & E1 & E2 & E3 & E4 & E5 & E6).
  destruct (C57_find_defects_decides P_eqb d0 coords pbox la sb ne nt m _ He Hb Hre V Hn Hnt R) as (d' & Ed & A & B).
  injection Ed as <-. split; [ apply A; auto | apply B; auto ].
Qed.
Lemma nothing_is_found : forall {P D} (P_eqb : P -> P -> bool) (d0 : D) coords pbox longest_axis sort_by nth_element_by (m : soup P D),
  (forall p q, P_eqb p q = true <-> p = q) -> (forall p, in_box (coords p) (pbox p)) -> rearranges sort_by nth_element_by ->
  valid_faces m -> (N.of_nat (num_faces m) < 2 ^ 32)%N -> 1 <= num_faces m ->
  meets_conditions coords m -> closed_mesh m -> nothing_found P_eqb d0 coords pbox longest_axis sort_by nth_element_by m.
Proof.
  intros P D P_eqb d0 coords pbox la sb ne m He Hb Hre V Hn Nf M C.
  destruct (C57_can_run P D P_eqb d0 coords pbox la sb ne m He V Hn Nf) as (r & R).
  destruct (C57_find_defects_decides P_eqb d0 coords pbox la sb ne 1 m _ He Hb Hre V Hn (le_n 1) R) as (d & -> & A & B).
  destruct (proj2 A M) as (T & F & O). destruct (proj2 (B T) C) as (B1 & B2 & B3). exists 1, d. repeat split; auto.
Qed.
Lemma conditions_two_faces : forall {P D} (coords : P -> vec3) (m : soup P D), meets_conditions coords m -> closed_mesh m -> two_faces_per_edge m.
Proof.
  intros P D coords m (Pr & _ & _) C. apply (closed_two_faces m C). intros i x y z F.
  destruct (Pr i (face_range m i _ F)) as (t & F' & Nd). assert (t = (x, y, z)) by (eapply face_unique; eassumption). subst t.
  repeat split; intros ->; apply Nd; cbn [triangle_of]; apply collinear_twice.
Qed.

Lemma empty_conditions : forall {P D} (coords : P -> vec3), meets_conditions coords (mk_soup [] [] [] : soup P D) /\ closed_mesh (mk_soup [] [] [] : soup P D).
Proof.
  intros P D coords. assert (N : forall i t, ~ face_corners (mk_soup [] [] [] : soup P D) i t) by (intros i t (? & ? & ? & ? & ? & ? & E & _); destruct i; discriminate E).
  split; [ split; [ | split ] | split ].
  - intros i Hi. cbn in Hi. lia.
  - intros i j p q r p' q' r' F. destruct (N _ _ F).
  - intros i j t u mi mj x F. destruct (N _ _ F).
  - intros i j t u p q F. destruct (N _ _ F).
  - intros i t p q F. destruct (N _ _ F).
Qed.

(** Two regions whose boundaries pass the check, with the sets that they represent, can be
    the operands of every Boolean operation: the constructor of the builder throws only if
    the search for the side of a point gives up, and otherwise every operation gives a
    region that represents the set that it denotes, without warnings.  (Provided that no
    four vertices of an overlap of coplanar faces are on a circle; see C56.) *)
Theorem C57_boolean_operation : forall {P D} P_eqb coords pbox longest_axis sort_by nth_element_by cll cpl accepts cdt_faces
    base1 base2 sort_around centroid side_of num_threads (d0 : D) mix (a b : region P D) A B,
  exact_kernel P_eqb coords pbox sort_by nth_element_by cll cpl -> accepts_compatible coords accepts ->
  plane_bases base1 base2 -> sorts sort_around -> inner_centroid coords centroid -> 1 <= num_threads ->
  (N.of_nat (num_faces (boundary a)) < 2 ^ 32)%N -> (N.of_nat (num_faces (boundary b)) < 2 ^ 32)%N ->
  (kind a = BOUNDARY_DEFINED -> nothing_found P_eqb d0 coords pbox longest_axis sort_by nth_element_by (boundary a)) ->
  (kind b = BOUNDARY_DEFINED -> nothing_found P_eqb d0 coords pbox longest_axis sort_by nth_element_by (boundary b)) ->
  represents coords a A -> represents coords b B ->
  (kind a = BOUNDARY_DEFINED -> tells_side coords (located coords (boundary a)) A (side_of (boundary a))) ->
  (kind b = BOUNDARY_DEFINED -> tells_side coords (located coords (boundary b)) B (side_of (boundary b))) ->
  (forall cf, corefine P_eqb coords pbox longest_axis sort_by nth_element_by cll cpl accepts num_threads (boundary a) (boundary b) (Ok cf) ->
     cdt_constrained coords cdt_faces cf /\ cdt_delaunay coords cdt_faces cf) ->
  no_circles coords (boundary a) (boundary b) ->
  (kind a = BOUNDARY_DEFINED -> kind b = BOUNDARY_DEFINED ->
   calls_mix P_eqb coords pbox longest_axis sort_by nth_element_by cll cpl accepts cdt_faces base1 base2 sort_around centroid side_of
     num_threads mix (boundary a) (boundary b)) ->
  (exists bd, build mix a b = Ok bd /\ Model_boolean.warnings bd = 0%N /\
     forall op prefer_first, exists r, run d0 bd op prefer_first = Ok r /\ is_result coords op a b A B r) \/
  (build mix a b = Throw RuntimeError /\
   (gives_up coords (located coords (boundary a)) (side_of (boundary a)) \/ gives_up coords (located coords (boundary b)) (side_of (boundary b)))).
Proof.
  intros P D P_eqb coords pbox la sb nb cll cpl accepts cdt_faces base1 base2 sa centroid side_of nt d0 mix a b A B
    K Hacc Hpb Hso Hce Hnt La Lb Fa Fb RA RB TA TB Hcdt Ci Hmix.
  assert (V : forall (r : region P D) S, represents coords r S -> (N.of_nat (num_faces (boundary r)) < 2 ^ 32)%N ->
    (kind r = BOUNDARY_DEFINED -> nothing_found P_eqb d0 coords pbox la sb nb (boundary r)) -> meets_conditions coords (boundary r) /\ closed_mesh (boundary r)).
  { intros r S (W & _) L F. unfold wf_region in W. destruct (kind r) eqn:Ek; [ rewrite W; apply empty_conditions | rewrite W; apply empty_conditions | ].
    apply (found_nothing P_eqb d0 coords pbox la sb nb); try apply K; auto. exact (proj2 (proj1 W)). }
  destruct (V a A RA La Fa) as (Ma & Ca). destruct (V b B RB Lb Fb) as (Mb & Cb).
  pose proof (conditions_two_faces coords _ Ma Ca) as Ua. pose proof (conditions_two_faces coords _ Mb Cb) as Ub.
  destruct Ma as (_ & Ta & Sa), Mb as (_ & Tb & Sb).
  destruct (C49_two_faces_are_fair P_eqb _ _ (ek_eqb _ _ _ _ _ _ _ K) Ta Tb Ua Ub) as (F1 & F2).
  eapply C56_boolean_operation; eassumption.
Qed.
Print Assumptions C57_boolean_operation.

(** ** Examples *)
Section Check.
  Variable m : soup exact unit.
  Let ts := triples m (at_ 0 0 0).
  Definition sides_of (t : exact * exact * exact) : list (exact * exact) := let '(x, y, z) := t in [(x, y); (y, z); (z, x)].
  Definition side_eqb (s r : exact * exact) : bool := exact_eqb (fst s) (fst r) && exact_eqb (snd s) (snd r).
  Definition closed_check : bool :=
    forallb (fun i => forallb (fun j => Nat.eqb i j || match nth_error ts i, nth_error ts j with
      | Some t, Some u => forallb (fun s => negb (existsb (side_eqb s) (sides_of u))) (sides_of t) | _, _ => false end) (seq 0 (length ts))) (seq 0 (length ts)) &&
    forallb (fun t => forallb (fun s => existsb (fun u => existsb (side_eqb (snd s, fst s)) (sides_of u)) ts) (sides_of t)) ts.
  Definition corner_eqb (p : exact) (t : exact * exact * exact) : bool := let '(x, y, z) := t in exact_eqb p x || exact_eqb p y || exact_eqb p z.
  Definition twins_check : bool :=
    forallb (fun i => forallb (fun j => Nat.eqb i j || match nth_error ts i, nth_error ts j with
      | Some t, Some u => let '(x, y, z) := t in negb (corner_eqb x u && corner_eqb y u && corner_eqb z u) | _, _ => false end) (seq 0 (length ts))) (seq 0 (length ts)).

  Lemma side_eqb_ok : forall s r, side_eqb s r = true <-> s = r.
  Proof. intros [a b] [c d]. unfold side_eqb. cbn [fst snd]. rewrite andb_true_iff, !exact_eqb_ok. split; [ intros (-> & ->); reflexivity | intro E; injection E; auto ]. Qed.
  Lemma side_directed : forall t p q, directed t p q <-> In (p, q) (sides_of t).
  Proof.
    intros [ [x y] z] p q. cbn [directed sides_of In]. split.
    - intros [ (-> & ->) | [ (-> & ->) | (-> & ->)] ]; auto.
    - intros [E | [E | [E | [] ] ] ]; injection E as <- <-; auto.
  Qed.
  Lemma two_faces : forall (F : (exact * exact * exact) -> (exact * exact * exact) -> bool) i j t u,
    forallb (fun i => forallb (fun j => Nat.eqb i j || match nth_error ts i, nth_error ts j with Some t, Some u => F t u | _, _ => false end) (seq 0 (length ts))) (seq 0 (length ts)) = true ->
    face_corners m i t -> face_corners m j u -> i <> j -> F t u = true.
  Proof.
    intros F i j t u H Fi Fj N. apply (triples_corners m (at_ 0 0 0)) in Fi, Fj. fold ts in Fi, Fj.
    rewrite forallb_forall in H. specialize (H i). rewrite forallb_forall in H.
    assert (Li : i < length ts) by (apply nth_error_Some; congruence). assert (Lj : j < length ts) by (apply nth_error_Some; congruence).
    specialize (H ltac:(apply in_seq; lia) j ltac:(apply in_seq; lia)). apply orb_true_iff in H. destruct H as [H | H]; [ apply Nat.eqb_eq in H; contradiction | ].
    rewrite Fi, Fj in H. exact H.
  Qed.
  Lemma closed_check_ok : valid_faces m -> closed_check = true -> closed_mesh m.
  Proof.
    intros V H. apply andb_true_iff in H. destruct H as (H1 & H2). split.
    - intros i j t u p q Fi Fj Dt Du. destruct (Nat.eq_dec i j) as [E | N]; [ exact E | exfalso ].
      pose proof (two_faces (fun t u => forallb (fun s => negb (existsb (side_eqb s) (sides_of u))) (sides_of t)) i j t u H1 Fi Fj N) as H. cbv beta in H.
      rewrite forallb_forall in H. apply side_directed in Dt, Du. specialize (H _ Dt). apply negb_true_iff in H.
      assert (X : existsb (side_eqb (p, q)) (sides_of u) = true) by (apply existsb_exists; exists (p, q); split; [ exact Du | apply side_eqb_ok; reflexivity ]). congruence.
    - intros i t p q Fi Dt. rewrite forallb_forall in H2. pose proof (triples_corners m (at_ 0 0 0) _ _ Fi) as Ti. fold ts in Ti.
      specialize (H2 t (nth_error_In _ _ Ti)). rewrite forallb_forall in H2. apply side_directed in Dt. specialize (H2 _ Dt). cbn [fst snd] in H2.
      apply existsb_exists in H2. destruct H2 as (u & Ju & H2). apply existsb_exists in H2. destruct H2 as (s & Js & E). apply side_eqb_ok in E. subst s.
      apply In_nth_error in Ju. destruct Ju as (j & Ej). unfold ts, triples in Ej. rewrite nth_error_map in Ej. destruct (nth_error (faces m) j) as [f | ] eqn:Ef; [ | discriminate ].
      destruct (corners_exist m j f V Ef) as (a & b & c & Fj). exists j, (a, b, c). split; [ exact Fj | ].
      pose proof (triples_corners m (at_ 0 0 0) _ _ Fj) as Tj. unfold triples in Tj. rewrite nth_error_map, Ef in Tj. cbn [option_map] in Ej, Tj. rewrite Tj in Ej. injection Ej as <-.
      apply side_directed. exact Js.
  Qed.
  Lemma twins_check_ok : twins_check = true -> no_twins m.
  Proof.
    intros H i j p q r p' q' r' Fi Fj X. destruct (Nat.eq_dec i j) as [E | N]; [ exact E | exfalso ].
    pose proof (two_faces (fun t u => let '(x, y, z) := t in negb (corner_eqb x u && corner_eqb y u && corner_eqb z u)) i j _ _ H Fi Fj N) as Y. cbv beta iota in Y. apply negb_true_iff in Y.
    assert (C : forall x, In x [p; q; r] -> corner_eqb x (p', q', r') = true).
    { intros x J. apply X in J. cbn [corner_eqb]. rewrite !orb_true_iff, !exact_eqb_ok. destruct J as [-> | [-> | [-> | [] ] ] ]; auto. }
    rewrite !C in Y by (cbn; auto). discriminate Y.
  Qed.
  Lemma proper_check : valid_faces m -> forallb (has_normal value) ts = true -> proper value m.
  Proof.
    intros V H i Hi. destruct (nth_error (faces m) i) as [f | ] eqn:Ef; [ | apply nth_error_None in Ef; unfold num_faces in Hi; lia ].
    destruct (corners_exist m i f V Ef) as (a & b & c & F). exists (a, b, c). split; [ exact F | ]. apply has_normal_nd. rewrite forallb_forall in H. apply H.
    eapply nth_error_In. apply triples_corners. exact F.
  Qed.
End Check.

Definition ex_found (m : soup exact unit) : Prop := nothing_found exact_eqb tt value exact_box (fun _ => 0) (fun _ l => l) (fun _ _ l => l) m.
Lemma ex_nothing : forall m : soup exact unit, wf_soup m -> (N.of_nat (num_faces m) < 2 ^ 32)%N -> 1 <= num_faces m -> meets_conditions value m -> closed_mesh m -> ex_found m.
Proof. intros m W L F M C. apply nothing_is_found; auto; try apply ex_kernel. exact (proj2 W). Qed.

(** The meshes of the example of C49 (Proof_whole_ex.v) pass the check.  *)
Example C57_upright_found : ex_found upright /\ ex_found leaning.
Proof.
  split; apply ex_nothing; try exact upright_wf; try exact leaning_wf; try reflexivity; try (cbn; lia).
  - split; [ apply proper_check; [ exact (proj2 upright_wf) | vm_compute; reflexivity ] | ]. split; [ apply twins_check_ok; vm_compute; reflexivity | exact upright_simplicial ].
  - apply closed_check_ok; [ exact (proj2 upright_wf) | vm_compute; reflexivity ].
  - split; [ apply proper_check; [ exact (proj2 leaning_wf) | vm_compute; reflexivity ] | ]. split; [ apply twins_check_ok; vm_compute; reflexivity | exact leaning_simplicial ].
  - apply closed_check_ok; [ exact (proj2 leaning_wf) | vm_compute; reflexivity ].
Qed.
(** ** Find_defects does not see whether the mesh bounds a set

    A tetrahedron in another one; the faces of both point outwards. *)
Definition nested : soup exact unit :=
  mk_soup [at_ 0 0 0; at_ 8 0 0; at_ 0 8 0; at_ 0 0 8; at_ 1 1 1; at_ 2 1 1; at_ 1 2 1; at_ 1 1 2]
    [(0, 2, 1); (0, 1, 3); (0, 3, 2); (1, 2, 3); (4, 6, 5); (4, 5, 7); (4, 7, 6); (5, 6, 7)] [tt; tt; tt; tt; tt; tt; tt; tt].
Lemma nested_wf : wf_soup nested.
Proof. split; [ reflexivity | ]. repeat (apply Forall_cons; [ cbn; lia | ]); apply Forall_nil. Qed.
Lemma nested_conditions : meets_conditions value nested.
Proof.
  split; [ apply proper_check; [ exact (proj2 nested_wf) | vm_compute; reflexivity ] | ]. split; [ apply twins_check_ok; vm_compute; reflexivity | ].
  apply (simplicial_check exact_eqb exact_eqb_ok value nested (at_ 0 0 0) (face_planes value (triples nested (at_ 0 0 0)))); vm_compute; reflexivity.
Qed.
Lemma nested_closed : closed_mesh nested.
Proof. apply closed_check_ok; [ exact (proj2 nested_wf) | vm_compute; reflexivity ]. Qed.
Theorem C57_nested_refuted : ex_found nested /\ ~ exists A, solid (located value nested) A.
Proof.
  split; [ apply ex_nothing; [ exact nested_wf | reflexivity | cbn; lia | exact nested_conditions | exact nested_closed ] | ].
  intros (A & _ & (Wk & Fc) & _).
  destruct (Fc 0 (0, 0, 0)%Q (0, 8, 0)%Q (8, 0, 0)%Q (5 # 4, 5 # 4, 0)%Q (0, 0, 1)%Q eq_refl) as (b1 & P1 & H1); [ exists (11 # 16)%Q, (5 # 32)%Q, (5 # 32)%Q; repeat split; reflexivity | ].
  destruct (Fc 4 (1, 1, 1)%Q (1, 2, 1)%Q (2, 1, 1)%Q (5 # 4, 5 # 4, 1)%Q (0, 0, - (1))%Q eq_refl) as (b2 & P2 & H2); [ exists (1 # 2)%Q, (1 # 4)%Q, (1 # 4)%Q; repeat split; reflexivity | ].
  assert (E : exists e, (0 < e /\ e < b1 /\ e < b2 /\ e < 1 # 2)%Q).
  { exists ((1 # 2) * Qmin (Qmin b1 b2) (1 # 2))%Q. pose proof (Q.le_min_l (Qmin b1 b2) (1 # 2)). pose proof (Q.le_min_r (Qmin b1 b2) (1 # 2)). pose proof (Q.le_min_l b1 b2). pose proof (Q.le_min_r b1 b2).
    assert (0 < Qmin (Qmin b1 b2) (1 # 2))%Q by (apply Q.min_glb_lt; [ apply Q.min_glb_lt; assumption | reflexivity ]). repeat split; lra. }
  destruct E as (e & E0 & E1 & E2 & E3).
  specialize (H1 e (conj E0 E1)). specialize (H2 e (conj E0 E2)).
  assert (I1 : A (along (5 # 4, 5 # 4, 0)%Q e (0, 0, 1)%Q)) by (apply (proj1 H1); vm_compute; reflexivity).
  assert (I2 : ~ A (along (5 # 4, 5 # 4, 1)%Q e (0, 0, - (1))%Q)) by (apply (proj2 H2); vm_compute; reflexivity).
  apply I2. apply (Wk (along (5 # 4, 5 # 4, 0)%Q e (0, 0, 1)%Q)); [ | exact I1 ].
  intros z (t & T & Z) (i & a & b & c & St & u & v & w & U & V & W & S & X & Y & Zz).
  unfold same, along, vsub, vx, vy, vz in Z. cbn [fst snd] in Z. destruct Z as (Z1 & Z2 & Z3).
  assert (Zl : (0 < vz z /\ vz z < 1)%Q) by (unfold vz; rewrite Z3; clear - T E0 E3; split; nra).
  do 8 (destruct i as [ | i]; [ injection St as <- <- <-; cbn [value] in *; unfold vx, vy, vz in *; cbn in X, Y, Zz; lra | ]). destruct i; discriminate St.
Qed.
Print Assumptions C57_nested_refuted.
