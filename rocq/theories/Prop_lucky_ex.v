(** * C60, continued: the side of a point need not be found

    The comment of Classify_faces_globally.h and the README say nothing of this: for
    operands that meet all conditions, the constructor of the builder can throw. *)
From Coq Require Import List Arith Bool NArith ZArith QArith Qminmax Lqa Lia Permutation.
From Verif Require Import Model_base Proof_base Model_geometry Model_soup Model_mesh Model_aabb Model_points Model_boolean Model_classify Model_local Model_candidates Model_corefine Model_side Model_mix.
From Verif Require Import Spec_aabb Spec_boolean Spec_candidates Spec_side Spec_radial Spec_local Spec_solid Spec_conform Spec_defects Spec_ffi Spec_corefine Spec_mix Spec_cut Spec_whole Spec_again Spec_find Spec_visible.
From Verif Require Import Proof_fan Proof_extreme Proof_exact Proof_mix_faces Proof_convex Proof_planes Proof_clip Proof_collect Proof_corefine_all Proof_pairs Proof_one_run Proof_touch Proof_whole Proof_whole_ex Prop_aabb Prop_local Prop_corefine Prop_cut Prop_side Prop_solid Prop_conform Prop_whole Prop_schedule Prop_whole_ex.
From Verif Require Import Proof_delaunay_ex Spec_balance Prop_find_op Prop_connected Prop_balance Prop_end Prop_touch Prop_visible Prop_delaunay Proof_sticks Prop_lucky.
From Verif Require Import Spec_corefine Spec_side Spec_solid Spec_lucky.
Import ListNotations.
Local Open Scope Q_scope.

Definition tree_for (m : soup exact unit) : tree (box * nat) :=
  get (mk_tree [] []) (one_tree pt_box (fun _ => 0%nat) (fun _ l => l) (fun _ _ l => l) (located value m)).
Lemma tree_for_ok : forall m, valid_faces (located value m) -> aabb_tree pt_box (fun _ => 0%nat) (fun _ l => l) (fun _ _ l => l) (located value m) (tree_for m).
Proof.
  intros m V. unfold tree_for, one_tree. rewrite (leaves_ok pt_box (located value m) V). cbn [bind get].
  eapply aabb_tree_intro; [ apply leaves_ok, V | apply exec_steps ].
Qed.

(** ** The side of the origin with respect to [sticks] *)
Definition origin : vec3 := (0, 0, 0).
Lemma origin_off_planes : forall fi a b c, soup_triangle (located value sticks) fi = Ok (a, b, c) -> ~ in_plane (a, b, c) origin.
Proof.
  intros fi a b c E Z. apply (tris_list_ok _ sticks_valid), nth_error_In in E.
  assert (Ch : forallb (fun T : tri3 => let '(a, b, c) := T in negb (Qeq_bool (Spec_visible.height a b c origin) 0)) (tris_list (located value sticks)) = true) by (vm_compute; reflexivity).
  rewrite forallb_forall in Ch. specialize (Ch _ E). apply negb_true_iff in Ch. apply Qeq_bool_iff in Z. cbn in Ch. congruence.
Qed.
Lemma origin_off : ~ on_boundary (located value sticks) origin.
Proof.
  intros (fi & a & b & c & E & I). apply (origin_off_planes fi a b c E). pose proof (on_own (a, b, c) origin I) as Z. exact Z.
Qed.
Lemma origin_outside : ~ in_sticks origin.
Proof.
  intros [ [I | I] | I].
  - assert (K := I _ (or_introl eq_refl)). vm_compute in K. discriminate K.
  - assert (K := I _ (or_introl eq_refl)). vm_compute in K. discriminate K.
  - assert (K := I _ (or_introl eq_refl)). vm_compute in K. discriminate K.
Qed.
Lemma box_test : sound_box_test (fun _ _ _ => true).
Proof. exact C24_example_box_test. Qed.
Lemma origin_ambiguous : all_ambiguous (located value sticks) origin.
Proof.
  unfold all_ambiguous. apply (C60_gives_up_iff_ambiguous unit (located value sticks) in_sticks pt_box (fun _ => 0%nat) (fun _ l => l) (fun _ _ l => l) clip_ray (fun _ _ _ => true) sort_q (tree_for sticks) origin).
  - exact (ek_sort _ _ _ _ _ _ _ ex_kernel).
  - intro x. repeat split; cbn; lra.
  - exact clip_ray_exact.
  - exact box_test.
  - exact C24_example_sorts.
  - exact (proj1 sticks_solid).
  - exact (proj1 (proj2 sticks_solid)).
  - apply tree_for_ok, sticks_valid.
  - exact origin_off_planes.
  - vm_compute. reflexivity.
Qed.

(** There is a mesh that meets all conditions, that bounds a set, and a point outside, off the
    mesh and in the plane of no face, whose side is not found by any choice of the parts. *)
Theorem C60_side_refuted :
  exists (m : soup exact unit) inside p,
  wf_soup m /\ meets_conditions value m /\ closed_mesh m /\ solid (located value m) inside /\
  ~ on_boundary (located value m) p /\ ~ inside p /\
  forall pbox longest_axis sort_by nth_element_by ray_triangle ray_meets_box partial_sort2 t,
  rearranges sort_by nth_element_by -> (forall x, in_box x (pbox x)) ->
  exact_intersection ray_triangle -> sound_box_test ray_meets_box -> sorts_two partial_sort2 ->
  aabb_tree pbox longest_axis sort_by nth_element_by (located value m) t ->
  side_of_triangle_soup ray_triangle ray_meets_box partial_sort2 (located value m) t p = Throw RuntimeError.
Proof.
  exists sticks, in_sticks, origin. split; [ exact sticks_wf | ]. split; [ exact sticks_conditions | ]. split; [ exact sticks_closed | ]. split; [ exact sticks_solid | ].
  split; [ exact origin_off | ]. split; [ exact origin_outside | ].
  intros pbox la sb ne rt rm ps t Hre Hpb Hrt Hrm Hps Ht.
  apply (C60_gives_up_iff_ambiguous unit (located value sticks) in_sticks pbox la sb ne rt rm ps t origin Hre Hpb Hrt Hrm Hps (proj1 sticks_solid) (proj1 (proj2 sticks_solid)) Ht origin_off_planes).
  exact origin_ambiguous.
Qed.
Print Assumptions C60_side_refuted.

(** ** A tetrahedron with a face whose centroid is the origin *)
Definition chip : soup exact unit :=
  mk_soup [at_ 1 (-1) 0; at_ 0 1 (-1); at_ (-1) 0 1; at_ (-1) (-1) (-1)] [(0, 1, 2); (0, 3, 1); (1, 3, 2); (2, 3, 0)]%nat (repeat tt 4).
Lemma chip_valid : valid_faces (located value chip).
Proof. repeat (apply Forall_cons; [ cbn; lia | ]); apply Forall_nil. Qed.
Lemma chip_wf : wf_soup chip.
Proof. split; [ reflexivity | ]. repeat (apply Forall_cons; [ cbn; lia | ]); apply Forall_nil. Qed.
Lemma chip_conditions : meets_conditions value chip.
Proof.
  split; [ apply proper_check; [ exact (proj2 chip_wf) | vm_compute; reflexivity ] | ]. split; [ apply twins_check_ok; vm_compute; reflexivity | ].
  apply (simplicial_check exact_eqb exact_eqb_ok value chip (at_ 0 0 0) (face_planes value (triples chip (at_ 0 0 0)))); vm_compute; reflexivity.
Qed.
Lemma chip_closed : closed_mesh chip.
Proof. apply closed_check_ok; [ exact (proj2 chip_wf) | vm_compute; reflexivity ]. Qed.

Lemma chip_convex : convex_mesh (located value chip).
Proof.
  apply convex_corners; [ exact chip_valid | ]. intros fi a b c gi p q r T U.
  destruct fi as [ | [ | [ | [ | fi] ] ] ]; try (exfalso; cbn in T; destruct fi; discriminate T); injection T as <- <- <-;
    (destruct gi as [ | [ | [ | [ | gi] ] ] ]; try (exfalso; cbn in U; destruct gi; discriminate U); injection U as <- <- <-; vm_compute; repeat split; discriminate).
Qed.

(** Planes between them and [chip]. *)
Definition chip_planes : list (vec3 * Q) :=
  [((1, 0, 2), 2); ((-(1), 0, -(2)), -(2)); ((2, 1, 0), 2); ((-(2), -(1), 0), -(2)); ((0, 2, 1), 2); ((0, -(2), -(1)), -(2))].
Lemma chip_conform : forall i j t u, face_corners sticks i t -> face_corners chip j u -> conforms value t u.
Proof.
  assert (Ch : forallb (fun t => has_normal value t && forallb (fun u => kept_apart exact_eqb value chip_planes t u) (triples chip (at_ 0 0 0))) (triples sticks (at_ 0 0 0)) = true) by (vm_compute; reflexivity).
  intros i j t u Ci Cj. apply (triples_corners _ (at_ 0 0 0)), nth_error_In in Ci. apply (triples_corners _ (at_ 0 0 0)), nth_error_In in Cj.
  rewrite forallb_forall in Ch. specialize (Ch t Ci). apply andb_true_iff in Ch. destruct Ch as (Nd & Ch). apply has_normal_nd in Nd.
  rewrite forallb_forall in Ch. specialize (Ch u Cj). exact (kept_apart_conforms exact_eqb exact_eqb_ok value chip_planes t u Ch Nd).
Qed.

(** ** Every execution *)
Lemma all_unknown : forall (l : list face_tag) n, length l = n -> (forall i, (i < n)%nat -> nth_error l i = Some UNKNOWN) -> l = repeat UNKNOWN n.
Proof.
  induction l as [ | t l IH]; intros [ | n] L H; try discriminate L; [ reflexivity | ]. cbn. pose proof (H 0%nat ltac:(lia)) as E. injection E as ->. f_equal.
  apply IH; [ injection L; auto | ]. intros i Hi. exact (H (S i) ltac:(lia)).
Qed.

(** Nothing is cut if no two faces meet. *)
Lemma apart_corefined : forall pbox longest_axis sort_by nth_element_by cll cpl accepts nt (left right : soup exact unit) cf,
  exact_kernel exact_eqb value pbox sort_by nth_element_by cll cpl -> (1 <= nt)%nat -> meets_conditions value left -> meets_conditions value right ->
  (forall i j t u, face_corners left i t -> face_corners right j u -> ~ turned t u /\ ~ turned_over t u /\ ~ turned u t /\ ~ turned_over u t) ->
  (forall pl lids rids L R, start_points exact_eqb left right = (pl, lids, rids) -> (L < num_faces left)%nat -> (R < num_faces right)%nat ->
     pair_body value (pl_points pl) left right lids rids (L, R) = Ok []) ->
  corefine exact_eqb value pbox longest_axis sort_by nth_element_by cll cpl accepts nt left right (Ok cf) ->
  cf = (let '(pl, lids, rids) := start_points exact_eqb left right in mk_corefined (pl_points pl) lids rids (repeat UNKNOWN (num_faces left)) (repeat UNKNOWN (num_faces right)) [] [] []).
Proof.
  intros pbox la sb nb cll cpl accepts nt left right cf K Hnt (Pl & Tl & Sl) (Pr & Tr & Sr) Co Ap H.
  destruct (C38_tags _ _ _ _ _ _ _ _ _ _ _ _ _ K Pl Pr Tl Tr H) as (Al & Ar).
  remember (Ok cf) as r eqn:Er. destruct H as [pl lids rids ltags rtags pairs infos0 tr pl' infos1 infos2 infos3 ltris rtris Hs Ht Hp Hr Hi S2 Fl S3 Fr | ? ? ? ? ? ? x | ? ? ? ? ? ? ? ? x | ? ? ? ? ? ? ? ? r ? ? ? ? F | ? ? ? ? ? ? ? ? ? ? ? tris r ? ? ? ? ? ? ? F | ? ? ? ? ? ? ? ? ? ? ? ? ? tris r ? ? ? ? ? ? ? ? ? F ].
  2, 3: destruct x; discriminate Er.
  2-4: subst r; match type of F with fails ?x _ => destruct x; cbn [fails] in F; [ destruct F | discriminate F | discriminate F ] end.
  injection Er as <-. cbn [cf_left_tags cf_right_tags] in Al, Ar.
  destruct (tags_length _ _ _ _ _ _ Ht) as (L1 & L2).
  assert (E1 : ltags = repeat UNKNOWN (num_faces left)).
  { apply all_unknown; [ exact L1 | ]. intros i L. destruct (Pl i L) as (t & Ct & _). destruct (Al i t Ct) as (tag & En & R). rewrite En. f_equal.
    destruct tag; cbn [right_tag] in R; try reflexivity; try contradiction R; destruct R as (j & u & Cu & X); exfalso; destruct (Co i j t u Ct Cu) as (N1 & N2 & N3 & N4); auto. }
  assert (E2 : rtags = repeat UNKNOWN (num_faces right)).
  { apply all_unknown; [ exact L2 | ]. intros i L. destruct (Pr i L) as (t & Ct & _). destruct (Ar i t Ct) as (tag & En & R). rewrite En. f_equal.
    destruct tag; cbn [right_tag] in R; try reflexivity; try contradiction R; destruct R as (j & u & Cu & X); exfalso; destruct (Co j i u t Cu Ct) as (N1 & N2 & N3 & N4); auto. }
  assert (E3 : infos0 = []).
  { destruct (pairs_ok value pbox (ek_box _ _ _ _ _ _ _ K) la sb nb (ek_sort _ _ _ _ _ _ _ K) nt Hnt left right Pl Pr lids rids ltags rtags Ht pairs None Hp) as (_ & _ & Pin & _).
    set (f := pair_body value (pl_points pl) left right lids rids) in *.
    assert (Hf : forall pr, In pr pairs -> f pr = Ok ((fun _ => []) pr)).
    { intros [L R] J. destruct (Pin L R J) as (_ & _ & HL & HR).
      unfold f. exact (Ap pl lids rids L R Hs HL HR). }
    destruct (collect info_eq_dec f (fun _ => []) pairs nt tr infos0 None Hf Hnt Hr) as (_ & Pm). apply Permutation_nil.
    eapply perm_trans; [ | apply Permutation_sym; exact Pm ]. clear. induction pairs; [ constructor | exact IHpairs ]. }
  subst infos0. cbn in Hi. injection Hi as <- <-.
  destruct S2 as (S2 & _). apply Permutation_nil in S2. subst infos2. destruct S3 as (S3 & _). apply Permutation_nil in S3. subst infos3.
  cbn in Fl, Fr. inversion Fl as [ts F1 | | ]; subst. inversion F1; subst. inversion Fr as [ts F2 | | ]; subst. inversion F2; subst.
  rewrite Hs. reflexivity.
Qed.

Definition stick_cf : corefined exact :=
  let '(pl, lids, rids) := start_points exact_eqb sticks chip in mk_corefined (pl_points pl) lids rids (repeat UNKNOWN (num_faces sticks)) (repeat UNKNOWN (num_faces chip)) [] [] [].
Lemma chip_no_twins : forall i j t u, face_corners sticks i t -> face_corners chip j u -> ~ turned t u /\ ~ turned_over t u /\ ~ turned u t /\ ~ turned_over u t.
Proof.
  intros i j t u Ci Cj. apply (triples_corners _ (at_ 0 0 0)), nth_error_In in Ci. apply (triples_corners _ (at_ 0 0 0)), nth_error_In in Cj.
    assert (Ch : forallb (fun t => forallb (fun u => negb (corner_eqb (fst (fst t)) u) && negb (corner_eqb (fst (fst u)) t)) (triples chip (at_ 0 0 0))) (triples sticks (at_ 0 0 0)) = true) by (vm_compute; reflexivity).
    rewrite forallb_forall in Ch. specialize (Ch t Ci). rewrite forallb_forall in Ch. specialize (Ch u Cj). apply andb_true_iff in Ch. destruct Ch as (C1 & C2). apply negb_true_iff in C1, C2. clear Ci Cj.
    destruct t as [ [a b] c], u as [ [p q] r]. cbn [corner_eqb fst] in C1, C2. unfold turned, turned_over.
    assert (N : forall x, exact_eqb x x = true) by (intro x; apply exact_eqb_ok; reflexivity).
    repeat split; intro X; cbn in X; decompose [or] X; match goal with E : (_, _, _) = (_, _, _) |- _ => injection E; intros; subst end; rewrite ?N, ?orb_true_r in *; discriminate.
Qed.
Lemma chip_misses : forall pl lids rids L R, start_points exact_eqb sticks chip = (pl, lids, rids) -> (L < num_faces sticks)%nat -> (R < num_faces chip)%nat ->
  pair_body value (pl_points pl) sticks chip lids rids (L, R) = Ok [].
Proof.
  assert (Ch : (let '(pl, lids, rids) := start_points exact_eqb sticks chip in forallb (fun L => forallb (fun R => match pair_body value (pl_points pl) sticks chip lids rids (L, R) with Ok [] => true | _ => false end) (seq 0 4)) (seq 0 12)) = true) by (vm_compute; reflexivity).
  intros pl lids rids L R E HL HR. change (L < 12)%nat in HL. change (R < 4)%nat in HR. rewrite E in Ch. clear E.
  rewrite forallb_forall in Ch. specialize (Ch L ltac:(apply in_seq; lia)). rewrite forallb_forall in Ch. specialize (Ch R ltac:(apply in_seq; lia)).
  destruct (pair_body _ _ _ _ _ _ _) as [ [ | ] | | ]; [ reflexivity | discriminate Ch .. ].
Qed.
Lemma stick_corefined : forall pbox longest_axis sort_by nth_element_by cll cpl accepts nt cf,
  exact_kernel exact_eqb value pbox sort_by nth_element_by cll cpl -> (1 <= nt)%nat ->
  corefine exact_eqb value pbox longest_axis sort_by nth_element_by cll cpl accepts nt sticks chip (Ok cf) -> cf = stick_cf.
Proof.
  intros pbox la sb nb cll cpl accepts nt cf K Hnt H.
  exact (apart_corefined pbox la sb nb cll cpl accepts nt sticks chip cf K Hnt sticks_conditions chip_conditions chip_no_twins chip_misses H).
Qed.

(** A body that throws whatever the others do. *)
Lemma rep_blocks : forall {P D} centroid sl sr (m : mesh P (mixed_data D)) border reps ds res fi d a b c pa pb pc e,
  In fi reps -> nth_error ds fi = Some d -> from_left d = false -> vec_at (m_faces m) fi = Ok (a, b, c) ->
  vec_at (m_points m) a = Ok pa -> vec_at (m_points m) b = Ok pb -> vec_at (m_points m) c = Ok pc -> sl (centroid pa pb pc) = Throw e ->
  ~ Model_schedule.parallel (map (Model_schedule.p_rep centroid sl sr m border) reps) ds (Ok res).
Proof.
  intros P D centroid sl sr m border reps ds res fi d a b c pa pb pc e J Ed Fl Ef Ea Eb Ec Es H.
  apply In_nth_error in J. destruct J as (k & Ek).
  set (p0 := Model_schedule.p_rep centroid sl sr m border fi) in *.
  assert (Inv : forall s s', Model_schedule.steps s s' ->
    (nth_error (fst s) k = Some p0 \/ nth_error (fst s) k = Some (Model_schedule.Done (Throw e))) /\ (exists d, nth_error (snd s) fi = Some d /\ from_left d = false) ->
    (nth_error (fst s') k = Some p0 \/ nth_error (fst s') k = Some (Model_schedule.Done (Throw e)))).
  { intros s s' S. induction S as [ | s s1 s2 S _ IH]; intros (H1 & H2); [ exact H1 | ]. apply IH. clear IH.
    destruct S as [ps ds1 i p p' ds' Ei A]. cbn [fst snd] in *.
    assert (Fd : exists d, nth_error ds' fi = Some d /\ from_left d = false).
    { destruct H2 as (d1 & E1 & F1). destruct p as [ | f q | f t q]; cbn [Model_schedule.access] in A; [ discriminate | | ].
      - destruct (vec_at ds1 f); injection A as _ <-; eauto.
      - destruct (Model_local.set_tag ds1 f t) as [ds2 | | ] eqn:T; injection A as _ <-; eauto. unfold Model_local.set_tag in T.
        destruct (vec_at ds1 f) as [d2 | | ] eqn:V; cbn [bind] in T; [ | discriminate .. ]. unfold vec_set in T.
        destruct (f <? length ds1)%nat; [ | discriminate T ]. injection T as <-.
        destruct (Nat.eq_dec f fi) as [-> | N].
        + exists (retag t d2). unfold vec_at in V. rewrite E1 in V. injection V as <-. split; [ apply nth_error_list_set_eq; apply nth_error_Some; congruence | exact F1 ].
        + exists d1. split; [ rewrite nth_error_list_set_neq by auto; exact E1 | exact F1 ]. }
    split; [ | exact Fd ].
    assert (Lk : (k < length ps)%nat) by (apply nth_error_Some; destruct H1 as [H1 | H1]; congruence).
    destruct (Nat.eq_dec i k) as [-> | N].
    - rewrite nth_error_list_set_eq by exact Lk. right. f_equal.
      destruct H1 as [H1 | H1]; rewrite Ei in H1; injection H1 as ->; [ | discriminate A ].
      destruct H2 as (d1 & E1 & F1). unfold p0, Model_schedule.p_rep in A. cbn [Model_schedule.access] in A. unfold vec_at at 1 in A. rewrite E1 in A. injection A as <- _.
      unfold Model_schedule.pure. rewrite Ef. cbn [Model_schedule.pbind]. rewrite Ea. cbn [Model_schedule.pbind]. rewrite Eb. cbn [Model_schedule.pbind]. rewrite Ec. cbn [Model_schedule.pbind]. rewrite F1, Es. reflexivity.
    - rewrite nth_error_list_set_neq by auto. exact H1. }
  inversion H as [ps' ds' ws S E | ps' ds' r o S Jd Fa]; subst.
  - destruct (Inv _ _ S) as [X | X]; cbn [fst snd] in *.
    + split; [ left; rewrite nth_error_map, Ek; reflexivity | eauto ].
    + rewrite nth_error_map in X. destruct (nth_error ws k); discriminate X.
    + rewrite nth_error_map in X. destruct (nth_error ws k); discriminate X.
  - destruct r; cbn in Fa; [ destruct Fa | discriminate | discriminate ].
Qed.

(** Nor does Mix return a mesh then, if the faces of the operands do not meet. *)
Lemma blocked : forall {P D} P_eqb coords pbox la sb nb cll cpl accepts cdt_faces base1 base2 sa cen side_of nt (l r : soup P D) cf0 m0 reps res fi d a b c pa pb pc e,
  (forall cf, corefine P_eqb coords pbox la sb nb cll cpl accepts nt l r (Ok cf) -> cf = cf0) ->
  mixed_mesh cdt_faces cf0 l r = Ok m0 -> get_intersecting_edges cf0 = Ok [] -> find_unclassified (with_data m0 (m_data m0)) [] = Ok reps ->
  In fi reps -> nth_error (m_data m0) fi = Some d -> from_left d = false -> vec_at (m_faces m0) fi = Ok (a, b, c) ->
  vec_at (m_points m0) a = Ok pa -> vec_at (m_points m0) b = Ok pb -> vec_at (m_points m0) c = Ok pc -> side_of l (cen pa pb pc) = Throw e ->
  ~ Model_schedule.mixes_scheduled P_eqb coords pbox la sb nb cll cpl accepts cdt_faces base1 base2 sa cen side_of nt l r (Ok res).
Proof.
  intros P D P_eqb coords pbox la sb nb cll cpl accepts cdt_faces base1 base2 sa cen side_of nt l r cf0 m0 reps res fi d a b c pa pb pc e Hcf Em0 Ee0 Er0 J Ed Fl Ef Ea Eb Ec Es Hr.
  inversion Hr as [cf m border order m' w Hc Hm He Hs Hcl Ex | cf r' Hc F | cf r' Hc F | cf m r' Hc Hm F | cf m border order o r' Hc Hm He Hs Hcl F ]; subst;
    try (match type of F with fails ?y _ => destruct y; cbn [fails] in F; [ destruct F | discriminate F | discriminate F ] end).
  apply Hcf in Hc. subst cf. rewrite Em0 in Hm. injection Hm as <-. rewrite Ee0 in He. injection He as <-.
  assert (Eo : order = []) by (destruct order as [ | e0 order]; [ reflexivity | destruct (proj1 (proj2 Hs e0) (or_introl eq_refl)) ]). subst order.
  inversion Hcl as [ds w1 reps' ds' w2 Hl Hf Hg Ecl | r' o Hl F Eo | ds w1 o Hl F Eo | ds w1 reps' r' o Hl Hf Hg F Eo ]; subst;
    try (match type of F with fails ?y _ => destruct y; cbn [fails] in F; [ destruct F | discriminate F | discriminate F ] end).
  assert (Eds : ds = m_data m0).
  { cbn [map] in Hl. inversion Hl as [ps' ds1 ws S Ews Eds | ps' ds1 r' o S J' F Eo]; subst; [ | destruct r'; cbn [fails] in F; [ destruct F | discriminate F | discriminate F ] ].
    inversion S as [ | c0 c' c'' S1 S2]; subst; [ reflexivity | ]. inversion S1 as [ps0 ds0 i p p' ds2 Ei]. destruct i; discriminate Ei. }
  subst ds. rewrite Er0 in Hf. injection Hf as <-.
  exact (rep_blocks cen _ _ m0 [] reps (m_data m0) _ fi d a b c pa pb pc e J Ed Fl Ef Ea Eb Ec Es Hg).
Qed.

Definition stick_mesh : mesh exact (mixed_data unit) := get (finalize (mesh_of [] [] [])) (mixed_mesh (fan_faces value) stick_cf sticks chip).
Lemma stick_mixed : forall cdt_faces, mixed_mesh cdt_faces stick_cf sticks chip = Ok stick_mesh.
Proof. intro cdt_faces. vm_compute. reflexivity. Qed.
Lemma stick_edges : get_intersecting_edges stick_cf = Ok [].
Proof. vm_compute. reflexivity. Qed.
Lemma stick_reps : find_unclassified (with_data stick_mesh (m_data stick_mesh)) [] = Ok [0; 4; 8; 12]%nat.
Proof. vm_compute. reflexivity. Qed.

(** CGAL::centroid. *)
Definition is_centroid {P} (coords : P -> vec3) (c : P -> P -> P -> P) : Prop :=
  forall p q r, same (coords (c p q r)) (centroid (coords p) (coords q) (coords r)).

Definition sticks_region : region exact unit := mk_region BOUNDARY_DEFINED sticks.
Definition chip_region : region exact unit := mk_region BOUNDARY_DEFINED chip.

(** Find_defects finds nothing in either of two regions, which represent sets; and every Boolean
    operation on them throws, whatever the threads do and whatever CGAL decides. *)
Theorem C60_operation_refuted : exists (a b : region exact unit) A B,
  represents value a A /\ represents value b B /\
  forall pbox longest_axis sort_by nth_element_by cll cpl accepts cdt_faces base1 base2 sort_around centroid pbox3 ray_triangle ray_meets_box partial_sort2 tree_of num_threads mix,
  exact_kernel exact_eqb value pbox sort_by nth_element_by cll cpl ->
  checked exact_eqb tt value pbox longest_axis sort_by nth_element_by a /\ checked exact_eqb tt value pbox longest_axis sort_by nth_element_by b /\
  (accepts_compatible value accepts -> plane_bases base1 base2 -> sorts sort_around -> is_centroid value centroid -> (1 <= num_threads)%nat ->
   (forall x, in_box x (pbox3 x)) -> exact_intersection ray_triangle -> sound_box_test ray_meets_box -> sorts_two partial_sort2 ->
   (forall r, r = a \/ r = b -> aabb_tree pbox3 longest_axis sort_by nth_element_by (located value (boundary r)) (tree_of (boundary r))) ->
   calls_mix_scheduled exact_eqb value pbox longest_axis sort_by nth_element_by cll cpl accepts cdt_faces base1 base2 sort_around centroid
     (shoot value ray_triangle ray_meets_box partial_sort2 tree_of) num_threads mix (boundary a) (boundary b) ->
   build mix a b = Throw RuntimeError).
Proof.
  assert (Ck : forall pbox la sb nb cll cpl, exact_kernel exact_eqb value pbox sb nb cll cpl ->
    checked exact_eqb tt value pbox la sb nb sticks_region /\ checked exact_eqb tt value pbox la sb nb chip_region).
  { intros pbox la sb nb cll cpl K. split.
    - split; [ split; [ exact sticks_wf | discriminate ] | ]. split; [ reflexivity | ]. intros _. split.
      + apply (nothing_is_found exact_eqb tt value pbox la sb nb sticks); try apply K; [ exact (proj2 sticks_wf) | reflexivity | cbn; lia | exact sticks_conditions | exact sticks_closed ].
      + right. right. apply (C58_criterion value sticks sticks_conditions sticks_closed). exists in_sticks. exact sticks_solid.
    - split; [ split; [ exact chip_wf | discriminate ] | ]. split; [ reflexivity | ]. intros _. split.
      + apply (nothing_is_found exact_eqb tt value pbox la sb nb chip); try apply K; [ exact (proj2 chip_wf) | reflexivity | cbn; lia | exact chip_conditions | exact chip_closed ].
      + right. left. exact chip_convex. }
  destruct (Ck _ (fun _ => 0%nat) _ _ _ _ ex_kernel) as (C1 & C2).
  destruct (C58_end_to_end _ _ _ (fun _ => 0%nat) _ _ _ _ tt sticks_region chip_region ex_kernel C1 C2) as (A & B & RA & RB & _).
  exists sticks_region, chip_region, A, B. split; [ exact RA | ]. split; [ exact RB | ].
  intros pbox la sb nb cll cpl accepts cdt_faces base1 base2 sa cen pbox3 rt rm ps tree_of nt mix K.
  destruct (Ck pbox la sb nb cll cpl K) as (D1 & D2). split; [ exact D1 | ]. split; [ exact D2 | ].
  intros Hacc Hpb Hso Hce Hnt Hpb3 Hrt Hrm Hps Ht Hmix.
  destruct (C58_end_to_end _ _ _ la _ _ _ _ tt sticks_region chip_region K D1 D2) as (A' & B' & _ & _ & _ & _ & H).
  assert (Ice : inner_centroid value cen).
  { intros p q r. destruct (Hce p q r) as (X & Y & Z). unfold centroid in X, Y, Z. cbn [vx vy vz fst snd] in X, Y, Z. exists (1 # 3), (1 # 3), (1 # 3). rewrite X, Y, Z. repeat split; try lra; field. }
  destruct (H accepts cdt_faces base1 base2 sa cen pbox3 rt rm ps tree_of nt mix Hacc Hpb Hso Ice Hnt Hpb3 Hrt Hrm Hps) as [ (bd & Hbd & _) | (E & _) ]; [ | | | | exfalso | exact E ].
  - intros r Er _. apply Ht, Er.
  - intros cf Hc. apply (stick_corefined pbox la sb nb cll cpl accepts nt cf K Hnt) in Hc. subst cf. split; intros F t [J | J]; vm_compute in J; destruct J.
  - exact (C56_triangular_no_circles value sticks chip (conforming_overlaps sticks chip chip_conform)).
  - intros _ _. exact Hmix.
  - destruct Hmix as (r & Hr & Em).
    assert (No : forall x, r <> Ok x).
    { intros x ->. revert Hr.
      eapply (blocked exact_eqb value pbox la sb nb cll cpl accepts cdt_faces base1 base2 sa cen _ nt sticks chip stick_cf stick_mesh [0; 4; 8; 12]%nat x 12%nat (mk_mixed false UNKNOWN tt));
        [ intros cf Hc; exact (stick_corefined pbox la sb nb cll cpl accepts nt cf K Hnt Hc) | apply stick_mixed | exact stick_edges | exact stick_reps | cbn; auto
        | vm_compute; reflexivity | reflexivity | vm_compute; reflexivity | vm_compute; reflexivity | vm_compute; reflexivity | vm_compute; reflexivity | ].
      instantiate (1 := RuntimeError). unfold shoot.
      match goal with |- side_of_triangle_soup _ _ _ _ _ (value ?x) = _ => assert (Ex : x = at_ 0 0 0) end.
      { apply value_inj. match goal with |- context [cen ?p ?q ?r] => pose proof (Hce p q r) as (X & Y & Z) end.
        unfold centroid in X, Y, Z. split; [ rewrite X | split; [ rewrite Y | rewrite Z ] ]; vm_compute; reflexivity. }
      rewrite Ex.
      apply (C60_gives_up_iff_ambiguous unit (located value sticks) in_sticks pbox3 la sb nb rt rm ps (tree_of sticks) origin (ek_sort _ _ _ _ _ _ _ K) Hpb3 Hrt Hrm Hps (proj1 sticks_solid) (proj1 (proj2 sticks_solid)) (Ht sticks_region (or_introl eq_refl)) origin_off_planes).
      exact origin_ambiguous. }
    cbn in Hbd, Em. rewrite Em in Hbd. destruct r as [x | | ]; [ destruct (No x eq_refl) | discriminate Hbd | discriminate Hbd ].
Qed.
Print Assumptions C60_operation_refuted.

(** Such CGAL functions and such a run exist, for any number of threads. *)
Example C60_operation_runs : forall num_threads, (1 <= num_threads)%nat -> exists tree_of mix,
  is_centroid value middle_point /\
  (forall m : soup exact unit, m = sticks \/ m = chip -> aabb_tree pt_box (fun _ => 0%nat) (fun _ l => l) (fun _ _ l => l) (located value m) (tree_of m)) /\
  calls_mix_scheduled exact_eqb value exact_box (fun _ => 0%nat) (fun _ l => l) (fun _ _ l => l) exact_ll exact_pl (fun _ _ _ => true) (fan_faces value)
    ex_base1 ex_base2 ex_sort middle_point (shoot value clip_ray (fun _ _ _ => true) sort_q tree_of) num_threads mix sticks chip.
Proof.
  intros nt Hnt. exists tree_for.
  destruct (proj2 (C58_criterion value chip chip_conditions chip_closed) (C58_connected_by_turns value chip chip_conditions chip_closed (or_intror chip_convex))) as (B & HB).
  destruct (C50_mix_ends exact_eqb value exact_box (fun _ => 0%nat) (fun _ l => l) (fun _ _ l => l) exact_ll exact_pl (fun _ _ _ => true) (fan_faces value)
    ex_base1 ex_base2 ex_sort middle_point (shoot value clip_ray (fun _ _ _ => true) sort_q tree_for) nt sticks chip in_sticks B) as (r & Hr).
  - exact ex_kernel.
  - intros t a b c h k vs _ _. reflexivity.
  - exact Hnt.
  - exact sticks_wf.
  - exact chip_wf.
  - exact sticks_solid.
  - exact HB.
  - exact (proj2 (proj2 sticks_conditions)).
  - exact (proj2 (proj2 chip_conditions)).
  - apply Proof_delaunay_ex.no_common_fair. vm_compute. reflexivity.
  - apply Proof_delaunay_ex.no_common_fair. vm_compute. reflexivity.
  - intros cf Hc. apply (stick_corefined _ _ _ _ _ _ _ nt cf ex_kernel Hnt) in Hc. subst cf. intros F t [J | J]; vm_compute in J; destruct J.
  - exists (fun _ _ => let* (m, w) := r in Ok (m, warning_bits w)). split; [ | split ].
    + intros p q s. unfold middle_point. exact (value_reduce (ex_centroid (value p) (value q) (value s))).
    + intros m [-> | ->]; apply tree_for_ok; [ exact sticks_valid | exact chip_valid ].
    + exists r. split; [ exact Hr | reflexivity ].
Qed.
