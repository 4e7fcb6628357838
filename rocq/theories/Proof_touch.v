(** * The meshes of C53

    [touching]: the tetrahedra O, X, Y, Z and O, X, -Y, -Z, where O is the origin and X, Y
    and Z are the points at distance one on the axes.  They have the edge OX in common, at
    which there are four faces.

    [spire]: the polyhedron with the corners O, X, Y, Z and W = (-1, 2, 2).  It has the
    faces OXY and OXZ in common with the first tetrahedron, and the rest of that tetrahedron is
    inside it. *)
From Coq Require Import List Arith NArith Bool QArith Lqa Lia Permutation.
From Verif Require Import Model_base Proof_base Model_geometry Model_soup Model_mesh Model_aabb Model_points Model_boolean Model_classify Model_local Model_candidates Model_corefine Model_side Model_mix.
From Verif Require Import Spec_aabb Spec_boolean Spec_candidates Spec_side Spec_radial Spec_local Spec_solid Spec_conform Spec_defects Spec_ffi Spec_corefine Spec_mix Spec_cut Spec_whole Spec_again.
From Verif Require Import Proof_fan Proof_extreme Proof_exact Proof_mix_faces Proof_convex Proof_planes Proof_fan4 Proof_whole Proof_whole_ex Prop_local Prop_corefine Prop_cut Prop_side Prop_solid Prop_conform Prop_whole Prop_whole_ex.
Import ListNotations.
Local Open Scope Q_scope.

Definition touching : soup exact unit :=
  mk_soup [at_ 0 0 0; at_ 1 0 0; at_ 0 1 0; at_ 0 0 1; at_ 0 (-1) 0; at_ 0 0 (-1)]
    [(0, 2, 1); (0, 1, 3); (0, 3, 2); (1, 2, 3); (0, 4, 1); (0, 1, 5); (0, 5, 4); (1, 4, 5)]%nat (repeat tt 8).
Definition spire : soup exact unit :=
  mk_soup [at_ 0 0 0; at_ 1 0 0; at_ 0 1 0; at_ 0 0 1; at_ (-1) 2 2]
    [(0, 2, 1); (0, 1, 3); (1, 2, 4); (1, 4, 3); (0, 3, 4); (0, 4, 2)]%nat (repeat tt 6).

(** ** They bound solids *)
Definition in_second (x : vec3) : Prop := 0 < vx x /\ vy x < 0 /\ vz x < 0 /\ vx x - vy x - vz x < 1.
Definition in_touching (x : vec3) : Prop := in_tetra x \/ in_second x.
Definition in_spire (x : vec3) : Prop :=
  0 < vy x /\ 0 < vz x /\ 0 < 2 * vx x + vy x /\ 0 < 2 * vx x + vz x /\ vx x + vy x < 1 /\ vx x + vz x < 1.

Definition second : soup vec3 unit :=
  mk_soup [(0, 0, 0); (1, 0, 0); (0, -(1), 0); (0, 0, -(1))] [(0, 2, 1); (0, 1, 3); (0, 3, 2); (1, 2, 3)]%nat [tt; tt; tt; tt].

Lemma solid_ext : forall {D} (m : soup vec3 D) A B, (forall x, A x <-> B x) -> solid m A -> solid m B.
Proof.
  intros D m A B H (P & (W & F) & C). split; [ exact P | ]. split; [ constructor | ].
  - intros x y Hxy. rewrite <- !H. apply W, Hxy.
  - intros fi a b c q v E Hq. destruct (F fi a b c q v E Hq) as (bd & Hb & G). exists bd. split; [ exact Hb | ]. intros e He. destruct (G e He). rewrite <- H. auto.
  - intro x. rewrite <- H. apply C.
Qed.

(** The triangles of a mesh, as a list. *)
Definition tris_list {D} (m : soup vec3 D) : list tri3 := triples m (0, 0, 0).
Lemma tris_list_ok : forall {D} (m : soup vec3 D), valid_faces m -> forall i T, soup_triangle m i = Ok T <-> nth_error (tris_list m) i = Some T.
Proof.
  intros D m V i T. unfold soup_triangle, soup_face, soup_point, vec_at, tris_list, triples. rewrite nth_error_map.
  destruct (nth_error (faces m) i) as [ [ [a b] c] | ] eqn:E; cbn [bind option_map]; [ | split; discriminate ].
  apply nth_error_In in E. unfold valid_faces in V. rewrite Forall_forall in V. specialize (V _ E). cbn in V.
  assert (N : forall v, (v < length (points m))%nat -> nth_error (points m) v = Some (nth v (points m) (0, 0, 0))) by (intros v L; apply nth_error_nth'; exact L).
  rewrite (N a), (N b), (N c) by apply V. cbn [bind]. split; intro X; injection X as <-; reflexivity.
Qed.

Ltac list_cases J := cbn in J; repeat (destruct J as [J | J]; [ | ]); [ .. | destruct J ].
Ltac by_index i E := do 8 (destruct i as [ | i]; [ try (injection E as <-) | ]); try (exfalso; cbn in E; destruct i; discriminate).

Lemma second_valid : valid_faces second.
Proof. repeat (apply Forall_cons; [ cbn; lia | ]); apply Forall_nil. Qed.
Lemma touching_valid : valid_faces (located value touching).
Proof. repeat (apply Forall_cons; [ cbn; lia | ]); apply Forall_nil. Qed.
Lemma spire_valid : valid_faces (located value spire).
Proof. repeat (apply Forall_cons; [ cbn; lia | ]); apply Forall_nil. Qed.

(** The conditions of [convex_solid], as a check. *)
Definition behind_b (U T : tri3) : bool :=
  let '(a, b, c) := T in
  Qle_bool (height U a) 0 && Qle_bool (height U b) 0 && Qle_bool (height U c) 0 &&
  (negb (Qle_bool 0 (height U a)) || negb (Qle_bool 0 (height U b)) || negb (Qle_bool 0 (height U c))).
Lemma behind_b_ok : forall U T, behind_b U T = true -> behind U T.
Proof.
  intros U [ [a b] c] H. unfold behind_b in H. rewrite !andb_true_iff, !orb_true_iff, !Qle_bool_iff in H. destruct H as (((H1 & H2) & H3) & H4).
  assert (L : forall q, negb (Qle_bool 0 q) = true -> q < 0).
  { intros q X. apply negb_true_iff in X. destruct (Qlt_le_dec q 0) as [ | N]; [ assumption | ]. apply Qle_bool_iff in N. congruence. }
  repeat split; try assumption. destruct H4 as [ [H4 | H4] | H4]; auto.
Qed.
Definition all_behind (ts : list tri3) : bool :=
  forallb (fun i => forallb (fun j => Nat.eqb i j || match nth_error ts i, nth_error ts j with Some T, Some U => behind_b U T | _, _ => false end) (seq 0 (length ts))) (seq 0 (length ts)).
Lemma all_behind_ok : forall ts i j T U, all_behind ts = true -> nth_error ts i = Some T -> nth_error ts j = Some U -> i <> j -> behind U T.
Proof.
  intros ts i j T U Ch Ci Cj N. unfold all_behind in Ch. rewrite forallb_forall in Ch. specialize (Ch i ltac:(apply in_seq; split; [ lia | apply nth_error_Some; congruence ])).
  rewrite forallb_forall in Ch. specialize (Ch j ltac:(apply in_seq; split; [ lia | apply nth_error_Some; congruence ])). rewrite Ci, Cj in Ch. apply Nat.eqb_neq in N. rewrite N in Ch.
  apply behind_b_ok. exact Ch.
Qed.
Lemma not_flat_check : forall ts, forallb (has_normal (fun x : vec3 => x)) ts = true -> forall T, In T ts -> ~ flat T.
Proof.
  intros ts H T J. rewrite forallb_forall in H. specialize (H T J). apply has_normal_nd in H. destruct T as [ [a b] c]. apply Proof_bridge.nd_flat. exact H.
Qed.

Ltac heights H := unfold height, tri_normal, Spec_side.normal, vdot, vcross, vsub in H; cbn [vx vy vz fst snd] in H.
Lemma second_solid : solid second in_second.
Proof.
  apply (solid_ext second (fun x => forall T, In T (tris_list second) -> height T x < 0)).
  - intro x. split.
    + intro H. assert (H0 := H _ (or_introl eq_refl)). assert (H1 := H _ (or_intror (or_introl eq_refl))). assert (H2 := H _ (or_intror (or_intror (or_introl eq_refl)))). assert (H3 := H _ (or_intror (or_intror (or_intror (or_introl eq_refl))))).
      cbn in H0, H1, H2, H3. heights H0. heights H1. heights H2. heights H3. unfold in_second. repeat split; lra.
    + intros (A & B & C & E) T J. list_cases J; subst T; unfold height, tri_normal, Spec_side.normal, vdot, vcross, vsub; cbn [vx vy vz fst snd]; lra.
  - apply convex_solid.
    + exact (tris_list_ok second second_valid).
    + exact second_valid.
    + apply not_flat_check. vm_compute. reflexivity.
    + intros i j T U. apply all_behind_ok. vm_compute. reflexivity.
    + intros T x J Z L. assert (H0 := L _ (or_introl eq_refl)). assert (H1 := L _ (or_intror (or_introl eq_refl))). assert (H2 := L _ (or_intror (or_intror (or_introl eq_refl)))). assert (H3 := L _ (or_intror (or_intror (or_intror (or_introl eq_refl))))).
      cbn in H0, H1, H2, H3. heights H0. heights H1. heights H2. heights H3. clear L.
      list_cases J; subst T; cbn in Z; heights Z; cbn [on_tri]; unfold in_triangle; cbn [vx vy vz fst snd].
      * exists (1 - vx x + vy x), (- vy x), (vx x). repeat split; lra.
      * exists (1 - vx x + vz x), (vx x), (- vz x). repeat split; lra.
      * exists (1 + vy x + vz x), (- vz x), (- vy x). repeat split; lra.
      * exists (vx x), (- vy x), (- vz x). repeat split; lra.
Qed.

Lemma spire_solid : solid (located value spire) in_spire.
Proof.
  assert (Ts : tris_list (located value spire) =
    [((0, 0, 0), (0, 1, 0), (1, 0, 0)); ((0, 0, 0), (1, 0, 0), (0, 0, 1)); ((1, 0, 0), (0, 1, 0), (-(1), 2, 2));
     ((1, 0, 0), (-(1), 2, 2), (0, 0, 1)); ((0, 0, 0), (0, 0, 1), (-(1), 2, 2)); ((0, 0, 0), (-(1), 2, 2), (0, 1, 0))]) by reflexivity.
  apply (solid_ext _ (fun x => forall T, In T (tris_list (located value spire)) -> height T x < 0)).
  - intro x. rewrite Ts. split.
    + intro H. assert (H0 := H _ (or_introl eq_refl)). assert (H1 := H _ (or_intror (or_introl eq_refl))). assert (H2 := H _ (or_intror (or_intror (or_introl eq_refl)))). assert (H3 := H _ (or_intror (or_intror (or_intror (or_introl eq_refl))))).
      assert (H4 := H _ (or_intror (or_intror (or_intror (or_intror (or_introl eq_refl)))))). assert (H5 := H _ (or_intror (or_intror (or_intror (or_intror (or_intror (or_introl eq_refl))))))).
      heights H0. heights H1. heights H2. heights H3. heights H4. heights H5. unfold in_spire. repeat split; lra.
    + intros (A & B & C & E & F & G) T J. list_cases J; subst T; unfold height, tri_normal, Spec_side.normal, vdot, vcross, vsub; cbn [vx vy vz fst snd]; lra.
  - apply convex_solid.
    + exact (tris_list_ok _ spire_valid).
    + exact spire_valid.
    + apply not_flat_check. vm_compute. reflexivity.
    + intros i j T U. apply all_behind_ok. vm_compute. reflexivity.
    + rewrite Ts. intros T x J Z L. assert (H0 := L _ (or_introl eq_refl)). assert (H1 := L _ (or_intror (or_introl eq_refl))). assert (H2 := L _ (or_intror (or_intror (or_introl eq_refl)))). assert (H3 := L _ (or_intror (or_intror (or_intror (or_introl eq_refl))))).
      assert (H4 := L _ (or_intror (or_intror (or_intror (or_intror (or_introl eq_refl)))))). assert (H5 := L _ (or_intror (or_intror (or_intror (or_intror (or_intror (or_introl eq_refl))))))).
      heights H0. heights H1. heights H2. heights H3. heights H4. heights H5. clear L.
      list_cases J; subst T; heights Z; cbn [on_tri]; unfold in_triangle; cbn [vx vy vz fst snd].
      * exists (1 - vx x - vy x), (vy x), (vx x). repeat split; lra.
      * exists (1 - vx x - vz x), (vx x), (vz x). repeat split; lra.
      * exists (vx x + (1 # 2) * vz x), (1 - vx x - vz x), ((1 # 2) * vz x). repeat split; lra.
      * exists (vx x + (1 # 2) * vy x), ((1 # 2) * vy x), (1 - vx x - vy x). repeat split; lra.
      * exists (1 - vz x - vx x), (vz x + 2 * vx x), (- vx x). repeat split; lra.
      * exists (1 - vy x - vx x), (- vx x), (vy x + 2 * vx x). repeat split; lra.
Qed.

Lemma touching_solid : solid (located value touching) in_touching.
Proof.
  (* the plane y + z = 0 *)
  apply (two_solids (located value touching) tetra second in_tetra in_second ((0, 0, 0), (0, 1, -(1)), (1, 0, 0))).
  - intros i T. change (num_faces tetra) with 4%nat. do 8 (destruct i as [ | i]; [ reflexivity | ]).
    change (S (S (S (S (S (S (S (S i))))))) <? 4)%nat with false. cbn [Nat.sub]. destruct i; split; intro X; discriminate X.
  - exact touching_valid.
  - exact tetra_solid.
  - exact second_solid.
  - intros x (A & B & C & E). unfold height, tri_normal, Spec_side.normal, vdot, vcross, vsub. cbn [vx vy vz fst snd]. lra.
  - intros x (A & B & C & E). unfold flip, height, tri_normal, Spec_side.normal, vdot, vcross, vsub. cbn [vx vy vz fst snd]. lra.
  - intros i [ [a b] c] H. apply tetra_faces in H. apply behind_b_ok.
    destruct H as [ [-> E] | [ [-> E] | [ [-> E] | [-> E] ] ] ]; injection E as -> -> ->; reflexivity.
  - intros i T H. apply (tris_list_ok second second_valid) in H. apply behind_b_ok. do 4 (destruct i as [ | i]; [ injection H as <-; reflexivity | ]). destruct i; discriminate H.
Qed.

(** ** They meet the conditions of README.md *)
Lemma touching_wf : wf_soup touching.
Proof. split; [ reflexivity | ]. repeat (apply Forall_cons; [ cbn; lia | ]); apply Forall_nil. Qed.
Lemma spire_wf : wf_soup spire.
Proof. split; [ reflexivity | ]. repeat (apply Forall_cons; [ cbn; lia | ]); apply Forall_nil. Qed.

(** Planes that separate the faces that have at most a corner or an edge in common. *)
Definition touch_planes : list (vec3 * Q) :=
  face_planes value (triples touching (at_ 0 0 0)) ++ face_planes value (triples spire (at_ 0 0 0)) ++
  [((0, 1, 1), 0); ((0, -(1), -(1)), 0); ((-(4), 1, 1), 0); ((-(4), -(4), -(4)), -(3)); ((-(4), -(3), -(3)), -(3)); ((4, 1, 1), 1)].
Lemma touching_simplicial : simplicial value touching.
Proof. apply (simplicial_check exact_eqb exact_eqb_ok value touching (at_ 0 0 0) touch_planes); vm_compute; reflexivity. Qed.
Lemma spire_simplicial : simplicial value spire.
Proof. apply (simplicial_check exact_eqb exact_eqb_ok value spire (at_ 0 0 0) touch_planes); vm_compute; reflexivity. Qed.

Lemma touching_conditions : meets_conditions value touching.
Proof. split; [ exact (solid_proper value touching touching_wf (proj1 touching_solid)) | ]. split; [ exact (solid_no_twins value touching (proj1 touching_solid)) | exact touching_simplicial ]. Qed.
Lemma spire_conditions : meets_conditions value spire.
Proof. split; [ exact (solid_proper value spire spire_wf (proj1 spire_solid)) | ]. split; [ exact (solid_no_twins value spire (proj1 spire_solid)) | exact spire_simplicial ]. Qed.

(** ** Faces of one and of the other have at most common corners, edges and faces in common *)
Definition same_triple (t u : exact * exact * exact) : bool :=
  let '(a, b, c) := t in let '(a', b', c') := u in exact_eqb a a' && exact_eqb b b' && exact_eqb c c'.
Lemma same_triple_ok : forall t u, same_triple t u = true -> t = u.
Proof.
  intros [ [a b] c] [ [a' b'] c'] H. unfold same_triple in H. rewrite !andb_true_iff in H. destruct H as ((H1 & H2) & H3).
  apply exact_eqb_ok in H1, H2, H3. subst. reflexivity.
Qed.
Lemma touch_conform : forall i j t u, face_corners touching i t -> face_corners spire j u -> conforms value t u.
Proof.
  assert (Ch : forallb (fun t => has_normal value t && forallb (fun u => same_triple t u || kept_apart exact_eqb value touch_planes t u) (triples spire (at_ 0 0 0))) (triples touching (at_ 0 0 0)) = true) by (vm_compute; reflexivity).
  intros i j t u Ci Cj. apply (triples_corners _ (at_ 0 0 0)), nth_error_In in Ci. apply (triples_corners _ (at_ 0 0 0)), nth_error_In in Cj.
  rewrite forallb_forall in Ch. specialize (Ch t Ci). apply andb_true_iff in Ch. destruct Ch as (Nd & Ch). apply has_normal_nd in Nd.
  rewrite forallb_forall in Ch. specialize (Ch u Cj). apply orb_true_iff in Ch. destruct Ch as [E | K].
  - apply same_triple_ok in E. subst u. apply self_conforms. exact Nd.
  - exact (kept_apart_conforms exact_eqb exact_eqb_ok value touch_planes t u K Nd).
Qed.

(** So there is nothing but corners on the intersections of the faces. *)
Lemma conforming_overlaps : forall (m o : soup exact unit), (forall i j t u, face_corners m i t -> face_corners o j u -> conforms value t u) -> triangular_overlaps value m o.
Proof.
  intros m o H i j [ [a b] c] u x Ci Cj _ _ _. exists (value a), (value b), (value c). intros y V.
  destruct (conforms_vertex value _ _ y (H i j _ _ Ci Cj) V) as (p & J & _ & S). cbn [corner_list In] in J. destruct J as [<- | [<- | [<- | [ ] ] ] ]; auto.
Qed.
Lemma conforming_triangulated : forall (m o : soup exact unit) nt cf, (forall i j t u, face_corners m i t -> face_corners o j u -> conforms value t u) ->
  meets_conditions value m -> meets_conditions value o -> (1 <= nt)%nat ->
  corefine exact_eqb value exact_box (fun _ => 0%nat) (fun _ l => l) (fun _ _ l => l) exact_ll exact_pl (fun _ _ _ => true) nt m o (Ok cf) ->
  cdt_constrained value (fan_faces value) cf.
Proof.
  intros m o nt cf Co (Pm & _ & Sm) (Po & _ & So) Hnt H.
  destruct (C38_cut_along_the_intersection _ _ _ _ _ _ _ _ _ _ _ _ _ ex_kernel Hnt Pm Po Sm So H) as (outl & border & Ho & Hu & Rl & Rr & _ & _).
  destruct (C38_ids_name_the_points _ _ _ _ _ _ _ _ _ _ _ _ _ ex_kernel Hnt Pm Po H) as (Ll & Lr & Il & Ir & Lt & Rt).
  assert (Fun : forall (s : soup exact unit) i t u, face_corners s i t -> face_corners s i u -> t = u).
  { intros s i t u C1 C2. apply (triples_corners s (at_ 0 0 0)) in C1, C2. congruence. }
  assert (Cut : forall L R id p, In id (outl L R) -> nth_error (cf_points cf) id = Some p ->
    exists t u, face_corners m L t /\ face_corners o R u /\ In p (corner_list t) /\ In p (corner_list u)).
  { intros L R id p J Ep. assert (Ne : outl L R <> []) by (intro Z; rewrite Z in J; destruct J). destruct (Hu _ _ Ne) as (UL & UR).
    destruct (Pm L) as (t & Ct & _); [ rewrite <- Lt; apply nth_error_Some; congruence | ]. destruct (Po R) as (u & Cu & _); [ rewrite <- Rt; apply nth_error_Some; congruence | ].
    exists t, u. split; [ exact Ct | ]. split; [ exact Cu | ]. destruct (ol_vertex _ _ _ _ _ (Ho L R t u Ct Cu UL UR) id J) as (p' & Ep' & V). rewrite Ep in Ep'. injection Ep' as <-.
    destruct (conforms_vertex value _ _ _ (Co _ _ _ _ Ct Cu) V) as (y & J1 & J2 & S). apply value_inj in S. subst y. auto. }
  assert (Sub : forall (t : exact * exact * exact) p, In p (corner_list t) -> In p (corners_and t)) by (intros [ [a b] c] p; cbn; tauto).
  intros F t [J | J].
  - destruct Rl as (_ & _ & Rl). destruct (Rl F t J) as (_ & Hv & Hp & _ & Nd & _ & a & b & c & rest & Fp & _).
    destruct (Pm F) as (tri & Ct & _); [ destruct Fp as (v0 & v1 & v2 & _ & _ & _ & E & _); apply nth_error_Some; unfold num_faces; congruence | ].
    apply (few_vertices t tri Nd). intros p id Jp. pose proof (Hp _ _ Jp) as Ep.
    destruct (proj1 (Hv id) (ex_intro _ p Jp)) as [ (a' & b' & c' & Fp' & Jc) | (r & Jo) ].
    + exact (corner_in _ _ _ _ _ _ _ _ _ _ Ll Il Ct Fp' Jc Ep).
    + destruct (Cut _ _ _ _ Jo Ep) as (t' & u & Ct' & _ & K & _). rewrite (Fun _ _ _ _ Ct Ct'). auto.
  - destruct Rr as (_ & _ & Rr). destruct (Rr F t J) as (_ & Hv & Hp & _ & Nd & _ & a & b & c & rest & Fp & _).
    destruct (Po F) as (tri & Ct & _); [ destruct Fp as (v0 & v1 & v2 & _ & _ & _ & E & _); apply nth_error_Some; unfold num_faces; congruence | ].
    apply (few_vertices t tri Nd). intros p id Jp. pose proof (Hp _ _ Jp) as Ep.
    destruct (proj1 (Hv id) (ex_intro _ p Jp)) as [ (a' & b' & c' & Fp' & Jc) | (r & Jo) ].
    + exact (corner_in _ _ _ _ _ _ _ _ _ _ Lr Ir Ct Fp' Jc Ep).
    + destruct (Cut _ _ _ _ Jo Ep) as (t' & u & _ & Ct' & _ & K). rewrite (Fun _ _ _ _ Ct Ct'). auto.
Qed.

(** ** Which side of them a point is on *)
Definition positive (q : Q) : bool := negb (Qle_bool q 0).
Lemma positive_ok : forall q, positive q = true <-> 0 < q.
Proof.
  intro q. unfold positive. rewrite negb_true_iff. split; intro H.
  - destruct (Qlt_le_dec 0 q) as [ | L]; [ assumption | ]. apply Qle_bool_iff in L. congruence.
  - destruct (Qle_bool q 0) eqn:E; [ | reflexivity ]. apply Qle_bool_iff in E. exfalso. apply (Qlt_not_le _ _ H E).
Qed.
Definition touching_b (x : vec3) : bool :=
  (positive (vx x) && positive (vy x) && positive (vz x) && positive (1 - vx x - vy x - vz x)) ||
  (positive (vx x) && positive (- vy x) && positive (- vz x) && positive (1 - vx x + vy x + vz x)).
Definition spire_b (x : vec3) : bool :=
  positive (vy x) && positive (vz x) && positive (2 * vx x + vy x) && positive (2 * vx x + vz x) && positive (1 - vx x - vy x) && positive (1 - vx x - vz x).
Lemma touching_b_ok : forall x, touching_b x = true <-> in_touching x.
Proof.
  intro x. unfold touching_b, in_touching, in_tetra, in_second. rewrite orb_true_iff, !andb_true_iff, !positive_ok.
  split; (intros [H | H]; [ left | right ]); [ destruct H as (((A & B) & C) & E) | destruct H as (((A & B) & C) & E) | destruct H as (A & B & C & E) | destruct H as (A & B & C & E) ]; repeat split; lra.
Qed.
Lemma spire_b_ok : forall x, spire_b x = true <-> in_spire x.
Proof.
  intro x. unfold spire_b, in_spire. rewrite !andb_true_iff, !positive_ok. split; [ intros (((((A & B) & C) & E) & F) & G) | intros (A & B & C & E & F & G) ]; repeat split; lra.
Qed.
(** [touching] has six points and [spire] five. *)
Definition touch_side (m : soup exact unit) (x : exact) : res oriented_side :=
  Ok (if (if (length (points m) =? 6)%nat then touching_b (value x) else spire_b (value x)) then NEGATIVE_SIDE else POSITIVE_SIDE).
Lemma touching_side : tells_side value (located value touching) in_touching (touch_side touching).
Proof.
  intros x _. right. unfold touch_side. change (length (points touching) =? 6)%nat with true. rewrite <- touching_b_ok. destruct (touching_b (value x)); split; intro H; congruence || reflexivity.
Qed.
Lemma spire_side : tells_side value (located value spire) in_spire (touch_side spire).
Proof.
  intros x _. right. unfold touch_side. change (length (points spire) =? 6)%nat with false. rewrite <- spire_b_ok. destruct (spire_b (value x)); split; intro H; congruence || reflexivity.
Qed.
