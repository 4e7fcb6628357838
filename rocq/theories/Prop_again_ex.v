(** * C52: an example *)
From Coq Require Import List Arith NArith Bool QArith Lqa Lia Permutation.
From Verif Require Import Model_base Proof_base Model_geometry Model_soup Model_mesh Model_aabb Model_points Model_boolean Model_classify Model_local Model_candidates Model_corefine Model_side Model_mix Model_schedule.
From Verif Require Import Spec_aabb Spec_boolean Spec_candidates Spec_side Spec_radial Spec_local Spec_solid Spec_conform Spec_defects Spec_ffi Spec_corefine Spec_mix Spec_cut Spec_whole Spec_again.
From Verif Require Import Proof_fan Proof_extreme Proof_exact Proof_mix_faces Proof_fan4 Proof_whole Proof_represents Proof_whole_ex Proof_again Prop_local Prop_corefine Prop_cut Prop_side Prop_solid Prop_conform Prop_whole Prop_whole_ex Prop_schedule Prop_again.
Import ListNotations.
Local Open Scope Q_scope.
Local Opaque at_.

(** What is left of [upright] after an operation: the points come in the order of their first
    use. *)
Definition upright_again : soup exact unit :=
  mk_soup [at_ 0 0 0; at_ 0 1 0; at_ 1 0 0; at_ 0 0 1] [(0, 1, 2); (0, 2, 3); (0, 3, 1); (2, 1, 3)]%nat [tt; tt; tt; tt].
Lemma again_corners : forall i t, face_corners upright_again i t <-> face_corners upright i t.
Proof.
  intros i t. split.
  - intros (a & b & c & p & q & r & E & A & B & C & ->).
    destruct i as [ | [ | [ | [ | i] ] ] ]; cbn in E; [ | | | | destruct i; discriminate ]; injection E as <- <- <-; cbn [nth_error points upright_again] in A, B, C;
      injection A as <-; injection B as <-; injection C as <-; do 6 eexists; repeat (split; [ reflexivity | ]); reflexivity.
  - intros (a & b & c & p & q & r & E & A & B & C & ->).
    destruct i as [ | [ | [ | [ | i] ] ] ]; cbn in E; [ | | | | destruct i; discriminate ]; injection E as <- <- <-; cbn [nth_error points upright] in A, B, C;
      injection A as <-; injection B as <-; injection C as <-; do 6 eexists; repeat (split; [ reflexivity | ]); reflexivity.
Qed.

(** The same triangles. *)
Lemma again_triangles : forall i T, soup_triangle (located value upright_again) i = Ok T <-> soup_triangle (located value upright) i = Ok T.
Proof.
  intros i T. destruct i as [ | [ | [ | [ | i] ] ] ]; try reflexivity.
  split; intro H; apply Proof_solid.triangle_range in H; cbn in H; lia.
Qed.
Lemma again_face : forall i x, on_face (located value upright_again) i x <-> on_face (located value upright) i x.
Proof. intros i x. split; intros (a & b & c & H & I); exists a, b, c; (split; [ apply again_triangles, H | exact I ]). Qed.
Lemma again_boundary : forall x, on_boundary (located value upright_again) x <-> on_boundary (located value upright) x.
Proof. intro x. split; intros (fi & H); exists fi; apply again_face; exact H. Qed.
Lemma again_solid : forall A, solid (located value upright_again) A <-> solid (located value upright) A.
Proof.
  intro A. split.
  - intros ([V Nd Ap] & [Wk Fc] & Dc). split; [ | split; [ | exact Dc ] ].
    + split.
      * repeat (apply Forall_cons; [ cbn; lia | ]); apply Forall_nil.
      * intros fi a b c H. apply again_triangles in H. exact (Nd _ _ _ _ H).
      * intros fi fj a b c x H I J. apply again_triangles in H. apply again_face in J. exact (Ap _ _ _ _ _ _ H I J).
    + split.
      * intros x y H. apply Wk. intros z Z1 Z2. apply again_boundary in Z2. exact (H z Z1 Z2).
      * intros fi a b c q v H I. apply again_triangles in H. exact (Fc _ _ _ _ _ _ H I).
  - intros ([V Nd Ap] & [Wk Fc] & Dc). split; [ | split; [ | exact Dc ] ].
    + split.
      * repeat (apply Forall_cons; [ cbn; lia | ]); apply Forall_nil.
      * intros fi a b c H. apply again_triangles in H. exact (Nd _ _ _ _ H).
      * intros fi fj a b c x H I J. apply again_triangles in H. apply again_face in J. exact (Ap _ _ _ _ _ _ H I J).
    + split.
      * intros x y H. apply Wk. intros z Z1 Z2. apply again_boundary in Z2. exact (H z Z1 Z2).
      * intros fi a b c q v H I. apply again_triangles in H. exact (Fc _ _ _ _ _ _ H I).
Qed.

Lemma conditions_of : forall (m : soup exact unit) A, wf_soup m -> solid (located value m) A -> simplicial value m -> meets_conditions value m.
Proof. intros m A W S Si. split; [ exact (solid_proper value m W (proj1 S)) | ]. split; [ exact (solid_no_twins value m (proj1 S)) | exact Si ]. Qed.
Lemma again_wf : wf_soup upright_again.
Proof. split; [ reflexivity | ]. repeat (apply Forall_cons; [ cbn; lia | ]); apply Forall_nil. Qed.
Lemma again_simplicial : simplicial value upright_again.
Proof. apply (simplicial_of value upright); [ exact upright_simplicial | ]. intros i t H. exists i, t. split; [ now apply again_corners | auto ]. Qed.

(** The union of the first tetrahedron with the empty region, minus the second one. *)
Definition ex_expression : expression exact unit :=
  Combine opL true (Combine opA true (Given (ex_region upright) in_tetra) (Given region_empty (fun _ => False))) (Given (ex_region leaning) in_lean).
Definition ex_evaluates nt := evaluates exact_eqb value exact_box (fun _ => 0%nat) (fun _ l => l) (fun _ _ l => l) exact_ll exact_pl (fun _ _ _ => true) (fan_faces value)
  ex_base1 ex_base2 ex_sort middle_point which_side nt tt.

Lemma first_step : forall nt r w, ex_evaluates nt (Combine opA true (Given (ex_region upright) in_tetra) (Given region_empty (fun _ => False))) (Ok (r, w)) ->
  r = ex_region upright_again.
Proof.
  intros nt r w H. remember (Ok (r, w)) as o eqn:Eo. inversion H as [ | op pf e1 e2 a b w1 w2 mix H1 H2 Hm | op pf e1 e2 o' r' H1 F | op pf e1 e2 o' r' H1 F ]; subst.
  - inversion H1; subst. inversion H2; subst.
    assert (X : (let* bd := build mix (ex_region upright) region_empty in let* r0 := run tt bd opA true in
      Ok (r0, N.lor (N.lor 0 0) (Model_boolean.warnings bd))) = Ok (ex_region upright_again, 0%N)) by reflexivity.
    congruence.
  - inversion H1; subst. destruct F.
  - inversion H1; subst. destruct F.
Qed.

Lemma ex_can_be_mixed : forall nt, (1 <= nt)%nat -> can_be_mixed exact_eqb value exact_box (fun _ => 0%nat) (fun _ l => l) (fun _ _ l => l) exact_ll exact_pl (fun _ _ _ => true) (fan_faces value)
  which_side nt (ex_region upright_again) (ex_region leaning).
Proof.
  intros nt Hnt _ _. cbn [ex_region boundary]. split; [ | split; [ | split; [ | split; [ | split ] ] ] ].
  - intros A SA x Off. right. destruct (tetra_side_right (value x)) as (X1 & X2).
    assert (U : A (value x) <-> in_tetra (value x)).
    { apply (C47_boundary_determines_the_set _ _ value upright_again); [ exact again_wf | discriminate | exact SA | apply again_solid; exact tetra_solid | exact Off ]. }
    unfold which_side. change (existsb _ (points upright_again)) with false. rewrite U. split; intro Z; f_equal; auto.
  - intros B SB x Off. right. destruct (tetra_side_right (unlean (value x))) as (X1 & X2).
    assert (U : B (value x) <-> in_lean (value x)).
    { apply (C47_boundary_determines_the_set _ _ value leaning); [ exact leaning_wf | discriminate | exact SB | exact lean_solid | exact Off ]. }
    unfold which_side. change (existsb _ (points leaning)) with true. rewrite U. split; intro Z; f_equal; auto.
  - intros i t j u p q Ci N Cj. apply again_corners in Ci. intros Npq H1 H2 H3 H4. destruct (proj1 ex_fair i t j u p q Ci N Cj Npq H1 H2 H3 H4) as (k & v & Ck & Nk & Hp & Hq).
    exists k, v. split; [ exact Ck | ]. split; [ | auto ]. intros (l & z & Cl & E). apply Nk. exists l, z. split; [ now apply again_corners | exact E ].
  - intros i t j u p q Ci N Cj. apply again_corners in Cj. intros Npq H1 H2 H3 H4. destruct (proj2 ex_fair i t j u p q Ci) as (k & v & Ck & Nk & Hp & Hq); try assumption.
    { intros (l & z & Cl & E). apply N. exists l, z. split; [ now apply again_corners | exact E ]. }
    exists k, v. split; [ now apply again_corners | ]. auto.
  - intros cf H. apply (ex_triangulated_like upright_again nt cf again_corners); try assumption.
    + apply (solid_proper value upright_again again_wf). apply (proj1 (proj2 (again_solid in_tetra) tetra_solid)).
    + exact again_simplicial.
    + apply (solid_no_twins value upright_again). apply (proj1 (proj2 (again_solid in_tetra) tetra_solid)).
  - left. intros i j t u x Ci Cj. apply again_corners in Ci. exact (ex_overlaps i j t u x Ci Cj).
Qed.

(** Whatever the schedules of the threads are, its evaluation ends with a region without
    warnings; off the boundaries of the two tetrahedra the region represents their
    difference, and its boundary meets the conditions. *)
Example C52_example : forall num_threads, (1 <= num_threads)%nat ->
  (exists o, ex_evaluates num_threads ex_expression o) /\
  forall o, ex_evaluates num_threads ex_expression o ->
    exists r A, o = Ok (r, 0%N) /\ meets_conditions value (boundary r) /\ represents value r A /\
      forall x, ~ on_surface value (ex_region upright) x -> ~ on_surface value (ex_region leaning) x -> (A x <-> in_tetra x /\ ~ in_lean x).
Proof.
  intros nt Hnt.
  assert (Hor : right_oracles exact_eqb value exact_box (fun _ l => l) (fun _ _ l => l) exact_ll exact_pl (fun _ _ _ => true) ex_base1 ex_base2 ex_sort middle_point nt).
  { split; [ exact ex_kernel | ]. split; [ intros t a b c h k vs _ _; reflexivity | ]. split; [ exact ex_bases | ]. split; [ exact ex_sorts | ]. split; [ | exact Hnt ].
    intros p q r. unfold middle_point. destruct (value_reduce (ex_centroid (value p) (value q) (value r))) as (S1 & S2 & S3). exists (1 # 3), (1 # 3), (1 # 3). rewrite S1, S2, S3. unfold ex_centroid. cbn [vx vy vz fst snd]. repeat split; try lra; ring. }
  assert (Hg : all_given (fun r A => represents value r A /\ meets_conditions value (boundary r)) ex_expression).
  { cbn [all_given ex_expression]. split; [ split | ].
    - split; [ split; [ split; [ exact upright_wf | discriminate ] | exact tetra_solid ] | exact (conditions_of _ _ upright_wf tetra_solid upright_simplicial) ].
    - split; [ split; [ reflexivity | intros x X; exact X ] | ]. apply (represents_conditions value region_empty (fun _ => False)); [ split; [ reflexivity | intros x X; exact X ] | apply empty_simplicial ].
    - split; [ split; [ split; [ exact leaning_wf | discriminate ] | exact lean_solid ] | exact (conditions_of _ _ leaning_wf lean_solid leaning_simplicial) ]. }
  assert (Hm : all_operands (ex_evaluates nt) (can_be_mixed exact_eqb value exact_box (fun _ => 0%nat) (fun _ l => l) (fun _ _ l => l) exact_ll exact_pl (fun _ _ _ => true) (fan_faces value)
    which_side nt) ex_expression).
  { cbn [all_operands ex_expression]. split; [ | split; [ exact I | ] ].
    - split; [ exact I | ]. split; [ exact I | ]. intros a b w1 w2 _ H2. inversion H2; subst. intros _ Z. discriminate.
    - intros a b w1 w2 H1 H2. rewrite (first_step nt a w1 H1). inversion H2; subst. exact (ex_can_be_mixed nt Hnt). }
  split.
  - exact (C52_evaluation_ends _ _ _ _ _ _ _ _ _ _ _ _ _ _ _ _ _ ex_expression Hor Hg Hm).
  - intros o H. destruct (C52_expressions _ _ _ _ _ _ _ _ _ _ _ _ _ _ _ _ _ ex_expression o Hor Hg Hm H) as [ (r & E & C & _ & A & R & HA) | (_ & a & b & _ & _ & _ & [ (x & _ & X) | (x & _ & X) ]) ]; [ | discriminate X .. ].
    exists r, A. split; [ exact E | ]. split; [ exact C | ]. split; [ exact R | ]. intros x H1 H2. rewrite (HA x).
    + cbn [denotes ex_expression set_of]. tauto.
    + cbn [on_given ex_expression]. intros [ [ X | X ] | X ]; [ exact (H1 X) | exact (no_boundary value x X) | exact (H2 X) ].
Qed.
