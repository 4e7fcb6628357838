(** * C64: an example *)
From Coq Require Import List Arith NArith Bool QArith Lqa Lia.
From Verif Require Import Model_base Model_geometry Model_soup Model_aabb Model_boolean Model_corefine Model_side Model_mix Model_schedule.
From Verif Require Import Spec_boolean Spec_candidates Spec_side Spec_solid Spec_conform Spec_corefine Spec_mix Spec_whole Spec_again Spec_volume.
From Verif Require Import Proof_fan Proof_extreme Proof_exact Proof_mix_faces Proof_fan4 Proof_whole Proof_represents Proof_whole_ex Proof_again.
From Verif Require Import Prop_local Prop_corefine Prop_cut Prop_side Prop_solid Prop_conform Prop_whole Prop_whole_ex Prop_schedule Prop_again Prop_again_ex Prop_volume Prop_volume_operands.
Import ListNotations.
Local Open Scope Q_scope.

(** Two tetrahedra of the volume 1/6 that intersect: whatever the schedules of the threads are,
    the builder exists, and the volumes of its results add up to 1/3 and to 1/6. *)
Example C64_operands_example : forall num_threads, (1 <= num_threads)%nat ->
  let mixes mix := mixes_operands exact_eqb value exact_box (fun _ => 0%nat) (fun _ l => l) (fun _ _ l => l) exact_ll exact_pl (fun _ _ _ => true) (fan_faces value)
    ex_base1 ex_base2 ex_sort middle_point which_side num_threads mix (ex_region upright_again) (ex_region leaning) in
  (exists mix, mixes mix) /\
  forall mix, mixes mix -> exists bd union common difference,
    build mix (ex_region upright_again) (ex_region leaning) = Ok bd /\
    run tt bd op_UNION true = Ok union /\ run tt bd op_INTERSECTION false = Ok common /\ run tt bd op_DIFFERENCE true = Ok difference /\
    volume value (boundary union) + volume value (boundary common) == 1 # 3 /\
    volume value (boundary difference) + volume value (boundary common) == 1 # 6.
Proof.
  intros nt Hnt mixes.
  assert (Hor : right_oracles exact_eqb value exact_box (fun _ l => l) (fun _ _ l => l) exact_ll exact_pl (fun _ _ _ => true) ex_base1 ex_base2 ex_sort middle_point nt).
  { split; [ exact ex_kernel | ]. split; [ intros t a b c h k vs _ _; reflexivity | ]. split; [ exact ex_bases | ]. split; [ exact ex_sorts | ]. split; [ | exact Hnt ].
    intros p q r. unfold middle_point. destruct (value_reduce (ex_centroid (value p) (value q) (value r))) as (S1 & S2 & S3). exists (1 # 3), (1 # 3), (1 # 3). rewrite S1, S2, S3. unfold ex_centroid. cbn [vx vy vz fst snd]. repeat split; try lra; ring. }
  pose proof (proj2 (again_solid in_tetra) tetra_solid) as SA.
  assert (RA : represents value (ex_region upright_again) in_tetra) by (split; [ split; [ exact again_wf | discriminate ] | exact SA ]).
  assert (RB : represents value (ex_region leaning) in_lean) by (split; [ split; [ exact leaning_wf | discriminate ] | exact lean_solid ]).
  pose proof (conditions_of _ _ again_wf SA again_simplicial) as CA. pose proof (conditions_of _ _ leaning_wf lean_solid leaning_simplicial) as CB.
  pose proof (ex_can_be_mixed nt Hnt) as Cm. split.
  - destruct (C52_evaluation_ends exact_eqb value exact_box (fun _ => 0%nat) (fun _ l => l) (fun _ _ l => l) exact_ll exact_pl (fun _ _ _ => true) (fan_faces value)
      ex_base1 ex_base2 ex_sort middle_point which_side nt tt (Combine opA true (Given (ex_region upright_again) in_tetra) (Given (ex_region leaning) in_lean)) Hor) as (o & H).
    + cbn [all_given]. auto.
    + cbn [all_operands]. split; [ exact I | ]. split; [ exact I | ]. intros a b w1 w2 H1 H2. inversion H1; subst. inversion H2; subst. exact Cm.
    + inversion H as [ | op pf e1 e2 a b w1 w2 mix H1 H2 Hm | op pf e1 e2 o' r' H1 F | op pf e1 e2 o' r' H1 F ]; subst.
      * inversion H1; subst. inversion H2; subst. exists mix. exact Hm.
      * inversion H1; subst. destruct F.
      * inversion H1; subst. destruct F.
  - intros mix Hm. destruct (C52_result_meets_the_conditions _ _ _ _ _ _ _ _ _ _ _ _ _ _ _ _ tt mix _ _ _ _ Hor RA RB CA CB Cm Hm) as [ (bd & E & _ & G) | (_ & _ & _ & [ (x & _ & X) | (x & _ & X) ]) ]; [ | discriminate X .. ].
    destruct (G op_UNION true) as (u & Eu & _), (G op_INTERSECTION false) as (c & Ec & _), (G op_DIFFERENCE true) as (d & Ed & _).
    exists bd, u, c, d. split; [ exact E | ]. split; [ exact Eu | ]. split; [ exact Ec | ]. split; [ exact Ed | ].
    destruct (C64_union_and_intersection _ _ _ _ _ _ _ _ _ _ _ _ _ _ _ _ tt mix _ _ _ _ bd Hor RA RB CA CB Cm Hm E false c Ec) as (U & Df & _).
    assert (VA : volume value (boundary (ex_region upright_again)) == 1 # 6) by (vm_compute; reflexivity). assert (VB : volume value (boundary (ex_region leaning)) == 1 # 6) by (vm_compute; reflexivity).
    specialize (U true u Eu). specialize (Df true d Ed). rewrite VA, VB in U. rewrite VA in Df. split; lra.
Qed.

(** Everything but a tetrahedron has the volume -1/6. *)
From Verif Require Import Prop_volume_sets.
Example C64_sets_example : forall mix, exists bd r,
  build mix region_full (ex_region leaning) = Ok bd /\ run tt bd op_DIFFERENCE true = Ok r /\ volume value (boundary r) == - (1 # 6).
Proof.
  intro mix.
  assert (Hor : right_oracles exact_eqb value exact_box (fun _ l => l) (fun _ _ l => l) exact_ll exact_pl (fun _ _ _ => true) ex_base1 ex_base2 ex_sort middle_point 1%nat).
  { split; [ exact ex_kernel | ]. split; [ intros t a b c h k vs _ _; reflexivity | ]. split; [ exact ex_bases | ]. split; [ exact ex_sorts | ]. split; [ | lia ].
    intros p q r. unfold middle_point. destruct (value_reduce (ex_centroid (value p) (value q) (value r))) as (S1 & S2 & S3). exists (1 # 3), (1 # 3), (1 # 3). rewrite S1, S2, S3. unfold ex_centroid. cbn [vx vy vz fst snd]. repeat split; try lra; ring. }
  assert (RA : represents value (@region_full exact unit) (fun _ => True)) by (split; [ reflexivity | intros x; exact I ]).
  assert (RB : represents value (ex_region leaning) in_lean) by (split; [ split; [ exact leaning_wf | discriminate ] | exact lean_solid ]).
  assert (CA : meets_conditions value (boundary (@region_full exact unit))) by (apply (represents_conditions value region_full (fun _ => True)); [ exact RA | apply empty_simplicial ]).
  pose proof (conditions_of _ _ leaning_wf lean_solid leaning_simplicial) as CB.
  assert (Hcm : can_be_mixed exact_eqb value exact_box (fun _ => 0%nat) (fun _ l => l) (fun _ _ l => l) exact_ll exact_pl (fun _ _ _ => true) (fan_faces value) which_side 1 region_full (ex_region leaning)) by (intros X; discriminate X).
  assert (Hmx : mixes_operands exact_eqb value exact_box (fun _ => 0%nat) (fun _ l => l) (fun _ _ l => l) exact_ll exact_pl (fun _ _ _ => true) (fan_faces value)
    ex_base1 ex_base2 ex_sort middle_point which_side 1 mix region_full (ex_region leaning)) by (intros X; discriminate X).
  destruct (C52_result_meets_the_conditions _ _ _ _ _ _ _ _ _ _ _ _ _ _ _ _ tt mix _ _ _ _ Hor RA RB CA CB Hcm Hmx) as [ (bd & E & _ & G) | (_ & X & _) ]; [ | discriminate X ].
  destruct (G op_DIFFERENCE true) as (r & Er & _). exists bd, r. split; [ exact E | ]. split; [ exact Er | ].
  destruct (C64_volumes_of_sets _ _ _ _ _ _ _ _ _ _ _ _ _ _ _ _ tt mix _ _ _ _ bd Hor RA RB CA CB Hcm Hmx E) as (_ & Df & _).
  rewrite (Df (fun x _ _ => I) true r Er). vm_compute. reflexivity.
Qed.

(** The tetrahedron has the volume 1/6 from every point. *)
From Verif Require Import Prop_volume_origin.
Example C64_origin_example : forall o, volume (fun p => vsub (value p) o) upright_again == 1 # 6.
Proof.
  intro o. pose proof (proj2 (again_solid in_tetra) tetra_solid) as SA.
  assert (RA : represents value (ex_region upright_again) in_tetra) by (split; [ split; [ exact again_wf | discriminate ] | exact SA ]).
  rewrite (C64_regions_from_every_point exact_eqb value (ex_region upright_again) in_tetra o); [ vm_compute; reflexivity | apply ex_kernel | exact RA | exact (conditions_of _ _ again_wf SA again_simplicial) ].
Qed.
(** A mesh that is not watertight: a triangle. *)
Example C64_origin_needs_watertight : let m := mk_soup [(0, 0, 0); (1, 0, 0); (0, 1, 0)] [(0, 1, 2)%nat] [tt] in
  volume (fun p => p) m == 0 /\ volume (fun p => vsub p (0, 0, 1)) m == - (1 # 6).
Proof. split; vm_compute; reflexivity. Qed.

(** The union of the two tetrahedra, which have a point in common, has less than the volume
    1/3. *)
From Verif Require Import Spec_meet Proof_meet Prop_meet_ex Prop_volume_convex.
Lemma again_body : convex_body (located value upright_again).
Proof.
  apply body_corners. intros fi a b c gi p q r T U. apply again_triangles in T, U.
  destruct fi as [ | [ | [ | [ | fi] ] ] ]; try (exfalso; cbn in T; destruct fi; discriminate T); injection T as <- <- <-;
    (destruct gi as [ | [ | [ | [ | gi] ] ] ]; try (exfalso; cbn in U; destruct gi; discriminate U); injection U as <- <- <-; vm_compute; repeat split; discriminate).
Qed.
Example C64_convex_example : forall num_threads, (1 <= num_threads)%nat ->
  forall mix, mixes_operands exact_eqb value exact_box (fun _ => 0%nat) (fun _ l => l) (fun _ _ l => l) exact_ll exact_pl (fun _ _ _ => true) (fan_faces value)
    ex_base1 ex_base2 ex_sort middle_point which_side num_threads mix (ex_region upright_again) (ex_region leaning) ->
  exists bd union, build mix (ex_region upright_again) (ex_region leaning) = Ok bd /\ run tt bd op_UNION true = Ok union /\ volume value (boundary union) < 1 # 3.
Proof.
  intros nt Hnt mix Hm.
  assert (Hor : right_oracles exact_eqb value exact_box (fun _ l => l) (fun _ _ l => l) exact_ll exact_pl (fun _ _ _ => true) ex_base1 ex_base2 ex_sort middle_point nt).
  { split; [ exact ex_kernel | ]. split; [ intros t a b c h k vs _ _; reflexivity | ]. split; [ exact ex_bases | ]. split; [ exact ex_sorts | ]. split; [ | exact Hnt ].
    intros p q r. unfold middle_point. destruct (value_reduce (ex_centroid (value p) (value q) (value r))) as (S1 & S2 & S3). exists (1 # 3), (1 # 3), (1 # 3). rewrite S1, S2, S3. unfold ex_centroid. cbn [vx vy vz fst snd]. repeat split; try lra; ring. }
  pose proof (proj2 (again_solid in_tetra) tetra_solid) as SA.
  assert (RA : represents value (ex_region upright_again) in_tetra) by (split; [ split; [ exact again_wf | discriminate ] | exact SA ]).
  assert (RB : represents value (ex_region leaning) in_lean) by (split; [ split; [ exact leaning_wf | discriminate ] | exact lean_solid ]).
  pose proof (conditions_of _ _ again_wf SA again_simplicial) as CA. pose proof (conditions_of _ _ leaning_wf lean_solid leaning_simplicial) as CB.
  pose proof (ex_can_be_mixed nt Hnt) as Cm.
  destruct (C52_result_meets_the_conditions _ _ _ _ _ _ _ _ _ _ _ _ _ _ _ _ tt mix _ _ _ _ Hor RA RB CA CB Cm Hm) as [ (bd & E & _ & G) | (_ & _ & _ & [ (x & _ & X) | (x & _ & X) ]) ]; [ | discriminate X .. ].
  destruct (G op_UNION true) as (u & Eu & _). exists bd, u. split; [ exact E | ]. split; [ exact Eu | ].
  pose proof (C64_convex_union _ _ _ _ _ _ _ _ _ _ _ _ _ _ _ _ tt mix _ _ _ _ bd Hor RA RB CA CB Cm Hm E again_body leaning_body true u Eu) as L.
  assert (VA : volume value (boundary (ex_region upright_again)) == 1 # 6) by (vm_compute; reflexivity). assert (VB : volume value (boundary (ex_region leaning)) == 1 # 6) by (vm_compute; reflexivity).
  rewrite VA, VB in L. pose proof (proj1 (C64_convex_union_exact _ _ _ _ _ _ _ _ _ _ _ _ _ _ _ _ tt mix _ _ _ _ bd Hor RA RB CA CB Cm Hm E again_body leaning_body eq_refl eq_refl true u Eu)) as N.
  rewrite VA, VB in N. destruct (Qlt_le_dec (volume value (boundary u)) (1 # 3)) as [ Lt | Le ]; [ exact Lt | exfalso ].
  apply (N ltac:(lra) (1 # 4, 1 # 4, 1 # 8)); [ | | split; repeat split; reflexivity ]; apply below_off; intros fi [ [a b] c] T; [ apply again_triangles in T | ];
    (destruct fi as [ | [ | [ | [ | fi] ] ] ]; try (exfalso; cbn in T; destruct fi; discriminate T); injection T as <- <- <-; vm_compute; reflexivity).
Qed.

(** All points but those of the empty region or the leaning tetrahedron: the evaluation ends,
    and always with a region of the volume -1/6.  (The hypothesis on operands that both have
    boundaries is met by C64_operands_example; no such pair occurs here.) *)
From Verif Require Import Spec_volume_expr Prop_volume_expr.
Definition hole_expression : expression exact unit :=
  Combine op_DIFFERENCE true (Given region_full (fun _ => True)) (Combine op_UNION false (Given region_empty (fun _ => False)) (Given (ex_region leaning) in_lean)).
Example C64_expressions_example :
  let evaluates := evaluates exact_eqb value exact_box (fun _ => 0%nat) (fun _ l => l) (fun _ _ l => l) exact_ll exact_pl (fun _ _ _ => true) (fan_faces value)
    ex_base1 ex_base2 ex_sort middle_point which_side 1 tt in
  (exists o, evaluates hole_expression o) /\
  forall r w, evaluates hole_expression (Ok (r, w)) -> volume value (boundary r) == - (1 # 6).
Proof.
  intro ev.
  assert (Hor : right_oracles exact_eqb value exact_box (fun _ l => l) (fun _ _ l => l) exact_ll exact_pl (fun _ _ _ => true) ex_base1 ex_base2 ex_sort middle_point 1%nat).
  { split; [ exact ex_kernel | ]. split; [ intros t a b c h k vs _ _; reflexivity | ]. split; [ exact ex_bases | ]. split; [ exact ex_sorts | ]. split; [ | lia ].
    intros p q r. unfold middle_point. destruct (value_reduce (ex_centroid (value p) (value q) (value r))) as (S1 & S2 & S3). exists (1 # 3), (1 # 3), (1 # 3). rewrite S1, S2, S3. unfold ex_centroid. cbn [vx vy vz fst snd]. repeat split; try lra; ring. }
  assert (RF : represents value (@region_full exact unit) (fun _ => True)) by (split; [ reflexivity | intros x; exact I ]).
  assert (RE : represents value (@region_empty exact unit) (fun _ => False)) by (split; [ reflexivity | intros x X; exact X ]).
  assert (RB : represents value (ex_region leaning) in_lean) by (split; [ split; [ exact leaning_wf | discriminate ] | exact lean_solid ]).
  assert (CF : meets_conditions value (boundary (@region_full exact unit))) by (apply (represents_conditions value region_full (fun _ => True)); [ exact RF | apply empty_simplicial ]).
  assert (CE : meets_conditions value (boundary (@region_empty exact unit))) by (apply (represents_conditions value region_empty (fun _ => False)); [ exact RE | apply empty_simplicial ]).
  pose proof (conditions_of _ _ leaning_wf lean_solid leaning_simplicial) as CB.
  assert (Hg : all_given (fun r A => represents value r A /\ meets_conditions value (boundary r)) hole_expression) by (cbn [all_given hole_expression]; auto).
  assert (Hm : all_operands ev (can_be_mixed exact_eqb value exact_box (fun _ => 0%nat) (fun _ l => l) (fun _ _ l => l) exact_ll exact_pl (fun _ _ _ => true) (fan_faces value) which_side 1) hole_expression).
  { cbn [all_operands hole_expression]. split; [ exact I | ]. split; [ split; [ exact I | ]; split; [ exact I | ] | ]; intros a b w1 w2 H1 _ X; inversion H1; subst; discriminate X. }
  split; [ exact (C52_evaluation_ends _ _ _ _ _ _ _ _ _ _ _ _ _ _ _ _ _ hole_expression Hor Hg Hm) | ].
  intros r w H. rewrite (C64_volumes_of_expressions _ _ _ _ _ _ _ _ _ _ _ _ _ _ _ _ tt hole_expression
    (volume value (boundary (@region_full exact unit)) - (volume value (boundary (@region_empty exact unit)) + volume value (boundary (ex_region leaning)))) r w Hor Hg Hm); [ vm_compute; reflexivity | | exact H ].
  apply au_difference; [ apply au_given | apply au_union; [ apply au_given | apply au_given | cbn [denotes]; tauto ] | intros x _ _ _; exact I ].
Qed.
