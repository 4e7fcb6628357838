(** * C61: an example *)
From Coq Require Import List Arith Bool NArith ZArith QArith Qminmax Lqa Lia Permutation.
From Verif Require Import Model_base Proof_base Model_soup Model_geometry Spec_candidates Model_aabb Spec_aabb Model_parallel_do Model_boolean Model_candidates Model_classify Model_local Model_corefine Model_side Model_mix Model_schedule.
From Verif Require Import Model_defects Spec_defects Model_overlap Spec_ffi Spec_overlap.
From Verif Require Import Model_find Spec_boolean Spec_radial Spec_local Spec_conform Spec_mix Spec_cut Spec_side Spec_solid Spec_corefine Spec_whole Spec_delaunay Spec_again Spec_find Spec_visible Spec_meet Proof_find.
From Verif Require Import Proof_fan Proof_extreme Proof_exact Proof_bridge Proof_planes Proof_clip Proof_pairs Proof_whole Proof_whole_ex Proof_again Prop_aabb Prop_local Prop_corefine Prop_cut Prop_side Prop_solid Prop_conform Prop_whole Prop_schedule Prop_delaunay Prop_again Prop_again_ex Prop_find_op Prop_connected Prop_balance Prop_end Proof_fan Prop_whole_ex Prop_delaunay_ex Proof_delaunay_ex Proof_visible Prop_visible Prop_meet.
From Verif Require Import Spec_corefine Spec_side Spec_solid Spec_visible.
Import ListNotations.
Local Open Scope nat_scope.

Lemma body_corners : forall D (m : soup vec3 D),
  (forall fi a b c gi p q r, soup_triangle m fi = Ok (a, b, c) -> soup_triangle m gi = Ok (p, q, r) ->
     (height a b c p <= 0 /\ height a b c q <= 0 /\ height a b c r <= 0)%Q) -> convex_body m.
Proof.
  intros D m H fi a b c x T (gi & p & q & r & U & (u & v & w & U0 & V0 & W0 & S & X & Y & Z)).
  destruct (H fi a b c gi p q r T U) as (H1 & H2 & H3).
  assert (E : (height a b c x == u * height a b c p + v * height a b c q + w * height a b c r)%Q).
  { assert (S' : (u == 1 - v - w)%Q) by lra. unfold height, vdot. generalize (normal a b c) as n. intros n. unfold vsub. cbn [vx vy vz fst snd]. rewrite X, Y, Z, S'. ring. }
  rewrite E. nra.
Qed.
Lemma upright_body : convex_body (located value upright).
Proof.
  apply body_corners. intros fi a b c gi p q r T U.
  destruct fi as [ | [ | [ | [ | fi] ] ] ]; try (exfalso; cbn in T; destruct fi; discriminate T); injection T as <- <- <-;
    (destruct gi as [ | [ | [ | [ | gi] ] ] ]; try (exfalso; cbn in U; destruct gi; discriminate U); injection U as <- <- <-; vm_compute; repeat split; discriminate).
Qed.
Lemma leaning_body : convex_body (located value leaning).
Proof.
  apply body_corners. intros fi a b c gi p q r T U.
  destruct fi as [ | [ | [ | [ | fi] ] ] ]; try (exfalso; cbn in T; destruct fi; discriminate T); injection T as <- <- <-;
    (destruct gi as [ | [ | [ | [ | gi] ] ] ]; try (exfalso; cbn in U; destruct gi; discriminate U); injection U as <- <- <-; vm_compute; repeat split; discriminate).
Qed.

(** The intersection of the first tetrahedron with the full region and with the second
    tetrahedron, which it overlaps. *)
Definition meet_expression : expression exact unit :=
  Combine op_INTERSECTION true (Combine op_INTERSECTION true (Given (ex_region upright) in_tetra) (Given region_full (fun _ => True))) (Given (ex_region leaning) in_lean).
Definition meet_evaluates tree_of nt := evaluates exact_eqb value exact_box (fun _ => 0) (fun _ l => l) (fun _ _ l => l) exact_ll exact_pl (fun _ _ _ => true) (fan_faces value)
  ex_base1 ex_base2 ex_sort middle_point (shoot value clip_ray (fun _ _ _ => true) sort_q tree_of) nt tt.

Lemma meet_first_step : forall tree_of nt r w,
  meet_evaluates tree_of nt (Combine op_INTERSECTION true (Given (ex_region upright) in_tetra) (Given region_full (fun _ => True))) (Ok (r, w)) -> r = ex_region upright_again.
Proof.
  intros tree_of nt r w H. remember (Ok (r, w)) as o eqn:Eo. inversion H as [ | op pf e1 e2 a b w1 w2 mix H1 H2 Hm | op pf e1 e2 o' r' H1 F | op pf e1 e2 o' r' H1 F ]; subst.
  - inversion H1; subst. inversion H2; subst.
    assert (X : (let* bd := build mix (ex_region upright) region_full in let* r0 := run tt bd op_INTERSECTION true in
      Ok (r0, N.lor (N.lor 0 0) (Model_boolean.warnings bd))) = Ok (ex_region upright_again, 0%N)) by reflexivity.
    congruence.
  - inversion H1; subst. destruct F.
  - inversion H1; subst. destruct F.
Qed.

(** With all the parts in place, its evaluation ends, for every number of threads, and
    whatever the threads do it ends with a convex body without warnings that is the
    intersection of the tetrahedra. *)
Example C61_example : forall num_threads, 1 <= num_threads -> exists tree_of,
  (exists o, meet_evaluates tree_of num_threads meet_expression o) /\
  forall o, meet_evaluates tree_of num_threads meet_expression o ->
    exists r S, o = Ok (r, 0%N) /\ convex_body (located value (boundary r)) /\ represents value r S /\
      forall x, ~ on_surface value (ex_region upright) x -> ~ on_surface value (ex_region leaning) x -> (S x <-> in_tetra x /\ in_lean x).
Proof.
  intros nt Hnt.
  destruct (tree_exists upright_again (pf_valid _ (proj1 (proj2 (again_solid in_tetra) tetra_solid)))) as (t1 & T1). destruct (tree_exists leaning (pf_valid _ (proj1 lean_solid))) as (t2 & T2).
  pose (tree_of := fun m : soup exact unit => if existsb (fun p => negb (Qle_bool (vx (value p) + vy (value p) + vz (value p)) 1)) (points m) then t2 else t1).
  exists tree_of.
  assert (Hor : right_oracles exact_eqb value exact_box (fun _ l => l) (fun _ _ l => l) exact_ll exact_pl (fun _ _ _ => true) ex_base1 ex_base2 ex_sort middle_point nt).
  { split; [ exact ex_kernel | ]. split; [ intros t a b c h k vs _ _; reflexivity | ]. split; [ exact ex_bases | ]. split; [ exact ex_sorts | ]. split; [ | exact Hnt ].
    intros p q r. unfold middle_point. destruct (value_reduce (ex_centroid (value p) (value q) (value r))) as (S1 & S2 & S3). exists (1 # 3)%Q, (1 # 3)%Q, (1 # 3)%Q. rewrite S1, S2, S3. unfold ex_centroid. cbn [vx vy vz fst snd]. repeat split; try lra; ring. }
  assert (Hpb3 : forall x, in_box x (pt_box x)) by (intro x; repeat split; cbn; lra).
  assert (Hg : all_given (fun r A => represents value r A /\ meets_conditions value (boundary r) /\ convex_body (located value (boundary r))) meet_expression).
  { cbn [all_given meet_expression]. split; [ split | ].
    - split; [ split; [ split; [ exact upright_wf | discriminate ] | exact tetra_solid ] | split; [ exact (conditions_of _ _ upright_wf tetra_solid upright_simplicial) | exact upright_body ] ].
    - split; [ split; [ reflexivity | intros x; exact I ] | ]. split; [ | intros fi a b c x J; destruct fi; discriminate J ].
      apply (represents_conditions value region_full (fun _ => True)); [ split; [ reflexivity | intros x; exact I ] | apply empty_simplicial ].
    - split; [ split; [ split; [ exact leaning_wf | discriminate ] | exact lean_solid ] | split; [ exact (conditions_of _ _ leaning_wf lean_solid leaning_simplicial) | exact leaning_body ] ]. }
  assert (Hm : all_operands (meet_evaluates tree_of nt) (can_be_mixed_with_rays exact_eqb value exact_box (fun _ => 0) (fun _ l => l) (fun _ _ l => l) exact_ll exact_pl (fun _ _ _ => true) (fan_faces value)
    pt_box tree_of nt) meet_expression).
  { cbn [all_operands meet_expression]. split; [ | split; [ exact I | ] ].
    - split; [ exact I | ]. split; [ exact I | ]. intros a b w1 w2 _ H2. inversion H2; subst. intros _ Z. discriminate.
    - intros a b w1 w2 H1 H2. rewrite (meet_first_step tree_of nt a w1 H1). inversion H2; subst. intros Ka Kb.
      destruct (ex_can_be_mixed nt Hnt Ka Kb) as (_ & _ & X). split; [ exact T1 | ]. split; [ exact T2 | exact X ]. }
  assert (T : forall m S, solid (located value m) S -> aabb_tree pt_box (fun _ => 0) (fun _ l => l) (fun _ _ l => l) (located value m) (tree_of m) ->
    tells_side value (located value m) S (shoot value clip_ray (fun _ _ _ => true) sort_q tree_of m)).
  { intros m S HS Ht. apply (shoot_tells value pt_box (fun _ => 0) (fun _ l => l) (fun _ _ l => l)); auto; [ exact (ek_sort _ _ _ _ _ _ _ ex_kernel) | exact clip_ray_exact | exact C24_example_box_test | exact C24_example_sorts ]. }
  split.
  - apply (C52_evaluation_ends _ _ _ _ _ _ _ _ _ _ _ _ _ _ _ _ _ meet_expression Hor).
    + cbn [all_given meet_expression] in Hg |- *. tauto.
    + revert Hm. apply all_imp. intros a b X Ka Kb. destruct (X Ka Kb) as (X1 & X2 & X3). split; [ | split; [ | exact X3 ] ]; intros S HS; apply (T _ S HS); assumption.
  - intros o H. destruct (C61_intersections exact_eqb value exact_box (fun _ => 0) (fun _ l => l) (fun _ _ l => l) exact_ll exact_pl (fun _ _ _ => true) (fan_faces value)
      ex_base1 ex_base2 ex_sort middle_point pt_box clip_ray (fun _ _ _ => true) sort_q tree_of nt tt meet_expression o Hor Hpb3 clip_ray_exact C24_example_box_test C24_example_sorts) as (r & E & _ & C & _ & S & R & HS).
    + cbn. auto.
    + exact Hg.
    + exact Hm.
    + exact H.
    + exists r, S. split; [ exact E | ]. split; [ exact C | ]. split; [ exact R | ]. intros x H1 H2. rewrite (HS x).
      * cbn [denotes meet_expression set_of op_INTERSECTION]. tauto.
      * cbn [on_given meet_expression]. intros [ [ X | (fi & a & b & c & J & _) ] | X ]; [ exact (H1 X) | destruct fi; discriminate J | exact (H2 X) ].
Qed.
