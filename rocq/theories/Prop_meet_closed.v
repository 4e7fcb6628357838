(** * C61: Convex results are closed meshes *)
From Coq Require Import List Arith Bool NArith ZArith QArith Qminmax Lqa Lia Permutation.
From Verif Require Import Model_base Proof_base Model_soup Model_geometry Spec_candidates Model_aabb Spec_aabb Model_parallel_do Model_boolean Model_candidates Model_classify Model_local Model_corefine Model_side Model_mix Model_schedule.
From Verif Require Import Model_defects Spec_defects Model_overlap Spec_ffi Spec_overlap.
From Verif Require Import Model_find Spec_boolean Spec_radial Spec_local Spec_conform Spec_mix Spec_cut Spec_side Spec_solid Spec_corefine Spec_whole Spec_delaunay Spec_again Spec_find Spec_visible Spec_meet Proof_find.
From Verif Require Import Proof_fan Proof_extreme Proof_exact Proof_bridge Proof_planes Proof_clip Proof_pairs Proof_whole Proof_whole_ex Prop_aabb Prop_local Prop_corefine Prop_cut Prop_side Prop_solid Prop_conform Prop_whole Prop_schedule Prop_delaunay Prop_again Prop_find_op Prop_connected Prop_balance Prop_end Proof_fan Prop_whole_ex Prop_delaunay_ex Proof_delaunay_ex Proof_link Proof_visible Proof_meet Prop_visible.
From Verif Require Import Spec_corefine Spec_side Spec_solid Spec_visible.
From Verif Require Import Proof_hinge Proof_separate Proof_walk Proof_closed Prop_meet Prop_meet_ex Proof_again Prop_again_ex Spec_watertight Prop_watertight.
From Verif Require Import Spec_corefine Spec_side Spec_solid Spec_visible Spec_again Spec_meet.
Import ListNotations.
Local Open Scope nat_scope.

(** The boundary of a convex body or hole that meets the conditions of README.md is a closed
    mesh: along every side of a face runs exactly one other face, in the opposite direction. *)
Theorem C61_convex_boundaries_are_closed : forall {P D} (coords : P -> vec3) (r : region P D) S s,
  (forall p q : P, p = q \/ p <> q) -> represents coords r S -> meets_conditions coords (boundary r) ->
  convex_part s (located coords (boundary r)) -> closed_mesh (boundary r).
Proof.
  intros P D coords r S s Hd R Hm C. apply C63_closed; [ exact (C63_regions coords r S Hd Hm R) | ].
  intros i j p q (t & Ft & Dt) (u & Fu & Du). destruct R as (W & R). unfold wf_region in W.
  assert (None : boundary r = empty_soup -> False) by (intro E; rewrite E in Ft; destruct Ft as (? & ? & ? & ? & ? & ? & E' & _); destruct i; discriminate E').
  destruct (kind r); [ destruct (None W) .. | ]. destruct R as (Pf & Bd & _). set (m := boundary r) in *.
  assert (HT : soup_triangle (located coords m) i = Ok (triangle_of coords t)) by (apply located_corners; exists t; auto).
  assert (HU : soup_triangle (located coords m) j = Ok (triangle_of coords u)) by (apply located_corners; exists u; auto).
  assert (FT : ~ flat (triangle_of coords t)) by (apply nd_flat, (corners_nondegenerate coords m Hm i t Ft)).
  assert (FU : ~ flat (triangle_of coords u)) by (apply nd_flat, (corners_nondegenerate coords m Hm j u Fu)).
  assert (Rot : forall v, directed v p q -> exists c, rot (triangle_of coords v) (coords p) (coords q) c).
  { intros [ [x y] z] Dv. cbn [directed triangle_of] in *. unfold rot. destruct Dv as [ (-> & ->) | [ (-> & ->) | (-> & ->) ] ]; [ exists (coords z) | exists (coords x) | exists (coords y) ]; auto. }
  destruct (Rot t Dt) as (c & RT). destruct (Rot u Du) as (d & RU).
  assert (Ov : exists z, in_tri z (triangle_of coords t) /\ in_tri z (triangle_of coords u)).
  2: { destruct Ov as (z & I1 & I2). symmetry. exact (faces_apart coords m Hm i j t u z Ft Fu I1 (in_on_tri _ _ I2)). }
  pose proof (turned_if_bounds _ s _ _ Bd) as Bd'. pose proof (turned_if_height _ s _ C) as C'.
  destruct s; cbn [turned_if] in *.
  - assert (Tu : forall k V, soup_triangle (located coords m) k = Ok V -> forall a b e, rot V a b e -> ~ flat V -> exists V', soup_triangle (turned_soup (located coords m)) k = Ok V' /\ rot V' b a e /\ ~ flat V' /\ forall z, in_tri z V' -> in_tri z V).
    { intros k [ [x y] z] HV a b e RV FV. exists (x, z, y). split; [ apply turned_triangle; exact HV | ]. split; [ | split ].
      - unfold rot in *. destruct RV as [E | [E | E] ]; injection E as -> -> ->; auto.
      - exact (turned_if_flat _ true _ (pf_nondegenerate _ Pf) k x z y (proj2 (turned_triangle _ _ _ _ _ _) HV)).
      - intros w Iw. exact (in_turned_open _ _ _ _ Iw). }
    destruct (Tu _ _ HT _ _ _ RT FT) as (T' & HT' & RT' & FT' & IT). destruct (Tu _ _ HU _ _ _ RU FU) as (U' & HU' & RU' & FU' & IU).
    destruct (sides_overlap _ _ Bd' C' i j T' U' _ _ _ _ HT' HU' FT' FU' RT' RU') as (z & I1 & I2). exists z. auto.
  - exact (sides_overlap _ _ Bd' C' i j _ _ _ _ _ _ HT HU FT FU RT RU).
Qed.
Print Assumptions C61_convex_boundaries_are_closed.

(** So the result of bodies and holes combined by operations that amount to intersections is a
    closed mesh, and Find_defects finds nothing that stands in the way of another operation. *)
Theorem C61_results_pass_the_check : forall {P D} P_eqb coords pbox longest_axis sort_by nth_element_by cll cpl accepts cdt_faces
    base1 base2 sort_around centroid pbox3 ray_triangle ray_meets_box partial_sort2 tree_of num_threads (d0 : D) (e : expression P D) s o,
  right_oracles P_eqb coords pbox sort_by nth_element_by cll cpl accepts base1 base2 sort_around centroid num_threads ->
  (forall x, in_box x (pbox3 x)) -> exact_intersection ray_triangle -> sound_box_test ray_meets_box -> sorts_two partial_sort2 ->
  let evaluates := evaluates P_eqb coords pbox longest_axis sort_by nth_element_by cll cpl accepts cdt_faces base1 base2 sort_around centroid
    (shoot coords ray_triangle ray_meets_box partial_sort2 tree_of) num_threads d0 in
  convex_expression coords e s ->
  all_given (fun r A => represents coords r A /\ meets_conditions coords (boundary r)) e ->
  all_operands evaluates
    (can_be_mixed_with_rays P_eqb coords pbox longest_axis sort_by nth_element_by cll cpl accepts cdt_faces pbox3 tree_of num_threads) e ->
  evaluates e o ->
  exists r, o = Ok (r, 0%N) /\ closed_mesh (boundary r) /\
    (1 <= num_faces (boundary r) -> (N.of_nat (num_faces (boundary r)) < 2 ^ 32)%N ->
     nothing_found P_eqb d0 coords pbox longest_axis sort_by nth_element_by (boundary r)).
Proof.
  intros P D P_eqb coords pbox la sb nb cll cpl accepts cdt_faces base1 base2 sa centroid pbox3 rt rm ps tree_of nt d0 e s o
    Hor Hpb3 Hrt Hrm Hps ev Hi Hg Hm H.
  destruct (C61_convex_expressions P_eqb coords pbox la sb nb cll cpl accepts cdt_faces base1 base2 sa centroid pbox3 rt rm ps tree_of nt d0 e s o Hor Hpb3 Hrt Hrm Hps Hi Hg Hm H) as (r & -> & Cr & Vr & _ & S & Rs & _).
  pose proof (proj1 Hor) as K. exists r. split; [ reflexivity | ].
  assert (Hd : forall p q : P, p = q \/ p <> q) by (intros p q; pose proof (ek_eqb _ _ _ _ _ _ _ K p q) as E; destruct (P_eqb p q); [ left; apply E; reflexivity | right; intro X; apply E in X; discriminate X ]).
  pose proof (C61_convex_boundaries_are_closed coords r S s Hd Rs Cr Vr) as Cl. split; [ exact Cl | ]. intros N1 N2.
  apply nothing_is_found; try assumption; [ exact (ek_eqb _ _ _ _ _ _ _ K) | exact (ek_box _ _ _ _ _ _ _ K) | exact (ek_sort _ _ _ _ _ _ _ K) | ].
  destruct Rs as (W & R). unfold wf_region in W. destruct (kind r); [ rewrite W in N1; cbn in N1; lia .. | exact (proj2 (proj1 W)) ].
Qed.
Print Assumptions C61_results_pass_the_check.

(** A concrete case: the upright tetrahedron.  (The expression of C61_example meets the
    hypotheses of C61_results_pass_the_check.) *)
Example C61_closed_example : closed_mesh (boundary (ex_region upright)).
Proof.
  apply (C61_convex_boundaries_are_closed value (ex_region upright) in_tetra false).
  - intros p q. pose proof (ek_eqb _ _ _ _ _ _ _ ex_kernel p q) as E. destruct (exact_eqb p q); [ left; apply E; reflexivity | right; intro X; apply E in X; discriminate X ].
  - split; [ split; [ exact upright_wf | discriminate ] | exact tetra_solid ].
  - exact (conditions_of _ _ upright_wf tetra_solid upright_simplicial).
  - exact upright_body.
Qed.
