(** * C58, continued: which closed meshes without defects bound a set *)
From Coq Require Import List Arith Bool NArith ZArith QArith Qminmax Lqa Lia Permutation.
From Verif Require Import Model_base Proof_base Model_soup Model_geometry Spec_candidates Model_aabb Spec_aabb Model_parallel_do Model_boolean Model_candidates Model_classify Model_local Model_corefine Model_side Model_mix.
From Verif Require Import Model_defects Spec_defects Model_overlap Spec_ffi Spec_overlap.
From Verif Require Import Model_find Spec_boolean Spec_radial Spec_local Spec_conform Spec_mix Spec_cut Spec_side Spec_solid Spec_corefine Spec_whole Spec_delaunay Spec_again Spec_find Spec_visible Spec_balance Proof_find.
From Verif Require Import Proof_separate Proof_balance Proof_convexturns Prop_find_op Prop_connected.
From Verif Require Import Spec_corefine Spec_side Spec_solid.
Import ListNotations.
Local Open Scope nat_scope.

(** A closed mesh without self-intersections, connected or not, bounds a set if and only if
    on straight ways through it one goes in and out by turns. *)
Theorem C58_criterion : forall {P D} (coords : P -> vec3) (m : soup P D), meets_conditions coords m -> closed_mesh m ->
  ((exists S, solid (located coords m) S) <-> by_turns (located coords m)).
Proof. intros P D coords m M C. apply bounds_iff_by_turns; assumption. Qed.
Print Assumptions C58_criterion.

(** Connected meshes and convex meshes are such meshes. *)
Theorem C58_connected_by_turns : forall {P D} (coords : P -> vec3) (m : soup P D), meets_conditions coords m -> closed_mesh m ->
  connected_mesh m \/ convex_mesh (located coords m) -> by_turns (located coords m).
Proof.
  intros P D coords m M C [H | H]; [ apply C58_criterion; try assumption; apply C58_connected_mesh_bounds; assumption | ].
  apply convex_by_turns; [ | exact H ]. apply located_proper, M.
Qed.
Print Assumptions C58_connected_by_turns.

(** A region whose boundary passes the check of Find_defects represents a set if and only if
    its boundary is such a mesh. *)
Theorem C58_region_criterion : forall {P D} (P_eqb : P -> P -> bool) (d0 : D) coords pbox longest_axis sort_by nth_element_by (r : region P D),
  (forall p q, P_eqb p q = true <-> p = q) -> (forall p, in_box (coords p) (pbox p)) -> rearranges sort_by nth_element_by ->
  wf_region r -> (N.of_nat (num_faces (boundary r)) < 2 ^ 32)%N ->
  (kind r = BOUNDARY_DEFINED -> nothing_found P_eqb d0 coords pbox longest_axis sort_by nth_element_by (boundary r)) ->
  ((exists S, represents coords r S) <-> (kind r = BOUNDARY_DEFINED -> by_turns (located coords (boundary r)))).
Proof.
  intros P D P_eqb d0 coords pbox la sb nb r He Hb Hr W Ln H. unfold represents. pose proof W as W0. unfold wf_region in W. destruct (kind r) eqn:Ek.
  - split; [ discriminate | intros _; exists (fun _ => False); auto ].
  - split; [ discriminate | intros _; exists (fun _ => True); auto ].
  - destruct (found_nothing P_eqb d0 coords pbox la sb nb _ He Hb Hr (proj2 (proj1 W)) Ln (H eq_refl)) as (M & C). split.
    + intros (S & _ & HS) _. apply (C58_criterion coords _ M C). exists S. exact HS.
    + intro B. destruct (proj2 (C58_criterion coords _ M C) (B eq_refl)) as (S & HS). exists S. auto.
Qed.
Print Assumptions C58_region_criterion.
