(** * C58, continued: Boolean operations from end to end

    Everything about one operation in one statement: what Find_defects has to say about the
    operands, the sets that they represent, the side of a point found by shooting rays into
    AABB trees, threads that overlap in any way, and a constrained Delaunay triangulation of
    the faces. *)
From Coq Require Import List Arith Bool NArith ZArith QArith Qminmax Lqa Lia Permutation.
From Verif Require Import Model_base Proof_base Model_soup Model_geometry Spec_candidates Model_aabb Spec_aabb Model_parallel_do Model_boolean Model_candidates Model_classify Model_local Model_corefine Model_side Model_mix.
From Verif Require Import Model_defects Spec_defects Model_overlap Spec_ffi Spec_overlap.
From Verif Require Import Model_find Spec_boolean Spec_radial Spec_local Spec_conform Spec_mix Spec_cut Spec_side Spec_solid Spec_corefine Spec_whole Spec_delaunay Spec_again Spec_find Spec_visible Spec_balance Proof_find.
From Verif Require Import Proof_whole Prop_local Prop_corefine Prop_cut Prop_side Prop_solid Prop_conform Prop_whole Prop_schedule Prop_delaunay Prop_again Prop_find_op Prop_connected Prop_balance.
From Verif Require Import Spec_corefine Spec_side Spec_solid.
Import ListNotations.
Local Open Scope nat_scope.

(** A region that was checked: Find_defects finds nothing in its boundary, which is connected,
    or convex, or at least such that on straight ways one goes in and out by turns (by
    C58_criterion, there is no set with this boundary otherwise); and its faces have numbers
    (Face_index is 32 bits wide). *)
Definition checked {P D} P_eqb (d0 : D) coords pbox longest_axis sort_by nth_element_by (r : region P D) : Prop :=
  wf_region r /\ (N.of_nat (num_faces (boundary r)) < 2 ^ 32)%N /\
  (kind r = BOUNDARY_DEFINED -> nothing_found P_eqb d0 coords pbox longest_axis sort_by nth_element_by (boundary r) /\
     (connected_mesh (boundary r) \/ convex_mesh (located coords (boundary r)) \/ by_turns (located coords (boundary r)))).

(** Two checked regions represent sets [A] and [B], and only these.  Whatever the threads do,
    either every operation on them gives a region that represents what the operation denotes,
    without a warning, or the builder throws and both operands have a boundary and for some
    point off one of these all rays are ambiguous. *)
Theorem C58_end_to_end : forall {P D} P_eqb coords pbox longest_axis sort_by nth_element_by cll cpl (d0 : D) (a b : region P D),
  exact_kernel P_eqb coords pbox sort_by nth_element_by cll cpl ->
  checked P_eqb d0 coords pbox longest_axis sort_by nth_element_by a -> checked P_eqb d0 coords pbox longest_axis sort_by nth_element_by b ->
  exists A B, represents coords a A /\ represents coords b B /\
  (forall S, represents coords a S -> forall x, ~ on_surface coords a x -> (S x <-> A x)) /\
  (forall S, represents coords b S -> forall x, ~ on_surface coords b x -> (S x <-> B x)) /\
  forall accepts cdt_faces base1 base2 sort_around centroid pbox3 ray_triangle ray_meets_box partial_sort2 tree_of num_threads mix,
  accepts_compatible coords accepts -> plane_bases base1 base2 -> sorts sort_around -> inner_centroid coords centroid -> 1 <= num_threads ->
  (forall x, in_box x (pbox3 x)) -> exact_intersection ray_triangle -> sound_box_test ray_meets_box -> sorts_two partial_sort2 ->
  (forall r, r = a \/ r = b -> kind r = BOUNDARY_DEFINED ->
     aabb_tree pbox3 longest_axis sort_by nth_element_by (located coords (boundary r)) (tree_of (boundary r))) ->
  (forall cf, corefine P_eqb coords pbox longest_axis sort_by nth_element_by cll cpl accepts num_threads (boundary a) (boundary b) (Ok cf) ->
     cdt_constrained coords cdt_faces cf /\ cdt_delaunay coords cdt_faces cf) ->
  no_circles coords (boundary a) (boundary b) ->
  (kind a = BOUNDARY_DEFINED -> kind b = BOUNDARY_DEFINED ->
   calls_mix_scheduled P_eqb coords pbox longest_axis sort_by nth_element_by cll cpl accepts cdt_faces base1 base2 sort_around centroid
     (shoot coords ray_triangle ray_meets_box partial_sort2 tree_of) num_threads mix (boundary a) (boundary b)) ->
  (exists bd, build mix a b = Ok bd /\ Model_boolean.warnings bd = 0%N /\
     forall op prefer_first, exists r, run d0 bd op prefer_first = Ok r /\ is_result coords op a b A B r) \/
  (build mix a b = Throw RuntimeError /\ kind a = BOUNDARY_DEFINED /\ kind b = BOUNDARY_DEFINED /\
   exists r x, (r = a \/ r = b) /\ ~ on_surface coords r (coords x) /\ all_ambiguous (located coords (boundary r)) (coords x)).
Proof.
  intros P D P_eqb coords pbox la sb nb cll cpl d0 a b K (Wa & La & Fa) (Wb & Lb & Fb).
  assert (Rep : forall r : region P D, wf_region r -> (N.of_nat (num_faces (boundary r)) < 2 ^ 32)%N ->
    (kind r = BOUNDARY_DEFINED -> nothing_found P_eqb d0 coords pbox la sb nb (boundary r) /\
       (connected_mesh (boundary r) \/ convex_mesh (located coords (boundary r)) \/ by_turns (located coords (boundary r)))) -> exists S, represents coords r S).
  { intros r W L F. apply (C58_region_criterion P_eqb d0 coords pbox la sb nb); try apply K; auto; [ intro Ek; exact (proj1 (F Ek)) | ]. intro Ek. destruct (F Ek) as (N & X).
    unfold wf_region in W. rewrite Ek in W. destruct (found_nothing P_eqb d0 coords pbox la sb nb (boundary r)) as (M & C); try apply K; auto; [ exact (proj2 (proj1 W)) | ].
    destruct X as [X | [X | X] ]; [ apply C58_connected_by_turns; auto | apply C58_connected_by_turns; auto | exact X ]. }
  destruct (Rep a Wa La Fa) as (A & RA). destruct (Rep b Wb Lb Fb) as (B & RB).
  exists A, B. split; [ exact RA | ]. split; [ exact RB | ].
  split; [ intros S HS x Hx; exact (C58_one_set coords a S A HS RA x Hx) | ]. split; [ intros S HS x Hx; exact (C58_one_set coords b S B HS RB x Hx) | ].
  intros accepts cdt_faces base1 base2 sa centroid pbox3 rt rm ps tree_of nt mix Hacc Hpb Hso Hce Hnt Hpb3 Hrt Hrm Hps Ht Hcdt Ci Hmix.
  assert (V : forall (r : region P D) S, represents coords r S -> (N.of_nat (num_faces (boundary r)) < 2 ^ 32)%N ->
    (kind r = BOUNDARY_DEFINED -> nothing_found P_eqb d0 coords pbox la sb nb (boundary r) /\
       (connected_mesh (boundary r) \/ convex_mesh (located coords (boundary r)) \/ by_turns (located coords (boundary r)))) ->
    meets_conditions coords (boundary r) /\ closed_mesh (boundary r)).
  { intros r S (W & _) L F. unfold wf_region in W. destruct (kind r) eqn:Ek; [ rewrite W; apply empty_conditions | rewrite W; apply empty_conditions | ].
    apply (found_nothing P_eqb d0 coords pbox la sb nb); try apply K; auto; [ exact (proj2 (proj1 W)) | exact (proj1 (F eq_refl)) ]. }
  destruct (V a A RA La Fa) as (Ma & Ca). destruct (V b B RB Lb Fb) as (Mb & Cb).
  pose proof (conditions_two_faces coords _ Ma Ca) as Ua. pose proof (conditions_two_faces coords _ Mb Cb) as Ub.
  destruct Ma as (_ & Ta & Sa), Mb as (_ & Tb & Sb).
  destruct (C49_two_faces_are_fair P_eqb _ _ (ek_eqb _ _ _ _ _ _ _ K) Ta Tb Ua Ub) as (F1 & F2).
  assert (T : forall r S, r = a \/ r = b -> represents coords r S -> kind r = BOUNDARY_DEFINED ->
    tells_side coords (located coords (boundary r)) S (shoot coords rt rm ps tree_of (boundary r)) /\
    (gives_up coords (located coords (boundary r)) (shoot coords rt rm ps tree_of (boundary r)) ->
     exists x, ~ on_boundary (located coords (boundary r)) (coords x) /\ all_ambiguous (located coords (boundary r)) (coords x))).
  { intros r S Er (_ & Rp) Ek. rewrite Ek in Rp. apply (shoot_tells coords pbox3 la sb nb); auto. exact (ek_sort _ _ _ _ _ _ _ K). }
  assert (Bo : forall e, build mix a b = Throw e -> kind a = BOUNDARY_DEFINED /\ kind b = BOUNDARY_DEFINED).
  { intros e E. unfold build, is_empty_or_full, is_empty, is_full in E. destruct (kind a), (kind b); cbn in E; try discriminate E. split; reflexivity. }
  assert (X : (exists bd, build mix a b = Ok bd /\ Model_boolean.warnings bd = 0%N /\
      forall op prefer_first, exists r, run d0 bd op prefer_first = Ok r /\ is_result coords op a b A B r) \/
    (build mix a b = Throw RuntimeError /\
     (gives_up coords (located coords (boundary a)) (shoot coords rt rm ps tree_of (boundary a)) \/ gives_up coords (located coords (boundary b)) (shoot coords rt rm ps tree_of (boundary b))))).
  { apply boolean_of_arranged; try assumption. intros Ka Kb. destruct (Hmix Ka Kb) as (r & Hr & E). exists r. split; [ exact E | ].
    pose proof (proj1 (T a A (or_introl eq_refl) RA Ka)) as TA. pose proof (proj1 (T b B (or_intror eq_refl) RB Kb)) as TB.
    destruct RA as (_ & HA), RB as (_ & HB). unfold wf_region in Wa, Wb. rewrite Ka in Wa, HA. rewrite Kb in Wb, HB.
    refine (C50_mix_arranges _ _ _ _ _ _ _ _ _ _ _ _ _ _ _ _ _ _ A B r K Hacc Hpb Hso Hce Hnt (proj1 Wa) (proj1 Wb) HA HB TA TB Sa Sb F1 F2 (fun cf H => proj1 (Hcdt cf H)) _ Hr).
    right. intros cf m H M.
    exact (C56_delaunay_overlaps_agree _ _ _ _ _ _ _ _ _ _ _ _ _ cf m K Hnt (proj1 Wa) (proj1 Wb) (solid_proper coords _ (proj1 Wa) (proj1 HA)) (solid_proper coords _ (proj1 Wb) (proj1 HB)) Sa Sb
      (solid_no_twins coords _ (proj1 HA)) (solid_no_twins coords _ (proj1 HB)) F1 F2 H (proj1 (Hcdt cf H)) (proj2 (Hcdt cf H)) Ci M). }
  destruct X as [X | (E & G)]; [ left; exact X | right ]. destruct (Bo _ E) as (Ka & Kb). split; [ exact E | ]. split; [ exact Ka | ]. split; [ exact Kb | ].
  destruct G as [G | G].
  - destruct (proj2 (T a A (or_introl eq_refl) RA Ka) G) as (x & X). exists a, x. split; [ left; reflexivity | exact X ].
  - destruct (proj2 (T b B (or_intror eq_refl) RB Kb) G) as (x & X). exists b, x. split; [ right; reflexivity | exact X ].
Qed.
Print Assumptions C58_end_to_end.
