(** * C60: points whose side is not found are in a few planes *)
From Coq Require Import List Arith Bool NArith ZArith QArith Qminmax Lqa Lia Permutation.
From Verif Require Import Model_base Proof_base Model_soup Model_geometry Spec_candidates Model_aabb Spec_aabb Model_parallel_do Model_boolean Model_candidates Model_classify Model_local Model_corefine Model_side Model_mix Model_schedule.
From Verif Require Import Model_defects Spec_defects Model_overlap Spec_ffi Spec_overlap.
From Verif Require Import Model_find Spec_boolean Spec_radial Spec_local Spec_conform Spec_mix Spec_cut Spec_side Spec_solid Spec_corefine Spec_whole Spec_delaunay Spec_again Spec_find Spec_visible Proof_find.
From Verif Require Import Prop_corefine Prop_cut Prop_side Prop_solid Prop_conform Prop_whole Prop_schedule Prop_delaunay Prop_again Prop_find_op Prop_connected Prop_balance Prop_end Proof_lucky Proof_giveup.
From Verif Require Import Spec_corefine Spec_side Spec_solid Spec_visible Spec_lucky.
Import ListNotations.
Local Open Scope nat_scope.

(** A mesh with [n] faces has at most [3 * n * n] planes, and the side of every point that is
    in none of them is found. *)
Theorem C60_found_off_planes : forall D (m : soup vec3 D), proper_faces m ->
  exists hs : list plane, length hs <= 3 * num_faces m * num_faces m /\
  (forall h, In h hs -> is_plane h) /\
  forall inside pbox longest_axis sort_by nth_element_by ray_triangle ray_meets_box partial_sort2 t p,
  rearranges sort_by nth_element_by -> (forall x, in_box x (pbox x)) ->
  exact_intersection ray_triangle -> sound_box_test ray_meets_box -> sorts_two partial_sort2 ->
  bounds m inside -> 0 < num_faces m -> aabb_tree pbox longest_axis sort_by nth_element_by m t ->
  (forall h, In h hs -> ~ in_plane h p) ->
  exists s, side_of_triangle_soup ray_triangle ray_meets_box partial_sort2 m t p = Ok s /\
    (s = ON_BOUNDARY <-> on_boundary m p) /\
    (s = NEGATIVE_SIDE <-> ~ on_boundary m p /\ inside p) /\
    (s = POSITIVE_SIDE <-> ~ on_boundary m p /\ ~ inside p).
Proof.
  intros D m Hp. exists (planes_of m). split; [ apply planes_few | ]. split; [ intros h J; apply planes_are in J; apply J | ].
  intros inside pbox la sb ne rt rm ps t p Hre Hpb Hrt Hrm Hps Hb L Ht Hh.
  assert (Lu : lucky m p) by (intros h Hs Hi; apply Hh, planes_are; split; assumption).
  destruct (C24_gives_up_only_if_ambiguous _ _ _ _ _ _ _ _ _ _ _ p Hre Hpb Hrt Hrm Hps Hp Hb Ht) as [ (s & E) | (_ & X) ]; [ | destruct (lucky_clear D m p 0 Hp Lu (X 0 L)) ].
  exists s. split; [ exact E | ]. exact (C24_side_is_membership _ _ _ _ _ _ _ _ _ _ _ p s Hre Hpb Hrt Hrm Hps Hp Hb Ht E).
Qed.
Print Assumptions C60_found_off_planes.

(** For points in the plane of no face the criterion of C24_gives_up_only_if_ambiguous is
    exact: no choice of the tree, of the order of equal distances and so on helps. *)
Theorem C60_gives_up_iff_ambiguous : forall D (m : soup vec3 D) inside pbox longest_axis sort_by
    nth_element_by ray_triangle ray_meets_box partial_sort2 t p,
  rearranges sort_by nth_element_by -> (forall x, in_box x (pbox x)) ->
  exact_intersection ray_triangle -> sound_box_test ray_meets_box -> sorts_two partial_sort2 ->
  proper_faces m -> bounds m inside -> aabb_tree pbox longest_axis sort_by nth_element_by m t ->
  (forall fi a b c, soup_triangle m fi = Ok (a, b, c) -> ~ in_plane (a, b, c) p) ->
  (side_of_triangle_soup ray_triangle ray_meets_box partial_sort2 m t p = Throw RuntimeError <->
   forall fi, fi < num_faces m -> ambiguous m p fi).
Proof.
  intros D m inside pbox la sb ne rt rm ps t p Hre Hpb Hrt Hrm Hps Hp Hb Ht Hh. split; intro A.
  - destruct (C24_gives_up_only_if_ambiguous _ _ _ _ _ _ _ _ _ _ _ p Hre Hpb Hrt Hrm Hps Hp Hb Ht) as [ (s & E) | (_ & X) ]; [ congruence | exact X ].
  - apply (all_ambiguous_gives_up m pbox la sb ne rt rm ps Hre Hpb Hrt Hrm Hps Hp t p Ht); [ | exact Hh | exact A ].
    intros (fi & a & b & c & E & I). apply (Hh fi a b c E). unfold in_plane, height. apply Proof_affine.in_plane in I.
    unfold Proof_affine.aev, Proof_affine.through in I. cbn [Proof_affine.ak Proof_affine.ac] in I. rewrite Proof_side.vdot_vsub. Lqa.lra.
Qed.
Print Assumptions C60_gives_up_iff_ambiguous.

(** A Boolean operation on checked regions gives the right result unless a point that is
    asked for, off the surface of an operand, is in one of the planes of that operand. *)
Theorem C60_boolean_operation : forall {P D} P_eqb coords pbox longest_axis sort_by nth_element_by cll cpl (d0 : D) (a b : region P D),
  exact_kernel P_eqb coords pbox sort_by nth_element_by cll cpl ->
  checked P_eqb d0 coords pbox longest_axis sort_by nth_element_by a -> checked P_eqb d0 coords pbox longest_axis sort_by nth_element_by b ->
  exists A B, represents coords a A /\ represents coords b B /\
  forall accepts cdt_faces base1 base2 sort_around centroid pbox3 ray_triangle ray_meets_box partial_sort2 tree_of num_threads mix,
  accepts_compatible coords accepts -> plane_bases base1 base2 -> sorts sort_around -> inner_centroid coords centroid -> 1 <= num_threads ->
  (forall x, in_box x (pbox3 x)) -> exact_intersection ray_triangle -> sound_box_test ray_meets_box -> sorts_two partial_sort2 ->
  (forall r, r = a \/ r = b -> kind r = BOUNDARY_DEFINED ->
     aabb_tree pbox3 longest_axis sort_by nth_element_by (located coords (boundary r)) (tree_of (boundary r))) ->
  (forall cf, corefine P_eqb coords pbox longest_axis sort_by nth_element_by cll cpl accepts num_threads (boundary a) (boundary b) (Ok cf) ->
     cdt_constrained coords cdt_faces cf /\ cdt_delaunay coords cdt_faces cf) ->
  no_circles coords (boundary a) (boundary b) ->
  (kind a = BOUNDARY_DEFINED -> kind b = BOUNDARY_DEFINED ->
   calls_mix_scheduled P_eqb coords pbox longest_axis sort_by nth_element_by cll cpl accepts cdt_faces base1 base2 sort_around centroid
     (shoot coords ray_triangle ray_meets_box partial_sort2 tree_of) num_threads mix (boundary a) (boundary b)) ->
  (exists bd, build mix a b = Ok bd /\ Model_boolean.warnings bd = 0%N /\
     forall op prefer_first, exists r, run d0 bd op prefer_first = Ok r /\ is_result coords op a b A B r) \/
  (build mix a b = Throw RuntimeError /\
   exists r x h, (r = a \/ r = b) /\ ~ on_surface coords r (coords x) /\
     side_and_centroid (located coords (boundary r)) h /\ is_plane h /\ in_plane h (coords x)).
Proof.
  intros P D P_eqb coords pbox la sb nb cll cpl d0 a b K Ca Cb.
  destruct (C58_end_to_end P_eqb coords pbox la sb nb cll cpl d0 a b K Ca Cb) as (A & B & RA & RB & _ & _ & H).
  exists A, B. split; [ exact RA | ]. split; [ exact RB | ].
  intros accepts cdt_faces base1 base2 sa centroid pbox3 rt rm ps tree_of nt mix Hacc Hpb Hso Hce Hnt Hpb3 Hrt Hrm Hps Ht Hcdt Ci Hmix.
  destruct (H accepts cdt_faces base1 base2 sa centroid pbox3 rt rm ps tree_of nt mix Hacc Hpb Hso Hce Hnt Hpb3 Hrt Hrm Hps Ht Hcdt Ci Hmix) as [X | (E & Ka & Kb & r & x & Er & Off & Am)]; [ left; exact X | right ].
  split; [ exact E | ]. exists r, x.
  assert (X : exists S, solid (located coords (boundary r)) S /\ 0 < num_faces (boundary r)).
  { assert (G : forall (q : region P D) S, represents coords q S -> kind q = BOUNDARY_DEFINED -> solid (located coords (boundary q)) S /\ 0 < num_faces (boundary q)).
    { intros q S (W & R) Ek. rewrite Ek in R. split; [ exact R | ]. unfold wf_region in W. rewrite Ek in W. destruct W as (_ & Ne). unfold num_faces. destruct (faces (boundary q)); [ destruct (Ne eq_refl) | cbn; lia ]. }
    destruct Er as [-> | ->]; [ exists A | exists B ]; apply G; assumption. }
  destruct X as (S & So & Nf).
  destruct (find (fun h => let '(u, v, w) := h in Qeq_bool (height u v w (coords x)) 0) (planes_of (located coords (boundary r)))) as [h | ] eqn:F.
  - apply find_some in F. destruct F as (J & Z). exists h. split; [ exact Er | ]. split; [ exact Off | ]. apply planes_are in J. split; [ apply J | ]. split; [ apply J | ].
    destruct h as ((u, v), w). apply Qeq_bool_iff. exact Z.
  - exfalso. assert (Lu : lucky (located coords (boundary r)) (coords x)).
    { intros h Hs Hi Z. assert (J : In h (planes_of (located coords (boundary r)))) by (apply planes_are; split; assumption).
      pose proof (find_none _ _ F h J) as N. destruct h as ((u, v), w). apply Qeq_bool_iff in Z. cbn in N. congruence. }
    apply (lucky_clear _ _ _ 0 (proj1 So) Lu). apply Am. unfold num_faces in *. cbn [located faces]. exact Nf.
Qed.
Print Assumptions C60_boolean_operation.
