(** * C54: open meshes, clipped with a common convex region *)
From Coq Require Import List Arith NArith Bool QArith Lqa Lia Permutation.
From Verif Require Import Model_base Proof_base Model_geometry Model_soup Model_mesh Model_aabb Model_points Model_boolean Model_classify Model_local Model_candidates Model_corefine Model_side Model_mix Model_schedule.
From Verif Require Import Spec_aabb Spec_boolean Spec_candidates Spec_side Spec_radial Spec_local Spec_solid Spec_conform Spec_defects Spec_ffi Spec_corefine Spec_mix Spec_cut Spec_whole Spec_open.
From Verif Require Import Proof_mix_faces Proof_whole Proof_represents Proof_open Proof_open_op Proof_open_run Proof_open_shared Proof_side_in Prop_corefine Prop_cut Prop_side Prop_solid Prop_conform Prop_whole Prop_schedule.
Import ListNotations.
Local Open Scope nat_scope.

(** [left] and [right] are open meshes that a convex region [K] cut off: inside [K] they
    are the boundaries of the sets [A] and [B].  Mixing them gives a mesh whose faces are
    pieces of them, each with its right tag, and no warnings (see [C49_mix_arranges]). *)
Theorem C54_mix_arranges : forall {P D} K P_eqb coords pbox longest_axis sort_by nth_element_by cll cpl accepts cdt_faces
    base1 base2 sort_around centroid side_of num_threads (left right : soup P D) A B r,
  open_convex K -> exact_kernel P_eqb coords pbox sort_by nth_element_by cll cpl -> accepts_compatible coords accepts ->
  plane_bases base1 base2 -> sorts sort_around -> inner_centroid coords centroid -> 1 <= num_threads ->
  wf_soup left -> wf_soup right -> solid_in K (located coords left) A -> solid_in K (located coords right) B ->
  tells_side_in K coords (located coords left) A (side_of left) -> tells_side_in K coords (located coords right) B (side_of right) ->
  meet_inside K (located coords left) (located coords right) ->
  simplicial coords left -> simplicial coords right -> fair_edges left right -> fair_edges right left ->
  (forall cf, corefine P_eqb coords pbox longest_axis sort_by nth_element_by cll cpl accepts num_threads left right (Ok cf) ->
     cdt_constrained coords cdt_faces cf) ->
  (triangular_overlaps coords left right \/
   forall cf m, corefine P_eqb coords pbox longest_axis sort_by nth_element_by cll cpl accepts num_threads left right (Ok cf) ->
     mixed_mesh cdt_faces cf left right = Ok m -> overlaps_agree (located coords (take_soup m))) ->
  mixes P_eqb coords pbox longest_axis sort_by nth_element_by cll cpl accepts cdt_faces base1 base2 sort_around centroid side_of
    num_threads left right r ->
  (exists m, r = Ok (m, no_warnings) /\ arranged (located coords left) (located coords right) A B (located coords m)) \/
  (r = Throw RuntimeError /\
   (gives_up_in K coords (located coords left) (side_of left) \/ gives_up_in K coords (located coords right) (side_of right))).
Proof.
  intros P D K P_eqb coords pbox la sb nb cll cpl accepts cdt_faces base1 base2 sa centroid side_of nt left right A B r
    HK Ke Hacc Hpb Hso Hce Hnt Wl Wr SA SB TA TB Mi Sl Sr Ul Ur Hcdt Ov H.
  pose proof (solid_proper coords left Wl (proj1 SA)) as Pl. pose proof (solid_proper coords right Wr (proj1 SB)) as Pr.
  pose proof (solid_no_twins coords left (proj1 SA)) as Tl. pose proof (solid_no_twins coords right (proj1 SB)) as Tr.
  assert (Main : forall cf, corefine P_eqb coords pbox la sb nb cll cpl accepts nt left right (Ok cf) -> exists m border,
    mixed_mesh cdt_faces cf left right = Ok m /\ get_intersecting_edges cf = Ok border /\
    forall order order', set_elements border order -> (forall l, Permutation l (order' l)) ->
      (exists m', classified coords base1 base2 sa centroid side_of border left right m order order' = Ok (m', no_warnings) /\
        arranged (located coords left) (located coords right) A B (located coords (take_soup m'))) \/
      (classified coords base1 base2 sa centroid side_of border left right m order order' = Throw RuntimeError /\
       (gives_up_in K coords (located coords left) (side_of left) \/ gives_up_in K coords (located coords right) (side_of right)))).
  { intros cf Hc. destruct (mixed_conforming_shared _ _ _ _ _ _ _ _ _ _ _ _ _ _ Ke (Hcdt cf Hc) Hnt Wl Wr Pl Pr Sl Sr Tl Tr Ul Ur Hc) as (fs & ds & border & Em & Eb & Bs & Cf).
    destruct Cf as (Co & St).
    { destruct Ov as [Ov | Ov]; [ left; exact Ov | right ]. specialize (Ov cf _ Hc Em). rewrite take_finalize in Ov. exact Ov. }
    exists (finalize (mesh_of (cf_points cf) fs ds)), border. split; [ exact Em | ]. split; [ exact Eb | ]. intros order order' Ho Hp.
    destruct (open_truth K coords base1 base2 sa centroid side_of left right A B (cf_points cf) fs ds border order HK Hpb Hso Hce SA SB TA TB Co (St A B)
      (shared_inside _ _ _ _ _ _ K SA SB Co Mi Bs) Ho) as (truth & X & _).
    destruct (X order' Hp) as [ (m' & E & _ & _ & _ & _ & Ar) | Y ]; [ left; exists m'; auto | right; exact Y ]. }
  destruct H as [cf m0 border order order' m' w H M Eb Ho Hp Hc | cf r H F | cf r H F | cf m0 r H M F | cf m0 border order order' r H M Eb Ho Hp F].
  - destruct (Main cf H) as (m1 & border1 & M1 & B1 & X). rewrite M in M1. injection M1 as <-. rewrite Eb in B1. injection B1 as <-.
    destruct (X order order' Ho Hp) as [ (m2 & E & Ar) | (E & _) ]; [ | congruence ]. rewrite Hc in E. injection E as -> ->. left. exists (take_soup m2). auto.
  - destruct (C38_never_fails _ _ _ _ _ _ _ _ _ _ _ _ _ Ke Hacc Hnt Pl Pr Sl Sr Tl Tr H) as (c & ->). destruct F.
  - destruct (Main cf H) as (m1 & border1 & M1 & _). rewrite M1 in F. destruct F.
  - destruct (Main cf H) as (m1 & border1 & _ & B1 & _). rewrite B1 in F. destruct F.
  - destruct (Main cf H) as (m1 & border1 & M1 & B1 & X). rewrite M in M1. injection M1 as <-. rewrite Eb in B1. injection B1 as <-.
    destruct (X order order' Ho Hp) as [ (m2 & E & _) | (E & G) ]; rewrite E in F; [ destruct F | ]. cbn in F. right. split; [ exact F | exact G ].
Qed.
Print Assumptions C54_mix_arranges.

(** Some execution of it exists. *)
Theorem C54_mix_ends : forall {P D} K P_eqb coords pbox longest_axis sort_by nth_element_by cll cpl accepts cdt_faces
    base1 base2 sort_around centroid side_of num_threads (left right : soup P D) A B,
  open_convex K -> exact_kernel P_eqb coords pbox sort_by nth_element_by cll cpl -> accepts_compatible coords accepts ->
  plane_bases base1 base2 -> sorts sort_around -> inner_centroid coords centroid -> 1 <= num_threads ->
  wf_soup left -> wf_soup right -> solid_in K (located coords left) A -> solid_in K (located coords right) B ->
  tells_side_in K coords (located coords left) A (side_of left) -> tells_side_in K coords (located coords right) B (side_of right) ->
  meet_inside K (located coords left) (located coords right) ->
  simplicial coords left -> simplicial coords right -> fair_edges left right -> fair_edges right left ->
  (forall cf, corefine P_eqb coords pbox longest_axis sort_by nth_element_by cll cpl accepts num_threads left right (Ok cf) ->
     cdt_constrained coords cdt_faces cf) ->
  triangular_overlaps coords left right ->
  exists r, mixes P_eqb coords pbox longest_axis sort_by nth_element_by cll cpl accepts cdt_faces base1 base2 sort_around centroid side_of
    num_threads left right r.
Proof.
  intros P D K P_eqb coords pbox la sb nb cll cpl accepts cdt_faces base1 base2 sa centroid side_of nt left right A B
    HK Ke Hacc Hpb Hso Hce Hnt Wl Wr SA SB TA TB Mi Sl Sr Ul Ur Hcdt Ov.
  pose proof (solid_proper coords left Wl (proj1 SA)) as Pl. pose proof (solid_proper coords right Wr (proj1 SB)) as Pr.
  pose proof (solid_no_twins coords left (proj1 SA)) as Tl. pose proof (solid_no_twins coords right (proj1 SB)) as Tr.
  destruct (C38_returns P_eqb coords pbox la sb nb cll cpl accepts nt left right Ke Hacc Hnt Pl Pr Sl Sr Tl Tr) as (cf & Hc).
  destruct (mixed_conforming_shared _ _ _ _ _ _ _ _ _ _ _ _ _ _ Ke (Hcdt cf Hc) Hnt Wl Wr Pl Pr Sl Sr Tl Tr Ul Ur Hc) as (fs & ds & border & Em & Eb & Bs & Cf).
  destruct (Cf (or_introl Ov)) as (Co & St). destruct (set_of_list border) as (order & Ho).
  destruct (open_truth K coords base1 base2 sa centroid side_of left right A B (cf_points cf) fs ds border order HK Hpb Hso Hce SA SB TA TB Co (St A B)
    (shared_inside _ _ _ _ _ _ K SA SB Co Mi Bs) Ho) as (truth & X & _).
  destruct (X (fun l => l) (fun l => Permutation_refl l)) as [ (m' & E & _) | (E & _) ].
  - exists (Ok (take_soup m', no_warnings)). econstructor; try eassumption. intro l. apply Permutation_refl.
  - exists (Throw RuntimeError). eapply mixes_classify; try eassumption; [ intro l; apply Permutation_refl | ]. rewrite E. reflexivity.
Qed.
Print Assumptions C54_mix_ends.

(** Every Boolean operation on regions that stand for [A] and [B] inside [K] gives a
    region that stands inside [K] for the set that the operation denotes, and no
    warnings. *)
Theorem C54_boolean_operation : forall {P D} K P_eqb coords pbox longest_axis sort_by nth_element_by cll cpl accepts cdt_faces
    base1 base2 sort_around centroid side_of num_threads (d0 : D) mix (a b : region P D) A B,
  open_convex K -> exact_kernel P_eqb coords pbox sort_by nth_element_by cll cpl -> accepts_compatible coords accepts ->
  plane_bases base1 base2 -> sorts sort_around -> inner_centroid coords centroid -> 1 <= num_threads ->
  represents_in K coords a A -> represents_in K coords b B ->
  (kind a = BOUNDARY_DEFINED -> tells_side_in K coords (located coords (boundary a)) A (side_of (boundary a))) ->
  (kind b = BOUNDARY_DEFINED -> tells_side_in K coords (located coords (boundary b)) B (side_of (boundary b))) ->
  meet_inside K (located coords (boundary a)) (located coords (boundary b)) ->
  simplicial coords (boundary a) -> simplicial coords (boundary b) -> fair_edges (boundary a) (boundary b) -> fair_edges (boundary b) (boundary a) ->
  (forall cf, corefine P_eqb coords pbox longest_axis sort_by nth_element_by cll cpl accepts num_threads (boundary a) (boundary b) (Ok cf) ->
     cdt_constrained coords cdt_faces cf) ->
  (triangular_overlaps coords (boundary a) (boundary b) \/
   forall cf m, corefine P_eqb coords pbox longest_axis sort_by nth_element_by cll cpl accepts num_threads (boundary a) (boundary b) (Ok cf) ->
     mixed_mesh cdt_faces cf (boundary a) (boundary b) = Ok m -> overlaps_agree (located coords (take_soup m))) ->
  (kind a = BOUNDARY_DEFINED -> kind b = BOUNDARY_DEFINED ->
   calls_mix P_eqb coords pbox longest_axis sort_by nth_element_by cll cpl accepts cdt_faces base1 base2 sort_around centroid side_of
     num_threads mix (boundary a) (boundary b)) ->
  (exists bd, build mix a b = Ok bd /\ Model_boolean.warnings bd = 0%N /\
     forall op prefer_first, exists r, run d0 bd op prefer_first = Ok r /\ is_result_in K coords op a b A B r) \/
  (build mix a b = Throw RuntimeError /\
   (gives_up_in K coords (located coords (boundary a)) (side_of (boundary a)) \/ gives_up_in K coords (located coords (boundary b)) (side_of (boundary b)))).
Proof.
  intros P D K P_eqb coords pbox la sb nb cll cpl accepts cdt_faces base1 base2 sa centroid side_of nt d0 mix a b A B
    HK Ke Hacc Hpb Hso Hce Hnt RA RB TA TB Mi Sa Sb Ua Ub Hcdt Ov Hmix.
  apply boolean_in; try assumption. intros Ka Kb. destruct (Hmix Ka Kb) as (r & Hr & E). exists r. split; [ exact E | ].
  destruct RA as (Wa & HA), RB as (Wb & HB). unfold wf_region in Wa, Wb. rewrite Ka in Wa, HA. rewrite Kb in Wb, HB.
  exact (C54_mix_arranges K _ _ _ _ _ _ _ _ _ _ _ _ _ _ _ _ _ _ A B r HK Ke Hacc Hpb Hso Hce Hnt (proj1 Wa) (proj1 Wb) HA HB (TA Ka) (TB Kb) Mi Sa Sb Ua Ub Hcdt Ov Hr).
Qed.
Print Assumptions C54_boolean_operation.

(** ** With the side of a point found by shooting rays *)

Lemma shoot_tells_in : forall {P D} K (coords : P -> vec3) pbox longest_axis sort_by nth_element_by ray_triangle ray_meets_box partial_sort2
    (tree_of : soup P D -> tree (box * nat)) (m : soup P D) A,
  open_convex K -> rearranges sort_by nth_element_by -> (forall x, in_box x (pbox x)) ->
  exact_intersection ray_triangle -> sound_box_test ray_meets_box -> sorts_two partial_sort2 ->
  solid_in K (located coords m) A -> aabb_tree pbox longest_axis sort_by nth_element_by (located coords m) (tree_of m) ->
  tells_side_in K coords (located coords m) A (shoot coords ray_triangle ray_meets_box partial_sort2 tree_of m) /\
  (gives_up_in K coords (located coords m) (shoot coords ray_triangle ray_meets_box partial_sort2 tree_of m) ->
   exists x, K (coords x) /\ ~ on_boundary (located coords m) (coords x) /\ all_ambiguous (located coords m) (coords x)).
Proof.
  intros P D K coords pbox la sb nb rt rm ps tree_of m A HK Hre Hpb Hrt Hrm Hps (Hp & Hb & _ & Hi) Ht. unfold shoot. split.
  - intros x Kx Off. destruct (gives_up_ambiguous _ _ _ _ _ _ _ _ _ _ Hre Hpb Hrt Hrm Hps HK Hp Hb Hi _ (coords x) Ht Kx) as [ (s & E) | (E & _) ]; [ right | left; exact E ].
    destruct (side_in _ _ _ _ _ _ _ _ _ _ Hre Hpb Hrt Hrm Hps HK Hp Hb Hi _ (coords x) Ht Kx s E) as (A1 & A2 & A3). rewrite E.
    split; intro Z; f_equal; [ apply A2 | apply A3 ]; auto.
  - intros (x & Kx & Off & E). exists x. split; [ exact Kx | ]. split; [ exact Off | ].
    destruct (gives_up_ambiguous _ _ _ _ _ _ _ _ _ _ Hre Hpb Hrt Hrm Hps HK Hp Hb Hi _ (coords x) Ht Kx) as [ (s & E') | (_ & X) ]; [ congruence | exact X ].
Qed.

Theorem C54_boolean_operation_with_rays : forall {P D} K P_eqb coords pbox longest_axis sort_by nth_element_by cll cpl accepts cdt_faces
    base1 base2 sort_around centroid pbox3 ray_triangle ray_meets_box partial_sort2 tree_of num_threads (d0 : D) mix (a b : region P D) A B,
  open_convex K -> exact_kernel P_eqb coords pbox sort_by nth_element_by cll cpl -> accepts_compatible coords accepts ->
  plane_bases base1 base2 -> sorts sort_around -> inner_centroid coords centroid -> 1 <= num_threads ->
  (forall x, in_box x (pbox3 x)) -> exact_intersection ray_triangle -> sound_box_test ray_meets_box -> sorts_two partial_sort2 ->
  represents_in K coords a A -> represents_in K coords b B ->
  (forall r, r = a \/ r = b -> kind r = BOUNDARY_DEFINED ->
     aabb_tree pbox3 longest_axis sort_by nth_element_by (located coords (boundary r)) (tree_of (boundary r))) ->
  meet_inside K (located coords (boundary a)) (located coords (boundary b)) ->
  simplicial coords (boundary a) -> simplicial coords (boundary b) -> fair_edges (boundary a) (boundary b) -> fair_edges (boundary b) (boundary a) ->
  (forall cf, corefine P_eqb coords pbox longest_axis sort_by nth_element_by cll cpl accepts num_threads (boundary a) (boundary b) (Ok cf) ->
     cdt_constrained coords cdt_faces cf) ->
  (triangular_overlaps coords (boundary a) (boundary b) \/
   forall cf m, corefine P_eqb coords pbox longest_axis sort_by nth_element_by cll cpl accepts num_threads (boundary a) (boundary b) (Ok cf) ->
     mixed_mesh cdt_faces cf (boundary a) (boundary b) = Ok m -> overlaps_agree (located coords (take_soup m))) ->
  (kind a = BOUNDARY_DEFINED -> kind b = BOUNDARY_DEFINED ->
   calls_mix P_eqb coords pbox longest_axis sort_by nth_element_by cll cpl accepts cdt_faces base1 base2 sort_around centroid
     (shoot coords ray_triangle ray_meets_box partial_sort2 tree_of) num_threads mix (boundary a) (boundary b)) ->
  (exists bd, build mix a b = Ok bd /\ Model_boolean.warnings bd = 0%N /\
     forall op prefer_first, exists r, run d0 bd op prefer_first = Ok r /\ is_result_in K coords op a b A B r) \/
  (build mix a b = Throw RuntimeError /\
   exists r x, (r = a \/ r = b) /\ K (coords x) /\ ~ on_surface coords r (coords x) /\ all_ambiguous (located coords (boundary r)) (coords x)).
Proof.
  intros P D K P_eqb coords pbox la sb nb cll cpl accepts cdt_faces base1 base2 sa centroid pbox3 rt rm ps tree_of nt d0 mix a b A B
    HK Ke Hacc Hpb Hso Hce Hnt Hpb3 Hrt Hrm Hps RA RB Ht Mi Sa Sb Ua Ub Hcdt Ov Hmix.
  assert (T : forall r S, r = a \/ r = b -> represents_in K coords r S -> kind r = BOUNDARY_DEFINED ->
    tells_side_in K coords (located coords (boundary r)) S (shoot coords rt rm ps tree_of (boundary r)) /\
    (gives_up_in K coords (located coords (boundary r)) (shoot coords rt rm ps tree_of (boundary r)) ->
     exists x, K (coords x) /\ ~ on_boundary (located coords (boundary r)) (coords x) /\ all_ambiguous (located coords (boundary r)) (coords x))).
  { intros r S Er (_ & Rp) Ek. rewrite Ek in Rp. apply (shoot_tells_in K coords pbox3 la sb nb); auto. exact (ek_sort _ _ _ _ _ _ _ Ke). }
  assert (Em : forall r S, represents_in K coords r S -> kind r <> BOUNDARY_DEFINED -> gives_up_in K coords (located coords (boundary r)) (shoot coords rt rm ps tree_of (boundary r)) ->
     exists x, K (coords x) /\ ~ on_boundary (located coords (boundary r)) (coords x) /\ all_ambiguous (located coords (boundary r)) (coords x)).
  { intros r S (W & _) Ek (x & Kx & Off & _). exists x. split; [ exact Kx | ]. split; [ exact Off | ]. unfold wf_region in W. intros fi Hfi. exfalso. destruct (kind r); try (rewrite W in Hfi; cbn in Hfi; lia). contradiction. }
  destruct (C54_boolean_operation K P_eqb coords pbox la sb nb cll cpl accepts cdt_faces base1 base2 sa centroid (shoot coords rt rm ps tree_of) nt d0 mix a b A B) as [ X | (E & G) ]; auto.
  - intro Ek. apply (T a A); auto.
  - intro Ek. apply (T b B); auto.
  - right. split; [ exact E | ]. destruct G as [G | G].
    + assert (X : exists x, K (coords x) /\ ~ on_boundary (located coords (boundary a)) (coords x) /\ all_ambiguous (located coords (boundary a)) (coords x)).
      { destruct (kind a) eqn:Ek; [ apply (Em a A) | apply (Em a A) | apply (T a A) ]; auto; congruence. }
      destruct X as (x & X). exists a, x. split; [ auto | exact X ].
    + assert (X : exists x, K (coords x) /\ ~ on_boundary (located coords (boundary b)) (coords x) /\ all_ambiguous (located coords (boundary b)) (coords x)).
      { destruct (kind b) eqn:Ek; [ apply (Em b B) | apply (Em b B) | apply (T b B) ]; auto; congruence. }
      destruct X as (x & X). exists b, x. split; [ auto | exact X ].
Qed.
Print Assumptions C54_boolean_operation_with_rays.

(** ** With threads that overlap in any way *)

Theorem C54_mix_arranges_scheduled : forall {P D} K P_eqb coords pbox longest_axis sort_by nth_element_by cll cpl accepts cdt_faces
    base1 base2 sort_around centroid side_of num_threads (left right : soup P D) A B r,
  open_convex K -> exact_kernel P_eqb coords pbox sort_by nth_element_by cll cpl -> accepts_compatible coords accepts ->
  plane_bases base1 base2 -> sorts sort_around -> inner_centroid coords centroid -> 1 <= num_threads ->
  wf_soup left -> wf_soup right -> solid_in K (located coords left) A -> solid_in K (located coords right) B ->
  tells_side_in K coords (located coords left) A (side_of left) -> tells_side_in K coords (located coords right) B (side_of right) ->
  meet_inside K (located coords left) (located coords right) ->
  simplicial coords left -> simplicial coords right -> fair_edges left right -> fair_edges right left ->
  (forall cf, corefine P_eqb coords pbox longest_axis sort_by nth_element_by cll cpl accepts num_threads left right (Ok cf) ->
     cdt_constrained coords cdt_faces cf) ->
  (triangular_overlaps coords left right \/
   forall cf m, corefine P_eqb coords pbox longest_axis sort_by nth_element_by cll cpl accepts num_threads left right (Ok cf) ->
     mixed_mesh cdt_faces cf left right = Ok m -> overlaps_agree (located coords (take_soup m))) ->
  mixes_scheduled P_eqb coords pbox longest_axis sort_by nth_element_by cll cpl accepts cdt_faces base1 base2 sort_around centroid side_of
    num_threads left right r ->
  (exists m, r = Ok (m, no_warnings) /\ arranged (located coords left) (located coords right) A B (located coords m)) \/
  (r = Throw RuntimeError /\
   (gives_up_in K coords (located coords left) (side_of left) \/ gives_up_in K coords (located coords right) (side_of right))).
Proof.
  intros P D K P_eqb coords pbox la sb nb cll cpl accepts cdt_faces base1 base2 sa centroid side_of nt left right A B r
    HK Ke Hacc Hpb Hso Hce Hnt Wl Wr SA SB TA TB Mi Sl Sr Ul Ur Hcdt Ov H.
  pose proof (solid_proper coords left Wl (proj1 SA)) as Pl. pose proof (solid_proper coords right Wr (proj1 SB)) as Pr.
  pose proof (solid_no_twins coords left (proj1 SA)) as Tl. pose proof (solid_no_twins coords right (proj1 SB)) as Tr.
  assert (Main : forall cf, corefine P_eqb coords pbox la sb nb cll cpl accepts nt left right (Ok cf) -> exists m border,
    mixed_mesh cdt_faces cf left right = Ok m /\ get_intersecting_edges cf = Ok border /\
    forall order o, set_elements border order -> classifies coords base1 base2 sa centroid side_of border left right m order o ->
      (exists m', o = Ok (m', no_warnings) /\
        arranged (located coords left) (located coords right) A B (located coords (take_soup m'))) \/
      (o = Throw RuntimeError /\
       (gives_up_in K coords (located coords left) (side_of left) \/ gives_up_in K coords (located coords right) (side_of right)))).
  { intros cf Hc. destruct (mixed_conforming_shared _ _ _ _ _ _ _ _ _ _ _ _ _ _ Ke (Hcdt cf Hc) Hnt Wl Wr Pl Pr Sl Sr Tl Tr Ul Ur Hc) as (fs & ds & border & Em & Eb & Bs & Cf).
    destruct Cf as (Co & St).
    { destruct Ov as [Ov | Ov]; [ left; exact Ov | right ]. specialize (Ov cf _ Hc Em). rewrite take_finalize in Ov. exact Ov. }
    exists (finalize (mesh_of (cf_points cf) fs ds)), border. split; [ exact Em | ]. split; [ exact Eb | ]. intros order o Ho Hcl.
    destruct (open_truth K coords base1 base2 sa centroid side_of left right A B (cf_points cf) fs ds border order HK Hpb Hso Hce SA SB TA TB Co (St A B)
      (shared_inside _ _ _ _ _ _ K SA SB Co Mi Bs) Ho) as (truth & _ & _ & X).
    destruct (X o Hcl) as [ (m' & E & _ & _ & _ & _ & Ar) | Y ]; [ left; exists m'; auto | right; exact Y ]. }
  destruct H as [ cf m0 border order m' w H M Eb Ho Hc | cf r H F | cf r H F | cf m0 r H M F | cf m0 border order o r H M Eb Ho Hc F ].
  - destruct (Main cf H) as (m1 & border1 & M1 & B1 & X). rewrite M in M1. injection M1 as <-. rewrite Eb in B1. injection B1 as <-.
    destruct (X order _ Ho Hc) as [ (m2 & E & Ar) | (E & _) ]; [ | discriminate ]. injection E as -> ->. left. exists (take_soup m2). auto.
  - destruct (C38_never_fails _ _ _ _ _ _ _ _ _ _ _ _ _ Ke Hacc Hnt Pl Pr Sl Sr Tl Tr H) as (c & ->). destruct F.
  - destruct (Main cf H) as (m1 & border1 & M1 & _). rewrite M1 in F. destruct F.
  - destruct (Main cf H) as (m1 & border1 & _ & B1 & _). rewrite B1 in F. destruct F.
  - destruct (Main cf H) as (m1 & border1 & M1 & B1 & X). rewrite M in M1. injection M1 as <-. rewrite Eb in B1. injection B1 as <-.
    destruct (X order _ Ho Hc) as [ (m2 & -> & _) | (-> & G) ]; [ destruct F | ]. cbn in F. right. split; [ exact F | exact G ].
Qed.
Print Assumptions C54_mix_arranges_scheduled.

(** C54_boolean_operation for every schedule of the threads of classification. *)
Theorem C54_boolean_operation_scheduled : forall {P D} K P_eqb coords pbox longest_axis sort_by nth_element_by cll cpl accepts cdt_faces
    base1 base2 sort_around centroid side_of num_threads (d0 : D) mix (a b : region P D) A B,
  open_convex K -> exact_kernel P_eqb coords pbox sort_by nth_element_by cll cpl -> accepts_compatible coords accepts ->
  plane_bases base1 base2 -> sorts sort_around -> inner_centroid coords centroid -> 1 <= num_threads ->
  represents_in K coords a A -> represents_in K coords b B ->
  (kind a = BOUNDARY_DEFINED -> tells_side_in K coords (located coords (boundary a)) A (side_of (boundary a))) ->
  (kind b = BOUNDARY_DEFINED -> tells_side_in K coords (located coords (boundary b)) B (side_of (boundary b))) ->
  meet_inside K (located coords (boundary a)) (located coords (boundary b)) ->
  simplicial coords (boundary a) -> simplicial coords (boundary b) -> fair_edges (boundary a) (boundary b) -> fair_edges (boundary b) (boundary a) ->
  (forall cf, corefine P_eqb coords pbox longest_axis sort_by nth_element_by cll cpl accepts num_threads (boundary a) (boundary b) (Ok cf) ->
     cdt_constrained coords cdt_faces cf) ->
  (triangular_overlaps coords (boundary a) (boundary b) \/
   forall cf m, corefine P_eqb coords pbox longest_axis sort_by nth_element_by cll cpl accepts num_threads (boundary a) (boundary b) (Ok cf) ->
     mixed_mesh cdt_faces cf (boundary a) (boundary b) = Ok m -> overlaps_agree (located coords (take_soup m))) ->
  (kind a = BOUNDARY_DEFINED -> kind b = BOUNDARY_DEFINED ->
   calls_mix_scheduled P_eqb coords pbox longest_axis sort_by nth_element_by cll cpl accepts cdt_faces base1 base2 sort_around centroid side_of
     num_threads mix (boundary a) (boundary b)) ->
  (exists bd, build mix a b = Ok bd /\ Model_boolean.warnings bd = 0%N /\
     forall op prefer_first, exists r, run d0 bd op prefer_first = Ok r /\ is_result_in K coords op a b A B r) \/
  (build mix a b = Throw RuntimeError /\
   (gives_up_in K coords (located coords (boundary a)) (side_of (boundary a)) \/ gives_up_in K coords (located coords (boundary b)) (side_of (boundary b)))).
Proof.
  intros P D K P_eqb coords pbox la sb nb cll cpl accepts cdt_faces base1 base2 sa centroid side_of nt d0 mix a b A B
    HK Ke Hacc Hpb Hso Hce Hnt RA RB TA TB Mi Sa Sb Ua Ub Hcdt Ov Hmix.
  apply boolean_in; try assumption. intros Ka Kb. destruct (Hmix Ka Kb) as (r & Hr & E). exists r. split; [ exact E | ].
  destruct RA as (Wa & HA), RB as (Wb & HB). unfold wf_region in Wa, Wb. rewrite Ka in Wa, HA. rewrite Kb in Wb, HB.
  exact (C54_mix_arranges_scheduled K _ _ _ _ _ _ _ _ _ _ _ _ _ _ _ _ _ _ A B r HK Ke Hacc Hpb Hso Hce Hnt (proj1 Wa) (proj1 Wb) HA HB (TA Ka) (TB Kb) Mi Sa Sb Ua Ub Hcdt Ov Hr).
Qed.
Print Assumptions C54_boolean_operation_scheduled.

(** ** The side of a point *)

(** For a point of [K] the answer of side_of_triangle_soup is membership, whichever ray decides (see C24). *)
Theorem C54_side_is_membership : forall D K (m : soup vec3 D) A pbox longest_axis sort_by nth_element_by
    ray_triangle ray_meets_box partial_sort2 t p s,
  open_convex K -> rearranges sort_by nth_element_by -> (forall x, in_box x (pbox x)) ->
  exact_intersection ray_triangle -> sound_box_test ray_meets_box -> sorts_two partial_sort2 ->
  solid_in K m A -> aabb_tree pbox longest_axis sort_by nth_element_by m t -> K p ->
  side_of_triangle_soup ray_triangle ray_meets_box partial_sort2 m t p = Ok s ->
  (s = ON_BOUNDARY <-> on_boundary m p) /\
  (s = NEGATIVE_SIDE <-> ~ on_boundary m p /\ A p) /\
  (s = POSITIVE_SIDE <-> ~ on_boundary m p /\ ~ A p).
Proof.
  intros D K m A pbox la sb nb rt rm ps t p s HK Hre Hpb Hrt Hrm Hps (Hp & Hb & _ & Hi) Ht Kp Hs.
  exact (side_in _ _ _ _ _ _ _ _ _ _ Hre Hpb Hrt Hrm Hps HK Hp Hb Hi _ p Ht Kp s Hs).
Qed.
Print Assumptions C54_side_is_membership.

(** A closed mesh inside [K] is a special case, so open and closed meshes can be mixed. *)
Theorem C54_closed_meshes_inside : forall {P D} (K : vec3 -> Prop) (coords : P -> vec3) (r : region P D) A,
  represents coords r A ->
  (forall fi a b c q, soup_triangle (located coords (boundary r)) fi = Ok (a, b, c) -> in_open_triangle q a b c -> K q) ->
  represents_in K coords r A.
Proof.
  intros P D K coords r A (W & H) Hi. split; [ exact W | ]. destruct (kind r); [ intros x _; apply H | intros x _; apply H | ].
  destruct H as (Hp & [Hw Hf] & Hd). split; [ exact Hp | ]. split; [ split; [ intros x y _ _; apply Hw | exact Hf ] | ]. split; [ intros x _; apply Hd | exact Hi ].
Qed.
Print Assumptions C54_closed_meshes_inside.
