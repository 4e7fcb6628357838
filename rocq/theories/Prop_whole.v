(** * C49: the Boolean operations compute the sets of points that they denote *)
From Coq Require Import List Arith NArith Bool QArith Lqa Lia Permutation.
From Verif Require Import Model_base Proof_base Model_geometry Model_soup Model_mesh Model_aabb Model_points Model_boolean Model_classify Model_local Model_candidates Model_corefine Model_side Model_mix.
From Verif Require Import Spec_aabb Spec_boolean Spec_candidates Spec_side Spec_radial Spec_local Spec_solid Spec_conform Spec_defects Spec_ffi Spec_corefine Spec_mix Spec_cut Spec_whole Spec_open.
From Verif Require Import Proof_mix_faces Proof_whole Proof_represents Proof_open Proof_open_op Prop_corefine Prop_cut Prop_side Prop_solid Prop_conform.
Import ListNotations.
Local Open Scope nat_scope.

Lemma take_finalize : forall {P D} pts fs (ds : list (mixed_data D)), take_soup (finalize (mesh_of pts fs ds)) = @mk_soup P _ pts fs ds.
Proof.
  intros. unfold take_soup. destruct (Proof_mix_faces.finalize_parts (mesh_of pts fs ds)) as (-> & -> & ->). reflexivity.
Qed.
Lemma set_of_list : forall (border : list edge), exists order, set_elements border order.
Proof.
  assert (Dec : forall a b : edge, {a = b} + {a <> b}) by (intros [a b] [c d]; destruct (Nat.eq_dec a c), (Nat.eq_dec b d); [ left; congruence | right; congruence .. ]).
  intro border. exists (nodup Dec border). split; [ apply NoDup_nodup | intro e; apply nodup_In ].
Qed.

(** [left] and [right] are the boundaries of the solids [A] and [B].  Mixing them (cutting
    them along their intersection, triangulating the pieces, and classifying these)
    gives a mesh whose faces are pieces of the boundaries, each with its right tag, and no
    warnings.  It throws only when the search for the side of a point gives up. *)
Theorem C49_mix_arranges : forall {P D} P_eqb coords pbox longest_axis sort_by nth_element_by cll cpl accepts cdt_faces
    base1 base2 sort_around centroid side_of num_threads (left right : soup P D) A B r,
  exact_kernel P_eqb coords pbox sort_by nth_element_by cll cpl -> accepts_compatible coords accepts ->
  plane_bases base1 base2 -> sorts sort_around -> inner_centroid coords centroid -> 1 <= num_threads ->
  wf_soup left -> wf_soup right -> solid (located coords left) A -> solid (located coords right) B ->
  tells_side coords (located coords left) A (side_of left) -> tells_side coords (located coords right) B (side_of right) ->
  simplicial coords left -> simplicial coords right -> fair_edges left right -> fair_edges right left ->
  (forall cf, corefine P_eqb coords pbox longest_axis sort_by nth_element_by cll cpl accepts num_threads left right (Ok cf) ->
     cdt_constrained coords cdt_faces cf) ->
  (triangular_overlaps coords left right \/
   forall cf m, corefine P_eqb coords pbox longest_axis sort_by nth_element_by cll cpl accepts num_threads left right (Ok cf) ->
     mixed_mesh cdt_faces cf left right = Ok m -> overlaps_agree (located coords (take_soup m))) ->
  mixes P_eqb coords pbox longest_axis sort_by nth_element_by cll cpl accepts cdt_faces base1 base2 sort_around centroid side_of
    num_threads left right r ->
  (exists m, r = Ok (m, no_warnings) /\ arranged (located coords left) (located coords right) A B (located coords m)) \/
  (r = Throw RuntimeError /\
   (gives_up coords (located coords left) (side_of left) \/ gives_up coords (located coords right) (side_of right))).
Proof.
  intros P D P_eqb coords pbox la sb nb cll cpl accepts cdt_faces base1 base2 sa centroid side_of nt left right A B r
    K Hacc Hpb Hso Hce Hnt Wl Wr SA SB TA TB Sl Sr Ul Ur Hcdt Ov H.
  pose proof (solid_proper coords left Wl (proj1 SA)) as Pl. pose proof (solid_proper coords right Wr (proj1 SB)) as Pr.
  pose proof (solid_no_twins coords left (proj1 SA)) as Tl. pose proof (solid_no_twins coords right (proj1 SB)) as Tr.
  assert (Main : forall cf, corefine P_eqb coords pbox la sb nb cll cpl accepts nt left right (Ok cf) -> exists m border,
    mixed_mesh cdt_faces cf left right = Ok m /\ get_intersecting_edges cf = Ok border /\
    forall order order', set_elements border order -> (forall l, Permutation l (order' l)) ->
      (exists m', classified coords base1 base2 sa centroid side_of border left right m order order' = Ok (m', no_warnings) /\
        arranged (located coords left) (located coords right) A B (located coords (take_soup m'))) \/
      (classified coords base1 base2 sa centroid side_of border left right m order order' = Throw RuntimeError /\
       (gives_up coords (located coords left) (side_of left) \/ gives_up coords (located coords right) (side_of right)))).
  { intros cf Hc. destruct (mixed_conforming _ _ _ _ _ _ _ _ _ _ _ _ _ _ K (Hcdt cf Hc) Hnt Wl Wr Pl Pr Sl Sr Tl Tr Ul Ur Hc) as (fs & ds & border & Em & Eb & Cf).
    destruct Cf as (Co & St).
    { destruct Ov as [Ov | Ov]; [ left; exact Ov | right ]. specialize (Ov cf _ Hc Em). rewrite take_finalize in Ov. exact Ov. }
    exists (finalize (mesh_of (cf_points cf) fs ds)), border. split; [ exact Em | ]. split; [ exact Eb | ]. intros order order' Ho Hp.
    destruct (C48_classification_is_right P D coords base1 base2 sa centroid side_of left right A B (cf_points cf) fs ds border order order' Hpb Hso Hce SA SB TA TB Co (St A B) Ho Hp)
      as [ (m' & E & _ & _ & _ & Ar) | X ]; [ left; exists m'; auto | right; exact X ]. }
  destruct H as [cf m0 border order order' m' w H M Eb Ho Hp Hc | cf r H F | cf r H F | cf m0 r H M F | cf m0 border order order' r H M Eb Ho Hp F].
  - destruct (Main cf H) as (m1 & border1 & M1 & B1 & X). rewrite M in M1. injection M1 as <-. rewrite Eb in B1. injection B1 as <-.
    destruct (X order order' Ho Hp) as [ (m2 & E & Ar) | (E & _) ]; [ | congruence ]. rewrite Hc in E. injection E as -> ->. left. exists (take_soup m2). auto.
  - destruct (C38_never_fails _ _ _ _ _ _ _ _ _ _ _ _ _ K Hacc Hnt Pl Pr Sl Sr Tl Tr H) as (c & ->). destruct F.
  - destruct (Main cf H) as (m1 & border1 & M1 & _). rewrite M1 in F. destruct F.
  - destruct (Main cf H) as (m1 & border1 & _ & B1 & _). rewrite B1 in F. destruct F.
  - destruct (Main cf H) as (m1 & border1 & M1 & B1 & X). rewrite M in M1. injection M1 as <-. rewrite Eb in B1. injection B1 as <-.
    destruct (X order order' Ho Hp) as [ (m2 & E & _) | (E & G) ]; rewrite E in F; [ destruct F | ]. cbn in F. right. split; [ exact F | exact G ].
Qed.
Print Assumptions C49_mix_arranges.

(** Some execution of it exists. *)
Theorem C49_mix_ends : forall {P D} P_eqb coords pbox longest_axis sort_by nth_element_by cll cpl accepts cdt_faces
    base1 base2 sort_around centroid side_of num_threads (left right : soup P D) A B,
  exact_kernel P_eqb coords pbox sort_by nth_element_by cll cpl -> accepts_compatible coords accepts ->
  plane_bases base1 base2 -> sorts sort_around -> inner_centroid coords centroid -> 1 <= num_threads ->
  wf_soup left -> wf_soup right -> solid (located coords left) A -> solid (located coords right) B ->
  tells_side coords (located coords left) A (side_of left) -> tells_side coords (located coords right) B (side_of right) ->
  simplicial coords left -> simplicial coords right -> fair_edges left right -> fair_edges right left ->
  (forall cf, corefine P_eqb coords pbox longest_axis sort_by nth_element_by cll cpl accepts num_threads left right (Ok cf) ->
     cdt_constrained coords cdt_faces cf) ->
  triangular_overlaps coords left right ->
  exists r, mixes P_eqb coords pbox longest_axis sort_by nth_element_by cll cpl accepts cdt_faces base1 base2 sort_around centroid side_of
    num_threads left right r.
Proof.
  intros P D P_eqb coords pbox la sb nb cll cpl accepts cdt_faces base1 base2 sa centroid side_of nt left right A B
    K Hacc Hpb Hso Hce Hnt Wl Wr SA SB TA TB Sl Sr Ul Ur Hcdt Ov.
  pose proof (solid_proper coords left Wl (proj1 SA)) as Pl. pose proof (solid_proper coords right Wr (proj1 SB)) as Pr.
  pose proof (solid_no_twins coords left (proj1 SA)) as Tl. pose proof (solid_no_twins coords right (proj1 SB)) as Tr.
  destruct (C38_returns P_eqb coords pbox la sb nb cll cpl accepts nt left right K Hacc Hnt Pl Pr Sl Sr Tl Tr) as (cf & Hc).
  destruct (mixed_conforming _ _ _ _ _ _ _ _ _ _ _ _ _ _ K (Hcdt cf Hc) Hnt Wl Wr Pl Pr Sl Sr Tl Tr Ul Ur Hc) as (fs & ds & border & Em & Eb & Cf).
  destruct (Cf (or_introl Ov)) as (Co & St). destruct (set_of_list border) as (order & Ho).
  destruct (C48_classification_is_right P D coords base1 base2 sa centroid side_of left right A B (cf_points cf) fs ds border order (fun l => l) Hpb Hso Hce SA SB TA TB Co (St A B) Ho (fun l => Permutation_refl l))
    as [ (m' & E & _) | (E & _) ].
  - exists (Ok (take_soup m', no_warnings)). econstructor; try eassumption. intro l. apply Permutation_refl.
  - exists (Throw RuntimeError). eapply mixes_classify; try eassumption; [ intro l; apply Permutation_refl | ]. rewrite E. reflexivity.
Qed.
Print Assumptions C49_mix_ends.

(** The condition on the edges holds for meshes that have two faces at every edge. *)
Theorem C49_two_faces_are_fair : forall {P D} (P_eqb : P -> P -> bool) (left right : soup P D),
  (forall a b, P_eqb a b = true <-> a = b) -> no_twins left -> no_twins right ->
  two_faces_per_edge left -> two_faces_per_edge right -> fair_edges left right /\ fair_edges right left.
Proof. intros P D P_eqb left right Heq Tl Tr Ul Ur. split; apply (two_faces_fair P_eqb Heq); assumption. Qed.
Print Assumptions C49_two_faces_are_fair.

(** What remains once the mesh is arranged. *)
Lemma boolean_of_arranged : forall {P D} coords (d0 : D) mix (a b : region P D) A B (G : Prop),
  represents coords a A -> represents coords b B ->
  (kind a = BOUNDARY_DEFINED -> kind b = BOUNDARY_DEFINED ->
   exists r, mix (boundary a) (boundary b) = (let* (m, w) := r in Ok (m, warning_bits w)) /\
     ((exists m, r = Ok (m, no_warnings) /\ arranged (located coords (boundary a)) (located coords (boundary b)) A B (located coords m)) \/
      (r = Throw RuntimeError /\ G))) ->
  (exists bd, build mix a b = Ok bd /\ Model_boolean.warnings bd = 0%N /\
     forall op prefer_first, exists r, run d0 bd op prefer_first = Ok r /\ is_result coords op a b A B r) \/
  (build mix a b = Throw RuntimeError /\ G).
Proof.
  intros P D coords d0 mix a b A B G Ra Rb Hmix.
  destruct (boolean_in all_space coords d0 mix a b A B G all_space_open_convex (proj1 (represents_all _ _ _) Ra) (proj1 (represents_all _ _ _) Rb) Hmix)
    as [ (bd & E & W & H) | X ]; [ left | right; exact X ].
  exists bd. split; [ exact E | ]. split; [ exact W | ]. intros op pf. destruct (H op pf) as (r & Er & Hr).
  exists r. split; [ exact Er | now apply is_result_all ].
Qed.

(** What the constructor of the builder calls. *)
Definition calls_mix {P D} P_eqb coords pbox longest_axis sort_by nth_element_by cll cpl accepts cdt_faces base1 base2 sort_around centroid side_of
    num_threads (mix : soup P D -> soup P D -> res (soup P (mixed_data D) * N)) (left right : soup P D) : Prop :=
  exists r, mixes P_eqb coords pbox longest_axis sort_by nth_element_by cll cpl accepts cdt_faces base1 base2 sort_around centroid side_of
      num_threads left right r /\
    mix left right = (let* (m, w) := r in Ok (m, warning_bits w)).

(** The regions [a] and [b] represent the sets [A] and [B].  Every Boolean operation on
    them, with every choice of the preferred operand, gives a region that represents the
    set that the operation denotes, and no warnings.  The constructor of the builder throws
    only when the search for the side of a point gives up. *)
Theorem C49_boolean_operation : forall {P D} P_eqb coords pbox longest_axis sort_by nth_element_by cll cpl accepts cdt_faces
    base1 base2 sort_around centroid side_of num_threads (d0 : D) mix (a b : region P D) A B,
  exact_kernel P_eqb coords pbox sort_by nth_element_by cll cpl -> accepts_compatible coords accepts ->
  plane_bases base1 base2 -> sorts sort_around -> inner_centroid coords centroid -> 1 <= num_threads ->
  represents coords a A -> represents coords b B ->
  (kind a = BOUNDARY_DEFINED -> tells_side coords (located coords (boundary a)) A (side_of (boundary a))) ->
  (kind b = BOUNDARY_DEFINED -> tells_side coords (located coords (boundary b)) B (side_of (boundary b))) ->
  simplicial coords (boundary a) -> simplicial coords (boundary b) -> fair_edges (boundary a) (boundary b) -> fair_edges (boundary b) (boundary a) ->
  (forall cf, corefine P_eqb coords pbox longest_axis sort_by nth_element_by cll cpl accepts num_threads (boundary a) (boundary b) (Ok cf) ->
     cdt_constrained coords cdt_faces cf) ->
  (triangular_overlaps coords (boundary a) (boundary b) \/
   forall cf m, corefine P_eqb coords pbox longest_axis sort_by nth_element_by cll cpl accepts num_threads (boundary a) (boundary b) (Ok cf) ->
     mixed_mesh cdt_faces cf (boundary a) (boundary b) = Ok m -> overlaps_agree (located coords (take_soup m))) ->
  (kind a = BOUNDARY_DEFINED -> kind b = BOUNDARY_DEFINED ->
   calls_mix P_eqb coords pbox longest_axis sort_by nth_element_by cll cpl accepts cdt_faces base1 base2 sort_around centroid side_of
     num_threads mix (boundary a) (boundary b)) ->
  (exists bd, build mix a b = Ok bd /\ Model_boolean.warnings bd = 0%N /\
     forall op prefer_first, exists r, run d0 bd op prefer_first = Ok r /\ is_result coords op a b A B r) \/
  (build mix a b = Throw RuntimeError /\
   (gives_up coords (located coords (boundary a)) (side_of (boundary a)) \/ gives_up coords (located coords (boundary b)) (side_of (boundary b)))).
Proof.
  intros P D P_eqb coords pbox la sb nb cll cpl accepts cdt_faces base1 base2 sa centroid side_of nt d0 mix a b A B
    K Hacc Hpb Hso Hce Hnt RA RB TA TB Sa Sb Ua Ub Hcdt Ov Hmix.
  apply boolean_of_arranged; try assumption. intros Ka Kb. destruct (Hmix Ka Kb) as (r & Hr & E). exists r. split; [ exact E | ].
  destruct RA as (Wa & HA), RB as (Wb & HB). unfold wf_region in Wa, Wb. rewrite Ka in Wa, HA. rewrite Kb in Wb, HB.
  exact (C49_mix_arranges _ _ _ _ _ _ _ _ _ _ _ _ _ _ _ _ _ _ A B r K Hacc Hpb Hso Hce Hnt (proj1 Wa) (proj1 Wb) HA HB (TA Ka) (TB Kb) Sa Sb Ua Ub Hcdt Ov Hr).
Qed.
Print Assumptions C49_boolean_operation.

(** ** With the side of a point found by shooting rays *)

(** The call side_of_triangle_soup(soup_trg, p_src) (Classify_faces_globally.h:43) with the
    model of Model_side.v; [tree_of m] is the tree of [m] (Side_of_triangle_soup.h:33). *)
Definition shoot {P D} (coords : P -> vec3) ray_triangle ray_meets_box partial_sort2 (tree_of : soup P D -> tree (box * nat))
    (m : soup P D) (x : P) : res oriented_side :=
  side_of_triangle_soup ray_triangle ray_meets_box partial_sort2 (located coords m) (tree_of m) (coords x).

(** All the rays from the point are ambiguous: before anything else, each of them meets two faces of
    [m] in one point. *)
Definition all_ambiguous {D} (m : soup vec3 D) (x : vec3) : Prop := forall fi, fi < num_faces m -> ambiguous m x fi.

Lemma shoot_tells : forall {P D} (coords : P -> vec3) pbox longest_axis sort_by nth_element_by ray_triangle ray_meets_box partial_sort2
    (tree_of : soup P D -> tree (box * nat)) (m : soup P D) A,
  rearranges sort_by nth_element_by -> (forall x, in_box x (pbox x)) ->
  exact_intersection ray_triangle -> sound_box_test ray_meets_box -> sorts_two partial_sort2 ->
  solid (located coords m) A -> aabb_tree pbox longest_axis sort_by nth_element_by (located coords m) (tree_of m) ->
  tells_side coords (located coords m) A (shoot coords ray_triangle ray_meets_box partial_sort2 tree_of m) /\
  (gives_up coords (located coords m) (shoot coords ray_triangle ray_meets_box partial_sort2 tree_of m) ->
   exists x, ~ on_boundary (located coords m) (coords x) /\ all_ambiguous (located coords m) (coords x)).
Proof.
  intros P D coords pbox la sb nb rt rm ps tree_of m A Hre Hpb Hrt Hrm Hps (Hp & Hb & _) Ht. unfold shoot. split.
  - intros x Off. destruct (C24_gives_up_only_if_ambiguous _ _ _ _ _ _ _ _ _ _ _ (coords x) Hre Hpb Hrt Hrm Hps Hp Hb Ht) as [ (s & E) | (E & _) ]; [ right | left; exact E ].
    destruct (C24_side_is_membership _ _ _ _ _ _ _ _ _ _ _ _ _ Hre Hpb Hrt Hrm Hps Hp Hb Ht E) as (A1 & A2 & A3). rewrite E.
    split; intro Z; f_equal; [ apply A2 | apply A3 ]; auto.
  - intros (x & Off & E). exists x. split; [ exact Off | ].
    destruct (C24_gives_up_only_if_ambiguous _ _ _ _ _ _ _ _ _ _ _ (coords x) Hre Hpb Hrt Hrm Hps Hp Hb Ht) as [ (s & E') | (_ & X) ]; [ congruence | exact X ].
Qed.

(** Every Boolean operation on regions that represent [A] and [B] gives a region that
    represents the set that the operation denotes, and no warnings; or for some point off
    the boundaries all the rays are ambiguous. *)
Theorem C49_boolean_operation_with_rays : forall {P D} P_eqb coords pbox longest_axis sort_by nth_element_by cll cpl accepts cdt_faces
    base1 base2 sort_around centroid pbox3 ray_triangle ray_meets_box partial_sort2 tree_of num_threads (d0 : D) mix (a b : region P D) A B,
  exact_kernel P_eqb coords pbox sort_by nth_element_by cll cpl -> accepts_compatible coords accepts ->
  plane_bases base1 base2 -> sorts sort_around -> inner_centroid coords centroid -> 1 <= num_threads ->
  (forall x, in_box x (pbox3 x)) -> exact_intersection ray_triangle -> sound_box_test ray_meets_box -> sorts_two partial_sort2 ->
  represents coords a A -> represents coords b B ->
  (forall r, r = a \/ r = b -> kind r = BOUNDARY_DEFINED ->
     aabb_tree pbox3 longest_axis sort_by nth_element_by (located coords (boundary r)) (tree_of (boundary r))) ->
  simplicial coords (boundary a) -> simplicial coords (boundary b) -> fair_edges (boundary a) (boundary b) -> fair_edges (boundary b) (boundary a) ->
  (forall cf, corefine P_eqb coords pbox longest_axis sort_by nth_element_by cll cpl accepts num_threads (boundary a) (boundary b) (Ok cf) ->
     cdt_constrained coords cdt_faces cf) ->
  (triangular_overlaps coords (boundary a) (boundary b) \/
   forall cf m, corefine P_eqb coords pbox longest_axis sort_by nth_element_by cll cpl accepts num_threads (boundary a) (boundary b) (Ok cf) ->
     mixed_mesh cdt_faces cf (boundary a) (boundary b) = Ok m -> overlaps_agree (located coords (take_soup m))) ->
  (kind a = BOUNDARY_DEFINED -> kind b = BOUNDARY_DEFINED ->
   calls_mix P_eqb coords pbox longest_axis sort_by nth_element_by cll cpl accepts cdt_faces base1 base2 sort_around centroid
     (shoot coords ray_triangle ray_meets_box partial_sort2 tree_of) num_threads mix (boundary a) (boundary b)) ->
  (exists bd, build mix a b = Ok bd /\ Model_boolean.warnings bd = 0%N /\
     forall op prefer_first, exists r, run d0 bd op prefer_first = Ok r /\ is_result coords op a b A B r) \/
  (build mix a b = Throw RuntimeError /\
   exists r x, (r = a \/ r = b) /\ ~ on_surface coords r (coords x) /\ all_ambiguous (located coords (boundary r)) (coords x)).
Proof.
  intros P D P_eqb coords pbox la sb nb cll cpl accepts cdt_faces base1 base2 sa centroid pbox3 rt rm ps tree_of nt d0 mix a b A B
    K Hacc Hpb Hso Hce Hnt Hpb3 Hrt Hrm Hps RA RB Ht Sa Sb Ua Ub Hcdt Ov Hmix.
  assert (T : forall r S, r = a \/ r = b -> represents coords r S -> kind r = BOUNDARY_DEFINED ->
    tells_side coords (located coords (boundary r)) S (shoot coords rt rm ps tree_of (boundary r)) /\
    (gives_up coords (located coords (boundary r)) (shoot coords rt rm ps tree_of (boundary r)) ->
     exists x, ~ on_boundary (located coords (boundary r)) (coords x) /\ all_ambiguous (located coords (boundary r)) (coords x))).
  { intros r S Er (_ & Rp) Ek. rewrite Ek in Rp. apply (shoot_tells coords pbox3 la sb nb); auto. exact (ek_sort _ _ _ _ _ _ _ K). }
  assert (Em : forall r S, represents coords r S -> kind r <> BOUNDARY_DEFINED -> gives_up coords (located coords (boundary r)) (shoot coords rt rm ps tree_of (boundary r)) ->
     exists x, ~ on_boundary (located coords (boundary r)) (coords x) /\ all_ambiguous (located coords (boundary r)) (coords x)).
  { intros r S (W & _) Ek (x & Off & _). exists x. split; [ exact Off | ]. unfold wf_region in W. intros fi Hfi. exfalso. destruct (kind r); try (rewrite W in Hfi; cbn in Hfi; lia). contradiction. }
  destruct (C49_boolean_operation P_eqb coords pbox la sb nb cll cpl accepts cdt_faces base1 base2 sa centroid (shoot coords rt rm ps tree_of) nt d0 mix a b A B) as [ X | (E & G) ]; auto.
  - intro Ek. apply (T a A); auto.
  - intro Ek. apply (T b B); auto.
  - right. split; [ exact E | ]. destruct G as [G | G].
    + assert (X : exists x, ~ on_boundary (located coords (boundary a)) (coords x) /\ all_ambiguous (located coords (boundary a)) (coords x)).
      { destruct (kind a) eqn:Ek; [ apply (Em a A) | apply (Em a A) | apply (T a A) ]; auto; congruence. }
      destruct X as (x & X). exists a, x. split; [ auto | exact X ].
    + assert (X : exists x, ~ on_boundary (located coords (boundary b)) (coords x) /\ all_ambiguous (located coords (boundary b)) (coords x)).
      { destruct (kind b) eqn:Ek; [ apply (Em b B) | apply (Em b B) | apply (T b B) ]; auto; congruence. }
      destruct X as (x & X). exists b, x. split; [ auto | exact X ].
Qed.
Print Assumptions C49_boolean_operation_with_rays.
