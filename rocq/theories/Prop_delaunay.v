(** * C56: Delaunay triangulations of faces in one plane fit together

    Faces of the two meshes that overlap in one plane are triangulated independently of
    each other (Triangulation.h, Corefine.h), and the classification expects that
    the pieces in the overlap are the same.  They are, since the triangulations are Delaunay. *)
From Coq Require Import List Arith NArith Bool QArith Lqa Lia Permutation.
From Verif Require Import Model_base Proof_base Model_geometry Model_soup Model_mesh Model_aabb Model_points Model_boolean Model_classify Model_local Model_candidates Model_corefine Model_side Model_mix.
From Verif Require Import Spec_aabb Spec_boolean Spec_candidates Spec_side Spec_radial Spec_local Spec_solid Spec_conform Spec_defects Spec_ffi Spec_corefine Spec_mix Spec_cut Spec_whole Spec_delaunay.
From Verif Require Import Proof_extreme Proof_bridge Proof_mix_faces Proof_whole Proof_represents Prop_corefine Prop_cut Prop_side Prop_solid Prop_conform Prop_whole.
Import ListNotations.
From Verif Require Import Spec_side Spec_solid.
Local Open Scope nat_scope.

(** Faces with lowest lifted corners, for any heights without ties in the overlaps. *)
Theorem C56_lowest_overlaps_agree : forall {P D} P_eqb coords pbox longest_axis sort_by nth_element_by cll cpl accepts cdt_faces h
    num_threads (left right : soup P D) cf m,
  exact_kernel P_eqb coords pbox sort_by nth_element_by cll cpl -> 1 <= num_threads ->
  wf_soup left -> wf_soup right -> proper coords left -> proper coords right -> simplicial coords left -> simplicial coords right ->
  no_twins left -> no_twins right -> fair_edges left right -> fair_edges right left ->
  corefine P_eqb coords pbox longest_axis sort_by nth_element_by cll cpl accepts num_threads left right (Ok cf) ->
  cdt_constrained coords cdt_faces cf -> cdt_lowest h coords cdt_faces cf -> no_ties h coords left right ->
  mixed_mesh cdt_faces cf left right = Ok m ->
  overlaps_agree (located coords (take_soup m)).
Proof.
  intros P D P_eqb coords pbox la sb nb cll cpl accepts cdt_faces h nt left right cf m K Hnt Wl Wr Pl Pr Sl Sr Tl Tr Ul Ur H Hcdt Lo Ti M.
  destruct (mixed_conforming_ways _ _ _ _ _ _ _ _ _ _ _ _ _ _ K Hcdt Hnt Wl Wr Pl Pr Sl Sr Tl Tr Ul Ur H) as (fs & ds & border & E1 & _ & _ & E2).
  rewrite M in E1. injection E1 as ->. rewrite take_finalize. destruct E2 as (Co & _); [ right; right; exists h; auto | ].
  intros i j T U x HT HU IT IU. apply (cf_open _ _ _ _ Co i j true T U x HT HU IT). apply on_inside. apply in_full in IU. exact (Proof_extreme.feature_inside _ _ _ IU).
Qed.
Print Assumptions C56_lowest_overlaps_agree.

(** ** Circles *)
Lemma under_in_circle : forall T p, under (fun x => vdot x x) T p -> in_circle T p.
Proof.
  intros [ [ [ [ax ay] az] [ [bx by_] bz] ] [ [cx cy] cz] ] [ [px py] pz] ([ [gx gy] gz] & e & A & B & C & L). unfold lifted, vdot in *. cbn [vx vy vz fst snd] in *.
  exists ((1 # 2) * gx, (1 # 2) * gy, (1 # 2) * gz)%Q. unfold distance2, vdot, vsub. cbn [vx vy vz fst snd]. repeat split; lra.
Qed.
Lemma lifted_cocircular : forall g e a b c d, lifted (fun x => vdot x x) g e a -> lifted (fun x => vdot x x) g e b -> lifted (fun x => vdot x x) g e c ->
  lifted (fun x => vdot x x) g e d -> cocircular a b c d.
Proof.
  intros [ [gx gy] gz] e [ [ax ay] az] [ [bx by_] bz] [ [cx cy] cz] [ [dx dy] dz] A B C E. unfold lifted, vdot in *. cbn [vx vy vz fst snd] in *.
  exists ((1 # 2) * gx, (1 # 2) * gy, (1 # 2) * gz)%Q. unfold distance2, vdot, vsub. cbn [vx vy vz fst snd]. repeat split; lra.
Qed.

(** If the triangulations are Delaunay and no four vertices of an overlap are on a circle, then the
    pieces of one mesh that overlap pieces of the other in one plane have the same vertices. *)
Theorem C56_delaunay_overlaps_agree : forall {P D} P_eqb coords pbox longest_axis sort_by nth_element_by cll cpl accepts cdt_faces
    num_threads (left right : soup P D) cf m,
  exact_kernel P_eqb coords pbox sort_by nth_element_by cll cpl -> 1 <= num_threads ->
  wf_soup left -> wf_soup right -> proper coords left -> proper coords right -> simplicial coords left -> simplicial coords right ->
  no_twins left -> no_twins right -> fair_edges left right -> fair_edges right left ->
  corefine P_eqb coords pbox longest_axis sort_by nth_element_by cll cpl accepts num_threads left right (Ok cf) ->
  cdt_constrained coords cdt_faces cf -> cdt_delaunay coords cdt_faces cf -> no_circles coords left right ->
  mixed_mesh cdt_faces cf left right = Ok m ->
  overlaps_agree (located coords (take_soup m)).
Proof.
  intros P D P_eqb coords pbox la sb nb cll cpl accepts cdt_faces nt left right cf m K Hnt Wl Wr Pl Pr Sl Sr Tl Tr Ul Ur H Hcdt De Ci M.
  apply (C56_lowest_overlaps_agree P_eqb coords pbox la sb nb cll cpl accepts cdt_faces (fun x => vdot x x) nt left right cf m); try assumption.
  - intros F t J a b c vs Gv Cp f T v p Jf Hc Ep Vi Un. exact (De F t J a b c Gv Cp f T v p Jf Hc Ep Vi (under_in_circle _ _ Un)).
  - intros i j t u x a b c d g e Ct Cu T U Fx Gx Z Va Vb Vc Vd Ap (La & Lb & Lc & Ld). exact (Ci i j t u x a b c d Ct Cu Fx Gx Z Va Vb Vc Vd Ap (lifted_cocircular g e a b c d La Lb Lc Ld)).
Qed.
Print Assumptions C56_delaunay_overlaps_agree.

(** ** Boolean operations

    The Boolean operations of C49, with Delaunay triangulations: what CGAL provides
    (a triangulation, that is constrained, that is Delaunay) suffices when no four vertices of an
    overlap are on a circle. *)
Theorem C56_boolean_operation : forall {P D} P_eqb coords pbox longest_axis sort_by nth_element_by cll cpl accepts cdt_faces
    base1 base2 sort_around centroid side_of num_threads (d0 : D) mix (a b : region P D) A B,
  exact_kernel P_eqb coords pbox sort_by nth_element_by cll cpl -> accepts_compatible coords accepts ->
  plane_bases base1 base2 -> sorts sort_around -> inner_centroid coords centroid -> 1 <= num_threads ->
  represents coords a A -> represents coords b B ->
  (kind a = BOUNDARY_DEFINED -> tells_side coords (located coords (boundary a)) A (side_of (boundary a))) ->
  (kind b = BOUNDARY_DEFINED -> tells_side coords (located coords (boundary b)) B (side_of (boundary b))) ->
  simplicial coords (boundary a) -> simplicial coords (boundary b) -> fair_edges (boundary a) (boundary b) -> fair_edges (boundary b) (boundary a) ->
  (forall cf, corefine P_eqb coords pbox longest_axis sort_by nth_element_by cll cpl accepts num_threads (boundary a) (boundary b) (Ok cf) ->
     cdt_constrained coords cdt_faces cf /\ cdt_delaunay coords cdt_faces cf) ->
  no_circles coords (boundary a) (boundary b) ->
  (kind a = BOUNDARY_DEFINED -> kind b = BOUNDARY_DEFINED ->
   calls_mix P_eqb coords pbox longest_axis sort_by nth_element_by cll cpl accepts cdt_faces base1 base2 sort_around centroid side_of
     num_threads mix (boundary a) (boundary b)) ->
  (exists bd, build mix a b = Ok bd /\ Model_boolean.warnings bd = 0%N /\
     forall op prefer_first, exists r, run d0 bd op prefer_first = Ok r /\ is_result coords op a b A B r) \/
  (build mix a b = Throw RuntimeError /\
   (gives_up coords (located coords (boundary a)) (side_of (boundary a)) \/ gives_up coords (located coords (boundary b)) (side_of (boundary b)))).
Proof.
  intros P D P_eqb coords pbox la sb nb cll cpl accepts cdt_faces base1 base2 sa centroid side_of nt d0 mix a b A B
    K Hacc Hpb Hso Hce Hnt RA RB TA TB Sa Sb Ua Ub Hcdt Ci Hmix.
  apply boolean_of_arranged; try assumption. intros Ka Kb. destruct (Hmix Ka Kb) as (r & Hr & E). exists r. split; [ exact E | ].
  destruct RA as (Wa & HA), RB as (Wb & HB). unfold wf_region in Wa, Wb. rewrite Ka in Wa, HA. rewrite Kb in Wb, HB.
  refine (C49_mix_arranges _ _ _ _ _ _ _ _ _ _ _ _ _ _ _ _ _ _ A B r K Hacc Hpb Hso Hce Hnt (proj1 Wa) (proj1 Wb) HA HB (TA Ka) (TB Kb) Sa Sb Ua Ub (fun cf H => proj1 (Hcdt cf H)) _ Hr).
  right. intros cf m H M.
  exact (C56_delaunay_overlaps_agree _ _ _ _ _ _ _ _ _ _ _ _ _ cf m K Hnt (proj1 Wa) (proj1 Wb) (solid_proper coords _ (proj1 Wa) (proj1 HA)) (solid_proper coords _ (proj1 Wb) (proj1 HB)) Sa Sb
    (solid_no_twins coords _ (proj1 HA)) (solid_no_twins coords _ (proj1 HB)) Ua Ub H (proj1 (Hcdt cf H)) (proj2 (Hcdt cf H)) Ci M).
Qed.
Print Assumptions C56_boolean_operation.

(** The same for any heights without ties in the overlaps, for instance those of a
    perturbation that depends on the points only. *)
Theorem C56_boolean_operation_lowest : forall {P D} P_eqb coords pbox longest_axis sort_by nth_element_by cll cpl accepts cdt_faces h
    base1 base2 sort_around centroid side_of num_threads (d0 : D) mix (a b : region P D) A B,
  exact_kernel P_eqb coords pbox sort_by nth_element_by cll cpl -> accepts_compatible coords accepts ->
  plane_bases base1 base2 -> sorts sort_around -> inner_centroid coords centroid -> 1 <= num_threads ->
  represents coords a A -> represents coords b B ->
  (kind a = BOUNDARY_DEFINED -> tells_side coords (located coords (boundary a)) A (side_of (boundary a))) ->
  (kind b = BOUNDARY_DEFINED -> tells_side coords (located coords (boundary b)) B (side_of (boundary b))) ->
  simplicial coords (boundary a) -> simplicial coords (boundary b) -> fair_edges (boundary a) (boundary b) -> fair_edges (boundary b) (boundary a) ->
  (forall cf, corefine P_eqb coords pbox longest_axis sort_by nth_element_by cll cpl accepts num_threads (boundary a) (boundary b) (Ok cf) ->
     cdt_constrained coords cdt_faces cf /\ cdt_lowest h coords cdt_faces cf) ->
  no_ties h coords (boundary a) (boundary b) ->
  (kind a = BOUNDARY_DEFINED -> kind b = BOUNDARY_DEFINED ->
   calls_mix P_eqb coords pbox longest_axis sort_by nth_element_by cll cpl accepts cdt_faces base1 base2 sort_around centroid side_of
     num_threads mix (boundary a) (boundary b)) ->
  (exists bd, build mix a b = Ok bd /\ Model_boolean.warnings bd = 0%N /\
     forall op prefer_first, exists r, run d0 bd op prefer_first = Ok r /\ is_result coords op a b A B r) \/
  (build mix a b = Throw RuntimeError /\
   (gives_up coords (located coords (boundary a)) (side_of (boundary a)) \/ gives_up coords (located coords (boundary b)) (side_of (boundary b)))).
Proof.
  intros P D P_eqb coords pbox la sb nb cll cpl accepts cdt_faces h base1 base2 sa centroid side_of nt d0 mix a b A B
    K Hacc Hpb Hso Hce Hnt RA RB TA TB Sa Sb Ua Ub Hcdt Ci Hmix.
  apply boolean_of_arranged; try assumption. intros Ka Kb. destruct (Hmix Ka Kb) as (r & Hr & E). exists r. split; [ exact E | ].
  destruct RA as (Wa & HA), RB as (Wb & HB). unfold wf_region in Wa, Wb. rewrite Ka in Wa, HA. rewrite Kb in Wb, HB.
  refine (C49_mix_arranges _ _ _ _ _ _ _ _ _ _ _ _ _ _ _ _ _ _ A B r K Hacc Hpb Hso Hce Hnt (proj1 Wa) (proj1 Wb) HA HB (TA Ka) (TB Kb) Sa Sb Ua Ub (fun cf H => proj1 (Hcdt cf H)) _ Hr).
  right. intros cf m H M.
  exact (C56_lowest_overlaps_agree _ _ _ _ _ _ _ _ _ _ h _ _ _ cf m K Hnt (proj1 Wa) (proj1 Wb) (solid_proper coords _ (proj1 Wa) (proj1 HA)) (solid_proper coords _ (proj1 Wb) (proj1 HB)) Sa Sb
    (solid_no_twins coords _ (proj1 HA)) (solid_no_twins coords _ (proj1 HB)) Ua Ub H (proj1 (Hcdt cf H)) (proj2 (Hcdt cf H)) Ci M).
Qed.
Print Assumptions C56_boolean_operation_lowest.

(** A triangle has no four vertices. *)
Lemma C56_triangular_no_circles : forall {P D} (coords : P -> vec3) (left right : soup P D), triangular_overlaps coords left right -> no_circles coords left right.
Proof.
  intros P D coords left right H i j t u x a b c d Ct Cu T U Fx Gx Z Va Vb Vc Vd (N1 & N2 & N3 & N4 & N5 & N6) _.
  destruct (H i j t u x Ct Cu Fx Gx Z) as (y0 & y1 & y2 & G).
  assert (Cl : forall k x y, same_point x k -> same_point y k -> same_point x y).
  { intros k v w (A & B & C) (A' & B' & C'). repeat split; [ rewrite A, A' | rewrite B, B' | rewrite C, C' ]; reflexivity. }
  destruct (G _ Va) as [Ha | [Ha | Ha] ], (G _ Vb) as [Hb | [Hb | Hb] ]; try exact (N1 (Cl _ _ _ Ha Hb));
    destruct (G _ Vc) as [Hc | [Hc | Hc] ]; try exact (N2 (Cl _ _ _ Ha Hc)); try exact (N4 (Cl _ _ _ Hb Hc));
    destruct (G _ Vd) as [Hd | [Hd | Hd] ]; first [ exact (N3 (Cl _ _ _ Ha Hd)) | exact (N5 (Cl _ _ _ Hb Hd)) | exact (N6 (Cl _ _ _ Hc Hd)) ].
Qed.
