(** * C59: Boolean operations on convex meshes do not fail *)
From Coq Require Import List Arith Bool NArith ZArith QArith Qminmax Lqa Lia Permutation.
From Verif Require Import Model_base Proof_base Model_soup Model_geometry Spec_candidates Model_aabb Spec_aabb Model_parallel_do Model_boolean Model_candidates Model_classify Model_local Model_corefine Model_side Model_mix Model_schedule.
From Verif Require Import Model_defects Spec_defects Model_overlap Spec_ffi Spec_overlap.
From Verif Require Import Model_find Spec_boolean Spec_radial Spec_local Spec_conform Spec_mix Spec_cut Spec_side Spec_solid Spec_corefine Spec_whole Spec_delaunay Spec_again Spec_find Spec_visible Proof_find.
From Verif Require Import Proof_fan Proof_extreme Proof_exact Proof_bridge Proof_planes Proof_clip Proof_pairs Proof_whole Proof_whole_ex Prop_aabb Prop_local Prop_corefine Prop_cut Prop_side Prop_solid Prop_conform Prop_whole Prop_schedule Prop_delaunay Prop_again Prop_find_op Prop_connected Prop_balance Prop_end Proof_fan Prop_whole_ex Prop_delaunay_ex Proof_delaunay_ex Proof_visible.
From Verif Require Import Spec_corefine Spec_side Spec_solid Spec_visible.
Import ListNotations.
Local Open Scope nat_scope.

(** If the point sees the centroid of one face, then its side is found, whatever the other
    rays do. *)
Theorem C59_seen_face_decides : forall D (m : soup vec3 D) inside pbox longest_axis sort_by nth_element_by
    ray_triangle ray_meets_box partial_sort2 t p fi,
  rearranges sort_by nth_element_by -> (forall x, in_box x (pbox x)) ->
  exact_intersection ray_triangle -> sound_box_test ray_meets_box -> sorts_two partial_sort2 ->
  proper_faces m -> bounds m inside -> aabb_tree pbox longest_axis sort_by nth_element_by m t ->
  ~ on_boundary m p -> sees m p fi ->
  (inside p /\ side_of_triangle_soup ray_triangle ray_meets_box partial_sort2 m t p = Ok NEGATIVE_SIDE) \/
  (~ inside p /\ side_of_triangle_soup ray_triangle ray_meets_box partial_sort2 m t p = Ok POSITIVE_SIDE).
Proof.
  intros D m inside pbox la sb ne rt rm ps t p fi Hre Hpb Hrt Hrm Hps Hp Hb Ht Off S.
  assert (L : fi < num_faces m).
  { destruct S as (a & b & c & T & _). unfold num_faces. apply nth_error_Some. unfold soup_triangle, soup_face, vec_at in T. destruct (nth_error (faces m) fi); [ discriminate | cbn in T; discriminate T ]. }
  destruct (C24_gives_up_only_if_ambiguous _ _ _ _ _ _ _ _ _ _ _ p Hre Hpb Hrt Hrm Hps Hp Hb Ht) as [ (s & E) | (_ & X) ]; [ | destruct (sees_clear D m p fi Hp S (X fi L)) ].
  destruct (C24_side_is_membership _ _ _ _ _ _ _ _ _ _ _ p s Hre Hpb Hrt Hrm Hps Hp Hb Ht E) as (A1 & A2 & A3). rewrite E. destruct s.
  - left. split; [ apply (proj1 A2 eq_refl) | reflexivity ].
  - destruct (Off (proj1 A1 eq_refl)).
  - right. split; [ apply (proj1 A3 eq_refl) | reflexivity ].
Qed.
Print Assumptions C59_seen_face_decides.

(** Off a convex mesh that bounds a set one sees the centroid of a face from everywhere, from inside and
    from outside; so the side of every point is found. *)
Theorem C59_convex_side : forall D (m : soup vec3 D) inside pbox longest_axis sort_by nth_element_by
    ray_triangle ray_meets_box partial_sort2 t p,
  rearranges sort_by nth_element_by -> (forall x, in_box x (pbox x)) ->
  exact_intersection ray_triangle -> sound_box_test ray_meets_box -> sorts_two partial_sort2 ->
  solid m inside -> convex_mesh m -> 0 < num_faces m -> aabb_tree pbox longest_axis sort_by nth_element_by m t ->
  ~ on_boundary m p ->
  (exists fi, sees m p fi) /\
  ((inside p /\ side_of_triangle_soup ray_triangle ray_meets_box partial_sort2 m t p = Ok NEGATIVE_SIDE) \/
   (~ inside p /\ side_of_triangle_soup ray_triangle ray_meets_box partial_sort2 m t p = Ok POSITIVE_SIDE)).
Proof.
  intros D m inside pbox la sb ne rt rm ps t p Hre Hpb Hrt Hrm Hps S C L Ht Off.
  destruct (convex_sees D m inside p S C L Off) as (fi & _ & Sf). split; [ exists fi; exact Sf | ].
  eapply C59_seen_face_decides; try eassumption; apply S.
Qed.
Print Assumptions C59_convex_side.

(** With convex operands, every Boolean operation gives a region that represents what it
    denotes, without a warning or an exception, whatever the threads do. *)
Theorem C59_boolean_operation : forall {P D} P_eqb coords pbox longest_axis sort_by nth_element_by cll cpl (d0 : D) (a b : region P D),
  exact_kernel P_eqb coords pbox sort_by nth_element_by cll cpl -> wf_region a -> wf_region b ->
  (N.of_nat (num_faces (boundary a)) < 2 ^ 32)%N -> (N.of_nat (num_faces (boundary b)) < 2 ^ 32)%N ->
  (kind a = BOUNDARY_DEFINED -> nothing_found P_eqb d0 coords pbox longest_axis sort_by nth_element_by (boundary a)) ->
  (kind b = BOUNDARY_DEFINED -> nothing_found P_eqb d0 coords pbox longest_axis sort_by nth_element_by (boundary b)) ->
  convex_mesh (located coords (boundary a)) -> convex_mesh (located coords (boundary b)) ->
  exists A B, represents coords a A /\ represents coords b B /\
  forall accepts cdt_faces base1 base2 sort_around centroid pbox3 ray_triangle ray_meets_box partial_sort2 tree_of num_threads mix,
  accepts_compatible coords accepts -> plane_bases base1 base2 -> sorts sort_around -> inner_centroid coords centroid -> 1 <= num_threads ->
  (forall x, in_box x (pbox3 x)) -> exact_intersection ray_triangle -> sound_box_test ray_meets_box -> sorts_two partial_sort2 ->
  (forall r, r = a \/ r = b -> kind r = BOUNDARY_DEFINED ->
     aabb_tree pbox3 longest_axis sort_by nth_element_by (located coords (boundary r)) (tree_of (boundary r))) ->
  (forall cf, corefine P_eqb coords pbox longest_axis sort_by nth_element_by cll cpl accepts num_threads (boundary a) (boundary b) (Ok cf) ->
     cdt_constrained coords cdt_faces cf /\ cdt_delaunay coords cdt_faces cf) ->
  no_circles coords (boundary a) (boundary b) ->
  (kind a = BOUNDARY_DEFINED -> kind b = BOUNDARY_DEFINED ->
   calls_mix_scheduled P_eqb coords pbox longest_axis sort_by nth_element_by cll cpl accepts cdt_faces base1 base2 sort_around centroid
     (shoot coords ray_triangle ray_meets_box partial_sort2 tree_of) num_threads mix (boundary a) (boundary b)) ->
  exists bd, build mix a b = Ok bd /\ Model_boolean.warnings bd = 0%N /\
    forall op prefer_first, exists r, run d0 bd op prefer_first = Ok r /\ is_result coords op a b A B r.
Proof.
  intros P D P_eqb coords pbox la sb nb cll cpl d0 a b K Wa Wb La Lb Fa Fb Va Vb.
  assert (Ca : checked P_eqb d0 coords pbox la sb nb a) by (split; [ exact Wa | split; [ exact La | auto ] ]). assert (Cb : checked P_eqb d0 coords pbox la sb nb b) by (split; [ exact Wb | split; [ exact Lb | auto ] ]).
  destruct (C58_end_to_end P_eqb coords pbox la sb nb cll cpl d0 a b K Ca Cb) as (A & B & RA & RB & _ & _ & H).
  exists A, B. split; [ exact RA | ]. split; [ exact RB | ]. intros accepts cdt_faces base1 base2 sa centroid pbox3 rt rm ps tree_of nt mix Hacc Hpb Hso Hce Hnt Hpb3 Hrt Hrm Hps Ht Hcdt Ci Hmix.
  destruct (H accepts cdt_faces base1 base2 sa centroid pbox3 rt rm ps tree_of nt mix Hacc Hpb Hso Hce Hnt Hpb3 Hrt Hrm Hps Ht Hcdt Ci Hmix) as [X | (_ & Ka & Kb & r & x & Er & Off & Am)]; [ exact X | exfalso ].
  assert (X : exists S, solid (located coords (boundary r)) S /\ convex_mesh (located coords (boundary r)) /\ 0 < num_faces (boundary r)).
  { assert (G : forall (q : region P D) S, represents coords q S -> kind q = BOUNDARY_DEFINED -> solid (located coords (boundary q)) S /\ 0 < num_faces (boundary q)).
    { intros q S (W & Q) Kq. unfold wf_region in W. rewrite Kq in W, Q. split; [ exact Q | ]. destruct W as (_ & W). unfold num_faces. destruct (faces (boundary q)); [ congruence | cbn; lia ]. }
    destruct (G a A RA Ka) as (SA & LA), (G b B RB Kb) as (SB & LB). destruct Er as [-> | ->]; [ exists A | exists B ]; auto. }
  destruct X as (S & HS & V & L).
  assert (L' : 0 < num_faces (located coords (boundary r))) by exact L.
  destruct (convex_sees D _ S (coords x) HS V L' Off) as (fi & Lf & Sf). exact (sees_clear D _ _ fi (proj1 HS) Sf (Am fi Lf)).
Qed.
Print Assumptions C59_boolean_operation.

(** ** Examples *)

(** Whether a mesh is convex can be seen from its vertices. *)
Lemma convex_corners : forall D (m : soup vec3 D), valid_faces m -> 
  (forall fi a b c gi p q r, soup_triangle m fi = Ok (a, b, c) -> soup_triangle m gi = Ok (p, q, r) ->
     (height a b c p <= 0 /\ height a b c q <= 0 /\ height a b c r <= 0)%Q) -> convex_mesh m.
Proof.
  intros D m V H. left. intros fi a b c x T (gi & p & q & r & U & (u & v & w & U0 & V0 & W0 & S & X & Y & Z)).
  destruct (H fi a b c gi p q r T U) as (H1 & H2 & H3).
  assert (E : (height a b c x == u * height a b c p + v * height a b c q + w * height a b c r)%Q).
  { assert (S' : (u == 1 - v - w)%Q) by lra. unfold height, vdot. generalize (normal a b c) as n. intros n. unfold vsub. cbn [vx vy vz fst snd]. rewrite X, Y, Z, S'. ring. }
  rewrite E. nra.
Qed.

Lemma upright_convex : convex_mesh (located value upright).
Proof.
  apply convex_corners; [ exact (pf_valid _ (proj1 tetra_solid)) | ]. intros fi a b c gi p q r T U.
  destruct fi as [ | [ | [ | [ | fi] ] ] ]; try (exfalso; cbn in T; destruct fi; discriminate T); injection T as <- <- <-;
    (destruct gi as [ | [ | [ | [ | gi] ] ] ]; try (exfalso; cbn in U; destruct gi; discriminate U); injection U as <- <- <-; vm_compute; repeat split; discriminate).
Qed.
Lemma leaning_convex : convex_mesh (located value leaning).
Proof.
  apply convex_corners; [ exact (pf_valid _ (proj1 lean_solid)) | ]. intros fi a b c gi p q r T U.
  destruct fi as [ | [ | [ | [ | fi] ] ] ]; try (exfalso; cbn in T; destruct fi; discriminate T); injection T as <- <- <-;
    (destruct gi as [ | [ | [ | [ | gi] ] ] ]; try (exfalso; cbn in U; destruct gi; discriminate U); injection U as <- <- <-; vm_compute; repeat split; discriminate).
Qed.

Lemma tree_exists : forall m : soup exact unit, valid_faces (located value m) -> exists t, aabb_tree pt_box (fun _ => 0) (fun _ l => l) (fun _ _ l => l) (located value m) t.
Proof.
  intros m V. pose (ls := map (fun fi => (the_box pt_box (located value m) fi, fi)) (seq 0 (num_faces (located value m)))).
  destruct (C23_can_be_built _ (@fst box nat) (fun _ => 0) (fun _ l => l) (fun _ _ l => l) 1 ls) as [t Ht]. exists t.
  apply aabb_tree_intro with (limit := 1) (ls := ls); [ apply leaves_ok, V | exact Ht ].
Qed.

(** Two tetrahedra with a face in common, with all the parts in place: the operations end,
    for every number of threads and every schedule. *)
Example C59_example : forall num_threads, 1 <= num_threads -> exists A B tree_of mix,
  represents value (ex_region upright) A /\ represents value (ex_region leaning) B /\
  calls_mix_scheduled exact_eqb value exact_box (fun _ => 0) (fun _ l => l) (fun _ _ l => l) exact_ll exact_pl (fun _ _ _ => true) (fan_faces value)
    ex_base1 ex_base2 ex_sort middle_point (shoot value clip_ray (fun _ _ _ => true) sort_q tree_of) num_threads mix upright leaning /\
  exists bd, build mix (ex_region upright) (ex_region leaning) = Ok bd /\ Model_boolean.warnings bd = 0%N /\
    forall op prefer_first, exists r, run tt bd op prefer_first = Ok r /\ is_result value op (ex_region upright) (ex_region leaning) A B r.
Proof.
  intros nt Hnt. destruct C58_tetrahedra as ((F1 & C1) & F2 & C2).
  assert (W1 : wf_region (ex_region upright)) by (split; [ exact upright_wf | discriminate ]). assert (W2 : wf_region (ex_region leaning)) by (split; [ exact leaning_wf | discriminate ]).
  assert (L1 : (N.of_nat (num_faces (boundary (ex_region upright))) < 2 ^ 32)%N) by reflexivity. assert (L2 : (N.of_nat (num_faces (boundary (ex_region leaning))) < 2 ^ 32)%N) by reflexivity.
  destruct (C59_boolean_operation _ _ _ (fun _ => 0) _ _ _ _ tt (ex_region upright) (ex_region leaning) ex_kernel W1 W2 L1 L2 (fun _ => F1) (fun _ => F2) upright_convex leaning_convex) as (A & B & RA & RB & H).
  destruct (tree_exists upright (pf_valid _ (proj1 tetra_solid))) as (t1 & T1). destruct (tree_exists leaning (pf_valid _ (proj1 lean_solid))) as (t2 & T2).
  pose (tree_of := fun m : soup exact unit => if existsb (fun p => negb (Qle_bool (vx (value p) + vy (value p) + vz (value p)) 1)) (points m) then t2 else t1).
  destruct (C50_mix_ends exact_eqb value exact_box (fun _ => 0) (fun _ l => l) (fun _ _ l => l) exact_ll exact_pl (fun _ _ _ => true) (fan_faces value)
    ex_base1 ex_base2 ex_sort middle_point (shoot value clip_ray (fun _ _ _ => true) sort_q tree_of) nt upright leaning in_tetra in_lean) as (r & Hr).
  - exact ex_kernel.
  - intros t a b c h k vs _ _. reflexivity.
  - exact Hnt.
  - exact upright_wf.
  - exact leaning_wf.
  - exact tetra_solid.
  - exact lean_solid.
  - exact upright_simplicial.
  - exact leaning_simplicial.
  - exact (proj1 ex_fair).
  - exact (proj2 ex_fair).
  - intros cf Hc. exact (ex_triangulated nt cf Hnt Hc).
  - exists A, B, tree_of, (fun _ _ => let* (m, w) := r in Ok (m, warning_bits w)). split; [ exact RA | ]. split; [ exact RB | ].
    assert (Hm : calls_mix_scheduled exact_eqb value exact_box (fun _ => 0) (fun _ l => l) (fun _ _ l => l) exact_ll exact_pl (fun _ _ _ => true) (fan_faces value)
      ex_base1 ex_base2 ex_sort middle_point (shoot value clip_ray (fun _ _ _ => true) sort_q tree_of) nt (fun _ _ => let* (m, w) := r in Ok (m, warning_bits w)) upright leaning) by (exists r; split; [ exact Hr | reflexivity ]).
    split; [ exact Hm | ].
    apply (H (fun _ _ _ => true) (fan_faces value) ex_base1 ex_base2 ex_sort middle_point pt_box clip_ray (fun _ _ _ => true) sort_q tree_of nt); auto.
    + intros t a b c h k vs _ _. reflexivity.
    + exact ex_bases.
    + exact ex_sorts.
    + intros p q s. unfold middle_point. destruct (value_reduce (ex_centroid (value p) (value q) (value s))) as (S1 & S2 & S3). exists (1 # 3)%Q, (1 # 3)%Q, (1 # 3)%Q. rewrite S1, S2, S3. unfold ex_centroid. cbn [vx vy vz fst snd]. repeat split; try lra; ring.
    + intro x. repeat split; cbn; lra.
    + exact clip_ray_exact.
    + exact C24_example_box_test.
    + exact C24_example_sorts.
    + intros q [-> | ->] _; [ exact T1 | exact T2 ].
    + intros cf Hc. split; [ exact (ex_triangulated nt cf Hnt Hc) | ]. intros F t J a b c vs Gv Cp. apply (fan_delaunay _ _ a b c Gv). unfold vs. rewrite map_length.
      refine (ex_few_like upright nt cf _ upright_proper upright_simplicial (solid_no_twins value upright (proj1 tetra_solid)) Hnt Hc F t J). intros i u. reflexivity.
    + exact (C56_triangular_no_circles value upright leaning ex_overlaps).
Qed.
