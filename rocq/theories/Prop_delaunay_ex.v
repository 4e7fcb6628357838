(** * C56: examples, and what happens when four vertices of an overlap are on a circle *)
From Coq Require Import List Arith NArith Bool QArith Lqa Lia Permutation.
From Verif Require Import Model_base Proof_base Model_geometry Model_soup Model_mesh Model_aabb Model_points Model_boolean Model_classify Model_local Model_candidates Model_corefine Model_side Model_mix.
From Verif Require Import Spec_aabb Spec_boolean Spec_candidates Spec_side Spec_radial Spec_local Spec_solid Spec_conform Spec_defects Spec_ffi Spec_corefine Spec_mix Spec_cut Spec_whole Spec_again Spec_delaunay.
From Verif Require Import Proof_fan Proof_extreme Proof_exact Proof_mix_faces Proof_convex Proof_planes Proof_one_run Proof_fan4 Proof_touch Proof_whole Proof_whole_ex Prop_local Prop_corefine Prop_cut Prop_side Prop_solid Prop_conform Prop_whole Prop_whole_ex Prop_delaunay Proof_delaunay_ex Prop_touch.
Import ListNotations.
From Verif Require Import Spec_side Spec_solid.
Local Open Scope Q_scope.

Notation ex_run := (corefine exact_eqb value exact_box (fun _ => 0%nat) (fun _ l => l) (fun _ _ l => l) exact_ll exact_pl (fun _ _ _ => true)) (only parsing).
Definition no_mesh : mesh exact (mixed_data unit) := finalize (mesh_of [] [] []).

(** ** Triangulations that agree *)

(** The run of one thread on [upper] and [lower2].  The overlap is a quadrilateral, which each of
    the two faces could divide along either diagonal. *)
Definition cf2 : corefined exact := get no_cf (cut upper lower2).
Lemma cf2_runs : ex_run 1%nat upper lower2 (Ok cf2).
Proof. apply (one_corefine_ok exact_eqb value exact_box (fun _ => 0%nat) (fun _ l => l) (fun _ _ l => l) exact_ll exact_pl (fun _ _ _ => true)). apply get_ok. vm_compute. reflexivity. Qed.
Lemma cf2_checked : run_b square cf2 = true.
Proof. vm_compute. reflexivity. Qed.
Definition mesh2 : mesh exact (mixed_data unit) := get no_mesh (mixed_mesh (two_fans_faces square) cf2 upper lower2).
Lemma mesh2_ok : mixed_mesh (two_fans_faces square) cf2 upper lower2 = Ok mesh2.
Proof. apply get_ok. vm_compute. reflexivity. Qed.

Example C56_delaunay_example :
  (ex_run 1%nat upper lower2 (Ok cf2) /\ cdt_constrained value (two_fans_faces square) cf2 /\ cdt_delaunay value (two_fans_faces square) cf2 /\ no_circles value upper lower2) /\
  overlaps_agree (located value (take_soup mesh2)).
Proof.
  destruct (run_b_ok _ _ cf2_checked) as (Co & Lo).
  assert (De : cdt_delaunay value (two_fans_faces square) cf2) by (intros F t J a b c vs Gv Cp; apply lowest_delaunay; exact (Lo F t J a b c Gv Cp)).
  split; [ repeat (split; [ first [ exact cf2_runs | exact Co | exact De ] | ]); exact lower2_no_circles | ].
  destruct upper_conditions as (Pu & Tu & Su), lower2_conditions as (Pl & Tl & Sl), upper_fair as (_ & _ & Fu & Fl).
  exact (C56_delaunay_overlaps_agree _ _ _ _ _ _ _ _ _ _ 1 _ _ cf2 mesh2 ex_kernel (le_n 1) upper_wf lower2_wf Pu Pl Su Sl Tu Tl Fu Fl cf2_runs Co De lower2_no_circles mesh2_ok).
Qed.
(** The pieces of the bottom of [upper] and of the top of [lower2]. *)
Example C56_delaunay_example_pieces : map value (m_points mesh2) = [(0, 0, 0); (50, 0, 0); (18, 24, 0); (0, 0, 10); (30, 0, 0); (24, 32, 0); (0, 0, -(10)); (294 # 11, 192 # 11, 0)] /\
  firstn 3 (m_faces mesh2) = [(0, 2, 7); (0, 7, 4); (7, 1, 4)]%nat /\ firstn 3 (skipn 8 (m_faces mesh2)) = [(0, 4, 7); (0, 7, 2); (7, 5, 2)]%nat.
Proof. vm_compute. repeat split; reflexivity. Qed.

(** [upper] and [lower] have an overlap with the corners on a circle; other heights than
    the squares of the distances decide how it is divided. *)
Definition cf1 : corefined exact := get no_cf (cut upper lower).
Lemma cf1_runs : ex_run 1%nat upper lower (Ok cf1).
Proof. apply (one_corefine_ok exact_eqb value exact_box (fun _ => 0%nat) (fun _ l => l) (fun _ _ l => l) exact_ll exact_pl (fun _ _ _ => true)). apply get_ok. vm_compute. reflexivity. Qed.
Lemma cf1_checked_steep : run_b steep cf1 = true.
Proof. vm_compute. reflexivity. Qed.
Definition mesh_steep : mesh exact (mixed_data unit) := get no_mesh (mixed_mesh (two_fans_faces steep) cf1 upper lower).
Lemma mesh_steep_ok : mixed_mesh (two_fans_faces steep) cf1 upper lower = Ok mesh_steep.
Proof. apply get_ok. vm_compute. reflexivity. Qed.
Example C56_lowest_example :
  (ex_run 1%nat upper lower (Ok cf1) /\ cdt_constrained value (two_fans_faces steep) cf1 /\ cdt_lowest steep value (two_fans_faces steep) cf1 /\ no_ties steep value upper lower) /\
  overlaps_agree (located value (take_soup mesh_steep)).
Proof.
  destruct (run_b_ok _ _ cf1_checked_steep) as (Co & Lo).
  split; [ repeat (split; [ first [ exact cf1_runs | exact Co | exact Lo ] | ]); exact lower_no_ties | ].
  destruct upper_conditions as (Pu & Tu & Su), lower_conditions as (Pl & Tl & Sl), upper_fair as (Fu & Fl & _).
  exact (C56_lowest_overlaps_agree _ _ _ _ _ _ _ _ _ _ _ 1 _ _ cf1 mesh_steep ex_kernel (le_n 1) upper_wf lower_wf Pu Pl Su Sl Tu Tl Fu Fl cf1_runs Co Lo lower_no_ties mesh_steep_ok).
Qed.
Example C56_lowest_example_pieces : firstn 3 (m_faces mesh_steep) = [(0, 2, 4); (1, 4, 7); (4, 2, 7)]%nat /\ firstn 3 (skipn 8 (m_faces mesh_steep)) = [(0, 4, 2); (5, 2, 7); (2, 4, 7)]%nat.
Proof. vm_compute. repeat split; reflexivity. Qed.

(** ** Ties

    With the squares of the distances as heights both diagonals of the overlap of
    [upper] and [lower] are Delaunay, and here the two faces choose different ones.
    (CGAL's Projection_traits_3 compares points in a coordinate system that depends on the
    normal of the face, Triangulation.h:131-133, so that the symbolic perturbation of two faces with opposite
    normals need not be the same.)  Then no piece of one is a piece of the other,
    all these pieces are tagged INTERIOR, and the intersection of the two tetrahedra, which has no points, is a region with a boundary
    of four faces in one plane. *)
Lemma cf1_checked : run_b square cf1 = true.
Proof. vm_compute. reflexivity. Qed.
Definition tie_start := one_start exact_eqb value exact_box (fun _ => 0%nat) (fun _ l => l) (fun _ _ l => l) exact_ll exact_pl (fun _ _ _ => true) (two_fans_faces square) upper lower.
Definition tie_mesh : mesh exact (mixed_data unit) := fst (get (no_mesh, []) tie_start).
Definition tie_edges : list edge := snd (get (no_mesh, []) tie_start).
Definition tie_border : list edge := [(0, 2); (2, 7); (4, 7); (0, 4)]%nat.
Definition tie_classified := classified value ex_base1 ex_base2 ex_sort middle_point flat_side tie_edges upper lower tie_mesh tie_border (fun l => l).
Definition tie_mixed : mesh exact (mixed_data unit) * Model_classify.warnings := get (tie_mesh, no_warnings) tie_classified.
Definition tie_mix (_ _ : soup exact unit) : res (soup exact (mixed_data unit) * N) := Ok (take_soup (fst tie_mixed), warning_bits (snd tie_mixed)).
Lemma tie_mesh_ok : mixed_mesh (two_fans_faces square) cf1 upper lower = Ok tie_mesh.
Proof. vm_compute. reflexivity. Qed.
Lemma tie_edges_ok : get_intersecting_edges cf1 = Ok tie_edges.
Proof. vm_compute. reflexivity. Qed.
Lemma tie_border_ok : set_elements tie_edges tie_border.
Proof.
  split.
  - repeat constructor; cbn; intros H; decompose [or] H; discriminate || assumption.
  - assert (E : tie_edges = [(0, 2); (2, 7); (4, 7); (0, 4); (0, 4); (0, 4); (0, 2); (0, 2); (2, 7); (2, 7); (0, 4); (0, 4); (0, 4); (0, 4); (0, 2); (0, 2); (0, 2); (0, 2); (4, 7); (4, 7)]%nat) by (vm_compute; reflexivity).
    rewrite E. intro e. cbn. tauto.
Qed.
Lemma tie_classified_ok : tie_classified = Ok (fst tie_mixed, snd tie_mixed).
Proof. rewrite <- surjective_pairing. apply get_ok. vm_compute. reflexivity. Qed.
Lemma tie_tags : map (fun d => (from_left d, tag d)) (m_data (fst tie_mixed)) =
  [(true, INTERIOR); (true, INTERIOR); (true, EXTERIOR); (true, EXTERIOR); (true, EXTERIOR); (true, EXTERIOR); (true, EXTERIOR); (true, EXTERIOR);
   (false, INTERIOR); (false, EXTERIOR); (false, INTERIOR); (false, EXTERIOR); (false, EXTERIOR); (false, EXTERIOR); (false, EXTERIOR); (false, EXTERIOR)].
Proof. vm_compute. reflexivity. Qed.

Theorem C56_ties_refuted :
  exists P_eqb coords pbox longest_axis sort_by nth_element_by cll cpl accepts cdt_faces base1 base2 sort_around centroid side_of
    (left right : soup exact unit) A B cf m border order m' w mix bd,
  (exact_kernel P_eqb coords pbox sort_by nth_element_by cll cpl /\ accepts_compatible coords accepts /\
   plane_bases base1 base2 /\ sorts sort_around /\ inner_centroid coords centroid) /\
  represents coords (mk_region BOUNDARY_DEFINED left) A /\ represents coords (mk_region BOUNDARY_DEFINED right) B /\
  tells_side coords (located coords left) A (side_of left) /\ tells_side coords (located coords right) B (side_of right) /\
  meets_conditions coords left /\ meets_conditions coords right /\ fair_edges left right /\ fair_edges right left /\
  corefine P_eqb coords pbox longest_axis sort_by nth_element_by cll cpl accepts 1 left right (Ok cf) /\
  cdt_constrained coords cdt_faces cf /\ cdt_delaunay coords cdt_faces cf /\
  mixed_mesh cdt_faces cf left right = Ok m /\ get_intersecting_edges cf = Ok border /\ set_elements border order /\
  classified coords base1 base2 sort_around centroid side_of border left right m order (fun l => l) = Ok (m', w) /\
  calls_mix P_eqb coords pbox longest_axis sort_by nth_element_by cll cpl accepts cdt_faces base1 base2 sort_around centroid side_of 1
    mix left right /\ mix left right = Ok (take_soup m', warning_bits w) /\
  build mix (mk_region BOUNDARY_DEFINED left) (mk_region BOUNDARY_DEFINED right) = Ok bd /\ Model_boolean.warnings bd = 0%N /\
  (forall x, ~ (A x /\ B x)) /\
  forall prefer_first, exists r, run tt bd op_INTERSECTION prefer_first = Ok r /\
    kind r = BOUNDARY_DEFINED /\ num_faces (boundary r) = 4%nat /\
    ~ is_result coords op_INTERSECTION (mk_region BOUNDARY_DEFINED left) (mk_region BOUNDARY_DEFINED right) A B r.
Proof.
  exists exact_eqb, value, exact_box, (fun _ => 0%nat), (fun _ l => l), (fun _ _ l => l), exact_ll, exact_pl, (fun _ _ _ => true), (two_fans_faces square), ex_base1, ex_base2, ex_sort, middle_point, flat_side,
    upper, lower, in_upper, in_lower, cf1, tie_mesh, tie_edges, tie_border, (fst tie_mixed), (snd tie_mixed), tie_mix.
  destruct (run_b_ok _ _ cf1_checked) as (Co & Lo).
  assert (De : cdt_delaunay value (two_fans_faces square) cf1) by (intros F t J a b c vs Gv Cp; apply lowest_delaunay; exact (Lo F t J a b c Gv Cp)).
  assert (Ce : inner_centroid value middle_point).
  { intros p q r. unfold middle_point. destruct (value_reduce (ex_centroid (value p) (value q) (value r))) as (S1 & S2 & S3). exists (1 # 3), (1 # 3), (1 # 3). rewrite S1, S2, S3. unfold ex_centroid. cbn [vx vy vz fst snd]. repeat split; try lra; ring. }
  destruct upper_fair as (Fu & Fl & _).
  eexists. split; [ split; [ exact ex_kernel | ]; split; [ intros t a b c h k vs _ _; reflexivity | ]; split; [ exact ex_bases | ]; split; [ exact ex_sorts | exact Ce ] | ].
  split; [ split; [ split; [ exact upper_wf | discriminate ] | exact upper_solid ] | ].
  split; [ split; [ split; [ exact lower_wf | discriminate ] | exact lower_solid ] | ].
  split; [ exact upper_side | ]. split; [ exact lower_side | ]. split; [ exact upper_conditions | ]. split; [ exact lower_conditions | ]. split; [ exact Fu | ]. split; [ exact Fl | ].
  split; [ exact cf1_runs | ]. split; [ exact Co | ]. split; [ exact De | ]. split; [ exact tie_mesh_ok | ]. split; [ exact tie_edges_ok | ]. split; [ exact tie_border_ok | ]. split; [ exact tie_classified_ok | ].
  split; [ exists (Ok (take_soup (fst tie_mixed), snd tie_mixed)); split; [ | reflexivity ]; eapply mixes_ok; [ exact cf1_runs | exact tie_mesh_ok | exact tie_edges_ok | exact tie_border_ok | intro l; apply Permutation_refl | exact tie_classified_ok ] | ].
  split; [ reflexivity | ]. split; [ reflexivity | ]. split; [ vm_compute; reflexivity | ].
  assert (Empty : forall x, ~ (in_upper x /\ in_lower x)) by (intros x ((H1 & _) & (H2 & _)); lra). split; [ exact Empty | ].
  intro prefer_first. eexists. split; [ case prefer_first; vm_compute; reflexivity | ].
  split; [ reflexivity | ]. split; [ reflexivity | ].
  intros (_ & S & (_ & HS) & H). cbn [kind] in HS. destruct HS as (_ & Bd & _).
  assert (Off : forall e, 0 < e -> e < 3 -> let x := along (16, 13, 0) e (0, 0, 1) in ~ on_surface value (mk_region BOUNDARY_DEFINED upper) x /\ ~ on_surface value (mk_region BOUNDARY_DEFINED lower) x).
  { clear. intros e E0 E1 x. unfold along in x. cbn [vx vy vz fst snd] in x. split; intros (fi & a & b & c & E & I).
    - apply (tris_list_ok _ upper_valid), nth_error_In in E. rewrite upper_tris in E. list_cases E; injection E as <- <- <-; destruct I as (u & v & w & I); unfold x in I; cbn [vx vy vz fst snd] in I; destruct I as (A & B & C & S & X & Y & Z); lra.
    - apply (tris_list_ok _ lower_valid), nth_error_In in E. rewrite lower_tris in E. list_cases E; injection E as <- <- <-; destruct I as (u & v & w & I); unfold x in I; cbn [vx vy vz fst snd] in I; destruct I as (A & B & C & S & X & Y & Z); lra. }
  destruct (bd_face _ _ Bd 0%nat (0, 0, 0) (18, 24, 0) (30, 15, 0) (16, 13, 0) (0, 0, 1) eq_refl) as (bound & B0 & G).
  - exists (1 # 3), (1 # 3), (1 # 3). cbn [vx vy vz fst snd]. repeat split; lra.
  - set (e := if Qlt_le_dec bound 2 then (1 # 2) * bound else 1).
    assert (E : 0 < e /\ e < bound /\ e < 3) by (unfold e; destruct (Qlt_le_dec bound 2); repeat split; lra). clearbody e. destruct E as (E0 & E1 & E2).
    destruct (G e (conj E0 E1)) as (In_ & _). destruct (Off e E0 E2) as (O1 & O2).
    assert (Sx : S (along (16, 13, 0) e (0, 0, 1))) by (apply In_; unfold Spec_side.normal, vdot, vcross, vsub; cbn [vx vy vz fst snd]; lra).
    apply (H _ O1 O2) in Sx. exact (Empty _ Sx).
Qed.
Print Assumptions C56_ties_refuted.

(** ** Boolean operations

    C56_boolean_operation for two tetrahedra with a face in common, for all numbers of
    threads and all runs. *)
Example C56_boolean_operation_example : forall num_threads, (1 <= num_threads)%nat -> exists mix bd,
  (forall cf, ex_corefine num_threads (Ok cf) -> cdt_constrained value (fan_faces value) cf /\ cdt_delaunay value (fan_faces value) cf) /\
  calls_mix exact_eqb value exact_box (fun _ => 0%nat) (fun _ l => l) (fun _ _ l => l) exact_ll exact_pl (fun _ _ _ => true) (fan_faces value)
    ex_base1 ex_base2 ex_sort middle_point which_side num_threads mix upright leaning /\
  build mix (ex_region upright) (ex_region leaning) = Ok bd /\ Model_boolean.warnings bd = 0%N /\
  forall op prefer_first, exists r, run tt bd op prefer_first = Ok r /\
    is_result value op (ex_region upright) (ex_region leaning) in_tetra in_lean r.
Proof.
  intros nt Hnt. destruct (C49_example nt Hnt) as (mix & _ & Hm & _).
  assert (Cd : forall cf, ex_corefine nt (Ok cf) -> cdt_constrained value (fan_faces value) cf /\ cdt_delaunay value (fan_faces value) cf).
  { intros cf H. split; [ exact (ex_triangulated nt cf Hnt H) | ]. intros F t J a b c vs Gv Cp. apply (fan_delaunay _ _ a b c Gv). unfold vs. rewrite map_length.
    refine (ex_few_like upright nt cf _ upright_proper upright_simplicial (solid_no_twins value upright (proj1 tetra_solid)) Hnt H F t J). intros i u. reflexivity. }
  assert (Ra : represents value (ex_region upright) in_tetra) by (split; [ split; [ exact upright_wf | discriminate ] | exact tetra_solid ]).
  assert (Rb : represents value (ex_region leaning) in_lean) by (split; [ split; [ exact leaning_wf | discriminate ] | exact lean_solid ]).
  assert (Ta : tells_side value (located value upright) in_tetra (which_side upright)).
  { intros x _. right. destruct (tetra_side_right (value x)) as (X1 & X2). unfold which_side. change (existsb _ (points upright)) with false. split; intro Z; f_equal; auto. }
  assert (Tb : tells_side value (located value leaning) in_lean (which_side leaning)).
  { intros x _. right. destruct (tetra_side_right (unlean (value x))) as (X1 & X2). unfold which_side. change (existsb _ (points leaning)) with true. split; intro Z; f_equal; auto. }
  assert (Ce : inner_centroid value middle_point).
  { intros p q r. unfold middle_point. destruct (value_reduce (ex_centroid (value p) (value q) (value r))) as (S1 & S2 & S3). exists (1 # 3), (1 # 3), (1 # 3). rewrite S1, S2, S3. unfold ex_centroid. cbn [vx vy vz fst snd]. repeat split; try lra; ring. }
  destruct (C56_boolean_operation exact_eqb value exact_box (fun _ => 0%nat) (fun _ l => l) (fun _ _ l => l) exact_ll exact_pl (fun _ _ _ => true) (fan_faces value)
    ex_base1 ex_base2 ex_sort middle_point which_side nt tt mix (ex_region upright) (ex_region leaning) in_tetra in_lean ex_kernel (fun t a b c h k _ _ => eq_refl) ex_bases ex_sorts Ce Hnt Ra Rb (fun _ => Ta) (fun _ => Tb)
    upright_simplicial leaning_simplicial (proj1 ex_fair) (proj2 ex_fair) Cd (C56_triangular_no_circles value upright leaning ex_overlaps) (fun _ _ => Hm)) as [ (bd & E & W & G) | (_ & [ (x & _ & X) | (x & _ & X) ]) ].
  - exists mix, bd. auto.
  - discriminate X.
  - discriminate X.
Qed.
