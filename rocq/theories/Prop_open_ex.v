(** * C54: an example; C55: meshes that have an edge in common at the boundary of the region *)
From Coq Require Import List Arith NArith Bool QArith Lqa Lia Permutation.
From Verif Require Import Model_base Proof_base Model_geometry Model_soup Model_mesh Model_aabb Model_points Model_boolean Model_classify Model_local Model_candidates Model_corefine Model_side Model_mix.
From Verif Require Import Spec_aabb Spec_boolean Spec_candidates Spec_side Spec_radial Spec_local Spec_solid Spec_conform Spec_defects Spec_ffi Spec_corefine Spec_mix Spec_cut Spec_whole Spec_again Spec_open.
From Verif Require Import Proof_fan Proof_extreme Proof_exact Proof_mix_faces Proof_affine Proof_convex Proof_planes Proof_one_run Proof_touch Proof_whole Proof_whole_ex Proof_sheet Prop_local Prop_corefine Prop_cut Prop_side Prop_solid Prop_conform Prop_whole Prop_whole_ex Prop_touch Prop_open.
From Verif Require Import Proof_sheet Spec_side Spec_solid.
Import ListNotations.
Local Open Scope Q_scope.

Lemma middle_inner : inner_centroid value middle_point.
Proof.
  intros p q r. unfold middle_point. destruct (value_reduce (ex_centroid (value p) (value q) (value r))) as (S1 & S2 & S3).
  exists (1 # 3), (1 # 3), (1 # 3). rewrite S1, S2, S3. unfold ex_centroid. cbn [vx vy vz fst snd]. repeat split; try lra; ring.
Qed.

(** ** Two sheets that cross inside an octahedron *)
Definition sheet_side (m : soup exact unit) (x : exact) : res oriented_side :=
  if existsb (fun p => negb (Qeq_bool (vy (value p)) 0)) (points m) then below_b ((0, 0, 1), 0) x else below_b ((0, 1, 0), 0) x.

Example C54_example : forall num_threads, (1 <= num_threads)%nat -> exists mix bd,
  calls_mix exact_eqb value exact_box (fun _ => 0%nat) (fun _ l => l) (fun _ _ l => l) exact_ll exact_pl (fun _ _ _ => true) (fan_faces value)
    ex_base1 ex_base2 ex_sort middle_point sheet_side num_threads mix level_sheet upright_sheet /\
  build mix (ex_region level_sheet) (ex_region upright_sheet) = Ok bd /\ Model_boolean.warnings bd = 0%N /\
  forall op prefer_first, exists r, run tt bd op prefer_first = Ok r /\
    is_result_in (below octa) value op (ex_region level_sheet) (ex_region upright_sheet) under_level behind_upright r.
Proof.
  intros nt Hnt.
  assert (Ta : tells_side_in (below octa) value (located value level_sheet) under_level (sheet_side level_sheet)) by (apply below_b_tells; reflexivity).
  assert (Tb : tells_side_in (below octa) value (located value upright_sheet) behind_upright (sheet_side upright_sheet)) by (apply below_b_tells; reflexivity).
  assert (Ra : represents_in (below octa) value (ex_region level_sheet) under_level) by (split; [ split; [ exact level_wf | discriminate ] | exact level_solid ]).
  assert (Rb : represents_in (below octa) value (ex_region upright_sheet) behind_upright) by (split; [ split; [ exact upright_sheet_wf | discriminate ] | exact upright_solid ]).
  assert (Hac : accepts_compatible value (fun _ _ _ => true)) by (intros t a b c h k vs _ _; reflexivity).
  assert (Hcdt : forall cf, corefine exact_eqb value exact_box (fun _ => 0%nat) (fun _ l => l) (fun _ _ l => l) exact_ll exact_pl (fun _ _ _ => true) nt level_sheet upright_sheet (Ok cf) ->
    cdt_constrained value (fan_faces value) cf).
  { intros cf H. exact (conforming_triangulated level_sheet upright_sheet nt cf level_upright_conform level_conditions upright_conditions Hnt H). }
  pose proof (conforming_overlaps level_sheet upright_sheet level_upright_conform) as Ov.
  destruct (C54_mix_ends (below octa) exact_eqb value exact_box (fun _ => 0%nat) (fun _ l => l) (fun _ _ l => l) exact_ll exact_pl (fun _ _ _ => true) (fan_faces value)
    ex_base1 ex_base2 ex_sort middle_point sheet_side nt level_sheet upright_sheet under_level behind_upright (below_open_convex _) ex_kernel Hac ex_bases ex_sorts middle_inner Hnt
    level_wf upright_sheet_wf level_solid upright_solid Ta Tb sheets_meet_inside (proj2 (proj2 level_conditions)) (proj2 (proj2 upright_conditions)) (proj1 level_fair) (proj2 level_fair) Hcdt Ov) as (r & Hr).
  set (mix := fun _ _ : soup exact unit => let* (m, w) := r in Ok (m, warning_bits w)).
  assert (Hm : calls_mix exact_eqb value exact_box (fun _ => 0%nat) (fun _ l => l) (fun _ _ l => l) exact_ll exact_pl (fun _ _ _ => true) (fan_faces value)
    ex_base1 ex_base2 ex_sort middle_point sheet_side nt mix level_sheet upright_sheet) by (exists r; split; [ exact Hr | reflexivity ]).
  destruct (C54_boolean_operation (below octa) exact_eqb value exact_box (fun _ => 0%nat) (fun _ l => l) (fun _ _ l => l) exact_ll exact_pl (fun _ _ _ => true) (fan_faces value)
    ex_base1 ex_base2 ex_sort middle_point sheet_side nt tt mix (ex_region level_sheet) (ex_region upright_sheet) under_level behind_upright (below_open_convex _) ex_kernel Hac ex_bases ex_sorts middle_inner Hnt
    Ra Rb (fun _ => Ta) (fun _ => Tb) sheets_meet_inside (proj2 (proj2 level_conditions)) (proj2 (proj2 upright_conditions)) (proj1 level_fair) (proj2 level_fair) Hcdt (or_introl Ov) (fun _ _ => Hm))
    as [ (bd & E & W & G) | (_ & [ (x & _ & _ & X) | (x & _ & _ & X) ]) ].
  - exists mix, bd. auto.
  - unfold sheet_side in X. change (existsb _ _) with true in X. discriminate X.
  - unfold sheet_side in X. change (existsb _ _) with false in X. discriminate X.
Qed.

(** Each of the sets has points in the octahedron that the other has not, and they have some in common. *)
Example C54_example_sets : let p := (0, -(1 # 4), -(1 # 4)) in let q := (0, 1 # 4, -(1 # 4)) in let r := (0, -(1 # 4), 1 # 4) in
  (below octa p /\ below octa q /\ below octa r) /\
  (under_level p /\ behind_upright p) /\ (under_level q /\ ~ behind_upright q) /\ (~ under_level r /\ behind_upright r).
Proof.
  assert (C : forall x, forallb (fun H => negb (Qle_bool 0 (level H x))) octa = true -> below octa x).
  { intros x Ch H J. rewrite forallb_forall in Ch. specialize (Ch H J). apply negb_true_iff in Ch. destruct (Qlt_le_dec (level H x) 0) as [ | L]; [ assumption | ]. apply Qle_bool_iff in L. congruence. }
  split; [ split; [ | split ]; apply C; vm_compute; reflexivity | ].
  unfold under_level, behind_upright, level, vdot. cbn [fst snd vx vy vz]. repeat split; lra.
Qed.

(** ** C55: two sheets that have an edge in common at the boundary of a prism

    README.md, "Technical details", demands that open meshes be clipped with a common convex
    region.  That is not enough: around an edge on the boundary of the region, local
    classification (Classify_faces_locally.h:94-119) takes the last face and the first one for
    neighbours, as if the part of space between them belonged to the region. *)

(** Vectors in a plane, chosen like CGAL does it for planes that are parallel to an axis (Construct_base_vector_3). *)
Definition axis_base1 (n : vec3) : vec3 :=
  if Qeq_bool (vx n) 0 then (1, 0, 0) else if Qeq_bool (vy n) 0 then (0, 1, 0) else if Qeq_bool (vz n) 0 then (0, 0, 1) else (- vy n, vx n, 0).
Definition axis_base2 (n : vec3) : vec3 := vcross n (axis_base1 n).
Lemma axis_bases : plane_bases axis_base1 axis_base2.
Proof.
  intros [ [x y] z] H. unfold axis_base2, axis_base1. cbn [vx vy vz fst snd].
  destruct (Qeq_bool x 0) eqn:E1; [ apply Qeq_bool_iff in E1 | apply Qeq_bool_neq in E1; destruct (Qeq_bool y 0) eqn:E2; [ apply Qeq_bool_iff in E2 | apply Qeq_bool_neq in E2; destruct (Qeq_bool z 0) eqn:E3; [ apply Qeq_bool_iff in E3 | ] ] ].
  - split; [ | split; [ | reflexivity ] ]; unfold vdot, vx, vy, vz; cbn [fst snd]; [ rewrite E1; ring | reflexivity ].
  - split; [ | split; [ | reflexivity ] ]; unfold vdot, vx, vy, vz; cbn [fst snd]; [ rewrite E2; ring | reflexivity ].
  - split; [ | split; [ | reflexivity ] ]; unfold vdot, vx, vy, vz; cbn [fst snd]; [ rewrite E3; ring | reflexivity ].
  - split; [ | split; [ | reflexivity ] ]; unfold vdot, vx, vy, vz; cbn [fst snd]; [ ring | ].
    assert (0 < x * x) by (clear - E1; destruct (Q_dec x 0) as [ [K | K] | K]; [ nra | nra | contradiction ]). assert (0 <= y * y) by nra. nra.
Qed.

Definition rim_side (m : soup exact unit) (x : exact) : res oriented_side :=
  if existsb (fun p => negb (Qle_bool 0 (vy (value p)))) (points m) then below_b ((0, 1, -(1)), 0) x else below_b ((0, 1, 1), 0) x.

Definition rim_start := one_start exact_eqb value exact_box (fun _ => 0%nat) (fun _ l => l) (fun _ _ l => l) exact_ll exact_pl (fun _ _ _ => true) (fan_faces value) rising_sheet falling_sheet.
Definition rim_mesh : mesh exact (mixed_data unit) := fst (get (finalize (mesh_of [] [] []), []) rim_start).
Definition rim_edges : list edge := snd (get (finalize (mesh_of [] [] []), []) rim_start).
Definition rim_classified := classified value axis_base1 axis_base2 ex_sort middle_point rim_side rim_edges rising_sheet falling_sheet rim_mesh [(0, 1)]%nat (fun l => l).
Definition rim_mixed : mesh exact (mixed_data unit) * Model_classify.warnings := get (rim_mesh, no_warnings) rim_classified.
Definition rim_mix (_ _ : soup exact unit) : res (soup exact (mixed_data unit) * N) := Ok (take_soup (fst rim_mixed), warning_bits (snd rim_mixed)).

Lemma rim_calls : calls_mix exact_eqb value exact_box (fun _ => 0%nat) (fun _ l => l) (fun _ _ l => l) exact_ll exact_pl (fun _ _ _ => true) (fan_faces value)
  axis_base1 axis_base2 ex_sort middle_point rim_side 1 rim_mix rising_sheet falling_sheet.
Proof.
  exists (Ok (take_soup (fst rim_mixed), snd rim_mixed)). split; [ | reflexivity ].
  eapply (one_mix_ok exact_eqb value exact_box (fun _ => 0%nat) (fun _ l => l) (fun _ _ l => l) exact_ll exact_pl (fun _ _ _ => true) (fan_faces value)
    axis_base1 axis_base2 ex_sort middle_point rim_side rising_sheet falling_sheet rim_mesh rim_edges [(0, 1)]%nat (fun l => l)).
  - unfold rim_mesh, rim_edges. rewrite <- surjective_pairing. apply get_ok. vm_compute. reflexivity.
  - split.
    + repeat constructor; cbn; intros H; decompose [or] H; discriminate || assumption.
    + assert (E : rim_edges = [(0, 1); (0, 1)]%nat) by (vm_compute; reflexivity). rewrite E. intro e. cbn. tauto.
  - intro l. apply Permutation_refl.
  - fold rim_classified. rewrite <- surjective_pairing. apply get_ok. vm_compute. reflexivity.
Qed.

(** The lower sheet is inside the set of the upper one, and the upper sheet outside that of the lower one;
    the tags say the opposite. *)
Lemma rim_tags : map (fun d => (from_left d, tag d)) (m_data (fst rim_mixed)) = [(true, EXTERIOR); (false, INTERIOR)].
Proof. vm_compute. reflexivity. Qed.

(** All that C54_boolean_operation asks for holds except [meet_inside]; in particular both
    meshes are clipped with the same convex region, as README.md demands.  The builder is
    constructed without a warning, and the union is not the union of the sets. *)
Theorem C55_common_convex_region_refuted :
  exists K P_eqb coords pbox longest_axis sort_by nth_element_by cll cpl accepts cdt_faces base1 base2 sort_around centroid side_of
    (left right : soup exact unit) A B mix bd,
  open_convex K /\
  (exact_kernel P_eqb coords pbox sort_by nth_element_by cll cpl /\ accepts_compatible coords accepts /\
   plane_bases base1 base2 /\ sorts sort_around /\ inner_centroid coords centroid) /\
  represents_in K coords (mk_region BOUNDARY_DEFINED left) A /\ represents_in K coords (mk_region BOUNDARY_DEFINED right) B /\
  tells_side_in K coords (located coords left) A (side_of left) /\ tells_side_in K coords (located coords right) B (side_of right) /\
  meets_conditions coords left /\ meets_conditions coords right /\ fair_edges left right /\ fair_edges right left /\
  (forall num_threads cf, (1 <= num_threads)%nat ->
     corefine P_eqb coords pbox longest_axis sort_by nth_element_by cll cpl accepts num_threads left right (Ok cf) ->
     cdt_constrained coords cdt_faces cf) /\
  triangular_overlaps coords left right /\
  calls_mix P_eqb coords pbox longest_axis sort_by nth_element_by cll cpl accepts cdt_faces base1 base2 sort_around centroid side_of 1
    mix left right /\
  build mix (mk_region BOUNDARY_DEFINED left) (mk_region BOUNDARY_DEFINED right) = Ok bd /\ Model_boolean.warnings bd = 0%N /\
  forall prefer_first, exists r, run tt bd op_UNION prefer_first = Ok r /\
    ~ is_result_in K coords op_UNION (mk_region BOUNDARY_DEFINED left) (mk_region BOUNDARY_DEFINED right) A B r.
Proof.
  exists (below prism), exact_eqb, value, exact_box, (fun _ => 0%nat), (fun _ l => l), (fun _ _ l => l), exact_ll, exact_pl, (fun _ _ _ => true), (fan_faces value), axis_base1, axis_base2, ex_sort, middle_point, rim_side,
    rising_sheet, falling_sheet, under_rising, under_falling, rim_mix.
  eexists. split; [ apply below_open_convex | ].
  split; [ split; [ exact ex_kernel | ]; split; [ intros t a b c h k vs _ _; reflexivity | ]; split; [ exact axis_bases | ]; split; [ exact ex_sorts | exact middle_inner ] | ].
  split; [ split; [ split; [ exact rising_wf | discriminate ] | exact rising_solid ] | ].
  split; [ split; [ split; [ exact falling_wf | discriminate ] | exact falling_solid ] | ].
  split; [ apply below_b_tells; reflexivity | ]. split; [ apply below_b_tells; reflexivity | ].
  split; [ exact rising_conditions | ]. split; [ exact falling_conditions | ]. split; [ exact (proj1 rising_fair) | ]. split; [ exact (proj2 rising_fair) | ].
  split; [ intros nt cf Hnt H; exact (conforming_triangulated rising_sheet falling_sheet nt cf rising_falling_conform rising_conditions falling_conditions Hnt H) | ].
  split; [ exact (conforming_overlaps rising_sheet falling_sheet rising_falling_conform) | ]. split; [ exact rim_calls | ].
  split; [ reflexivity | ]. split; [ vm_compute; reflexivity | ].
  (* the union is the lower sheet *)
  intro prefer_first. exists (mk_region BOUNDARY_DEFINED rising_sheet). split; [ case prefer_first; vm_compute; reflexivity | ].
  intros (_ & S & (_ & HS) & H). cbn [kind boundary] in HS. destruct HS as (_ & [W _] & _).
  set (p := (0, 0, -(1 # 2))). set (q := (0, 3, -(1 # 2))).
  assert (In_ : forall y, below prism (0, y, -(1 # 2))).
  { intros y G J. cbn in J. unfold level, vdot. repeat (destruct J as [<- | J]; [ cbn [vx vy vz fst snd]; lra | ]). destruct J. }
  assert (Off : forall y, 0 <= y -> ~ on_boundary (located value rising_sheet) (0, y, -(1 # 2))).
  { intros y Hy (i & a & b & c & E & J). destruct (rising_cases i a b c E) as (_ & X). injection X as -> -> ->. weights. lra. }
  assert (Off' : forall y, y < (1 # 2) \/ (1 # 2) < y -> ~ on_boundary (located value falling_sheet) (0, y, -(1 # 2))).
  { intros y Hy (i & a & b & c & E & J). destruct (falling_cases i a b c E) as (_ & X). injection X as -> -> ->. weights. destruct Hy; lra. }
  assert (Walk : S p <-> S q).
  { apply W; [ apply In_ | apply In_ | ]. intros z (t & Ht & Sz) (i & a & b & c & E & J). destruct (rising_cases i a b c E) as (_ & X). injection X as -> -> ->.
    destruct Sz as (Z1 & Z2 & Z3). unfold p, q, along, vsub in Z1, Z2, Z3. weights. lra. }
  assert (Hp := H p (In_ 0) (Off 0 ltac:(lra)) (Off' 0 ltac:(lra))). assert (Hq := H q (In_ 3) (Off 3 ltac:(lra)) (Off' 3 ltac:(lra))).
  assert (Up : set_of op_UNION under_rising under_falling p) by (right; unfold under_falling, level, vdot, p; cbn [fst snd vx vy vz]; lra).
  assert (Nq : ~ set_of op_UNION under_rising under_falling q) by (intros [Z | Z]; unfold under_rising, under_falling, level, vdot, q in Z; cbn [fst snd vx vy vz] in Z; lra).
  apply Nq, Hq, Walk, Hp, Up.
Qed.
Print Assumptions C55_common_convex_region_refuted.

(** Indeed the faces have in common an edge on the boundary of the prism. *)
Example C55_not_inside : ~ meet_inside (below prism) (located value rising_sheet) (located value falling_sheet).
Proof.
  intro M.
  assert (Z := M true false 0%nat 0%nat _ _ (-(1), 0, 0) (1, 0, 0) ltac:(discriminate) eq_refl eq_refl).
  assert (Y : below prism (along (-(1), 0, 0) (1 # 2) (vsub (1, 0, 0) (-(1), 0, 0)))).
  { apply Z.
    - intros (X & _). vm_compute in X. discriminate X.
    - exists 1, 0, 0. cbn. repeat split; reflexivity || discriminate.
    - exists 0, 1, 0. cbn. repeat split; reflexivity || discriminate.
    - exists 1, 0, 0. cbn. repeat split; reflexivity || discriminate.
    - exists 0, 1, 0. cbn. repeat split; reflexivity || discriminate. }
  specialize (Y _ (or_introl eq_refl)). vm_compute in Y. discriminate Y.
Qed.
