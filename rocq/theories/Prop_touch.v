(** * C53: the conditions of README.md do not suffice

    README.md, "Technical details", lists the conditions that boundary meshes must satisfy "for
    Boolean operations to work properly", and "Features" promises that "closed or open,
    manifold or non-manifold meshes" are handled.  C49 proves that Boolean operations work for closed meshes,
    manifold or not, under the conditions of the list and one more, [fair_edges] (Spec_cut.v): at an edge of both
    meshes where one has a face that the other has not, the other has one too that the
    first has not.  Here is a pair of closed meshes that meet
    all the conditions of the list, for which the difference comes out empty, without a warning, while it
    contains a tetrahedron.  The tag COPLANAR of the faces that the meshes have
    in common is propagated (Propagate_face_tags.h:28-41) across an edge that is not among the
    intersecting edges, since no two of the faces at it that intersect are untagged (Find_possibly_intersecting_faces.h:38-40, 52-54),
    to faces of the left mesh that are outside of the right one. *)
From Coq Require Import List Arith NArith Bool QArith Lqa Lia Permutation.
From Verif Require Import Model_base Proof_base Model_geometry Model_soup Model_mesh Model_aabb Model_points Model_boolean Model_classify Model_local Model_candidates Model_corefine Model_side Model_mix.
From Verif Require Import Spec_aabb Spec_boolean Spec_candidates Spec_side Spec_radial Spec_local Spec_solid Spec_conform Spec_defects Spec_ffi Spec_corefine Spec_mix Spec_cut Spec_whole Spec_again.
From Verif Require Import Proof_fan Proof_extreme Proof_exact Proof_mix_faces Proof_convex Proof_planes Proof_one_run Proof_touch Proof_whole Proof_whole_ex Prop_local Prop_corefine Prop_cut Prop_side Prop_solid Prop_conform Prop_whole Prop_whole_ex.
Import ListNotations.
Local Open Scope Q_scope.

Definition touch_start := one_start exact_eqb value exact_box (fun _ => 0%nat) (fun _ l => l) (fun _ _ l => l) exact_ll exact_pl (fun _ _ _ => true) (fan_faces value) touching spire.
Definition touch_border : list edge := [(1, 2); (1, 3); (0, 2); (0, 3)]%nat.

Definition is_ok {A} (r : res A) : bool := match r with Ok _ => true | _ => false end.
Definition get {A} (d : A) (r : res A) : A := match r with Ok a => a | _ => d end.
Lemma get_ok : forall {A} (d : A) r, is_ok r = true -> r = Ok (get d r).
Proof. intros A d [a | | ] H; [ reflexivity | discriminate .. ]. Qed.

Definition touch_mesh : mesh exact (mixed_data unit) := fst (get (finalize (mesh_of [] [] []), []) touch_start).
Definition touch_edges : list edge := snd (get (finalize (mesh_of [] [] []), []) touch_start).
Definition touch_classified := classified value ex_base1 ex_base2 ex_sort middle_point touch_side touch_edges touching spire touch_mesh touch_border (fun l => l).
Definition touch_mixed : mesh exact (mixed_data unit) * Model_classify.warnings := get (touch_mesh, no_warnings) touch_classified.
Definition touch_mix (_ _ : soup exact unit) : res (soup exact (mixed_data unit) * N) :=
  Ok (take_soup (fst touch_mixed), warning_bits (snd touch_mixed)).

Lemma touch_calls : calls_mix exact_eqb value exact_box (fun _ => 0%nat) (fun _ l => l) (fun _ _ l => l) exact_ll exact_pl (fun _ _ _ => true) (fan_faces value)
  ex_base1 ex_base2 ex_sort middle_point touch_side 1 touch_mix touching spire.
Proof.
  exists (Ok (take_soup (fst touch_mixed), snd touch_mixed)). split; [ | reflexivity ].
  eapply (one_mix_ok exact_eqb value exact_box (fun _ => 0%nat) (fun _ l => l) (fun _ _ l => l) exact_ll exact_pl (fun _ _ _ => true) (fan_faces value)
    ex_base1 ex_base2 ex_sort middle_point touch_side touching spire touch_mesh touch_edges touch_border (fun l => l)).
  - unfold touch_mesh, touch_edges. rewrite <- surjective_pairing. apply get_ok. vm_compute. reflexivity.
  - split.
    + repeat constructor; cbn; intros H; decompose [or] H; discriminate || assumption.
    + assert (E : touch_edges = [(1, 2); (1, 2); (1, 3); (1, 3); (0, 3); (0, 3); (0, 2); (0, 2)]%nat) by (vm_compute; reflexivity). rewrite E. intro e. cbn. tauto.
  - intro l. apply Permutation_refl.
  - fold touch_classified. rewrite <- surjective_pairing. apply get_ok. vm_compute. reflexivity.
Qed.

(** The tags. *)
Lemma touch_tags : map (fun d => (from_left d, tag d)) (m_data (fst touch_mixed)) =
  [(true, COPLANAR); (true, COPLANAR); (true, INTERIOR); (true, INTERIOR); (true, COPLANAR); (true, COPLANAR); (true, COPLANAR); (true, COPLANAR);
   (false, COPLANAR); (false, COPLANAR); (false, EXTERIOR); (false, EXTERIOR); (false, EXTERIOR); (false, EXTERIOR)].
Proof. vm_compute. reflexivity. Qed.

(** All that C49_boolean_operation asks for holds except [fair_edges]; in particular the
    meshes meet the conditions of README.md.  The builder is constructed without a
    warning, and the difference is not the difference of the sets. *)
Theorem C53_conditions_of_readme_refuted :
  exists P_eqb coords pbox longest_axis sort_by nth_element_by cll cpl accepts cdt_faces base1 base2 sort_around centroid side_of
    (left right : soup exact unit) A B mix bd,
  (exact_kernel P_eqb coords pbox sort_by nth_element_by cll cpl /\ accepts_compatible coords accepts /\
   plane_bases base1 base2 /\ sorts sort_around /\ inner_centroid coords centroid) /\
  represents coords (mk_region BOUNDARY_DEFINED left) A /\ represents coords (mk_region BOUNDARY_DEFINED right) B /\
  tells_side coords (located coords left) A (side_of left) /\ tells_side coords (located coords right) B (side_of right) /\
  meets_conditions coords left /\ meets_conditions coords right /\
  (forall num_threads cf, (1 <= num_threads)%nat ->
     corefine P_eqb coords pbox longest_axis sort_by nth_element_by cll cpl accepts num_threads left right (Ok cf) ->
     cdt_constrained coords cdt_faces cf) /\
  triangular_overlaps coords left right /\
  calls_mix P_eqb coords pbox longest_axis sort_by nth_element_by cll cpl accepts cdt_faces base1 base2 sort_around centroid side_of 1
    mix left right /\
  build mix (mk_region BOUNDARY_DEFINED left) (mk_region BOUNDARY_DEFINED right) = Ok bd /\ Model_boolean.warnings bd = 0%N /\
  forall prefer_first, exists r, run tt bd op_DIFFERENCE prefer_first = Ok r /\
    ~ is_result coords op_DIFFERENCE (mk_region BOUNDARY_DEFINED left) (mk_region BOUNDARY_DEFINED right) A B r.
Proof.
  exists exact_eqb, value, exact_box, (fun _ => 0%nat), (fun _ l => l), (fun _ _ l => l), exact_ll, exact_pl, (fun _ _ _ => true), (fan_faces value), ex_base1, ex_base2, ex_sort, middle_point, touch_side,
    touching, spire, in_touching, in_spire, touch_mix.
  assert (Ce : inner_centroid value middle_point).
  { intros p q r. unfold middle_point. destruct (value_reduce (ex_centroid (value p) (value q) (value r))) as (S1 & S2 & S3). exists (1 # 3), (1 # 3), (1 # 3). rewrite S1, S2, S3. unfold ex_centroid. cbn [vx vy vz fst snd]. repeat split; try lra; ring. }
  eexists. split; [ split; [ exact ex_kernel | ]; split; [ intros t a b c h k vs _ _; reflexivity | ]; split; [ exact ex_bases | ]; split; [ exact ex_sorts | exact Ce ] | ].
  split; [ split; [ split; [ exact touching_wf | discriminate ] | exact touching_solid ] | ].
  split; [ split; [ split; [ exact spire_wf | discriminate ] | exact spire_solid ] | ].
  split; [ exact touching_side | ]. split; [ exact spire_side | ]. split; [ exact touching_conditions | ]. split; [ exact spire_conditions | ].
  split; [ intros nt cf Hnt H; exact (conforming_triangulated touching spire nt cf touch_conform touching_conditions spire_conditions Hnt H) | ].
  split; [ exact (conforming_overlaps touching spire touch_conform) | ]. split; [ exact touch_calls | ].
  split; [ reflexivity | ]. split; [ vm_compute; reflexivity | ].
  intro prefer_first. exists region_empty. split; [ case prefer_first; vm_compute; reflexivity | ].
  intros (_ & S & (_ & HS) & H). cbn in HS. specialize (H (1 # 4, - (1 # 4), - (1 # 4))).
  assert (In_ : in_touching (1 # 4, - (1 # 4), - (1 # 4))) by (right; unfold in_second; cbn [vx vy vz fst snd]; repeat split; lra).
  assert (Out : ~ in_spire (1 # 4, - (1 # 4), - (1 # 4))) by (intros (X & _); cbn [vx vy vz fst snd] in X; lra).
  assert (Off : forall (m : soup exact unit), valid_faces (located value m) -> forallb (fun T => negb (Qeq_bool (height T (1 # 4, - (1 # 4), - (1 # 4))) 0)) (tris_list (located value m)) = true ->
    ~ on_surface value (mk_region BOUNDARY_DEFINED m) (1 # 4, - (1 # 4), - (1 # 4))).
  { intros m V Ch (fi & a & b & c & E & I). apply (tris_list_ok _ V), nth_error_In in E. rewrite forallb_forall in Ch. specialize (Ch _ E). apply negb_true_iff in Ch.
    assert (Z : height (a, b, c) (1 # 4, - (1 # 4), - (1 # 4)) == 0) by (apply on_own; exact I). apply Qeq_bool_iff in Z. congruence. }
  apply (HS (1 # 4, - (1 # 4), - (1 # 4))). apply H; [ apply Off; [ exact touching_valid | vm_compute; reflexivity ] | apply Off; [ exact spire_valid | vm_compute; reflexivity ] | ].
  split; assumption.
Qed.
Print Assumptions C53_conditions_of_readme_refuted.

(** Indeed [fair_edges] does not hold: at the edge OX there are faces of the left mesh that are
    not faces of the right one, and all faces of the right one there are faces of the left one. *)
Example C53_not_fair : ~ fair_edges touching spire.
Proof.
  intro F.
  assert (Tr : forall (m : soup exact unit) i t, face_corners m i t -> In t (triples m (at_ 0 0 0))) by (intros m i t C; apply (triples_corners m (at_ 0 0 0)) in C; eapply nth_error_In; exact C).
  destruct (F 4%nat (at_ 0 0 0, at_ 0 (-1) 0, at_ 1 0 0) 0%nat (at_ 0 0 0, at_ 0 1 0, at_ 1 0 0) (at_ 0 0 0) (at_ 1 0 0)) as (k & v & Cv & Nc & Ho & Hx).
  - do 6 eexists; split; [ reflexivity | split; [ reflexivity | split; [ reflexivity | split; reflexivity ] ] ].
  - intros (j & u & Cu & S). apply Tr in Cu. pose proof (proj1 (S (at_ 0 (-1) 0)) (or_intror (or_introl eq_refl))) as J. clear S.
    list_cases Cu; subst u; cbn [has_point] in J; decompose [or] J; discriminate.
  - do 6 eexists; split; [ reflexivity | split; [ reflexivity | split; [ reflexivity | split; reflexivity ] ] ].
  - discriminate.
  - cbn; auto.
  - cbn; auto.
  - cbn; auto.
  - cbn; auto.
  - apply Nc. pose proof Cv as J. apply Tr in J. list_cases J; subst v; cbn [has_point] in Ho, Hx;
      try (exfalso; first [ decompose [or] Ho; discriminate | decompose [or] Hx; discriminate ]).
    + exists 0%nat. eexists. split; [ | intro; reflexivity ]. do 6 eexists; split; [ reflexivity | split; [ reflexivity | split; [ reflexivity | split; reflexivity ] ] ].
    + exists 1%nat. eexists. split; [ | intro; reflexivity ]. do 6 eexists; split; [ reflexivity | split; [ reflexivity | split; [ reflexivity | split; reflexivity ] ] ].
Qed.
