(** * Properties C10 and C11: tag propagation and global classification *)
From Coq Require Import List Arith Bool Lia Permutation.
From Verif Require Import Model_base Model_soup Model_boolean Model_mesh Model_classify Spec_mesh Spec_classify
  Proof_base Proof_mesh Proof_propagate Proof_classify Prop_mesh.
Import ListNotations.

Lemma data_finalize : forall P D ps fs ds, m_data (finalize (@mesh_of P D ps fs ds)) = ds.
Proof.
  intros. unfold finalize. simpl. now destruct (fold_left _ _ _) as [[[? ?] ?] ?].
Qed.

(** C10.  For every finalized mixed mesh, border set and seed with a tag: the
    propagation terminates without exception, gives the seed's tag to exactly
    the UNKNOWN faces reachable from the seed, changes nothing else, and
    reports the seed operand's warning iff a face with another tag is met. *)
Theorem C10_propagation_floods_component :
  forall (P D : Type) (ps : list P) (fs : list face) (ds : list (mixed_data D))
         (border : list edge) (seed : nat) (d : mixed_data D),
  length ds = length fs ->
  nth_error ds seed = Some d ->
  tag d <> UNKNOWN ->
  let m := finalize (mesh_of ps fs ds) in
  exists m' w,
    propagate m border seed = Ok (m', w) /\
    retagged m (fun g => tagged m g UNKNOWN /\ reached m border seed g) (tag d) m' /\
    (conflict m border seed (tag d) -> w = mk_warnings (from_left d) (negb (from_left d))) /\
    (~ conflict m border seed (tag d) -> w = mk_warnings false false).
Proof.
  intros P D ps fs ds border seed d HL Hs Ht m.
  destruct (propagate_correct P D m border seed d) as (m' & w & E & H1 & H2 & H3 & _); auto.
  - apply finalized_finalize.
  - unfold m. now rewrite data_finalize, faces_finalize.
  - unfold m. now rewrite data_finalize.
  - exists m', w. split; auto. split; auto. split; auto.
    intros HC. rewrite H2 by auto. destruct (from_left d); reflexivity.
Qed.
Print Assumptions C10_propagation_floods_component.

(** A strip of four triangles of the first operand, a border edge between the
    third and the fourth, and a coplanar fifth face: the flood reaches faces 1
    and 2 but not 3; face 4 causes the warning. *)
Definition strip : list face := [(0, 1, 2); (2, 1, 3); (2, 3, 4); (4, 3, 5); (1, 6, 3)].
Definition strip_data : list (mixed_data nat) :=
  [mk_mixed true EXTERIOR 10; mk_mixed true UNKNOWN 11; mk_mixed true UNKNOWN 12;
   mk_mixed true UNKNOWN 13; mk_mixed true COPLANAR 14].

Example C10_example :
  exists m', propagate (finalize (mesh_of [tt; tt; tt; tt; tt; tt; tt] strip strip_data)) [(3, 4)] 0 =
    Ok (m', mk_warnings true false) /\
  m_data m' = [mk_mixed true EXTERIOR 10; mk_mixed true EXTERIOR 11; mk_mixed true EXTERIOR 12;
               mk_mixed true UNKNOWN 13; mk_mixed true COPLANAR 14].
Proof. eexists. split; vm_compute; reflexivity. Qed.

(** C11.  Full statement: after global classification no face is UNKNOWN, for
    every mesh.

    It is false: the search for representatives walks through classified
    faces, so a component that is connected to an earlier one only through
    classified faces gets no representative.  Here the first operand consists
    of the tetrahedra T2 (faces 0-3), T1 (faces 4-7) and T3 (faces 8-11), the
    second of T1 (faces 12-15), whose copies are already tagged COPLANAR; T2
    and T3 touch T1 along an edge.  Whatever the geometric oracles answer, T3
    is left UNKNOWN, and a spurious warning is produced. *)
Definition tet (a b c d : nat) : list face := [(a, c, b); (a, b, d); (b, c, d); (c, a, d)].

Definition three_tets_faces : list face := tet 0 1 4 5 ++ tet 0 1 2 3 ++ tet 2 3 6 7 ++ tet 0 1 2 3.

Definition three_tets_data : list (mixed_data nat) :=
  repeat (mk_mixed true UNKNOWN 0) 4 ++ repeat (mk_mixed true COPLANAR 0) 4 ++
  repeat (mk_mixed true UNKNOWN 0) 4 ++ repeat (mk_mixed false COPLANAR 0) 4.

Lemma unknown_tail : forall P (m' : mesh P (mixed_data nat)),
  skipn 8 (m_data m') = skipn 8 three_tets_data -> forall f, 8 <= f < 12 -> tagged m' f UNKNOWN.
Proof.
  intros P m' H f Hf. unfold tagged. exists (mk_mixed true UNKNOWN 0). split; auto.
  replace f with (8 + (f - 8)) by lia. rewrite <- Proof_base.nth_error_skipn, H.
  assert (f - 8 < 4) by lia. destruct (f - 8) as [|[|[|[|k]]]]; try reflexivity. lia.
Qed.

Definition three_tets {P} (ps : list P) : mesh P (mixed_data nat) :=
  finalize (mesh_of ps three_tets_faces three_tets_data).

(** The same mesh with the arrays computed. *)
Definition three_tets_nf {P} (ps : list P) : mesh P (mixed_data nat) :=
  mk_mesh ps three_tets_faces three_tets_data
    (indices (three_tets (@nil P))) (face_indices (three_tets (@nil P))).

Lemma three_tets_eq : forall P (ps : list P), three_tets ps = three_tets_nf ps.
Proof. intros. vm_compute. reflexivity. Qed.

Lemma three_tets_reps : forall P (ps : list P), find_unclassified (three_tets ps) [] = Ok [0].
Proof. intros. rewrite three_tets_eq. vm_compute. reflexivity. Qed.

Lemma three_tets_propagate : forall P (ps : list P) t, t = INTERIOR \/ t = EXTERIOR ->
  exists m', propagate (with_data (three_tets ps) (list_set three_tets_data 0 (retag t (mk_mixed true UNKNOWN 0)))) [] 0
        = Ok (m', mk_warnings true false) /\ skipn 8 (m_data m') = skipn 8 three_tets_data.
Proof.
  intros P ps t [-> | ->]; rewrite three_tets_eq; eexists; (split; [vm_compute; reflexivity|reflexivity]).
Qed.

Lemma three_tets_fields : forall P (ps : list P),
  m_points (three_tets ps) = ps /\ m_faces (three_tets ps) = three_tets_faces /\
  m_data (three_tets ps) = three_tets_data.
Proof. intros. rewrite three_tets_eq. auto. Qed.

Lemma classify_rep_unfold : forall P D centroid sl sr border (m : mesh P (mixed_data D)) fi d a b c pa pb pc,
  nth_error (m_data m) fi = Some d -> nth_error (m_faces m) fi = Some (a, b, c) ->
  nth_error (m_points m) a = Some pa -> nth_error (m_points m) b = Some pb ->
  nth_error (m_points m) c = Some pc ->
  (exists s, (if from_left d then sr else sl) (centroid pa pb pc) = Ok s /\ s <> ON_BOUNDARY) ->
  exists t, (t = INTERIOR \/ t = EXTERIOR) /\ forall w,
    classify_rep centroid sl sr border (m, w) fi =
    let* (m'', lw) := propagate (with_data m (list_set (m_data m) fi (retag t d))) border fi in
    Ok (m'', warn_or w lw).
Proof.
  intros P D centroid sl sr border m fi d a b c pa pb pc H1 H2 H3 H4 H5 (s & H6 & H7).
  unfold classify_rep. rewrite (proj2 (vec_at_ok _ _ _ _) H1). cbn [bind].
  rewrite (proj2 (vec_at_ok _ _ _ _) H2). cbn [bind].
  rewrite (proj2 (vec_at_ok _ _ _ _) H3), (proj2 (vec_at_ok _ _ _ _) H4), (proj2 (vec_at_ok _ _ _ _) H5).
  cbn [bind].
  replace (if from_left d then sr (centroid pa pb pc) else sl (centroid pa pb pc))
    with ((if from_left d then sr else sl) (centroid pa pb pc)) by (destruct (from_left d); reflexivity).
  rewrite H6. cbn [bind]. destruct s; [|congruence|]; cbn [oriented_side_eqb].
  - exists INTERIOR. auto.
  - exists EXTERIOR. auto.
Qed.

Opaque three_tets.
Theorem C11_no_face_unclassified_refuted :
  forall (P : Type) (p0 p1 p2 p3 p4 p5 p6 p7 : P) (centroid : P -> P -> P -> P)
         (side_left side_right : P -> res oriented_side),
  (forall p, exists s, side_left p = Ok s /\ s <> ON_BOUNDARY) -> (forall p, exists s, side_right p = Ok s /\ s <> ON_BOUNDARY) ->
  wf_mixed_mesh (three_tets [p0; p1; p2; p3; p4; p5; p6; p7]) /\
  exists m',
    classify_globally centroid side_left side_right [] (three_tets [p0; p1; p2; p3; p4; p5; p6; p7]) (fun l => l)
      = Ok (m', mk_warnings true false) /\
    forall f, 8 <= f < 12 -> tagged m' f UNKNOWN.
Proof.
  intros P p0 p1 p2 p3 p4 p5 p6 p7 centroid sl sr Hl Hr.
  set (ps := [p0; p1; p2; p3; p4; p5; p6; p7]).
  destruct (three_tets_fields P ps) as (F1 & F2 & F3).
  split.
  - unfold wf_mixed_mesh. rewrite F1, F2, F3. split; [reflexivity|]. split.
    + repeat constructor.
    + repeat constructor; discriminate.
  - assert (Hs : exists t, (t = INTERIOR \/ t = EXTERIOR) /\ forall w,
       classify_rep centroid sl sr [] (three_tets ps, w) 0 =
       let* (m'', lw) := propagate (with_data (three_tets ps) (list_set three_tets_data 0 (retag t (mk_mixed true UNKNOWN 0)))) [] 0 in
       Ok (m'', warn_or w lw)).
    { rewrite <- F3.
      apply (classify_rep_unfold P nat centroid sl sr [] (three_tets ps) 0 (mk_mixed true UNKNOWN 0) 0 4 1 p0 p4 p1).
      - rewrite F3. reflexivity.
      - rewrite F2. reflexivity.
      - rewrite F1. reflexivity.
      - rewrite F1. reflexivity.
      - rewrite F1. reflexivity.
      - apply Hr. }
    destruct Hs as (t & Ht & Hs).
    destruct (three_tets_propagate P ps t Ht) as (m' & E2 & Hd).
    exists m'. split; [|apply unknown_tail; exact Hd].
    unfold classify_globally. rewrite three_tets_reps. cbn [bind foldM].
    rewrite Hs, E2. reflexivity.
Qed.
Print Assumptions C11_no_face_unclassified_refuted.

(** Consequence: a face left UNKNOWN is output by no operator. *)
Theorem C11_unclassified_face_is_dropped_refuted :
  forall op prefer_first left, face_output op prefer_first UNKNOWN left = (false, false).
Proof. intros op pf l. destruct op, pf, l; reflexivity. Qed.
Print Assumptions C11_unclassified_face_is_dropped_refuted.

(** C11, the part that holds: if UNKNOWN faces only touch UNKNOWN faces across
    non-border edges (as local classification leaves them when every edge of a
    classified face that separates it from an unclassified one is a border
    edge), then for every order of execution of the representatives'
    bodies, all faces are classified, previously UNKNOWN faces get the tag of
    the side of the other operand on which the centroid of the least face of
    their component lies, and nothing else changes.  Missing: meshes violating
    the condition (see the refutation). *)
Theorem C11_no_face_unclassified_partial :
  forall (P D : Type) (ps : list P) (fs : list face) (ds : list (mixed_data D)) (border : list edge)
         (centroid : P -> P -> P -> P) (side_left side_right : P -> res oriented_side)
         (order : list nat -> list nat),
  let m := finalize (mesh_of ps fs ds) in
  wf_mixed_mesh m ->
  (forall l, Permutation l (order l)) ->
  unknown_closed m border ->
  (forall f, tagged m f UNKNOWN -> exists s, face_side centroid side_left side_right m f s /\ s <> ON_BOUNDARY) ->
  exists m',
    classify_globally centroid side_left side_right border m order = Ok (m', mk_warnings false false) /\
    m_points m' = m_points m /\ m_faces m' = m_faces m /\ length (m_data m') = length (m_data m) /\
    (forall g, ~ tagged m' g UNKNOWN) /\
    (forall g d, nth_error (m_data m) g = Some d -> tag d <> UNKNOWN -> nth_error (m_data m') g = Some d) /\
    (forall g d, nth_error (m_data m) g = Some d -> tag d = UNKNOWN ->
       exists r s t, reached m border g r /\ (forall h, reached m border g h -> r <= h) /\
         face_side centroid side_left side_right m r s /\ tag_of_side s t /\
         nth_error (m_data m') g = Some (mk_mixed (from_left d) t (data d))).
Proof.
  intros. apply classify_globally_correct; auto. apply finalized_finalize.
Qed.
Print Assumptions C11_no_face_unclassified_partial.

(** C11, without the condition: classification never gives a face a tag other
    than that of the least face of its UNKNOWN component, and never changes a
    classified face. *)
Theorem C11_only_sound_tags_partial :
  forall (P D : Type) (ps : list P) (fs : list face) (ds : list (mixed_data D)) (border : list edge)
         (centroid : P -> P -> P -> P) (side_left side_right : P -> res oriented_side)
         (order : list nat -> list nat),
  let m := finalize (mesh_of ps fs ds) in
  wf_mixed_mesh m ->
  (forall l, Permutation l (order l)) ->
  (forall f, tagged m f UNKNOWN -> exists s, face_side centroid side_left side_right m f s /\ s <> ON_BOUNDARY) ->
  exists m' w,
    classify_globally centroid side_left side_right border m order = Ok (m', w) /\
    m_points m' = m_points m /\ m_faces m' = m_faces m /\ length (m_data m') = length (m_data m) /\
    (forall g d, nth_error (m_data m) g = Some d ->
       nth_error (m_data m') g = Some d \/
       (tag d = UNKNOWN /\
        exists r s t, reached m border g r /\ (forall h, reached m border g h -> r <= h) /\
         face_side centroid side_left side_right m r s /\ tag_of_side s t /\
         nth_error (m_data m') g = Some (mk_mixed (from_left d) t (data d)))).
Proof.
  intros. apply classify_globally_sound; auto. apply finalized_finalize.
Qed.
Print Assumptions C11_only_sound_tags_partial.

(** C11: a component whose representative lies on the boundary of the other
    operand (local classification was not performed), or whose side the probes
    of the other operand do not tell, is reported by an exception, never
    guessed. *)
Theorem C11_boundary_is_reported_partial :
  forall (P D : Type) (ps : list P) (fs : list face) (ds : list (mixed_data D)) (border : list edge)
         (centroid : P -> P -> P -> P) (side_left side_right : P -> res oriented_side)
         (order : list nat -> list nat),
  let m := finalize (mesh_of ps fs ds) in
  wf_mixed_mesh m ->
  (forall l, Permutation l (order l)) ->
  unknown_closed m border ->
  (forall f, tagged m f UNKNOWN ->
     (exists s, face_side centroid side_left side_right m f s) \/
     face_query centroid side_left side_right m f (Throw RuntimeError)) ->
  (exists f, tagged m f UNKNOWN /\ (forall h, reached m border f h -> f <= h) /\
     (face_side centroid side_left side_right m f ON_BOUNDARY \/
      face_query centroid side_left side_right m f (Throw RuntimeError))) ->
  classify_globally centroid side_left side_right border m order = Throw RuntimeError.
Proof.
  intros. apply classify_globally_throws; auto. apply finalized_finalize.
Qed.
Print Assumptions C11_boundary_is_reported_partial.

(** Two disjoint tetrahedra, one of each operand, executed in reverse order;
    the points are numbers, the centroid is the first vertex. *)
Definition two_tets_faces : list face := tet 0 1 2 3 ++ tet 4 5 6 7.
Definition two_tets_data : list (mixed_data nat) :=
  repeat (mk_mixed true UNKNOWN 1) 4 ++ repeat (mk_mixed false UNKNOWN 2) 4.
Definition two_tets : mesh nat (mixed_data nat) :=
  finalize (mesh_of [0; 1; 2; 3; 4; 5; 6; 7] two_tets_faces two_tets_data).

Lemma two_tets_tagged : forall g t, tagged two_tets g t <-> g < 8 /\ t = UNKNOWN.
Proof.
  intros g t. unfold tagged. split.
  - intros (d & H & <-). vm_compute in H; do 8 (destruct g as [|g]; [split; [lia|]; injection H as <-; reflexivity|]).
    destruct g; discriminate.
  - intros (H & ->). do 8 (destruct g as [|g]; [eexists; split; vm_compute; reflexivity|]). lia.
Qed.

Example C11_example :
  wf_mixed_mesh two_tets /\ (forall l : list nat, Permutation l (rev l)) /\ unknown_closed two_tets [] /\
  exists m', classify_globally (fun a _ _ => a) (fun _ => Ok POSITIVE_SIDE) (fun _ => Ok NEGATIVE_SIDE) [] two_tets (@rev nat)
    = Ok (m', no_warnings) /\
  m_data m' = repeat (mk_mixed true INTERIOR 1) 4 ++ repeat (mk_mixed false EXTERIOR 2) 4.
Proof.
  split; [|split; [|split]].
  - unfold wf_mixed_mesh. split; [vm_compute; reflexivity|]. split; vm_compute; repeat constructor; discriminate.
  - apply Permutation_rev.
  - intros f g Hn _. apply two_tets_tagged. split; auto. apply neighbour_lt_r in Hn. exact Hn.
  - eexists. split; vm_compute; reflexivity.
Qed.
