(** * The mixed mesh
    Models include/kigumi/Mix.h. *)
From Coq Require Import List Arith NArith Bool Permutation QArith.
From Verif Require Import Model_base Model_geometry Model_soup Model_mesh Model_classify Model_local Model_region Model_aabb Model_corefine.
Import ListNotations.
Local Open Scope nat_scope.

(** Warnings.h:7-11: the bit set. *)
Definition warning_bits (w : warnings) : N :=
  ((if first_partial w then 1 else 0) + (if second_partial w then 2 else 0))%N.

Section Mix.
  Context {P D : Type}.
  (** The kernel and the standard library, as in Model_corefine.v. *)
  Variable P_eqb : P -> P -> bool.
  Variable coords : P -> vec3.
  Variable pbox : P -> box.
  Variable longest_axis : option box -> nat.
  Variable sort_by : nat -> list (box * nat) -> list (box * nat).
  Variable nth_element_by : nat -> nat -> list (box * nat) -> list (box * nat).
  Variable construct_ll : P -> P -> P -> P -> P.
  Variable construct_pl : P -> P -> P -> P -> P -> P.
  Variable cdt_accepts : triangulation P -> nat -> nat -> bool.
  Variable cdt_faces : triangulation P -> list (nat * nat * nat).
  (** As in Model_local.v and Model_classify.v. *)
  Variables base1 base2 : vec3 -> vec3.
  Variable sort_around : list around -> list around.
  Variable centroid : P -> P -> P -> P.
  Variable side_of : soup P D -> P -> res oriented_side.
  Variable num_threads : nat.

  (** Mix.h:39-43 and 45-49: the faces of one operand.  [get] is
      [corefine.get_left_faces] or [get_right_faces]. *)
  Definition mix_faces (m : soup P D) (get : nat -> res (face_tag * list face)) (left : bool)
      (st : list face * list (mixed_data D)) : res (list face * list (mixed_data D)) :=
    foldM (fun st fi =>
      let '(fs, ds) := st in
      let* (t, new) := get fi in
      let* d := soup_data m fi in
      Ok (fs ++ new, ds ++ repeat (mk_mixed left t d) (length new))) st (seq 0 (num_faces m)).

  (** Mix.h:36-52. *)
  Definition mixed_mesh (cf : corefined P) (left right : soup P D) : res (mesh P (mixed_data D)) :=
    let* st := mix_faces left (get_left_faces cdt_faces cf left) true ([], []) in
    let* (fs, ds) := mix_faces right (get_right_faces cdt_faces cf right) false st in
    Ok (finalize (mesh_of (cf_points cf) fs ds)).

  (** Classify_faces_locally.h:26-179 on a mesh of kernel points: only the exact
      coordinates matter. *)
  Definition located (m : mesh P (mixed_data D)) : mesh vec3 (mixed_data D) :=
    mk_mesh (map coords (m_points m)) (m_faces m) (m_data m) (indices m) (face_indices m).
  Definition classify_edge (border : list edge) (st : mesh P (mixed_data D) * warnings) (e : edge)
      : res (mesh P (mixed_data D) * warnings) :=
    let '(m, w) := st in
    let* (m', lw) := classify_locally base1 base2 sort_around (located m) e border in
    Ok (with_data m (m_data m'), warn_or w lw).

  (** Mix.h:57: the elements of the set [border_edges], each once, in some order. *)
  Definition set_elements (border order : list edge) : Prop :=
    NoDup order /\ forall e, In e order <-> In e border.

  (** Triangle_mesh.h:200-202. *)
  Definition take_soup (m : mesh P (mixed_data D)) : soup P (mixed_data D) :=
    mk_soup (m_points m) (m_faces m) (m_data m).

  (** Mix.h:56-75, with each body of the first [parallel_do] executed as a single step, in
      an order [order] (the bodies write tags that other threads may read, see
      [tag_writes] below for the executions in which they overlap), and the second one as
      in Model_classify.v. *)
  Definition classified (border : list edge) (left right : soup P D) (m : mesh P (mixed_data D))
      (order : list edge) (order' : list nat -> list nat) : res (mesh P (mixed_data D) * warnings) :=
    let* (m1, w) := foldM (classify_edge border) (m, no_warnings) order in
    let* (m2, lw) := classify_globally centroid (side_of left) (side_of right) border m1 order' in
    Ok (m2, warn_or w lw).

  (** Mix.h:31-76. *)
  Inductive mixes (left right : soup P D) : res (soup P (mixed_data D) * warnings) -> Prop :=
  | mixes_ok : forall cf m border order order' m' w,
      corefine P_eqb coords pbox longest_axis sort_by nth_element_by construct_ll construct_pl cdt_accepts
        num_threads left right (Ok cf) ->
      mixed_mesh cf left right = Ok m ->
      get_intersecting_edges cf = Ok border -> set_elements border order ->
      (forall l, Permutation l (order' l)) ->
      classified border left right m order order' = Ok (m', w) ->
      mixes left right (Ok (take_soup m', w))
  | mixes_corefine : forall cf r,
      corefine P_eqb coords pbox longest_axis sort_by nth_element_by construct_ll construct_pl cdt_accepts
        num_threads left right cf -> fails cf r -> mixes left right r
  | mixes_mesh : forall cf r,
      corefine P_eqb coords pbox longest_axis sort_by nth_element_by construct_ll construct_pl cdt_accepts
        num_threads left right (Ok cf) -> fails (mixed_mesh cf left right) r -> mixes left right r
  | mixes_edges : forall cf m r,
      corefine P_eqb coords pbox longest_axis sort_by nth_element_by construct_ll construct_pl cdt_accepts
        num_threads left right (Ok cf) ->
      mixed_mesh cf left right = Ok m -> fails (get_intersecting_edges cf) r -> mixes left right r
  | mixes_classify : forall cf m border order order' r,
      corefine P_eqb coords pbox longest_axis sort_by nth_element_by construct_ll construct_pl cdt_accepts
        num_threads left right (Ok cf) ->
      mixed_mesh cf left right = Ok m ->
      get_intersecting_edges cf = Ok border -> set_elements border order ->
      (forall l, Permutation l (order' l)) ->
      fails (classified border left right m order order') r -> mixes left right r.

  (** Classify_faces_locally.h and Classify_faces_globally.h write nothing of the mesh but
      tags; so whatever the threads do, and however they overlap, what happens to the mesh
      is a sequence of assignments [m.data(fi).tag = t]. *)
  Definition tag_write (ds : list (mixed_data D)) (ft : nat * face_tag) : list (mixed_data D) :=
    match nth_error ds (fst ft) with
    | Some d => list_set ds (fst ft) (retag (snd ft) d)
    | None => ds
    end.
  Definition tag_writes (ws : list (nat * face_tag)) (m : mesh P (mixed_data D)) : mesh P (mixed_data D) :=
    with_data m (fold_left tag_write ws (m_data m)).

  (** Mix.h:31-76 for any schedule of the threads of the two classifications. *)
  Inductive mixes_racing (left right : soup P D) : soup P (mixed_data D) -> Prop :=
  | mr_intro : forall cf m ws,
      corefine P_eqb coords pbox longest_axis sort_by nth_element_by construct_ll construct_pl cdt_accepts
        num_threads left right (Ok cf) ->
      mixed_mesh cf left right = Ok m ->
      mixes_racing left right (take_soup (tag_writes ws m)).
End Mix.
