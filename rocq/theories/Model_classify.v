(** * Tag propagation and global classification

    Models include/kigumi/Warnings.h, Propagate_face_tags.h and
    Classify_faces_globally.h. *)
From Coq Require Import List Arith Bool.
From Verif Require Import Model_base Model_soup Model_mesh.
Import ListNotations.

(** Warnings.h:7-11: the two bits. *)
Record warnings : Type := mk_warnings { first_partial : bool; second_partial : bool }.

Definition no_warnings : warnings := mk_warnings false false.

(** Warnings.h:13-17: [operator|] and [|=]. *)
Definition warn_or (a b : warnings) : warnings :=
  mk_warnings (first_partial a || first_partial b) (second_partial a || second_partial b).

(** Propagate_face_tags.h:35-39. *)
Definition partial_warning (left : bool) : warnings :=
  if left then mk_warnings true false else mk_warnings false true.

(** Assignment through the reference [m.data(fi).tag]. *)
Definition retag {D} (t : face_tag) (d : mixed_data D) : mixed_data D :=
  mk_mixed (from_left d) t (data d).

Definition with_data {P D} (m : mesh P D) (ds : list D) : mesh P D :=
  mk_mesh (m_points m) (m_faces m) ds (indices m) (face_indices m).

(** Propagate_face_tags.h:30-40: the body of the loop over the neighbours.
    The state is the face data, the queue and the warnings. *)
Definition propagate_visit {D} (left : bool) (t : face_tag)
    (st : list (mixed_data D) * list nat * warnings) (fi2 : nat)
  : res (list (mixed_data D) * list nat * warnings) :=
  let '(ds, q, w) := st in
  let* d2 := vec_at ds fi2 in
  if face_tag_eqb (tag d2) UNKNOWN then Ok (list_set ds fi2 (retag t d2), q ++ [fi2], w)
  else if negb (face_tag_eqb (tag d2) t) then Ok (ds, q, warn_or w (partial_warning left))
  else Ok (ds, q, w).

(** Propagate_face_tags.h:25-43: the loop [while (!queue_.empty())].  The
    neighbour range is evaluated before its elements are visited; it does not
    depend on the tags, so this is the same as the lazy evaluation of the
    code. *)
Fixpoint propagate_loop {P D} (fuel : nat) (m : mesh P (mixed_data D)) (border : list edge)
    (left : bool) (t : face_tag) (st : list (mixed_data D) * list nat * warnings)
  : res (list (mixed_data D) * warnings) :=
  let '(ds, q, w) := st in
  match q with
  | [] => Ok (ds, w)
  | fi :: q' =>
      match fuel with
      | 0 => Throw Diverges
      | S fuel' =>
          let* adj := faces_around_face m fi border in
          let* st' := foldM (propagate_visit left t) (ds, q', w) adj in
          propagate_loop fuel' m border left t st'
      end
  end.

(** Propagate_face_tags.h:17-46.  The queue is empty on entry (it is on every
    normal exit).  The fuel is the number of faces plus one. *)
Definition propagate {P D} (m : mesh P (mixed_data D)) (border : list edge) (seed : nat)
  : res (mesh P (mixed_data D) * warnings) :=
  let* d := vec_at (m_data m) seed in
  let* (ds, w) := propagate_loop (S (length (m_faces m))) m border (from_left d) (tag d)
                    (m_data m, [seed], no_warnings) in
  Ok (with_data m ds, w).

(** Classify_faces_globally.h:66-79: the scan for the next face that is not
    visited and UNKNOWN.  Returns the updated marks, the face found and the
    new [begin]. *)
Fixpoint scan_unknown {D} (ds : list (mixed_data D)) (count : nat) (it : nat) (visited : list bool)
  : res (list bool * option nat) :=
  match count with
  | 0 => Ok (visited, None)
  | S count' =>
      let* v := vec_at visited it in
      if v then scan_unknown ds count' (S it) visited
      else
        let visited' := list_set visited it true in
        let* d := vec_at ds it in
        if face_tag_eqb (tag d) UNKNOWN then Ok (visited', Some it)
        else scan_unknown ds count' (S it) visited'
  end.

(** Classify_faces_globally.h:89-96. *)
Definition component_visit (st : list bool * list nat) (adj : nat) : res (list bool * list nat) :=
  let '(visited, q) := st in
  let* v := vec_at visited adj in
  if v then Ok st else Ok (list_set visited adj true, q ++ [adj]).

(** Classify_faces_globally.h:85-97. *)
Fixpoint component_loop {P D} (fuel : nat) (m : mesh P D) (border : list edge)
    (st : list bool * list nat) : res (list bool) :=
  let '(visited, q) := st in
  match q with
  | [] => Ok visited
  | fi :: q' =>
      match fuel with
      | 0 => Throw Diverges
      | S fuel' =>
          let* adj := faces_around_face m fi border in
          let* st' := foldM component_visit (visited, q') adj in
          component_loop fuel' m border st'
      end
  end.

(** Classify_faces_globally.h:65-98: the loop [while (true)]. *)
Fixpoint components_loop {P D} (fuel : nat) (m : mesh P (mixed_data D)) (border : list edge)
    (begin : nat) (visited : list bool) (reps : list nat) : res (list nat) :=
  match fuel with
  | 0 => Throw Diverges
  | S fuel' =>
      let n := length (m_faces m) in
      let* (visited, found) := scan_unknown (m_data m) (n - begin) begin visited in
      match found with
      | None => Ok reps
      | Some fi =>
          let* visited := component_loop (S n) m border (visited, [fi]) in
          components_loop fuel' m border (S fi) visited (reps ++ [fi])
      end
  end.

(** Classify_faces_globally.h:55-101. *)
Definition find_unclassified {P D} (m : mesh P (mixed_data D)) (border : list edge) : res (list nat) :=
  let n := length (m_faces m) in
  components_loop (S n) m border 0 (repeat false n) [].

(** CGAL::Oriented_side. *)
Inductive oriented_side : Type := NEGATIVE_SIDE | ON_BOUNDARY | POSITIVE_SIDE.

Definition oriented_side_eqb (a b : oriented_side) : bool :=
  match a, b with
  | NEGATIVE_SIDE, NEGATIVE_SIDE | ON_BOUNDARY, ON_BOUNDARY | POSITIVE_SIDE, POSITIVE_SIDE => true
  | _, _ => false
  end.

(** Classify_faces_globally.h:37-49: the body for one representative.
    [side_left]/[side_right] are [Side_of_triangle_soup] on the two operands
    (see Model_side.v), which may throw, and [centroid] is [CGAL::centroid]
    (mesh_utility.h:34-37). *)
Definition classify_rep {P D} (centroid : P -> P -> P -> P) (side_left side_right : P -> res oriented_side)
    (border : list edge) (st : mesh P (mixed_data D) * warnings) (fi : nat)
  : res (mesh P (mixed_data D) * warnings) :=
  let '(m, w) := st in
  let* d := vec_at (m_data m) fi in
  let* f := vec_at (m_faces m) fi in
  let '(a, b, c) := f in
  let* pa := vec_at (m_points m) a in
  let* pb := vec_at (m_points m) b in
  let* pc := vec_at (m_points m) c in
  let p := centroid pa pb pc in
  let* side := if from_left d then side_right p else side_left p in
  if oriented_side_eqb side ON_BOUNDARY then Throw RuntimeError
  else
    let t := if oriented_side_eqb side POSITIVE_SIDE then EXTERIOR else INTERIOR in
    let m' := with_data m (list_set (m_data m) fi (retag t d)) in
    let* (m'', lw) := propagate m' border fi in
    Ok (m'', warn_or w lw).

(** Classify_faces_globally.h:29-53.  [order] is the order in which the
    workers of [parallel_do] execute the bodies (property C15: each exactly
    once); a body is a single step here, which Proof_classify.v justifies by
    showing that the bodies work on disjoint sets of faces. *)
Definition classify_globally {P D} (centroid : P -> P -> P -> P) (side_left side_right : P -> res oriented_side)
    (border : list edge) (m : mesh P (mixed_data D)) (order : list nat -> list nat)
  : res (mesh P (mixed_data D) * warnings) :=
  let* reps := find_unclassified m border in
  foldM (classify_rep centroid side_left side_right border) (m, no_warnings) (order reps).
