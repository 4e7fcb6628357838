(** * Triangle meshes with adjacency

    Models include/kigumi/Triangle_mesh.h and Mesh_iterators.h. *)
From Coq Require Import List Arith Bool.
From Verif Require Import Model_base Model_soup.
Import ListNotations.

(** Triangle_mesh.h:191-196: the members. *)
Record mesh (P D : Type) : Type := mk_mesh {
  m_points : list P;
  m_faces : list face;
  m_data : list D;
  indices : list nat;
  face_indices : list nat
}.
Arguments mk_mesh {P D}.
Arguments m_points {P D}.
Arguments m_faces {P D}.
Arguments m_data {P D}.
Arguments indices {P D}.
Arguments face_indices {P D}.

(** Triangle_mesh.h:88-89: constructor from the three vectors. *)
Definition mesh_of {P D} (ps : list P) (fs : list face) (ds : list D) : mesh P D :=
  mk_mesh ps fs ds [] [].

(** Triangle_mesh.h:105-115: the list of (vertex, face) pairs before sorting. *)
Definition incidence_pairs (fs : list face) : list (nat * nat) :=
  flat_map (fun x : nat * face => let '(fi, (a, b, c)) := x in [(a, fi); (b, fi); (c, fi)])
           (combine (seq 0 (length fs)) fs).

(** Lexicographic order of [std::pair<Vertex_index, Face_index>]. *)
Definition pair_leb (x y : nat * nat) : bool :=
  (fst x <? fst y) || ((fst x =? fst y) && (snd x <=? snd y)).

(** Stand-in for [parallel_sort] (Triangle_mesh.h:117): an insertion sort.
    parallel_sort returns a sorted permutation (property C17); the order on
    pairs is total and antisymmetric, so the sorted permutation is unique. *)
Fixpoint insert_pair (x : nat * nat) (l : list (nat * nat)) : list (nat * nat) :=
  match l with
  | [] => [x]
  | y :: r => if pair_leb x y then x :: l else y :: insert_pair x r
  end.

Fixpoint sort_pairs (l : list (nat * nat)) : list (nat * nat) :=
  match l with
  | [] => []
  | x :: r => insert_pair x (sort_pairs r)
  end.

(** Triangle_mesh.h:121-133: one iteration.  The state is [indices_],
    [face_indices_], [prev_v + 1] (so that the initial value -1 is 0) and
    [index].  [v - prev_v] copies of [index] are pushed. *)
Definition finalize_step (st : list nat * list nat * nat * nat) (x : nat * nat)
  : list nat * list nat * nat * nat :=
  let '(idx, fidx, prev1, index) := st in
  let '(v, f) := x in
  (idx ++ repeat index (S v - prev1), fidx ++ [f], S v, S index).

(** Triangle_mesh.h:102-135. *)
Definition finalize {P D} (m : mesh P D) : mesh P D :=
  let map := sort_pairs (incidence_pairs (m_faces m)) in
  let '(idx, fidx, _, index) :=
    fold_left finalize_step map (indices m, face_indices m, 0, 0) in
  mk_mesh (m_points m) (m_faces m) (m_data m) (idx ++ [index]) fidx.

(** The elements in [[begin + i, begin + j)). *)
Definition slice {A} (l : list A) (i j : nat) : list A := firstn (j - i) (skipn i l).

(** Mesh_iterators.h:40-108: [Face_around_edge_iterator].  An iterator pair
    [(it, end)] is represented by the list of elements still to be visited;
    [it = end] is the empty list. *)
Definition fae_iter : Type := list nat * list nat.

(** Mesh_iterators.h:52-64 (constructor) and 78-90 (increment): skip to the
    next common element, or to the end. *)
Fixpoint fae_skip (i : list nat) : list nat -> fae_iter :=
  fix aux (j : list nat) : fae_iter :=
    match i, j with
    | x :: i', y :: j' =>
        if x =? y then (i, j)
        else if x <? y then fae_skip i' j
        else aux j'
    | _, _ => ([], [])
    end.

(** Mesh_iterators.h:70-91: [increment]; moving [j_it_] past its end would be
    undefined. *)
Definition fae_increment (it : fae_iter) : res fae_iter :=
  match it with
  | ([], _) => Ok it
  | (_ :: i', _ :: j') => Ok (fae_skip i' j')
  | (_ :: _, []) => UB
  end.

(** Mesh_iterators.h:93-95: [equal] with the end iterator and
    [dereference]. *)
Definition fae_at_end (it : fae_iter) : bool := match fst it with [] => true | _ => false end.
Definition fae_deref (it : fae_iter) : res nat := match fst it with [] => UB | x :: _ => Ok x end.

(** Triangle_mesh.h:151-159: the begin iterator of [faces_around_edge]. *)
Definition faces_around_edge_begin {P D} (m : mesh P D) (e : edge) : res fae_iter :=
  let* i_it := vec_at (indices m) (fst e) in
  let* i_end := vec_at (indices m) (S (fst e)) in
  let* j_it := vec_at (indices m) (snd e) in
  let* j_end := vec_at (indices m) (S (snd e)) in
  Ok (fae_skip (slice (face_indices m) i_it i_end) (slice (face_indices m) j_it j_end)).

(** [for (auto fi : m.faces_around_edge(edge))]: the visited faces. *)
Fixpoint fae_collect (fuel : nat) (it : fae_iter) : res (list nat) :=
  if fae_at_end it then Ok []
  else
    match fuel with
    | 0 => Throw Diverges
    | S fuel' =>
        let* x := fae_deref it in
        let* it' := fae_increment it in
        let* r := fae_collect fuel' it' in
        Ok (x :: r)
    end.

Definition faces_around_edge {P D} (m : mesh P D) (e : edge) : res (list nat) :=
  let* it := faces_around_edge_begin m e in
  fae_collect (length (fst it)) it.

(** [Edge_set] (Mesh_entities.h:44) as the list of its elements. *)
Definition edge_eqb (e e' : edge) : bool := (fst e =? fst e') && (snd e =? snd e').
Definition edge_mem (e : edge) (s : list edge) : bool := existsb (edge_eqb e) s.

(** Mesh_iterators.h:134-205: [Face_around_face_iterator]: the face and the
    three edge iterators. *)
Definition faf_iter : Type := nat * fae_iter * fae_iter * fae_iter.

(** Mesh_iterators.h:176-187: [dereference]; the final [return {}] (an invalid
    index) is [None]. *)
Definition faf_deref (it : faf_iter) : res (option nat) :=
  let '(_, it1, it2, it3) := it in
  if negb (fae_at_end it1) then (let* x := fae_deref it1 in Ok (Some x))
  else if negb (fae_at_end it2) then (let* x := fae_deref it2 in Ok (Some x))
  else if negb (fae_at_end it3) then (let* x := fae_deref it3 in Ok (Some x))
  else Ok None.

(** Mesh_iterators.h:171-174: [equal] with the end iterator. *)
Definition faf_at_end (it : faf_iter) : bool :=
  let '(_, it1, it2, it3) := it in
  fae_at_end it1 && fae_at_end it2 && fae_at_end it3.

(** Mesh_iterators.h:153-169: [increment]. *)
Fixpoint faf_increment (fuel : nat) (it : faf_iter) : res faf_iter :=
  match fuel with
  | 0 => Throw Diverges
  | S fuel' =>
      let '(fi, it1, it2, it3) := it in
      if faf_at_end it then Ok it
      else
        let* it' :=
          if negb (fae_at_end it1) then (let* n := fae_increment it1 in Ok (fi, n, it2, it3))
          else if negb (fae_at_end it2) then (let* n := fae_increment it2 in Ok (fi, it1, n, it3))
          else (let* n := fae_increment it3 in Ok (fi, it1, it2, n)) in
        let* d := faf_deref it' in
        match d with
        | Some x => if x =? fi then faf_increment fuel' it' else Ok it'
        | None => Ok it'
        end
  end.

(** Triangle_mesh.h:161-175: the begin iterator of [faces_around_face].  All
    three edge ranges are computed even for border edges. *)
Definition faces_around_face_begin {P D} (m : mesh P D) (fi : nat) (border : list edge)
  : res faf_iter :=
  let* f := vec_at (m_faces m) fi in
  let '(a, b, c) := f in
  let e1 := make_edge a b in
  let e2 := make_edge b c in
  let e3 := make_edge c a in
  let* i1 := faces_around_edge_begin m e1 in
  let* i2 := faces_around_edge_begin m e2 in
  let* i3 := faces_around_edge_begin m e3 in
  Ok (fi, if edge_mem e1 border then ([], []) else i1,
          if edge_mem e2 border then ([], []) else i2,
          if edge_mem e3 border then ([], []) else i3).

Definition faf_size (it : faf_iter) : nat :=
  let '(_, it1, it2, it3) := it in length (fst it1) + length (fst it2) + length (fst it3).

(** [for (auto fi2 : m.faces_around_face(fi, border_edges))]. *)
Fixpoint faf_collect (fuel : nat) (it : faf_iter) : res (list nat) :=
  if faf_at_end it then Ok []
  else
    match fuel with
    | 0 => Throw Diverges
    | S fuel' =>
        let* d := faf_deref it in
        let* it' := faf_increment (S (faf_size it)) it in
        let* r := faf_collect fuel' it' in
        match d with
        | Some x => Ok (x :: r)
        | None => UB
        end
    end.

Definition faces_around_face {P D} (m : mesh P D) (fi : nat) (border : list edge)
  : res (list nat) :=
  let* it := faces_around_face_begin m fi border in
  faf_collect (faf_size it) it.
