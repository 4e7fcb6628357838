(** * Histories of Triangle_soup objects

    Models the life of Triangle_soup objects, include/kigumi/Triangle_soup.h:31-149: the
    special member functions, add_vertex, add_face, data and the lazily built box tree.
    Calls are executed one after the other; concurrent calls of aabb_tree() on one object
    are serialised by its mutex (line 130).  Object number [i] is the [i]-th object
    constructed; destruction is not modelled (no call names an object afterwards). *)
From Coq Require Import List Arith Bool.
From Verif Require Import Model_base Model_soup Model_aabb Model_candidates.
Import ListNotations.

Section Objects.
  Context {P D : Type}.
  (** [FaceData{}] *)
  Variable d0 : D.
  (** The parameters of the tree, see Model_candidates. *)
  Variable pbox : P -> box.
  Variable longest_axis : option box -> nat.
  Variable sort_by : nat -> list (box * nat) -> list (box * nat).
  Variable nth_element_by : nat -> nat -> list (box * nat) -> list (box * nat).

  (** Triangle_soup.h:144-149: points_, faces_, face_data_ and aabb_tree_. *)
  Record object : Type := mk_object {
    o_soup : soup P D;
    o_tree : option (tree (box * nat))
  }.

  Inductive op : Type :=
  | New                                              (* Triangle_soup.h:45 *)
  | NewFrom (ps : list P) (fs : list face) (ds : list D)  (* 74-75 *)
  | CopyNew (i : nat)                                (* 49-50 *)
  | MoveNew (i : nat)                                (* 52-56 *)
  | CopyAssign (i j : nat)                           (* i = j, 58-66 *)
  | MoveAssign (i j : nat)                           (* i = std::move(j), 68-74 *)
  | AddVertex (i : nat) (p : P)                      (* 77-80 *)
  | AddFace (i : nat) (f : face)                     (* 82-86 *)
  | SetData (i fi : nat) (d : D)                     (* i.data(fi) = d, 104 *)
  | Tree (i : nat).                                  (* aabb_tree(), 129-142 *)

  (** What a call returns. *)
  Inductive result : Type :=
  | RNone
  | RIndex (n : nat)
  | RTree (t : tree (box * nat))
  | RThrow.

  (** A moved-from object: its vectors are empty and its pointer is null. *)
  Definition moved_from : object := mk_object empty_soup None.

  (** One call.  [MoveAssign i i] has no transition: the state of a vector that is moved
      to itself is unspecified. *)
  Inductive do_op : list object -> op -> list object -> result -> Prop :=
  | do_new : forall st, do_op st New (st ++ [mk_object empty_soup None]) RNone
  | do_new_from : forall st ps fs ds,
      do_op st (NewFrom ps fs ds) (st ++ [mk_object (mk_soup ps fs ds) None]) RNone
  | do_copy_new : forall st i o, nth_error st i = Some o ->
      do_op st (CopyNew i) (st ++ [mk_object (o_soup o) None]) RNone
  | do_move_new : forall st i o, nth_error st i = Some o ->
      do_op st (MoveNew i) (list_set st i moved_from ++ [o]) RNone
  | do_copy_self : forall st i o, nth_error st i = Some o ->
      do_op st (CopyAssign i i) st RNone
  | do_copy_assign : forall st i j o o', i <> j -> nth_error st i = Some o -> nth_error st j = Some o' ->
      do_op st (CopyAssign i j) (list_set st i (mk_object (o_soup o') None)) RNone
  | do_move_assign : forall st i j o o', i <> j -> nth_error st i = Some o -> nth_error st j = Some o' ->
      do_op st (MoveAssign i j) (list_set (list_set st j moved_from) i o') RNone
  | do_add_vertex : forall st i p o n s, nth_error st i = Some o -> add_vertex (o_soup o) p = (n, s) ->
      do_op st (AddVertex i p) (list_set st i (mk_object s (o_tree o))) (RIndex n)
  | do_add_face : forall st i f o n s, nth_error st i = Some o -> add_face d0 (o_soup o) f = (n, s) ->
      do_op st (AddFace i f) (list_set st i (mk_object s (o_tree o))) (RIndex n)
  | do_set_data : forall st i fi d o s, nth_error st i = Some o -> set_data (o_soup o) fi d = Ok s ->
      do_op st (SetData i fi d) (list_set st i (mk_object s (o_tree o))) RNone
  | do_set_throw : forall st i fi d o, nth_error st i = Some o -> set_data (o_soup o) fi d = Throw OutOfRange ->
      do_op st (SetData i fi d) st RThrow
  | do_tree_cached : forall st i o t, nth_error st i = Some o -> o_tree o = Some t ->
      do_op st (Tree i) st (RTree t)
  | do_tree_build : forall st i o t, nth_error st i = Some o -> o_tree o = None ->
      aabb_tree pbox longest_axis sort_by nth_element_by (o_soup o) t ->
      do_op st (Tree i) (list_set st i (mk_object (o_soup o) (Some t))) (RTree t)
  | do_tree_throw : forall st i o, nth_error st i = Some o -> o_tree o = None ->
      soup_leaves pbox (o_soup o) = Throw OutOfRange ->
      do_op st (Tree i) st RThrow.

  (** A history of calls, with what they return. *)
  Inductive run : list object -> list op -> list object -> list result -> Prop :=
  | run_nil : forall st, run st [] st []
  | run_cons : forall st o st1 r ops st2 rs,
      do_op st o st1 r -> run st1 ops st2 rs -> run st (o :: ops) st2 (r :: rs).
End Objects.
Arguments mk_object {P D}.
Arguments o_soup {P D}.
Arguments o_tree {P D}.
Arguments New {P D}.
Arguments NewFrom {P D}.
Arguments CopyNew {P D}.
Arguments MoveNew {P D}.
Arguments CopyAssign {P D}.
Arguments MoveAssign {P D}.
Arguments AddVertex {P D}.
Arguments AddFace {P D}.
Arguments SetData {P D}.
Arguments Tree {P D}.
