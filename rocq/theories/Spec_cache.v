(** * What histories of triangle soups should do *)
From Coq Require Import List Arith.
From Verif Require Import Model_base Model_soup Model_cache.
Import ListNotations.

Section Histories.
  Context {P D : Type}.
  (** The vertices and faces added to object [i]. *)
  Definition vertices_added (i : nat) (ops : list (@op P D)) : list P :=
    flat_map (fun o => match o with AddVertex j p => if i =? j then [p] else [] | _ => [] end) ops.
  Definition faces_added (i : nat) (ops : list (@op P D)) : list face :=
    flat_map (fun o => match o with AddFace j f => if i =? j then [f] else [] | _ => [] end) ops.
  (** Object [i] is overwritten or emptied as a whole. *)
  Definition replaces (i : nat) (o : @op P D) : Prop :=
    match o with
    | MoveNew j => i = j
    | CopyAssign j k => i = j /\ i <> k
    | MoveAssign j k => i = j \/ i = k
    | _ => False
    end.
  (** The data of face [fi] of object [i] is assigned. *)
  Definition assigns (i fi : nat) (o : @op P D) : Prop :=
    match o with SetData j fj _ => i = j /\ fi = fj | _ => False end.
  (** The objects constructed by a history. *)
  Definition constructs (o : @op P D) : bool :=
    match o with New | NewFrom _ _ _ | CopyNew _ | MoveNew _ => true | _ => false end.
  Definition constructed (h : list (@op P D)) : nat := length (filter constructs h).

  (** [queried h i]: a tree has been requested from object [i], or from an object whose
      contents were moved to it, since it got its contents.  The most recent call is the
      first of [h]. *)
  Inductive queried : list (@op P D) -> nat -> Prop :=
  | q_tree : forall h i, queried (Tree i :: h) i
  | q_keep : forall h o i, queried h i -> ~ replaces i o -> queried (o :: h) i
  | q_move_assign : forall h i j, queried h j -> i <> j -> queried (MoveAssign i j :: h) i
  | q_move_new : forall h j, queried h j -> queried (MoveNew j :: h) (constructed h).
  (** No face is added to an object whose tree has been requested. *)
  Definition careful (ops : list (@op P D)) : Prop :=
    forall before i f after, ops = before ++ AddFace i f :: after -> ~ queried (rev before) i.
End Histories.
