(** * What scoped options mean *)
From Coq Require Import List Arith.
From Verif Require Import Model_context.
Import ListNotations.

Section Spec.
  Context {O : Type}.

  (** Properly nested use of contexts on one thread. *)
  Inductive scope : Type :=
  | SObserve                               (* X::current() *)
  | SBlock (o : O) (body : list scope).    (* { X context{o}; body } *)

  (** The actions of a thread that runs such code. *)
  Fixpoint actions (s : scope) : list (action O) :=
    match s with
    | SObserve => [Observe]
    | SBlock o body => Construct o :: flat_map actions body ++ [Destroy]
    end.

  (** What it should observe when [outer] is in force: always the options of the
      innermost enclosing block. *)
  Fixpoint observed (outer : O) (s : scope) : list O :=
    match s with
    | SObserve => [outer]
    | SBlock o body => flat_map (observed o) body
    end.
End Spec.
Arguments scope : clear implicits.
