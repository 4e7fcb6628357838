(** * Outcomes of C++ code and vectors

    Shared vocabulary of the model.  No proofs. *)
From Coq Require Import List Arith Bool.
Import ListNotations.

(** Exceptions the modelled code can raise.  [RuntimeError]/[InvalidArgument]
    carry no message; the message is given in the comment at each use. *)
Inductive exn : Type :=
| OutOfRange        (* std::out_of_range, from .at() *)
| RuntimeError      (* std::runtime_error *)
| InvalidArgument   (* std::invalid_argument *)
| BadAlloc          (* std::bad_alloc / capacity of boost static_vector *)
| Diverges.         (* not an exception: the fuel of a modelled loop ran out;
                       the theorems exclude this outcome *)

(** Outcome of a C++ computation: a value, an exception, or undefined
    behaviour (kept distinct from every other outcome). *)
Inductive res (A : Type) : Type :=
| Ok (a : A)
| Throw (e : exn)
| UB.
Arguments Ok {A} a.
Arguments Throw {A} e.
Arguments UB {A}.

Definition bind {A B} (m : res A) (k : A -> res B) : res B :=
  match m with
  | Ok a => k a
  | Throw e => Throw e
  | UB => UB
  end.

Notation "'let*' x := m 'in' k" := (bind m (fun x => k))
  (at level 200, x pattern, m at level 100, k at level 200, right associativity).

Definition is_ok {A} (m : res A) : Prop := exists a, m = Ok a.

(** [std::vector<T>::at(i)] as an rvalue. *)
Definition vec_at {A} (l : list A) (i : nat) : res A :=
  match nth_error l i with
  | Some a => Ok a
  | None => Throw OutOfRange
  end.

(** Overwriting element [i]; out of range leaves the list alone (always used
    after a successful [vec_at]). *)
Fixpoint list_set {A} (l : list A) (i : nat) (a : A) : list A :=
  match l, i with
  | [], _ => []
  | _ :: r, 0 => a :: r
  | x :: r, S i' => x :: list_set r i' a
  end.

(** [v.at(i) = a]. *)
Definition vec_set {A} (l : list A) (i : nat) (a : A) : res (list A) :=
  if i <? length l then Ok (list_set l i a) else Throw OutOfRange.

(** A loop [for (x : l) st = body(st, x)] that may throw. *)
Fixpoint foldM {A S} (f : S -> A -> res S) (s : S) (l : list A) : res S :=
  match l with
  | [] => Ok s
  | x :: r => let* s' := f s x in foldM f s' r
  end.
