(** * What sorting means, and the contract of the standard algorithms *)
From Coq Require Import List Arith Permutation Sorted.
Import ListNotations.

(** No later element is less than an earlier one. *)
Definition sorted_by {T} (comp : T -> T -> bool) (l : list T) : Prop :=
  StronglySorted (fun a b => comp b a = false) l.

(** std::sort. *)
Definition sort_contract {T} (comp : T -> T -> bool) (sort : list T -> list T) : Prop :=
  forall l, Permutation (sort l) l /\ sorted_by comp (sort l).

(** std::inplace_merge; nothing is known unless both halves are sorted. *)
Definition merge_contract {T} (comp : T -> T -> bool) (merge : list T -> list T -> list T) : Prop :=
  forall a b, sorted_by comp a -> sorted_by comp b ->
    Permutation (merge a b) (a ++ b) /\ sorted_by comp (merge a b).

(** The boundaries of the [w] parts of a range of [sz] elements: equal parts,
    the last one takes the rest. *)
Definition boundary (sz w t : nat) : nat := if t =? w then sz else t * (sz / w).

(** Element [i] is one that thread [t] may touch in round [r]: its own part in
    round 0, and the parts of threads [t, t + 2^r) in round [r > 0] if [t] is a
    multiple of [2^r]. *)
Definition touches (sz w t r i : nat) : Prop :=
  match r with
  | 0 => boundary sz w t <= i < boundary sz w (t + 1)
  | _ => (exists k, t = k * 2 ^ r) /\
         boundary sz w t <= i < boundary sz w (Nat.min (t + 2 ^ r) w)
  end.
