(** * Data races on the tags of the faces *)
From Coq Require Import List Arith.
From Verif Require Import Model_base Model_classify Model_schedule.

(** C++: a data race is a write of one thread that is not ordered with another access of
    another thread to the same memory location.  Here: in a state that a schedule reaches,
    one of them is about to assign the tag of a face and the other one is about to access
    it. *)
Definition next_face {D A} (p : prog D A) : option nat := match p with Done _ => None | Read f _ => Some f | Write f _ _ => Some f end.
Definition race {D A} (ps : list (prog D A)) : Prop :=
  exists i j f t k q, i <> j /\ nth_error ps i = Some (Write f t k) /\ nth_error ps j = Some q /\ next_face q = Some f.
