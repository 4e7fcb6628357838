(** * Watertight meshes *)
From Coq Require Import List Arith.
From Verif Require Import Model_base Model_soup Spec_defects Spec_find Spec_balance.

(** The face [i] has the side from [p] to [q]. *)
Definition has_side {P D} (m : soup P D) (p q : P) (i : nat) : Prop :=
  exists t, face_corners m i t /\ directed t p q.

(** Along every edge, as many faces run in the one direction as in the other.  (There may be
    more than one in each direction, where parts of a body touch along an edge.) *)
Definition watertight {P D} (m : soup P D) : Prop :=
  forall p q, exists n, counts (has_side m p q) n /\ counts (has_side m q p) n.
