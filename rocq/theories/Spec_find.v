(** * Closed meshes *)
From Coq Require Import List Arith QArith.
From Verif Require Import Model_base Model_soup Spec_defects.

(** A face with the corners [t] runs from the point [p] to the point [q]. *)
Definition directed {P} (t : P * P * P) (p q : P) : Prop :=
  let '(x, y, z) := t in p = x /\ q = y \/ p = y /\ q = z \/ p = z /\ q = x.

(** Along every side of a face runs exactly one other face, in the opposite direction. *)
Definition closed_mesh {P D} (m : soup P D) : Prop :=
  (forall i j t u p q, face_corners m i t -> face_corners m j u -> directed t p q -> directed u p q -> i = j) /\
  (forall i t p q, face_corners m i t -> directed t p q -> exists j u, face_corners m j u /\ directed u q p).

(** One gets from face to face over common edges, all over the mesh. *)
Inductive linked {P D} (m : soup P D) (i : nat) : nat -> Prop :=
| linked_self : linked m i i
| linked_edge : forall j k t u p q, linked m i j -> face_corners m j t -> face_corners m k u ->
    directed t p q -> directed u q p -> linked m i k.
Definition connected_mesh {P D} (m : soup P D) : Prop :=
  forall i j, (i < num_faces m)%nat -> (j < num_faces m)%nat -> linked m i j.
