(** * Volumes *)
From Coq Require Import List QArith.
From Verif Require Import Model_base Model_soup Model_geometry Model_boolean Spec_boolean.
Import ListNotations.
Local Open Scope Q_scope.

(** The sum of a function of triangles over the faces of a mesh. *)
Fixpoint qsum (l : list Q) : Q := match l with [] => 0 | x :: l => x + qsum l end.
Definition at_face {P} (f : P * P * P -> Q) (t : option (P * P * P)) : Q := match t with Some t => f t | None => 0 end.
Definition total {P D} (f : P * P * P -> Q) (m : soup P D) : Q :=
  qsum (map (fun h => at_face f (tri_of (points m) h)) (faces m)).

(** Turning a face around changes the sign. *)
Definition odd {P} (f : P * P * P -> Q) : Prop := forall t, f (flip t) == - f t.

(** The volume of the tetrahedron with the corners of the face and the origin, counted
    as negative if the face points to the origin.  The sum over the boundary of a body is
    its volume. *)
Definition cone {P} (coords : P -> vec3) (t : P * P * P) : Q :=
  let '(a, b, c) := t in (1 # 6) * vdot (coords a) (vcross (coords b) (coords c)).
Definition volume {P D} (coords : P -> vec3) (m : soup P D) : Q := total (cone coords) m.

(** One if the operator takes the points that are in the first operand or not, and in the
    second or not. *)
Definition takes (op : boolean_operator) (in_first in_second : bool) : Q :=
  if member op (in_first, in_second) then 1 else 0.
