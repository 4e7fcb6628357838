(** * Specification of mesh adjacency and tag propagation *)
From Coq Require Import List Arith Bool.
From Verif Require Import Model_base Model_soup Model_mesh.
Import ListNotations.

Section Adj.
  Variable fs : list face.

  Definition has_vertex (f : face) (v : nat) : Prop :=
    let '(a, b, c) := f in v = a \/ v = b \/ v = c.

  (** Face number [f] has [v] as a vertex. *)
  Definition incident (f v : nat) : Prop :=
    exists t, nth_error fs f = Some t /\ has_vertex t v.

  (** Vertex [v] is not beyond the last vertex used by a face. *)
  Definition within_used (v : nat) : Prop := exists f w, incident f w /\ v <= w.

  (** No face repeats a vertex. *)
  Definition nondegenerate : Prop :=
    Forall (fun t => let '(a, b, c) := t in a <> b /\ b <> c /\ c <> a) fs.

  (** [{u, v}] is one of the three sides of face [f]. *)
  Definition side_of (f u v : nat) : Prop :=
    exists t, nth_error fs f = Some t /\
      let '(a, b, c) := t in
      (u = a /\ v = b) \/ (u = b /\ v = c) \/ (u = c /\ v = a).

  (** [g] is across a side of [f] that is not a border edge. *)
  Definition neighbour (border : list edge) (f g : nat) : Prop :=
    exists u v, side_of f u v /\ incident g u /\ incident g v /\
      ~ In (make_edge u v) border.
End Adj.
