(** * What counts as a defect *)
From Coq Require Import List Arith Bool QArith.
From Verif Require Import Model_base Model_soup Model_geometry Spec_graph.
Import ListNotations.
Local Open Scope nat_scope.

(** A face whose three vertices are different. *)
Definition proper (f : face) : Prop := let '(a, b, c) := f in a <> b /\ b <> c /\ c <> a.
Definition properb (f : face) : bool :=
  let '(a, b, c) := f in negb (a =? b) && negb (b =? c) && negb (c =? a).
Definition has_vertex (f : face) (v : nat) : Prop := let '(a, b, c) := f in v = a \/ v = b \/ v = c.
Definition has_vertexb (f : face) (v : nat) : bool :=
  let '(a, b, c) := f in (v =? a) || (v =? b) || (v =? c).

(** How many proper faces use the edge between i and j (two different vertices). *)
Definition users {P D} (m : soup P D) (i j : nat) : nat :=
  length (filter (fun f => properb f && has_vertexb f i && has_vertexb f j) (faces m)).
(** How many of them run from i to j. *)
Definition runs (f : face) (i j : nat) : bool :=
  let '(a, b, c) := f in
  ((i =? a) && (j =? b)) || ((i =? b) && (j =? c)) || ((i =? c) && (j =? a)).
Definition users_along {P D} (m : soup P D) (i j : nat) : nat :=
  length (filter (fun f => properb f && runs f i j) (faces m)).

(** The edges opposite to v in the proper faces with the vertex v. *)
Definition opposite_edge (v : nat) (f : face) : list (nat * nat) :=
  let '(a, b, c) := f in
  if negb (properb f) then []
  else if v =? a then [(b, c)]
  else if v =? b then [(c, a)]
  else if v =? c then [(a, b)]
  else [].
Definition link {P D} (m : soup P D) (v : nat) : list (nat * nat) :=
  flat_map (opposite_edge v) (faces m).

(** Three points on a line: all of them are o + t d for a common point and direction. *)
Definition on_line (o d p : vec3) : Prop :=
  exists t : Q, (vx p == vx o + t * vx d)%Q /\ (vy p == vy o + t * vy d)%Q /\ (vz p == vz o + t * vz d)%Q.
Definition collinear (p q r : vec3) : Prop := exists o d, on_line o d p /\ on_line o d q /\ on_line o d r.

(** The three points of a face. *)
Definition face_corners {P D} (m : soup P D) (fi : nat) (t : P * P * P) : Prop :=
  exists a b c p q r, nth_error (faces m) fi = Some (a, b, c) /\
    nth_error (points m) a = Some p /\ nth_error (points m) b = Some q /\ nth_error (points m) c = Some r /\
    t = (p, q, r).
