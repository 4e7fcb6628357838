(** * The intersection of two triangles *)
From Coq Require Import List Arith Bool NArith QArith.
From Verif Require Import Model_base Model_geometry Model_region Spec_candidates Spec_defects.
Import ListNotations.

Definition triangle : Type := vec3 * vec3 * vec3.

Definition same_point (x y : vec3) : Prop := (vx x == vx y)%Q /\ (vy x == vy y)%Q /\ (vz x == vz y)%Q.

(** A combination of three points. *)
Definition comb (t : triangle) (u v w : Q) : vec3 :=
  let '(a, b, c) := t in
  (u * vx a + v * vx b + w * vx c, u * vy a + v * vy b + w * vy c, u * vz a + v * vz b + w * vz c)%Q.

(** A point of the (closed) triangle. *)
Definition inside (t : triangle) (x : vec3) : Prop :=
  exists u v w : Q, (0 <= u /\ 0 <= v /\ 0 <= w /\ u + v + w == 1)%Q /\ same_point x (comb t u v w).

(** An open feature: a non-empty set of vertices (three Booleans); its points are the
    combinations in which these vertices have a positive weight and the others none.
    One vertex gives the vertex, two the interior of an edge, three the interior of the
    face. *)
Definition weight (used : bool) (u : Q) : Prop := if used then (0 < u)%Q else (u == 0)%Q.
Definition in_feature (t : triangle) (m : bool * bool * bool) (x : vec3) : Prop :=
  let '(m0, m1, m2) := m in
  exists u v w : Q, (weight m0 u /\ weight m1 v /\ weight m2 w /\ u + v + w == 1)%Q /\
    same_point x (comb t u v w).

(** The feature of the left (right) triangle of a Triangle_region: its low (high) three
    bits. *)
Definition left_part (r : region) : bool * bool * bool := (N.testbit r 0, N.testbit r 1, N.testbit r 2).
Definition right_part (r : region) : bool * bool * bool := (N.testbit r 3, N.testbit r 4, N.testbit r 5).

(** [x] lies in the feature of both triangles that a region names. *)
Definition at_region (l r : triangle) (reg : region) (x : vec3) : Prop :=
  in_feature l (left_part reg) x /\ in_feature r (right_part reg) x.

(** The vertices of the intersection: its extreme points, which lie between no two other
    points of it. *)
Definition both (l r : triangle) (x : vec3) : Prop := inside l x /\ inside r x.
Definition middle (y z : vec3) : vec3 := ((vx y + vx z) / 2, (vy y + vy z) / 2, (vz y + vz z) / 2)%Q.
Definition is_vertex (l r : triangle) (x : vec3) : Prop :=
  both l r x /\
  forall y z, both l r y -> both l r z -> same_point x (middle y z) -> same_point y z.

(** The segment between two points. *)
Definition on_segment (y z x : vec3) : Prop :=
  exists t : Q, (0 <= t <= 1)%Q /\
    (vx x == (1 - t) * vx y + t * vx z)%Q /\ (vy x == (1 - t) * vy y + t * vy z)%Q /\
    (vz x == (1 - t) * vz y + t * vz z)%Q.
(** An edge of the intersection: a segment of it that no segment of it crosses. *)
Definition is_side (l r : triangle) (y z : vec3) : Prop :=
  forall u v, both l r u -> both l r v -> on_segment y z (middle u v) -> on_segment y z u /\ on_segment y z v.

(** The convex hull of the points that satisfy [S]: weighted sums. *)
Fixpoint wsum (l : list (Q * vec3)) : vec3 :=
  match l with
  | [] => (0, 0, 0)%Q
  | (k, p) :: r => (k * vx p + vx (wsum r), k * vy p + vy (wsum r), k * vz p + vz (wsum r))%Q
  end.
Fixpoint total (l : list (Q * vec3)) : Q :=
  match l with [] => 0%Q | (k, _) :: r => (k + total r)%Q end.
Definition in_hull (S : vec3 -> Prop) (x : vec3) : Prop :=
  exists l, Forall (fun e => (0 <= fst e)%Q /\ S (snd e)) l /\ (total l == 1)%Q /\ same_point x (wsum l).

(** A triangle whose corners are not on a line. *)
Definition nondegenerate (t : triangle) : Prop := let '(a, b, c) := t in ~ collinear a b c.
