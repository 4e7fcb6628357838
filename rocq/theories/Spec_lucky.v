(** * Points from which a ray towards a centroid can meet an edge *)
From Coq Require Import List Arith QArith.
From Verif Require Import Model_base Model_soup Model_geometry Model_side.
From Verif Require Import Spec_aabb Spec_candidates Spec_side Spec_visible.
Import ListNotations.
Local Open Scope Q_scope.

(** A plane, given by three points that are not on a line. *)
Definition plane : Type := vec3 * vec3 * vec3.
Definition is_plane (h : plane) : Prop := let '(u, v, w) := h in ~ degenerate u v w.
Definition in_plane (h : plane) (x : vec3) : Prop := let '(u, v, w) := h in height u v w x == 0.

(** The plane contains a side of a face and the centroid of a face. *)
Definition side_and_centroid {D} (m : soup vec3 D) (h : plane) : Prop :=
  exists fi fj a b c p q r, soup_triangle m fi = Ok (a, b, c) /\ soup_triangle m fj = Ok (p, q, r) /\
    In h [(a, b, centroid p q r); (b, c, centroid p q r); (c, a, centroid p q r)].

(** The point is in none of these planes. *)
Definition lucky {D} (m : soup vec3 D) (x : vec3) : Prop :=
  forall h, side_and_centroid m h -> is_plane h -> ~ in_plane h x.
