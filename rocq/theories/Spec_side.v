(** * Regions of space and their boundaries *)
From Coq Require Import List Arith QArith Permutation.
From Verif Require Import Model_base Model_soup Model_geometry Model_aabb Model_side.
From Verif Require Import Spec_aabb Spec_candidates.
Import ListNotations.
Local Open Scope Q_scope.

(** The same point. *)
Definition same (a b : vec3) : Prop := vx a == vx b /\ vy a == vy b /\ vz a == vz b.

(** The point [p + t v]. *)
Definition along (p : vec3) (t : Q) (v : vec3) : vec3 :=
  (vx p + t * vx v, vy p + t * vy v, vz p + t * vz v).

(** A point of the segment, of the ray. *)
Definition in_segment (x a b : vec3) : Prop := exists t, 0 <= t <= 1 /\ same x (along a t (vsub b a)).
Definition in_ray (x p r : vec3) : Prop := exists t, 0 <= t /\ same x (along p t (vsub r p)).

(** A point of a triangle but not of its sides. *)
Definition in_open_triangle (x a b c : vec3) : Prop :=
  exists u v w : Q, 0 < u /\ 0 < v /\ 0 < w /\ u + v + w == 1 /\
    vx x == u * vx a + v * vx b + w * vx c /\
    vy x == u * vy a + v * vy b + w * vy c /\
    vz x == u * vz a + v * vz b + w * vz c.

(** The normal that the orientation of a face points to. *)
Definition normal (a b c : vec3) : vec3 := vcross (vsub b a) (vsub c a).
Definition degenerate (a b c : vec3) : Prop := same (normal a b c) (0, 0, 0).

Definition on_face {D} (m : soup vec3 D) (fi : nat) (x : vec3) : Prop :=
  exists a b c, soup_triangle m fi = Ok (a, b, c) /\ in_triangle x a b c.
Definition on_boundary {D} (m : soup vec3 D) (x : vec3) : Prop := exists fi, on_face m fi x.

(** A soup whose faces are triangles that only meet at their sides. *)
Record proper_faces {D} (m : soup vec3 D) : Prop := {
  pf_valid : valid_faces m;
  pf_nondegenerate : forall fi a b c, soup_triangle m fi = Ok (a, b, c) -> ~ degenerate a b c;
  pf_apart : forall fi fj a b c x, soup_triangle m fi = Ok (a, b, c) -> in_open_triangle x a b c ->
    on_face m fj x -> fj = fi
}.

(** The soup is the boundary of a set of points [inside]: walking straight without
    touching the soup one stays inside or outside; right behind a face one is
    inside, right in front of it (where its normal points) outside. *)
Record bounds {D} (m : soup vec3 D) (inside : vec3 -> Prop) : Prop := {
  bd_walk : forall x y, (forall z, in_segment z x y -> ~ on_boundary m z) -> (inside x <-> inside y);
  bd_face : forall fi a b c q v, soup_triangle m fi = Ok (a, b, c) -> in_open_triangle q a b c ->
    exists bound, 0 < bound /\ forall e, 0 < e < bound ->
      (vdot (normal a b c) v < 0 -> inside (along q e v)) /\
      (0 < vdot (normal a b c) v -> ~ inside (along q e v))
}.

(** CGAL::intersection(triangle, ray) returns the common points. *)
Definition exact_intersection (ray_triangle : vec3 * vec3 * vec3 -> vec3 -> vec3 -> hit) : Prop :=
  forall a b c p r, ~ degenerate a b c -> ~ same p r ->
    match ray_triangle (a, b, c) p r with
    | HNone => forall x, in_ray x p r -> ~ in_triangle x a b c
    | HPoint q => forall x, (in_ray x p r /\ in_triangle x a b c) <-> same x q
    | HSegment s t => ~ same s t /\ forall x, (in_ray x p r /\ in_triangle x a b c) <-> in_segment x s t
    end.

(** CGAL::do_intersect(box, ray) misses nothing. *)
Definition sound_box_test (ray_meets_box : vec3 -> vec3 -> box -> bool) : Prop :=
  (forall p r, monotone (ray_meets_box p r)) /\
  (forall p r b x, in_ray x p r -> in_box x b -> ray_meets_box p r b = true).

(** std::partial_sort puts the two smallest first. *)
Definition sorts_two (partial_sort2 : list (Q * nat) -> list (Q * nat)) : Prop :=
  forall l, Permutation l (partial_sort2 l) /\
    forall x y r, partial_sort2 l = x :: y :: r ->
      fst x <= fst y /\ forall z, In z r -> fst y <= fst z.

(** The ray from [p] towards the centroid of a face first meets two or more faces
    in single points, at the same distance. *)
Definition ambiguous {D} (m : soup vec3 D) (p : vec3) (fi_trg : nat) : Prop :=
  exists a b c q fi fj, soup_triangle m fi_trg = Ok (a, b, c) /\ fi <> fj /\
    in_segment q p (centroid a b c) /\ on_face m fi q /\ on_face m fj q /\
    (forall x, in_segment x p q -> on_boundary m x -> same x q).
