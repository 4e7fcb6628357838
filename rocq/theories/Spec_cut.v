(** * Constrained triangulations and the meshes that can be mixed *)
From Coq Require Import List Arith Bool QArith.
From Verif Require Import Model_base Model_geometry Model_soup Model_corefine.
From Verif Require Import Spec_defects Spec_ffi Spec_corefine Spec_mix Spec_solid Spec_conform.
Import ListNotations.
Local Open Scope nat_scope.

(** [x] lies between [p] and [q], and is neither. *)
Definition between (p q x : vec3) : Prop :=
  exists k : Q, (0 < k)%Q /\ (k < 1)%Q /\ same_point x (comb (p, q, q) (1 - k) k 0).

(** ** CGAL's constrained triangulations *)

(** Constraints (pairs of positions in the list of vertices) that do not get in the way of
    one another: the ends are two vertices with no vertex between them, and two constraints
    that cross are one. *)
Record compatible (vs : list vec3) (cs : list (nat * nat)) : Prop := {
  cp_ends : forall h k, In (h, k) cs -> h <> k /\ h < length vs /\ k < length vs;
  cp_vertex : forall h k v p q x, In (h, k) cs -> nth_error vs h = Some p -> nth_error vs k = Some q ->
    nth_error vs v = Some x -> ~ between p q x;
  cp_cross : forall h k h' k' p q p' q' x, In (h, k) cs -> In (h', k') cs ->
    nth_error vs h = Some p -> nth_error vs k = Some q -> nth_error vs h' = Some p' -> nth_error vs k' = Some q' ->
    between p q x -> between p' q' x -> (h = h' /\ k = k') \/ (h = k' /\ k = h')
}.

(** The faces [hs] triangulate [S] with the vertices [vs] and the constraints [cs]: they
    tile it; faces meet in a common vertex or a common edge only; every vertex and every
    constraint is used. *)
Record triangulates (S : triangle) (vs : list vec3) (cs : list (nat * nat)) (hs : list (nat * nat * nat)) : Prop := {
  tg_tiles : exists parts, Forall2 (has_corners vs) hs parts /\ tiles S parts;
  tg_meet : forall h h' T U m n x, In h hs -> In h' hs -> has_corners vs h T -> has_corners vs h' U ->
    in_feature T m x -> in_feature U n x -> forall v, In v (pick m h) <-> In v (pick n h');
  tg_vertex : forall v, v < length vs -> exists h, In h hs /\ has_vertex h v;
  tg_edge : forall v w, In (v, w) cs -> exists h, In h hs /\ has_vertex h v /\ has_vertex h w
}.

(** What is assumed about the faces of CGAL's triangulations: when no two vertices are at
    the same point, all lie in the triangle of the first three, and the constraints are
    compatible, then the faces triangulate this triangle. *)
Definition good_vertices (vs : list vec3) (a b c : vec3) : Prop :=
  (exists rest, vs = a :: b :: c :: rest) /\ nondegenerate (a, b, c) /\ (forall x, In x vs -> inside (a, b, c) x) /\
  (forall i j x y, nth_error vs i = Some x -> nth_error vs j = Some y -> same_point x y -> i = j).
Definition triangulated {P} (coords : P -> vec3) (cdt_faces : triangulation P -> list (nat * nat * nat)) (t : triangulation P) : Prop :=
  forall a b c, let vs := map (fun v => coords (fst v)) (t_vertices t) in
    good_vertices vs a b c -> compatible vs (t_constraints t) ->
    triangulates (a, b, c) vs (t_constraints t) (cdt_faces t).
(** The triangulations of the faces of both meshes are such. *)
Definition cdt_constrained {P} (coords : P -> vec3) (cdt_faces : triangulation P -> list (nat * nat * nat)) (cf : corefined P) : Prop :=
  forall F t, In (F, t) (cf_left_tris cf) \/ In (F, t) (cf_right_tris cf) -> triangulated coords cdt_faces t.

(** What is assumed about the constraints that CGAL accepts: those that leave the
    constraints compatible. *)
Definition accepts_compatible {P} (coords : P -> vec3) (accepts : triangulation P -> nat -> nat -> bool) : Prop :=
  forall t a b c h k, let vs := map (fun v => coords (fst v)) (t_vertices t) in
    good_vertices vs a b c -> compatible vs (t_constraints t ++ [(h, k)]) -> accepts t h k = true.

(** ** Meshes *)

(** Every edge of a face is an edge of exactly one other face. *)
Definition has_point {P} (t : P * P * P) (p : P) : Prop := let '(x, y, z) := t in p = x \/ p = y \/ p = z.
Definition two_faces_per_edge {P D} (m : soup P D) : Prop :=
  forall i t p q, face_corners m i t -> has_point t p -> has_point t q -> p <> q ->
  exists j u, j <> i /\ face_corners m j u /\ has_point u p /\ has_point u q /\
    forall k v, face_corners m k v -> has_point v p -> has_point v q -> k = i \/ k = j.

(** The triangle has the same corners as a face of [o]. *)
Definition coincides {P D} (o : soup P D) (t : P * P * P) : Prop :=
  exists j u, face_corners o j u /\ forall p, has_point t p <-> has_point u p.
(** An edge of [m] at which there is a face that is not one of [o], and which is also an
    edge of [o]: there is also a face of [o] at it that is not one of [m].  This is so if
    both meshes have two faces at every edge. *)
Definition fair_edges {P D} (m o : soup P D) : Prop :=
  forall i t j u p q, face_corners m i t -> ~ coincides o t -> face_corners o j u -> p <> q ->
    has_point t p -> has_point t q -> has_point u p -> has_point u q ->
    exists k v, face_corners o k v /\ ~ coincides m v /\ has_point v p /\ has_point v q.

(** Where two faces lie in one plane and overlap, the overlap is a triangle. *)
Definition triangular_overlaps {P D} (coords : P -> vec3) (left right : soup P D) : Prop :=
  forall i j t u x, face_corners left i t -> face_corners right j u ->
    in_feature (triangle_of coords t) (true, true, true) x -> in_feature (triangle_of coords u) (true, true, true) x ->
    same_point (vcross (face_normal (triangle_of coords t)) (face_normal (triangle_of coords u))) (0, 0, 0)%Q ->
    exists y0 y1 y2, forall y, is_vertex (triangle_of coords t) (triangle_of coords u) y ->
      same_point y y0 \/ same_point y y1 \/ same_point y y2.

(** The pieces of one operand that overlap pieces of the other in one plane have the same
    vertices. *)
Definition overlaps_agree {D} (m : soup vec3 (mixed_data D)) : Prop :=
  forall i j T U x, part m i true T -> part m j false U ->
    in_tri x T -> in_tri x U -> same_corners m i j.
