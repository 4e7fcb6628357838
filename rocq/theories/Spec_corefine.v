(** * Cutting two meshes along their intersection *)
From Coq Require Import List Arith Bool QArith.
From Verif Require Import Model_base Model_geometry Model_soup Model_corefine Spec_candidates Spec_defects Spec_ffi.
Import ListNotations.
Local Open Scope nat_scope.

(** ** Constructions *)

(** The line through two points and the plane through three. *)
Definition line (p q x : vec3) : Prop := exists u v : Q, (u + v == 1)%Q /\
  same_point x (comb (p, q, q) u v 0).
Definition plane (p q r x : vec3) : Prop := exists u v w : Q, (u + v + w == 1)%Q /\
  same_point x (comb (p, q, r) u v w).

(** The construction of a point returns the only common point, when there is one, of two
    lines (through two different points each) and of a plane (through three points that are
    not on a line) and a line. *)
Definition ll_correct {P} (coords : P -> vec3) (cll : P -> P -> P -> P -> P) : Prop :=
  forall a b p q x,
    let meets y := line (coords a) (coords b) y /\ line (coords p) (coords q) y in
    ~ same_point (coords a) (coords b) -> ~ same_point (coords p) (coords q) ->
    meets x -> (forall y, meets y -> same_point x y) -> same_point (coords (cll a b p q)) x.
Definition pl_correct {P} (coords : P -> vec3) (cpl : P -> P -> P -> P -> P -> P) : Prop :=
  forall a b c p q x,
    let meets y := plane (coords a) (coords b) (coords c) y /\ line (coords p) (coords q) y in
    nondegenerate (coords a, coords b, coords c) -> ~ same_point (coords p) (coords q) ->
    meets x -> (forall y, meets y -> same_point x y) -> same_point (coords (cpl a b c p q)) x.

(** ** Meshes *)
Definition triangle_of {P} (coords : P -> vec3) (t : P * P * P) : triangle :=
  let '(p, q, r) := t in (coords p, coords q, coords r).

(** The elements a set of vertices (three Booleans) selects. *)
Definition pick {A} (m : bool * bool * bool) (t : A * A * A) : list A :=
  let '(m0, m1, m2) := m in let '(x, y, z) := t in
  (if m0 then [x] else []) ++ (if m1 then [y] else []) ++ (if m2 then [z] else []).

(** No self-intersections: when the open features of two faces have a common point, they
    are one feature, with the same vertices. *)
Definition simplicial {P D} (coords : P -> vec3) (m : soup P D) : Prop :=
  forall i j t u mi mj x, face_corners m i t -> face_corners m j u ->
    in_feature (triangle_of coords t) mi x -> in_feature (triangle_of coords u) mj x ->
    forall p, In p (pick mi t) <-> In p (pick mj u).

(** A mesh whose faces are triangles. *)
Definition proper {P D} (coords : P -> vec3) (m : soup P D) : Prop :=
  forall i, i < num_faces m -> exists t, face_corners m i t /\ nondegenerate (triangle_of coords t).

(** No two faces have the same three points. *)
Definition no_twins {P D} (m : soup P D) : Prop :=
  forall i j p q r p' q' r', face_corners m i (p, q, r) -> face_corners m j (p', q', r') ->
    (forall x, In x [p; q; r] <-> In x [p'; q'; r']) -> i = j.

(** The tag of a face with the points [t] of a mesh, when the other mesh is [o]: does it
    have a face with the same three points, and which way around? *)
Definition turned {A} (t u : A * A * A) : Prop :=
  let '(x, y, z) := t in u = (x, y, z) \/ u = (y, z, x) \/ u = (z, x, y).
Definition turned_over {A} (t u : A * A * A) : Prop :=
  let '(x, y, z) := t in turned (z, y, x) u.
Definition right_tag {P D} (o : soup P D) (t : P * P * P) (tag : face_tag) : Prop :=
  match tag with
  | COPLANAR => exists j u, face_corners o j u /\ turned t u
  | OPPOSITE => exists j u, face_corners o j u /\ turned_over t u
  | UNKNOWN => forall j u, face_corners o j u -> ~ turned t u /\ ~ turned_over t u
  | _ => False
  end.

(** ** Outlines *)

(** Neighbours in a cyclic list. *)
Definition neighbours {A} (l : list A) (x y : A) : Prop :=
  exists k, 2 <= length l /\ nth_error l k = Some x /\ nth_error l ((k + 1) mod length l) = Some y.

(** The ids [ids] go around the intersection of two triangles: they name all its vertices,
    each once, and neighbours are the ends of an edge of it. *)
Record outline {P} (coords : P -> vec3) (pts : list P) (T U : triangle) (ids : list nat) : Prop := {
  ol_nodup : NoDup ids;
  ol_vertex : forall id, In id ids -> exists p, nth_error pts id = Some p /\ is_vertex T U (coords p);
  ol_all : forall x, is_vertex T U x -> exists id p, In id ids /\ nth_error pts id = Some p /\ same_point x (coords p);
  ol_once : forall i j p q, In i ids -> In j ids -> nth_error pts i = Some p -> nth_error pts j = Some q ->
    same_point (coords p) (coords q) -> i = j;
  ol_side : forall i j p q, neighbours ids i j -> nth_error pts i = Some p -> nth_error pts j = Some q ->
    is_side T U (coords p) (coords q)
}.

(** An edge given by its two ends, in whatever order; the smaller id comes first. *)
Definition edge_between (i j : nat) (e : nat * nat) : Prop :=
  (e = (i, j) \/ e = (j, i)) /\ fst e <= snd e.

(** ** Triangulations *)

(** Two ids joined by a constraint of a triangulation. *)
Definition joined {P} (t : triangulation P) (i j : nat) : Prop :=
  exists h k p q, (In (h, k) (t_constraints t) \/ In (k, h) (t_constraints t)) /\
    nth_error (t_vertices t) h = Some (p, i) /\ nth_error (t_vertices t) k = Some (q, j).

(** The triangulations [tris] of the faces of a mesh (whose points have the ids [ids])
    receive the outlines [outl]: there is one for each face with an outline that is not
    empty; its vertices are the corners of the face (in their order, before the others) and
    the vertices of its outlines, each once, with their points; its constraints are the edges of its outlines, between two
    of its vertices. *)
Definition receives {P D} (m : soup P D) (ids : list nat) (pts : list P) (tris : list (nat * triangulation P))
    (outl : nat -> nat -> list nat) : Prop :=
  NoDup (map fst tris) /\
  (forall fi, (exists t, In (fi, t) tris) <-> exists o, outl fi o <> []) /\
  forall fi t, In (fi, t) tris ->
    (forall i j, joined t i j <-> exists o, neighbours (outl fi o) i j \/ neighbours (outl fi o) j i) /\
    (forall id, (exists p, In (p, id) (t_vertices t)) <->
       (exists a b c, face_points m ids fi (a, b, c) /\ In id [a; b; c]) \/ exists o, In id (outl fi o)) /\
    (forall p id, In (p, id) (t_vertices t) -> nth_error pts id = Some p) /\
    NoDup (map snd (t_vertices t)) /\ NoDup (map fst (t_vertices t)) /\
    (forall h k, In (h, k) (t_constraints t) -> h < length (t_vertices t) /\ k < length (t_vertices t)) /\
    exists a b c rest, face_points m ids fi (a, b, c) /\ map snd (t_vertices t) = a :: b :: c :: rest.

(** The ids in use: those of the corners of the faces and those of the vertices of the triangulations. *)
Definition in_use {P D} (left right : soup P D) (cf : corefined P) (id : nat) : Prop :=
  (exists fi a b c, face_points left (cf_left_ids cf) fi (a, b, c) /\ In id [a; b; c]) \/
  (exists fi a b c, face_points right (cf_right_ids cf) fi (a, b, c) /\ In id [a; b; c]) \/
  (exists fi t p, (In (fi, t) (cf_left_tris cf) \/ In (fi, t) (cf_right_tris cf)) /\ In (p, id) (t_vertices t)).
