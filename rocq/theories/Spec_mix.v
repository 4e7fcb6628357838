(** * Specification of the mixed mesh *)
From Coq Require Import List Arith Bool QArith.
From Verif Require Import Model_base Model_geometry Model_soup Model_corefine.
From Verif Require Import Spec_defects Spec_ffi Spec_corefine Spec_boolean.
Import ListNotations.
Local Open Scope nat_scope.

(** ** Tilings of a triangle *)
Definition face_normal (t : triangle) : vec3 := let '(a, b, c) := t in vcross (vsub b a) (vsub c a).

(** The triangles [parts] lie in [S], are turned the same way, cover it, and no two of them
    have a common interior point. *)
Record tiles (S : triangle) (parts : list triangle) : Prop := {
  tl_turn : forall T, In T parts -> (0 < vdot (face_normal T) (face_normal S))%Q;
  tl_inside : forall T x, In T parts -> inside T x -> inside S x;
  tl_cover : forall x, inside S x -> exists T, In T parts /\ inside T x;
  tl_apart : forall i j T U x, nth_error parts i = Some T -> nth_error parts j = Some U ->
    in_feature T (true, true, true) x -> in_feature U (true, true, true) x -> i = j
}.

(** What is assumed about the faces of CGAL's triangulations: when no two vertices are at
    the same point and all lie in the triangle of the first three, the faces have vertices
    of the triangulation as corners and tile this triangle. *)
Definition has_corners (vs : list vec3) (h : nat * nat * nat) (T : triangle) : Prop :=
  let '(i, j, k) := h in let '(p, q, r) := T in
  nth_error vs i = Some p /\ nth_error vs j = Some q /\ nth_error vs k = Some r.
Definition cdt_correct {P} (coords : P -> vec3) (cdt_faces : triangulation P -> list (nat * nat * nat)) : Prop :=
  forall t a b c rest, let vs := map (fun v => coords (fst v)) (t_vertices t) in
    vs = a :: b :: c :: rest -> nondegenerate (a, b, c) -> (forall x, In x rest -> inside (a, b, c) x) ->
    (forall i j x y, nth_error vs i = Some x -> nth_error vs j = Some y -> same_point x y -> i = j) ->
    exists parts, Forall2 (has_corners vs) (cdt_faces t) parts /\ tiles (a, b, c) parts.

(** ** Pieces of the faces of a mesh *)

(** [parts] lists the pieces of each face of [m]: they tile the face, and are the face
    itself unless the face meets a face of [o]. *)
Definition parts_of {P D} (coords : P -> vec3) (m o : soup P D) (parts : list (list (P * P * P))) : Prop :=
  length parts = num_faces m /\
  forall fi t ts, face_corners m fi t -> nth_error parts fi = Some ts ->
    tiles (triangle_of coords t) (map (triangle_of coords) ts) /\
    (ts = [t] \/ exists j u x, face_corners o j u /\ both (triangle_of coords t) (triangle_of coords u) x).

(** The pieces with their operand and the data of the face they are pieces of. *)
Definition labelled {P D} (m : soup P D) (left : bool) (parts : list (list (P * P * P)))
    : list (option (P * P * P) * (bool * D)) :=
  flat_map (fun x : list (P * P * P) * D => let '(ts, d) := x in map (fun t => (Some t, (left, d))) ts)
    (combine parts (face_data m)).

(** The triangles of a mixed mesh with their operand and their data. *)
Definition labels {P D} (m : soup P (mixed_data D)) : list (option (P * P * P) * (bool * D)) :=
  combine (map (fun f => let '(a, b, c) := f in
                 match nth_error (points m) a, nth_error (points m) b, nth_error (points m) c with
                 | Some x, Some y, Some z => Some (x, y, z)
                 | _, _, _ => None
                 end) (faces m))
    (map (fun md => (from_left md, data md)) (face_data m)).

(** A choice of triangles, some of them reversed, each with its data. *)
Inductive selection {P D} : list (option (P * P * P) * (bool * D)) -> list (option (P * P * P) * D) -> Prop :=
| sel_none : selection [] []
| sel_drop : forall x l r, selection l r -> selection (x :: l) r
| sel_keep : forall t left d l r, selection l r -> selection ((t, (left, d)) :: l) ((t, d) :: r)
| sel_reverse : forall t left d l r, selection l r -> selection ((t, (left, d)) :: l) ((option_map flip t, d) :: r).

(** The triangle [t] is a piece of the face [fi] of [m] with the data [d], when the other mesh is
    [o]: a part of it, turned the same way; and all of it unless it meets a face of [o]. *)
Definition piece_of {P D} (coords : P -> vec3) (m o : soup P D) (fi : nat) (d : D) (t : P * P * P) : Prop :=
  exists u, face_corners m fi u /\ nth_error (face_data m) fi = Some d /\
    (forall x, inside (triangle_of coords t) x -> inside (triangle_of coords u) x) /\
    (0 < vdot (face_normal (triangle_of coords t)) (face_normal (triangle_of coords u)))%Q /\
    (t = u \/ exists j v x, face_corners o j v /\ both (triangle_of coords u) (triangle_of coords v) x).
