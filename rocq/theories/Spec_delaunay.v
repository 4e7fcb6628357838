(** * Delaunay triangulations *)
From Coq Require Import List Arith Bool QArith.
From Verif Require Import Model_base Model_geometry Model_soup Model_corefine.
From Verif Require Import Spec_defects Spec_ffi Spec_corefine Spec_mix Spec_conform Spec_cut.
Import ListNotations.
Local Open Scope nat_scope.

(** ** Circles *)
Definition distance2 (o p : vec3) : Q := vdot (vsub p o) (vsub p o).
(** A point of the plane of a triangle inside of the circle through its corners: nearer than
    these to a point that is equally far from all three. *)
Definition in_circle (T : triangle) (p : vec3) : Prop :=
  let '(a, b, c) := T in
  exists o, (distance2 o a == distance2 o b /\ distance2 o a == distance2 o c /\ distance2 o p < distance2 o a)%Q.
(** Four points of a plane on a circle. *)
Definition cocircular (a b c d : vec3) : Prop :=
  exists o, (distance2 o a == distance2 o b /\ distance2 o a == distance2 o c /\ distance2 o a == distance2 o d)%Q.

(** ** Triangulations *)

(** The point [p] can be seen from inside of [T]: no constraint is in between. *)
Definition visible (vs : list vec3) (cs : list (nat * nat)) (T : triangle) (p : vec3) : Prop :=
  exists y, in_feature T (true, true, true) y /\
    forall h k q r z, In (h, k) cs -> nth_error vs h = Some q -> nth_error vs k = Some r -> between y p z -> ~ on_segment q r z.
(** A constrained Delaunay triangulation: no vertex that can be seen from a face is inside
    of its circle. *)
Definition delaunay (vs : list vec3) (cs : list (nat * nat)) (hs : list (nat * nat * nat)) : Prop :=
  forall h T v p, In h hs -> has_corners vs h T -> nth_error vs v = Some p -> visible vs cs T p -> ~ in_circle T p.

(** What is assumed about the faces of CGAL's triangulations. *)
Definition cdt_delaunay {P} (coords : P -> vec3) (cdt_faces : triangulation P -> list (nat * nat * nat)) (cf : corefined P) : Prop :=
  forall F t, In (F, t) (cf_left_tris cf) \/ In (F, t) (cf_right_tris cf) ->
  forall a b c, let vs := map (fun v => coords (fst v)) (t_vertices t) in
    good_vertices vs a b c -> compatible vs (t_constraints t) -> delaunay vs (t_constraints t) (cdt_faces t).

(** No four vertices of the overlap of two faces in one plane are on a circle. *)
Definition apart (a b c d : vec3) : Prop :=
  ~ same_point a b /\ ~ same_point a c /\ ~ same_point a d /\ ~ same_point b c /\ ~ same_point b d /\ ~ same_point c d.
Definition no_circles {P D} (coords : P -> vec3) (left right : soup P D) : Prop :=
  forall i j t u x a b c d, face_corners left i t -> face_corners right j u ->
    let T := triangle_of coords t in let U := triangle_of coords u in
    in_feature T (true, true, true) x -> in_feature U (true, true, true) x ->
    same_point (vcross (face_normal T) (face_normal U)) (0, 0, 0)%Q ->
    is_vertex T U a -> is_vertex T U b -> is_vertex T U c -> is_vertex T U d -> apart a b c d -> ~ cocircular a b c d.

(** ** Ties

    If four points are on a circle, then there is more than one Delaunay triangulation.
    CGAL chooses one by an infinitesimal perturbation.  In terms of heights: a Delaunay
    triangulation is the one whose faces, with the corners lifted to the heights
    |x|^2, are lowest; the perturbation changes the heights a little so that no four
    lifted points are in one plane. *)
Definition lifted (h : vec3 -> Q) (g : vec3) (c : Q) (p : vec3) : Prop := (h p == vdot g p + c)%Q.
(** The lifted point is below the plane of the lifted triangle. *)
Definition under (h : vec3 -> Q) (T : triangle) (p : vec3) : Prop :=
  let '(x, y, z) := T in
  exists g c, lifted h g c x /\ lifted h g c y /\ lifted h g c z /\ (h p < vdot g p + c)%Q.
Definition lowest (h : vec3 -> Q) (vs : list vec3) (cs : list (nat * nat)) (hs : list (nat * nat * nat)) : Prop :=
  forall f T v p, In f hs -> has_corners vs f T -> nth_error vs v = Some p -> visible vs cs T p -> ~ under h T p.
Definition cdt_lowest {P} (h : vec3 -> Q) (coords : P -> vec3) (cdt_faces : triangulation P -> list (nat * nat * nat)) (cf : corefined P) : Prop :=
  forall F t, In (F, t) (cf_left_tris cf) \/ In (F, t) (cf_right_tris cf) ->
  forall a b c, let vs := map (fun v => coords (fst v)) (t_vertices t) in
    good_vertices vs a b c -> compatible vs (t_constraints t) -> lowest h vs (t_constraints t) (cdt_faces t).
Definition no_ties {P D} (h : vec3 -> Q) (coords : P -> vec3) (left right : soup P D) : Prop :=
  forall i j t u x a b c d g e, face_corners left i t -> face_corners right j u ->
    let T := triangle_of coords t in let U := triangle_of coords u in
    in_feature T (true, true, true) x -> in_feature U (true, true, true) x ->
    same_point (vcross (face_normal T) (face_normal U)) (0, 0, 0)%Q ->
    is_vertex T U a -> is_vertex T U b -> is_vertex T U c -> is_vertex T U d -> apart a b c d ->
    ~ (lifted h g e a /\ lifted h g e b /\ lifted h g e c /\ lifted h g e d).
