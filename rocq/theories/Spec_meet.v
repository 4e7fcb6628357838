(** * Convex bodies, and expressions made of intersections *)
From Coq Require Import List Arith QArith.
From Verif Require Import Model_base Model_soup Model_geometry Model_boolean.
From Verif Require Import Spec_side Spec_solid Spec_visible Spec_again.
Local Open Scope Q_scope.

(** No face has anything of the mesh in front of its plane: the boundary of a convex body,
    with the faces pointing outwards. *)
Definition convex_body {D} (m : soup vec3 D) : Prop :=
  forall fi a b c x, soup_triangle m fi = Ok (a, b, c) -> on_boundary m x -> height a b c x <= 0.

(** All operators of the expression are intersections. *)
Fixpoint only_intersections {P D} (e : expression P D) : Prop :=
  match e with
  | Given _ _ => True
  | Combine op _ e1 e2 => op = op_INTERSECTION /\ only_intersections e1 /\ only_intersections e2
  end.

(** The set, or what it leaves out. *)
Definition part (s : bool) (A : vec3 -> Prop) (x : vec3) : Prop := if s then ~ A x else A x.

(** The mesh is the boundary of a convex body ([s] is false), or of what a convex body leaves
    out ([s] is true: the faces point into the body, which is a hole). *)
Definition convex_part {D} (s : bool) (m : soup vec3 D) : Prop :=
  forall fi a b c x, soup_triangle m fi = Ok (a, b, c) -> on_boundary m x ->
    if s then 0 <= height a b c x else height a b c x <= 0.

(** The operation amounts to an intersection: of the operands or what they leave out, giving
    the result or what it leaves out. *)
Definition amounts_to_intersection (op : boolean_operator) (s1 s2 s : bool) : Prop :=
  forall A B x, (A x \/ ~ A x) -> (B x \/ ~ B x) -> (part s (set_of op A B) x <-> part s1 A x /\ part s2 B x).

(** Bodies and holes combined by operations that amount to intersections; the result is a
    body or a hole. *)
Inductive convex_expression {P D} (coords : P -> vec3) : expression P D -> bool -> Prop :=
| ce_given : forall r A s, convex_part s (located coords (boundary r)) -> convex_expression coords (Given r A) s
| ce_combine : forall op prefer_first e1 e2 s1 s2 s,
    convex_expression coords e1 s1 -> convex_expression coords e2 s2 -> amounts_to_intersection op s1 s2 s ->
    convex_expression coords (Combine op prefer_first e1 e2) s.
