(** * Faces that can be seen, and convex meshes *)
From Coq Require Import List Arith QArith.
From Verif Require Import Model_base Model_soup Model_geometry Model_side.
From Verif Require Import Spec_aabb Spec_candidates Spec_side.
Import ListNotations.
Local Open Scope Q_scope.

(** From [p] one sees the centroid of a face: nothing of the mesh is in between. *)
Definition sees {D} (m : soup vec3 D) (p : vec3) (fi : nat) : Prop :=
  exists a b c, soup_triangle m fi = Ok (a, b, c) /\
    forall x, in_segment x p (centroid a b c) -> on_boundary m x -> same x (centroid a b c).

(** How far a point is in front of the plane of a face. *)
Definition height (a b c x : vec3) : Q := vdot (normal a b c) (vsub x a).

(** A convex mesh: no face has anything of the mesh in front of its plane; or, when its
    faces point inwards, no face has anything of the mesh behind its plane. *)
Definition convex_mesh {D} (m : soup vec3 D) : Prop :=
  (forall fi a b c x, soup_triangle m fi = Ok (a, b, c) -> on_boundary m x -> height a b c x <= 0) \/
  (forall fi a b c x, soup_triangle m fi = Ok (a, b, c) -> on_boundary m x -> 0 <= height a b c x).
