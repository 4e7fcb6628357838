(** * Exact coordinates

    The kernel of kigumi (CGAL's Exact_predicates_exact_constructions) computes
    with exact rational numbers; a point is a triple of rationals.  The
    functions below are the textbook formulas documented for the CGAL functions
    of the same name; lazy evaluation and interval filtering are not modelled. *)
From Coq Require Import QArith.

Definition vec3 : Type := Q * Q * Q.
Definition vx (a : vec3) : Q := fst (fst a).
Definition vy (a : vec3) : Q := snd (fst a).
Definition vz (a : vec3) : Q := snd a.

(** [operator-(Point_3, Point_3)] *)
Definition vsub (a b : vec3) : vec3 := (vx a - vx b, vy a - vy b, vz a - vz b)%Q.

(** [operator*(Vector_3, Vector_3)], the scalar product *)
Definition vdot (a b : vec3) : Q := (vx a * vx b + vy a * vy b + vz a * vz b)%Q.

(** [CGAL::cross_product] *)
Definition vcross (a b : vec3) : vec3 :=
  (vy a * vz b - vz a * vy b, vz a * vx b - vx a * vz b, vx a * vy b - vy a * vx b)%Q.

(** [CGAL::sign] as a comparison with zero: [Lt] negative, [Gt] positive. *)
Definition sign (x : Q) : comparison := (x ?= 0)%Q.

Definition vec2 : Type := Q * Q.

(** [CGAL::orientation(Vector_2, Vector_2)] is the sign of the determinant. *)
Definition det2 (a b : vec2) : Q := (fst a * snd b - snd a * fst b)%Q.
