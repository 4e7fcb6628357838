(** * When two regions are the same *)
From Coq Require Import List Arith QArith.
From Verif Require Import Model_base Model_geometry Model_soup Model_boolean.
From Verif Require Import Spec_side Spec_solid Spec_whole Spec_again.

(** The same kind, the same points on the boundary, and the same points inside; the boundary
    may be cut into triangles differently. *)
Definition same_region {P D} (coords : P -> vec3) (r r' : region P D) : Prop :=
  kind r = kind r' /\
  (forall x, on_surface coords r x <-> on_surface coords r' x) /\
  (forall S S', represents coords r S -> represents coords r' S' -> forall x, ~ on_surface coords r x -> (S x <-> S' x)).

(** The two expressions denote the same set, away from the boundaries of the given regions. *)
Definition same_set {P D} (coords : P -> vec3) (e e' : expression P D) : Prop :=
  forall x, ~ on_given coords e x -> ~ on_given coords e' x -> (denotes e x <-> denotes e' x).
