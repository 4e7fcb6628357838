(** * Regions and the sets of points that they represent *)
From Coq Require Import List Arith QArith.
From Verif Require Import Model_base Model_geometry Model_soup Model_boolean.
From Verif Require Import Spec_boolean Spec_side Spec_solid.
Import ListNotations.

(** The region is a value that can be passed to the Boolean operations and stands for the
    set [S]. *)
Definition represents {P D} (coords : P -> vec3) (r : region P D) (S : vec3 -> Prop) : Prop :=
  wf_region r /\
  match kind r with
  | EMPTY => forall x, ~ S x
  | FULL => forall x, S x
  | BOUNDARY_DEFINED => solid (located coords (boundary r)) S
  end.

(** The point is on the boundary of the region. *)
Definition on_surface {P D} (coords : P -> vec3) (r : region P D) (x : vec3) : Prop :=
  on_boundary (located coords (boundary r)) x.

(** [r] is the result of the operation on [a] and [b], which represent [A] and [B]: its
    boundary consists of points of their boundaries, and off these it represents the set
    that the operator denotes. *)
Definition is_result {P D} (coords : P -> vec3) (op : boolean_operator) (a b : region P D) (A B : vec3 -> Prop) (r : region P D) : Prop :=
  (forall x, on_surface coords r x -> on_surface coords a x \/ on_surface coords b x) /\
  exists S, represents coords r S /\
    forall x, ~ on_surface coords a x -> ~ on_surface coords b x -> (S x <-> set_of op A B x).
