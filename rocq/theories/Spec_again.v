(** * Expressions made of Boolean operations *)
From Coq Require Import List Arith QArith.
From Verif Require Import Model_base Model_geometry Model_soup Model_boolean.
From Verif Require Import Spec_side Spec_solid Spec_defects Spec_ffi Spec_corefine Spec_whole.

(** Conditions 1 and 2 of README.md, "Technical details": no degenerate faces, and no
    self-intersections (two faces have in common at most an edge or a vertex of both). *)
Definition meets_conditions {P D} (coords : P -> vec3) (m : soup P D) : Prop :=
  proper coords m /\ no_twins m /\ simplicial coords m.

(** Regions with the sets they stand for, combined with Boolean operators.  [prefer_first]
    is the second argument of Boolean_region_builder::operator(). *)
Inductive expression (P D : Type) : Type :=
| Given : region P D -> (vec3 -> Prop) -> expression P D
| Combine : boolean_operator -> bool -> expression P D -> expression P D -> expression P D.
Arguments Given {P D}.
Arguments Combine {P D}.

(** The set that it denotes. *)
Fixpoint denotes {P D} (e : expression P D) : vec3 -> Prop :=
  match e with
  | Given _ A => A
  | Combine op _ e1 e2 => set_of op (denotes e1) (denotes e2)
  end.

(** A property of all the given regions. *)
Fixpoint all_given {P D} (H : region P D -> (vec3 -> Prop) -> Prop) (e : expression P D) : Prop :=
  match e with
  | Given r A => H r A
  | Combine _ _ e1 e2 => all_given H e1 /\ all_given H e2
  end.

(** The point is on the boundary of one of them. *)
Fixpoint on_given {P D} (coords : P -> vec3) (e : expression P D) (x : vec3) : Prop :=
  match e with
  | Given r _ => on_surface coords r x
  | Combine _ _ e1 e2 => on_given coords e1 x \/ on_given coords e2 x
  end.
