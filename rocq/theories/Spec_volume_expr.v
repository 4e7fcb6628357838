(** * The volumes of expressions *)
From Coq Require Import List QArith.
From Verif Require Import Model_base Model_soup Model_geometry Model_boolean Spec_boolean Spec_side Spec_solid Spec_whole Spec_volume Spec_again.
Local Open Scope Q_scope.

(** The volume of an expression that puts disjoint parts together and takes parts away from
    what contains them, computed from the volumes of the given regions.  What holds at the
    boundaries of the given regions does not matter. *)
Inductive adds_up {P D} (coords : P -> vec3) : expression P D -> Q -> Prop :=
| au_given : forall r A, adds_up coords (Given r A) (volume coords (boundary r))
| au_union : forall prefer_first e1 e2 v1 v2, adds_up coords e1 v1 -> adds_up coords e2 v2 ->
    (forall x, ~ on_given coords e1 x -> ~ on_given coords e2 x -> ~ (denotes e1 x /\ denotes e2 x)) ->
    adds_up coords (Combine op_UNION prefer_first e1 e2) (v1 + v2)
| au_difference : forall prefer_first e1 e2 v1 v2, adds_up coords e1 v1 -> adds_up coords e2 v2 ->
    (forall x, ~ on_given coords e1 x -> ~ on_given coords e2 x -> denotes e2 x -> denotes e1 x) ->
    adds_up coords (Combine op_DIFFERENCE prefer_first e1 e2) (v1 - v2).
