(** * Walking into a mesh and out of it *)
From Coq Require Import List Arith QArith.
From Verif Require Import Model_base Model_soup Model_geometry Model_side.
From Verif Require Import Spec_aabb Spec_candidates Spec_side Spec_visible.
Import ListNotations.
Local Open Scope Q_scope.

(** On the way from [x] to [y] one passes through the face, from its front to its back. *)
Definition goes_in {D} (m : soup vec3 D) (x y : vec3) (fi : nat) : Prop :=
  exists a b c, soup_triangle m fi = Ok (a, b, c) /\ 0 < height a b c x /\ height a b c y < 0 /\
    exists z, in_segment z x y /\ in_triangle z a b c.

(** There are [n] such faces. *)
Definition counts (Q : nat -> Prop) (n : nat) : Prop := exists l, NoDup l /\ length l = n /\ forall i, In i l <-> Q i.

(** The way does not touch an edge. *)
Definition avoids_edges {D} (m : soup vec3 D) (x y : vec3) : Prop :=
  forall fi a b c z, soup_triangle m fi = Ok (a, b, c) -> in_segment z x y ->
    ~ in_segment z a b /\ ~ in_segment z b c /\ ~ in_segment z c a.

(** On straight ways one goes in and out by turns, so one never goes in twice more often than
    out, nor out twice more often than in. *)
Definition by_turns {D} (m : soup vec3 D) : Prop :=
  forall x y ins outs, ~ on_boundary m x -> ~ on_boundary m y -> avoids_edges m x y ->
    counts (goes_in m x y) ins -> counts (goes_in m y x) outs -> (ins <= 1 + outs /\ outs <= 1 + ins)%nat.
