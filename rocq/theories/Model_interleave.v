(** * Interleavings of the accesses of several threads *)
From Coq Require Import List.
From Verif Require Import Model_base.
Import ListNotations.

(** A trace that performs the accesses of each list in order and mixes the lists
    arbitrarily.  With one list per loop iteration this covers every schedule of
    parallel_do.h:36-64, whichever worker runs an iteration. *)
Inductive interleave {W} : list (list W) -> list W -> Prop :=
| il_done : forall ls, Forall (fun l => l = []) ls -> interleave ls []
| il_next : forall ls i w r tr,
    nth_error ls i = Some (w :: r) ->
    interleave (list_set ls i r) tr ->
    interleave ls (w :: tr).
