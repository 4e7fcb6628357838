(** * Multigraphs as lists of edges *)
From Coq Require Import List Arith Bool NArith Relations Permutation.
Import ListNotations.

(** The edge e joins i and j. *)
Definition joins (i j : nat) (e : nat * nat) : Prop := e = (i, j) \/ e = (j, i).
Definition joinsb (i j : nat) (e : nat * nat) : bool :=
  ((fst e =? i) && (snd e =? j)) || ((fst e =? j) && (snd e =? i)).
(** How many of the edges join i and j. *)
Definition multiplicity (es : list (nat * nat)) (i j : nat) : nat := length (filter (joinsb i j) es).
(** How many of the edges end in i; a loop counts once. *)
Definition incident (es : list (nat * nat)) (i : nat) : nat :=
  length (filter (fun e => (fst e =? i) || (snd e =? i)) es).
(** All edges have their ends below n. *)
Definition edges_below (n : nat) (es : list (nat * nat)) : Prop :=
  Forall (fun e => fst e < n /\ snd e < n) es.
(** No loops and no two edges that join the same vertices. *)
Definition simple (es : list (nat * nat)) : Prop :=
  (forall i, ~ In (i, i) es) /\
  forall a e b f c, es = a ++ e :: b ++ f :: c -> ~ (exists i j, joins i j e /\ joins i j f).
(** Every two vertices are joined by a sequence of edges. *)
Definition adjacent (es : list (nat * nat)) (i j : nat) : Prop := In (i, j) es \/ In (j, i) es.
Definition connected (n : nat) (es : list (nat * nat)) : Prop :=
  forall i j, i < n -> j < n -> clos_refl_trans nat (adjacent es) i j.

(** ** Paths and cycles *)

(** The edges of the path through the vertices p, and of the closed path. *)
Definition path_edges (p : list nat) : list (nat * nat) := combine p (tl p).
Definition cycle_edges (p : list nat) : list (nat * nat) := combine p (tl p ++ firstn 1 p).
Definition unordered (e : nat * nat) : nat * nat := if snd e <? fst e then (snd e, fst e) else e.
(** The same edges, regardless of order and direction. *)
Definition same_edges (es es' : list (nat * nat)) : Prop :=
  Permutation (map unordered es) (map unordered es').
Definition is_path (es : list (nat * nat)) : Prop := exists p, NoDup p /\ same_edges es (path_edges p).
Definition is_cycle (es : list (nat * nat)) : Prop :=
  exists p, NoDup p /\ 3 <= length p /\ same_edges es (cycle_edges p).
