(** * parallel_sort

    Models include/kigumi/parallel_sort.h as threads that interleave
    arbitrarily and meet at a barrier.  Sorting or merging a subrange is one
    step; [C17_no_shared_element] shows that subranges processed at the same
    time do not overlap, so that interleaving inside such steps cannot matter. *)
From Coq Require Import List Arith Bool.
From Verif Require Import Model_base.
Import ListNotations.

(** The subrange [first + i, first + j) and its replacement
    (iterators into the range, parallel_sort.h:34-36). *)
Definition slice {T} (l : list T) (i j : nat) : list T := firstn (j - i) (skipn i l).
Definition splice {T} (l : list T) (i j : nat) (new : list T) : list T :=
  firstn i l ++ new ++ skipn j l.

Section ParallelSort.
  Variable T : Type.
  Variable comp : T -> T -> bool.
  (** std::sort and std::inplace_merge with [comp] (oracles, constrained in
      Spec_parallel_sort). *)
  Variable sort : list T -> list T.
  Variable merge : list T -> list T -> list T.

  (** The standard's "sorted with respect to comp": the precondition of
      std::inplace_merge on both halves (parallel_sort.h:54). *)
  Fixpoint sortedb (l : list T) : bool :=
    match l with
    | [] => true
    | a :: r => forallb (fun b => negb (comp b a)) r && sortedb r
    end.

  Section Threads.
    (** Size of the range and number of threads. *)
    Variables sz w : nat.

    (** partitions.at(t), parallel_sort.h:31-36. *)
    Definition part (t : nat) : nat := if t <? w then t * (sz / w) else sz.

    (** What thread [tid] does in round [r]: round 0 is the local sort
        (parallel_sort.h:41-45), round [r' + 1] the merge with
        [sorted_distance = 2^r'] (parallel_sort.h:50-55).  [None] is undefined
        behaviour of inplace_merge. *)
    Definition work (tid r : nat) (arr : list T) : option (list T) :=
      match r with
      | 0 =>
          let f := part tid in let la := part (tid + 1) in
          Some (splice arr f la (sort (slice arr f la)))
      | S r' =>
          let d := 2 ^ r' in
          if tid mod (2 * d) =? 0 then
            let f := part tid in
            let m := part (Nat.min (tid + d) w) in
            let la := part (Nat.min (tid + 2 * d) w) in
            if sortedb (slice arr f m) && sortedb (slice arr m la) then
              Some (splice arr f la (merge (slice arr f m) (slice arr m la)))
            else None
          else Some arr
      end.

    (** Where a thread is in parallel_sort.h:41-57. *)
    Inductive spc : Type :=
    | Work (r : nat)       (* before the sort or the merge of round r *)
    | Arrive (r : nat)     (* after round r, before arrive_and_wait *)
    | Waiting (r : nat)    (* arrived, waits for the barrier's phase r to complete *)
    | SDone.

    (** The range, the barrier (std::barrier: completed phases, arrivals in the
        current phase), and whether undefined behaviour occurred. *)
    Record sstate : Type := mk_sstate {
      arr : list T;
      phase : nat;
      arrived : nat;
      ub : bool;
      spcs : list spc
    }.

    (** parallel_sort.h:41-57: one step of thread [tid]. *)
    Definition sstep (st : sstate) (tid : nat) : option sstate :=
      match nth_error (spcs st) tid with
      | None => None
      | Some SDone => None
      | Some (Work r) =>
          let next := if 2 ^ r <? w then Arrive r else SDone in
          match work tid r (arr st) with
          | Some a =>
              Some (mk_sstate a (phase st) (arrived st) (ub st) (list_set (spcs st) tid next))
          | None =>
              Some (mk_sstate (arr st) (phase st) (arrived st) true (list_set (spcs st) tid next))
          end
      | Some (Arrive r) =>
          let last := arrived st + 1 =? w in
          Some (mk_sstate (arr st) (if last then phase st + 1 else phase st)
                  (if last then 0 else arrived st + 1) (ub st)
                  (list_set (spcs st) tid (Waiting r)))
      | Some (Waiting r) =>
          if r <? phase st then
            Some (mk_sstate (arr st) (phase st) (arrived st) (ub st)
                    (list_set (spcs st) tid (Work (r + 1))))
          else None
      end.

    (** An execution with its schedule; parallel_sort.h:38-40. *)
    Inductive ssteps (l : list T) : list nat -> sstate -> Prop :=
    | ss_nil : ssteps l [] (mk_sstate l 0 0 false (repeat (Work 0) w))
    | ss_snoc : forall sched st tid st',
        ssteps l sched st -> sstep st tid = Some st' -> ssteps l (sched ++ [tid]) st'.
  End Threads.

  (** The result of a call when [num_threads] threads are allowed
      (parallel_sort.h:16-25, 61-63).  Exceptions of [comp] (which would
      terminate the program) are not modelled. *)
  Definition sort_threads (num_threads size : nat) : nat :=
    Nat.min num_threads ((size + 1023) / 1024).

  Inductive parallel_sort (num_threads : nat) (l : list T) : list T -> Prop :=
  | ps_empty : l = [] -> parallel_sort num_threads l []
  | ps_single : l <> [] -> sort_threads num_threads (length l) = 1 ->
      parallel_sort num_threads l (sort l)
  | ps_threads : forall sched st, l <> [] -> sort_threads num_threads (length l) <> 1 ->
      ssteps (length l) (sort_threads num_threads (length l)) l sched st ->
      Forall (fun p => p = SDone) (spcs st) ->
      parallel_sort num_threads l (arr st).
End ParallelSort.
Arguments sortedb {T}.
Arguments work {T}.
Arguments arr {T}.
Arguments phase {T}.
Arguments arrived {T}.
Arguments ub {T}.
Arguments spcs {T}.
Arguments mk_sstate {T}.
Arguments sstep {T}.
Arguments ssteps {T}.
Arguments parallel_sort {T}.
