(** * parallel_do

    Models include/kigumi/parallel_do.h as threads whose steps interleave
    arbitrarily. *)
From Coq Require Import List Arith Bool.
From Verif Require Import Model_base.
Import ListNotations.

Section ParallelDo.
  (** Elements, worker state, exceptions, and the memory [post] works on. *)
  Variables A S X G : Type.
  (** The call of [body] on an element and a state: the new state and possibly an exception.  What a body
      does to other memory is not modelled. *)
  Variable body : A -> S -> S * option X.
  (** [post(state)]: the new memory and possibly an exception. *)
  Variable post : S -> G -> G * option X.
  (** The range [first, last). *)
  Variable l : list A.
  (** parallel_do.h:15-74 has [post], the overload of lines 76-129 has not. *)
  Variable has_post : bool.

  (** Where a worker is (parallel_do.h:39-64, 99-119). *)
  Inductive pc : Type :=
  | Fetch (s : S)            (* before [next_index++] *)
  | Run (i : nat) (s : S)    (* before [body] *)
  | Check (s : S)            (* before [if (exception_ptr)] *)
  | WantPost (s : S)         (* before [lock_guard], line 56 *)
  | InPost (s : S)           (* holds the mutex, before [post] *)
  | WantRecord (x : X)       (* in the handler, before [lock_guard] *)
  | InRecord (x : X)         (* holds the mutex, before [if (!exception_ptr)] *)
  | Done.

  (** The shared variables of parallel_do.h:33-35 and the memory of [post]. *)
  Record shared : Type := mk_shared {
    next : nat;
    owner : option nat;
    exc : option X;
    glob : G
  }.

  (** What a step of parallel_do.h:39-64 does, for the traces. *)
  Inductive label : Type :=
  | LFetch (i : nat)
  | LBody (i : nat) (thrown : option X)
  | LPost (s : S) (thrown : option X)
  | LRecord (x : X)
  | LSaw
  | LTau.

  (** parallel_do.h:39-64 and 99-119: one step of worker [tid]; [None] when it is blocked or finished.  The
      counter does not overflow. *)
  Definition tstep (tid : nat) (p : pc) (sh : shared) : option (label * pc * shared) :=
    match p with
    | Fetch s =>
        let i := next sh in
        let sh' := mk_shared (i + 1) (owner sh) (exc sh) (glob sh) in
        if i <? length l then Some (LFetch i, Run i s, sh')
        else Some (LTau, if has_post then WantPost s else Done, sh')
    | Run i s =>
        match nth_error l i with
        | None => None
        | Some a =>
            let '(s', t) := body a s in
            match t with
            | None => Some (LBody i None, Check s', sh)
            | Some x => Some (LBody i (Some x), WantRecord x, sh)
            end
        end
    | Check s =>
        match exc sh with
        | None => Some (LTau, Fetch s, sh)
        | Some _ => Some (LSaw, Done, sh)
        end
    | WantPost s =>
        match owner sh with
        | None => Some (LTau, InPost s, mk_shared (next sh) (Some tid) (exc sh) (glob sh))
        | Some _ => None
        end
    | InPost s =>
        let '(g', t) := post s (glob sh) in
        match t with
        | None => Some (LPost s None, Done, mk_shared (next sh) None (exc sh) g')
        | Some x => Some (LPost s (Some x), WantRecord x, mk_shared (next sh) None (exc sh) g')
        end
    | WantRecord x =>
        match owner sh with
        | None => Some (LTau, InRecord x, mk_shared (next sh) (Some tid) (exc sh) (glob sh))
        | Some _ => None
        end
    | InRecord x =>
        Some (LRecord x, Done,
              mk_shared (next sh) None (match exc sh with None => Some x | e => e end) (glob sh))
    | Done => None
    end.

  Definition state : Type := list pc * shared.

  (** The threads of parallel_do.h:32: all workers' positions and the shared
      variables. *)
  (** Worker [tid] moves (parallel_do.h:39-64). *)
  Definition step (st : state) (tid : nat) : option (label * state) :=
    match nth_error (fst st) tid with
    | None => None
    | Some p =>
        match tstep tid p (snd st) with
        | None => None
        | Some (lb, p', sh') => Some (lb, (list_set (fst st) tid p', sh'))
        end
    end.

  (** A finite execution with its trace; every schedule is one. *)
  Inductive steps : state -> list (nat * label) -> state -> Prop :=
  | steps_nil : forall st, steps st [] st
  | steps_snoc : forall st tr st' tid lb st'',
      steps st tr st' -> step st' tid = Some (lb, st'') -> steps st (tr ++ [(tid, lb)]) st''.

  (** parallel_do.h:32-40: the workers are started with a copy of the state;
      failure to create a thread is not modelled. *)
  Definition init (w : nat) (s0 : S) (g0 : G) : state :=
    (repeat (Fetch s0) w, mk_shared 0 None None g0).

  (** The calling thread: it has joined [k] workers, or has returned normally or
      with an exception (parallel_do.h:67-73, 122-128). *)
  Inductive mainpc : Type :=
  | Joining (k : nat)
  | Returned (o : option X).

  (** An execution of the workers and the calling thread. *)
  Inductive run (w : nat) (s0 : S) (g0 : G) : list (nat * label) -> state -> mainpc -> Prop :=
  | run_start : run w s0 g0 [] (init w s0 g0) (Joining 0)
  | run_worker : forall tr st m tid lb st',
      run w s0 g0 tr st m -> step st tid = Some (lb, st') ->
      run w s0 g0 (tr ++ [(tid, lb)]) st' m
  | run_join : forall tr st k,
      run w s0 g0 tr st (Joining k) -> nth_error (fst st) k = Some Done ->
      run w s0 g0 tr st (Joining (k + 1))
  | run_return : forall tr st,
      run w s0 g0 tr st (Joining (length (fst st))) ->
      run w s0 g0 tr st (Returned (exc (snd st))).

  (** parallel_do.h:25-27, 86-88: the loop of a single thread. *)
  Fixpoint seq_bodies (i : nat) (as_ : list A) (s : S) : list (nat * label) * (S + X) :=
    match as_ with
    | [] => ([], inl s)
    | a :: r =>
        let '(s', t) := body a s in
        match t with
        | Some x => ([(0, LBody i (Some x))], inr x)
        | None =>
            let '(tr, o) := seq_bodies (i + 1) r s' in
            ((0, LBody i None) :: tr, o)
        end
    end.

  (** parallel_do.h:24-30, 85-90. *)
  Definition seq_do (s0 : S) (g0 : G) : list (nat * label) * G * option X :=
    match seq_bodies 0 l s0 with
    | (tr, inr x) => (tr, g0, Some x)
    | (tr, inl s) =>
        if has_post then
          let '(g', t) := post s g0 in (tr ++ [(0, LPost s t)], g', t)
        else (tr, g0, None)
    end.

  (** The whole call when [num_threads] workers are allowed (line 23: the number
      of the current context; lines 83-84: the hardware concurrency, at least
      one): the trace, the final memory and the exception it throws
      (parallel_do.h:18-30, 67-73). *)
  Inductive parallel_do (num_threads : nat) (s0 : S) (g0 : G) :
      list (nat * label) -> G -> option X -> Prop :=
  | pd_empty : l = [] -> parallel_do num_threads s0 g0 [] g0 None
  | pd_single : forall tr g x, l <> [] -> Nat.min num_threads (length l) = 1 ->
      seq_do s0 g0 = (tr, g, x) -> parallel_do num_threads s0 g0 tr g x
  | pd_workers : forall tr st x, l <> [] -> Nat.min num_threads (length l) <> 1 ->
      run (Nat.min num_threads (length l)) s0 g0 tr st (Returned x) ->
      parallel_do num_threads s0 g0 tr (glob (snd st)) x.
End ParallelDo.
Arguments Fetch {S X}.
Arguments Run {S X}.
Arguments Check {S X}.
Arguments WantPost {S X}.
Arguments InPost {S X}.
Arguments WantRecord {S X}.
Arguments InRecord {S X}.
Arguments Done {S X}.
Arguments LFetch {S X}.
Arguments LBody {S X}.
Arguments LPost {S X}.
Arguments LRecord {S X}.
Arguments LSaw {S X}.
Arguments LTau {S X}.
Arguments mk_shared {X G}.
Arguments next {X G}.
Arguments owner {X G}.
Arguments exc {X G}.
Arguments glob {X G}.
Arguments tstep {A S X G}.
Arguments step {A S X G}.
Arguments steps {A S X G}.
Arguments init {S X G}.
Arguments Joining {X}.
Arguments Returned {X}.
Arguments run {A S X G}.
Arguments seq_bodies {A S X}.
Arguments seq_do {A S X G}.
Arguments parallel_do {A S X G}.
