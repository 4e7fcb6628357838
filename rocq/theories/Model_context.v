(** * Scoped options

    Models include/kigumi/Context.h and include/kigumi/threading.h. *)
From Coq Require Import List Arith Bool.
From Verif Require Import Model_base.
Import ListNotations.

Section Context.
  Variable O : Type.
  (** [Options{}], Context.h:20. *)
  Variable default : O.

  (** What a thread does with contexts: constructs one, destroys the one
      constructed last (contexts are local variables), or calls [current()]. *)
  Inductive action : Type :=
  | Construct (o : O)
  | Destroy
  | Observe.

  (** [current_] of a thread and the [bak_] of its live contexts, innermost
      first (Context.h:20-21). *)
  Definition tstate : Type := O * list O.

  (** Context.h:8 ([bak_] is initialised before the body runs), :10, :17.
      The second component is what [Observe] returns.  Destroying a context
      that does not exist is excluded ([None]). *)
  Definition act (a : action) (s : tstate) : option (tstate * option O) :=
    let '(cur, baks) := s in
    match a with
    | Construct o => Some ((o, cur :: baks), None)
    | Destroy =>
        match baks with
        | [] => None
        | b :: r => Some ((b, r), None)
        end
    | Observe => Some (s, Some cur)
    end.

  (** All threads; [current_] is thread_local, so that a thread starts with the
      default (Context.h:20). *)
  Definition gstate : Type := nat -> tstate.
  Definition ginit : gstate := fun _ => (default, []).

  Definition gset (g : gstate) (t : nat) (s : tstate) : gstate :=
    fun u => if u =? t then s else g u.

  (** A history of all threads: (Context.h:8-17), with what was observed. *)
  Fixpoint history (h : list (nat * action)) (g : gstate) : option (gstate * list (nat * O)) :=
    match h with
    | [] => Some (g, [])
    | (t, a) :: r =>
        match act a (g t) with
        | None => None
        | Some (s, o) =>
            match history r (gset g t s) with
            | None => None
            | Some (g', os) =>
                Some (g', match o with Some c => (t, c) :: os | None => os end)
            end
        end
    end.
End Context.
Arguments Construct {O}.
Arguments Destroy {O}.
Arguments Observe {O}.
Arguments act {O}.
Arguments history {O}.
Arguments ginit {O}.

(** std::clamp(v, lo, hi): undefined if hi < lo. *)
Definition clamp (v lo hi : nat) : res nat :=
  if hi <? lo then UB else Ok (if v <? lo then lo else if hi <? v then hi else v).

(** Threading_options::set_num_threads, threading.h:14-18; [hw] is
    std::thread::hardware_concurrency(). *)
Definition set_num_threads (hw n : nat) : res nat := clamp n 1 (Nat.max 1 hw).

(** Threading_options::num_threads_, threading.h:21. *)
Definition default_num_threads (hw : nat) : nat := Nat.max 1 hw.

(** The number of threads the parallel algorithms use for [size] elements when
    the current context asks for [n]: parallel_do.h:23, parallel_do.h:83-84,
    parallel_sort.h:21. *)
Definition workers_do_state (hw n size : nat) : res nat := Ok (Nat.min n size).
Definition workers_do (hw n size : nat) : res nat := clamp hw 1 size.
Definition workers_sort (hw n size : nat) : res nat := Ok (Nat.min n ((size + 1023) / 1024)).
