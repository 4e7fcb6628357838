(** * Programs that start threads and join them

    The pattern of AABB_tree.h:104-110: [std::thread left, right; left.join();
    right.join();].  A command is a sequence of atomic actions and of pairs of
    threads; the steps of the two threads interleave arbitrarily. *)
From Coq Require Import List.
Import ListNotations.

Section ForkJoin.
  Variables action state : Type.
  Variable act : action -> state -> state.

  Inductive cmd : Type :=
  | CSkip
  | CAct (a : action)
  | CSeq (c1 c2 : cmd)
  | CPar (c1 c2 : cmd).

  Inductive step : cmd * state -> cmd * state -> Prop :=
  | step_act : forall a s, step (CAct a, s) (CSkip, act a s)
  | step_seq : forall c1 c1' c2 s s', step (c1, s) (c1', s') -> step (CSeq c1 c2, s) (CSeq c1' c2, s')
  | step_next : forall c2 s, step (CSeq CSkip c2, s) (c2, s)
  | step_left : forall c1 c1' c2 s s', step (c1, s) (c1', s') -> step (CPar c1 c2, s) (CPar c1' c2, s')
  | step_right : forall c1 c2 c2' s s', step (c2, s) (c2', s') -> step (CPar c1 c2, s) (CPar c1 c2', s')
  | step_join : forall s, step (CPar CSkip CSkip, s) (CSkip, s).

  Inductive steps : cmd * state -> cmd * state -> Prop :=
  | steps_refl : forall x, steps x x
  | steps_cons : forall x y z, step x y -> steps y z -> steps x z.

  (** The actions that may be performed next. *)
  Fixpoint enabled (c : cmd) : list action :=
    match c with
    | CSkip => []
    | CAct a => [a]
    | CSeq c1 _ => enabled c1
    | CPar c1 c2 => enabled c1 ++ enabled c2
    end.

  (** Two threads are about to perform conflicting actions. *)
  Fixpoint racy (conflict : action -> action -> Prop) (c : cmd) : Prop :=
    match c with
    | CSkip | CAct _ => False
    | CSeq c1 _ => racy conflict c1
    | CPar c1 c2 =>
        (exists a b, In a (enabled c1) /\ In b (enabled c2) /\ conflict a b) \/
        racy conflict c1 \/ racy conflict c2
    end.

  (** All actions of a command. *)
  Fixpoint actions (c : cmd) : list action :=
    match c with
    | CSkip => []
    | CAct a => [a]
    | CSeq c1 c2 | CPar c1 c2 => actions c1 ++ actions c2
    end.
End ForkJoin.
Arguments CSkip {action}.
Arguments CAct {action}.
Arguments CSeq {action}.
Arguments CPar {action}.
Arguments step {action state}.
Arguments steps {action state}.
Arguments enabled {action}.
Arguments racy {action}.
Arguments actions {action}.
