(** * What one observes of a run of parallel_do

    Projections of a trace and the sequential meaning of a loop. *)
From Coq Require Import List Arith.
From Verif Require Import Model_parallel_do.
Import ListNotations.

Section Obs.
  Context {A S X G : Type}.

  (** Elements on which [body] was called, in order; of all workers and of one. *)
  Definition body_index (e : nat * label S X) : list nat :=
    match snd e with LBody i _ => [i] | _ => [] end.
  Definition bodies (tr : list (nat * label S X)) : list nat := flat_map body_index tr.
  Definition by_worker (t : nat) (tr : list (nat * label S X)) : list (nat * label S X) :=
    filter (fun e => fst e =? t) tr.

  (** States on which [post] was called, in order. *)
  Definition post_state (e : nat * label S X) : list S :=
    match snd e with LPost s _ => [s] | _ => [] end.
  Definition posts (tr : list (nat * label S X)) : list S := flat_map post_state tr.

  (** Exceptions thrown by [body] and [post], in order. *)
  Definition raised_by (e : nat * label S X) : list X :=
    match snd e with
    | LBody _ (Some x) => [x]
    | LPost _ (Some x) => [x]
    | _ => []
    end.
  Definition raised (tr : list (nat * label S X)) : list X := flat_map raised_by tr.

  (** Exceptions the handlers found, in the order in which they got the mutex. *)
  Definition recorded_by (e : nat * label S X) : list X :=
    match snd e with LRecord x => [x] | _ => [] end.
  Definition recorded (tr : list (nat * label S X)) : list X := flat_map recorded_by tr.

  (** The state after running the bodies of the elements [is_] one by one. *)
  Definition accumulate (body : A -> S -> S * option X) (l : list A) (s0 : S) (is_ : list nat) : S :=
    fold_left
      (fun s i => match nth_error l i with Some a => fst (body a s) | None => s end) is_ s0.

  (** The memory after running [post] on the states [ss] one by one. *)
  Definition merge_all (post : S -> G -> G * option X) (g0 : G) (ss : list S) : G :=
    fold_left (fun g s => fst (post s g)) ss g0.

  (** The worker holds the mutex. *)
  Definition in_critical_section (p : pc S X) : Prop :=
    match p with InPost _ | InRecord _ => True | _ => False end.
End Obs.

(** Whether the next step of a worker accesses [exception_ptr]; the first
    component says that it may write, the second that it holds the mutex. *)
Definition exception_access {S X} (p : pc S X) : option (bool * bool) :=
  match p with
  | Check _ => Some (false, false)
  | InRecord _ => Some (true, true)
  | _ => None
  end.

(** Two workers are about to access [exception_ptr], one of them writing, and
    not both under the mutex. *)
Definition exception_race {S X G} (st : state S X G) : Prop :=
  exists t u p q wp lp wq lq, t <> u /\
    nth_error (fst st) t = Some p /\ nth_error (fst st) u = Some q /\
    exception_access p = Some (wp, lp) /\ exception_access q = Some (wq, lq) /\
    (wp || wq)%bool = true /\ (lp && lq)%bool = false.
