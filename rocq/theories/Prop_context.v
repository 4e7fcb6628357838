(** * C18: scoped options and thread limits *)
From Coq Require Import List Arith Bool Lia.
From Verif Require Import Model_base Model_context Spec_context.
Import ListNotations.

Definition of_thread {A} (t : nat) (h : list (nat * A)) : list A :=
  map snd (filter (fun e => fst e =? t) h).

Section Runs.
  Context {O : Type}.

  (** One thread on its own. *)
  Fixpoint trun (l : list (action O)) (s : tstate O) : option (tstate O * list O) :=
    match l with
    | [] => Some (s, [])
    | a :: r =>
        match act a s with
        | None => None
        | Some (s', o) =>
            match trun r s' with
            | None => None
            | Some (s'', os) => Some (s'', match o with Some c => c :: os | None => os end)
            end
        end
    end.

  Lemma trun_app : forall a b s s1 o1 s2 o2, trun a s = Some (s1, o1) -> trun b s1 = Some (s2, o2) ->
    trun (a ++ b) s = Some (s2, o1 ++ o2).
  Proof.
    induction a as [|x a IH]; intros b s s1 o1 s2 o2 Ha Hb; cbn in *.
    - injection Ha as <- <-. exact Hb.
    - destruct (act x s) as [[s' o]|]; [|discriminate].
      destruct (trun a s') as [[s'' os]|] eqn:E; [|discriminate].
      injection Ha as <- <-. rewrite (IH b s' s'' os s2 o2 E Hb). destruct o; reflexivity.
  Qed.

  Lemma history_thread : forall h g g' os t,
    history h g = Some (g', os) -> trun (of_thread t h) (g t) = Some (g' t, of_thread t os).
  Proof.
    induction h as [|[u a] r IH]; intros g g' os t H; cbn in H.
    - injection H as <- <-. reflexivity.
    - destruct (act a (g u)) as [[s o]|] eqn:Ea; [|discriminate].
      destruct (history r (gset O g u s)) as [[g1 os1]|] eqn:Er; [|discriminate].
      injection H as <- <-. specialize (IH _ _ _ t Er). unfold of_thread. cbn.
      unfold gset in IH. rewrite Nat.eqb_sym in IH. destruct (u =? t) eqn:E.
      + apply Nat.eqb_eq in E. subst u. cbn. rewrite Ea. fold (of_thread t r). rewrite IH.
        destruct o; cbn; [rewrite Nat.eqb_refl|]; reflexivity.
      + destruct o; cbn; [rewrite E|]; exact IH.
  Qed.

  Lemma history_defined : forall h g, (forall t, trun (of_thread t h) (g t) <> None) ->
    exists g' os, history h g = Some (g', os).
  Proof.
    induction h as [|[u a] r IH]; intros g H; cbn.
    - eauto.
    - assert (Hu := H u). unfold of_thread in Hu. cbn in Hu. rewrite Nat.eqb_refl in Hu. cbn in Hu.
      destruct (act a (g u)) as [[s o]|] eqn:Ea; [|congruence].
      destruct (IH (gset O g u s)) as [g' [os E]].
      + intros t. specialize (H t). unfold of_thread in H. cbn in H. unfold gset.
        rewrite Nat.eqb_sym. destruct (u =? t) eqn:E.
        * apply Nat.eqb_eq in E. subst u. fold (of_thread t r) in *.
          destruct (trun (of_thread t r) s) as [[? ?]|]; congruence.
        * exact H.
      + rewrite E. eauto.
  Qed.

  Lemma scope_run : forall s c b, trun (actions s) (c, b) = Some ((c, b), observed c s).
  Proof.
    fix IH 1. intros [|o body] c b.
    - reflexivity.
    - cbn [actions observed].
      assert (Hb : forall c' b', trun (flat_map actions body) (c', b') =
                     Some ((c', b'), flat_map (observed c') body)).
      { intros c' b'. induction body as [|x r IHr]; cbn [flat_map]; [reflexivity|].
        eapply trun_app; [apply IH | apply IHr]. }
      cbn [trun act]. rewrite (trun_app _ _ _ _ _ _ _ (Hb o (c :: b))
        (eq_refl : trun [Destroy] (o, c :: b) = Some ((c, b), []))).
      rewrite app_nil_r. reflexivity.
  Qed.

  Lemma scopes_run : forall code c b, trun (flat_map actions code) (c, b) =
    Some ((c, b), flat_map (observed c) code).
  Proof.
    induction code as [|x r IH]; intros c b; cbn [flat_map]; [reflexivity|].
    eapply trun_app; [apply scope_run | apply IH].
  Qed.
End Runs.

(** Whatever the other threads do meanwhile, a thread that uses contexts in a
    nested way sees at each point the options of the innermost block around it,
    and the default in the end.  (When an exception leaves a block its context
    is destroyed all the same; the actions performed are then those of the
    program cut short, which is again nested.) *)
Theorem C18_contexts_nest :
  forall O (default : O) h g os t code,
    history h (ginit default) = Some (g, os) ->
    of_thread t h = flat_map actions code ->
    of_thread t os = flat_map (observed default) code /\ g t = (default, []).
Proof.
  intros O default h g os t code H E.
  assert (X := history_thread h _ _ _ t H). rewrite E in X. unfold ginit in X.
  rewrite scopes_run in X. injection X as X1 X2. split; congruence.
Qed.
Print Assumptions C18_contexts_nest.

(** Every interleaving of nested programs is a possible history. *)
Theorem C18_any_interleaving :
  forall O (default : O) h (code : nat -> list (scope O)),
    (forall t, of_thread t h = flat_map actions (code t)) ->
    exists g os, history h (ginit default) = Some (g, os).
Proof.
  intros O default h code H. apply history_defined. intros t. rewrite H. unfold ginit.
  rewrite scopes_run. discriminate.
Qed.
Print Assumptions C18_any_interleaving.

(** What a thread sees depends on its own actions only. *)
Theorem C18_threads_are_isolated :
  forall O (default : O) h h' g g' os os' t,
    history h (ginit default) = Some (g, os) ->
    history h' (ginit default) = Some (g', os') ->
    of_thread t h = of_thread t h' ->
    g t = g' t /\ of_thread t os = of_thread t os'.
Proof.
  intros O default h h' g g' os os' t H H' E.
  assert (X := history_thread h _ _ _ t H). assert (X' := history_thread h' _ _ _ t H').
  rewrite E, X' in X. injection X as X1 X2. split; congruence.
Qed.
Print Assumptions C18_threads_are_isolated.

(** The number of threads in the options is always in [1, max(1, hw)]. *)
Theorem C18_num_threads_in_range :
  forall hw n, exists m, set_num_threads hw n = Ok m /\ 1 <= m <= Nat.max 1 hw /\
    (1 <= n <= Nat.max 1 hw -> m = n) /\ 1 <= default_num_threads hw <= Nat.max 1 hw.
Proof.
  intros hw n. unfold set_num_threads, clamp, default_num_threads.
  destruct (Nat.max 1 hw <? 1) eqn:E; [apply Nat.ltb_lt in E; lia|].
  eexists. split; [reflexivity|].
  destruct (n <? 1) eqn:E1; [apply Nat.ltb_lt in E1; lia|]. apply Nat.ltb_ge in E1.
  destruct (Nat.max 1 hw <? n) eqn:E2; [apply Nat.ltb_lt in E2|apply Nat.ltb_ge in E2]; lia.
Qed.
Print Assumptions C18_num_threads_in_range.

(** The requested number of threads bounds the workers of parallel_do with a
    state and of parallel_sort. *)
Theorem C18_workers_bounded_partial :
  forall hw n size, 1 <= n -> 1 <= size ->
    (exists m, workers_do_state hw n size = Ok m /\ 1 <= m <= n /\ m <= size) /\
    (exists m, workers_sort hw n size = Ok m /\ 1 <= m <= n).
Proof.
  intros hw n size N L. unfold workers_do_state, workers_sort. split.
  - exists (Nat.min n size). split; auto. lia.
  - exists (Nat.min n ((size + 1023) / 1024)). split; auto.
    assert (1 <= (size + 1023) / 1024) by (apply Nat.div_str_pos; lia). lia.
Qed.
Print Assumptions C18_workers_bounded_partial.

(** But not those of parallel_do without a state, which looks at the hardware
    only: on a machine with several cores, a context asking for one thread does
    not prevent it from using all of them. *)
Theorem C18_workers_bounded_refuted :
  forall hw size, 2 <= hw -> 2 <= size ->
    exists n m, set_num_threads hw 1 = Ok n /\ workers_do hw n size = Ok m /\ n < m.
Proof.
  intros hw size H S. destruct (C18_num_threads_in_range hw 1) as [n [E [_ [En _]]]].
  exists n, (Nat.min hw size). rewrite (En ltac:(lia)) in *. split; auto. split; [|lia].
  unfold workers_do, clamp. replace (size <? 1) with false by (symmetry; apply Nat.ltb_ge; lia).
  replace (hw <? 1) with false by (symmetry; apply Nat.ltb_ge; lia).
  destruct (size <? hw) eqn:E1; [apply Nat.ltb_lt in E1|apply Nat.ltb_ge in E1]; f_equal; lia.
Qed.
Print Assumptions C18_workers_bounded_refuted.

(** ** The hypotheses are met: nested blocks on two interleaved threads. *)
Example C18_example :
  let h := [(0, Construct 5); (1, Observe); (0, Observe); (1, Construct 7); (0, Construct 6);
            (1, Observe); (0, Observe); (0, Destroy); (0, Observe); (0, Destroy); (1, Destroy)] in
  of_thread 0 h = flat_map actions [SBlock 5 [SObserve; SBlock 6 [SObserve]; SObserve]] /\
  of_thread 1 h = flat_map actions [SObserve; SBlock 7 [SObserve]] /\
  exists g, history h (ginit 1) =
    Some (g, [(1, 1); (0, 5); (1, 7); (0, 6); (0, 5)]) .
Proof. cbn. repeat split. eexists. reflexivity. Qed.
