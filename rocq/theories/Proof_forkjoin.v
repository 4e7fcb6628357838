(** * Threads that work on separate memory *)
From Coq Require Import List Lia.
From Verif Require Import Model_forkjoin.
Import ListNotations.

Section FJ.
  Variables action state : Type.
  Variable act : action -> state -> state.
  Variable apart : action -> action -> Prop.
  Hypothesis apart_comm : forall a b s, apart a b -> act a (act b s) = act b (act a s).

  (** The effect of running everything in program order, left thread first. *)
  Fixpoint run (c : cmd action) (s : state) : state :=
    match c with
    | CSkip => s
    | CAct a => act a s
    | CSeq c1 c2 | CPar c1 c2 => run c2 (run c1 s)
    end.

  Fixpoint separate (c : cmd action) : Prop :=
    match c with
    | CSkip | CAct _ => True
    | CSeq c1 c2 => separate c1 /\ separate c2
    | CPar c1 c2 =>
        separate c1 /\ separate c2 /\
        forall a b, In a (actions c1) -> In b (actions c2) -> apart a b
    end.

  Lemma step_actions : forall x y, step act x y -> forall a, In a (actions (fst y)) -> In a (actions (fst x)).
  Proof.
    intros x y H. induction H; cbn in *; intros b Hb; try contradiction;
      try (apply in_app_iff in Hb; apply in_app_iff; destruct Hb; auto); auto.
  Qed.

  Lemma step_separate : forall x y, step act x y -> separate (fst x) -> separate (fst y).
  Proof.
    intros x y H. induction H; cbn in *; auto; try tauto.
    - intros [A [B C] ]. split; [ auto | split; [ auto | ] ].
      intros a b Ha Hb. apply C; auto. exact (step_actions _ _ H a Ha).
    - intros [A [B C] ]. split; [ auto | split; [ auto | ] ].
      intros a b Ha Hb. apply C; auto. exact (step_actions _ _ H b Hb).
  Qed.

  Lemma run_comm : forall c b s, (forall a, In a (actions c) -> apart a b) ->
    run c (act b s) = act b (run c s).
  Proof.
    induction c; intros b s H; cbn in *; auto.
    - rewrite IHc1 by (intros; apply H, in_app_iff; auto).
      apply IHc2. intros. apply H, in_app_iff. auto.
    - rewrite IHc1 by (intros; apply H, in_app_iff; auto).
      apply IHc2. intros. apply H, in_app_iff. auto.
  Qed.

  Lemma enabled_actions : forall c (a : action), In a (enabled c) -> In a (actions c).
  Proof.
    induction c; cbn; intros b H; auto.
    - apply in_app_iff. auto.
    - apply in_app_iff. apply in_app_iff in H. destruct H; auto.
  Qed.

  (** A step performs at most one of the command's actions, whatever the state. *)
  Definition ap (g : option action) (s : state) : state :=
    match g with Some a => act a s | None => s end.

  Lemma step_decomp : forall x y, step act x y -> separate (fst x) ->
    exists g, snd y = ap g (snd x) /\ (forall a, g = Some a -> In a (enabled (fst x))) /\
      forall z, run (fst y) (ap g z) = run (fst x) z.
  Proof.
    intros x y H. induction H; cbn [fst snd separate enabled run] in *; intro Hs.
    - exists (Some a). split; [ reflexivity | split; [ | reflexivity ] ].
      intros b Hb. injection Hb as <-. left. reflexivity.
    - destruct IHstep as [g [E [G R] ] ]; [ tauto | ]. exists g. split; [ exact E | split; [ exact G | ] ].
      intro z. rewrite R. reflexivity.
    - exists None. split; [ reflexivity | split; [ discriminate | reflexivity ] ].
    - destruct IHstep as [g [E [G R] ] ]; [ tauto | ]. exists g. split; [ exact E | split ].
      + intros a Ha. apply in_app_iff. auto.
      + intro z. rewrite R. reflexivity.
    - destruct Hs as [S1 [S2 S3] ]. destruct (IHstep S2) as [g [E [G R] ] ].
      exists g. split; [ exact E | split ].
      + intros a Ha. apply in_app_iff. auto.
      + intro z. rewrite <- (R (run c1 z)). f_equal. destruct g as [a | ]; [ | reflexivity ].
        cbn [ap]. apply run_comm. intros b Hb. apply S3; [ exact Hb | ].
        apply enabled_actions. auto.
    - exists None. split; [ reflexivity | split; [ discriminate | reflexivity ] ].
  Qed.

  Lemma step_run : forall x y, step act x y -> separate (fst x) ->
    run (fst y) (snd y) = run (fst x) (snd x).
  Proof.
    intros x y H Hs. destruct (step_decomp x y H Hs) as [g [E [_ R] ] ]. rewrite E. apply R.
  Qed.

  Lemma steps_run : forall x y, steps act x y -> separate (fst x) ->
    run (fst y) (snd y) = run (fst x) (snd x) /\ separate (fst y).
  Proof.
    intros x y H. induction H as [x | x y z S H IH]; intro Hs; [ auto | ].
    destruct (IH (step_separate _ _ S Hs)) as [A B]. split; [ | exact B ].
    rewrite A. apply (step_run _ _ S Hs).
  Qed.

  Lemma separate_not_racy : forall conflict : action -> action -> Prop,
    (forall a b, apart a b -> ~ conflict a b) ->
    forall c, separate c -> ~ racy conflict c.
  Proof.
    intros conflict Hc. induction c; cbn; try tauto.
    intros [S1 [S2 S3] ] [ [a [b [Ha [Hb Hab] ] ] ] | [R | R] ]; [ | tauto | tauto ].
    apply (Hc a b); auto. apply S3; apply enabled_actions; assumption.
  Qed.

  Fixpoint size (c : cmd action) : nat :=
    match c with
    | CSkip => 0
    | CAct _ => 1
    | CSeq c1 c2 | CPar c1 c2 => 1 + size c1 + size c2
    end.

  Lemma step_size : forall x y, step act x y -> size (fst y) < size (fst x).
  Proof. intros x y H. induction H; cbn in *; lia. Qed.

  Lemma progress : forall c s, c = CSkip \/ exists y, step act (c, s) y.
  Proof.
    induction c; intro s; auto; right.
    - eexists. apply step_act.
    - destruct (IHc1 s) as [ -> | [ [c s'] H] ].
      + eexists. apply step_next.
      + eexists. apply step_seq. exact H.
    - destruct (IHc1 s) as [ -> | [ [c s'] H] ].
      + destruct (IHc2 s) as [ -> | [ [c s'] H] ].
        * eexists. apply step_join.
        * eexists. apply step_right. exact H.
      + eexists. apply step_left. exact H.
  Qed.
End FJ.
Arguments run {action state}.
Arguments separate {action}.
Arguments size {action}.
