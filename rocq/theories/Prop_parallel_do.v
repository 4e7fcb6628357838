(** * C15, C16, C45: parallel_do under every schedule *)
From Coq Require Import List Arith Bool Lia Permutation.
From Verif Require Import Model_base Model_parallel_do Spec_parallel_do.
From Verif Require Import Proof_base Proof_parallel_do Proof_parallel_run.
Import ListNotations.

(** What both ways of running (one thread, several) have in common. *)
Section Common.
  Context {A S X G : Type}.
  Variable body : A -> S -> S * option X.
  Variable post : S -> G -> G * option X.
  Variable l : list A.
  Variable has_post : bool.
  Variable s0 : S.
  Variable g0 : G.
  Notation acc := (accumulate body l s0).

  Record call_facts (w : nat) (tr : list (nat * label S X)) (g : G) (x : option X) : Prop := {
    cf_nodup : exists rest, Permutation (bodies tr ++ rest) (seq 0 (length l));
    cf_all : raised tr = [] -> Permutation (bodies tr) (seq 0 (length l));
    cf_posts : raised tr = [] -> forall t, t < w ->
      posts (by_worker t tr) = if has_post then [acc (bodies (by_worker t tr))] else [];
    cf_tids : forall e, In e tr -> fst e < w;
    cf_glob : g = merge_all post g0 (posts tr);
    cf_throw : x <> None <-> raised tr <> [];
    cf_in : forall e, x = Some e -> In e (raised tr)
  }.

  Lemma by_worker_all : forall (tr : list (nat * label S X)),
    (forall e, In e tr -> fst e = 0) -> by_worker 0 tr = tr.
  Proof.
    intros tr H. unfold by_worker. induction tr as [|e r IH]; cbn; auto.
    rewrite (H e (or_introl eq_refl)). cbn. f_equal. apply IH. intros y Hy. apply H. now right.
  Qed.

  Lemma seq_facts : forall tr g x, seq_do body post l has_post s0 g0 = (tr, g, x) ->
    call_facts 1 tr g x.
  Proof.
    intros tr g x H. unfold seq_do in H.
    destruct (seq_bodies body 0 l s0) as [tr1 o] eqn:E.
    destruct (seq_bodies_spec _ _ _ _ _ _ _ E eq_refl) as [I1 [I2 [I3 [I4 [I5 I6]]]]].
    assert (Rest : exists rest, Permutation (bodies tr1 ++ rest) (seq 0 (length l))).
    { exists (seq (length tr1) (length l - length tr1)). rewrite I4.
      change (seq (length tr1)) with (seq (0 + length tr1)).
      rewrite <- (seq_app (length tr1) (length l - length tr1) 0).
      replace (length tr1 + (length l - length tr1)) with (length l) by lia. apply Permutation_refl. }
    destruct o as [s | e].
    - destruct I6 as [J1 [J2 J3]].
      assert (All : Permutation (bodies tr1) (seq 0 (length l))).
      { rewrite I4, J2. apply Permutation_refl. }
      destruct has_post eqn:HP.
      + destruct (post s g0) as [g' t] eqn:Pe. injection H as <- <- <-.
        assert (Z : forall e, In e (tr1 ++ [(0, LPost s t)]) -> fst e = 0).
        { intros e He. apply in_app_or in He. destruct He as [He | [<- | []]]; auto. }
        assert (Bd : bodies (tr1 ++ [(0, LPost s t)]) = bodies tr1).
        { rewrite bodies_app. apply app_nil_r. }
        constructor.
        * rewrite Bd. exact Rest.
        * rewrite Bd. intros _. exact All.
        * intros _ u L. replace u with 0 by lia. rewrite (by_worker_all _ Z), Bd, posts_app, I2, J3, HP. reflexivity.
        * intros e He. rewrite (Z e He). lia.
        * rewrite posts_app, I2. cbn. rewrite Pe. reflexivity.
        * rewrite raised_app, J1. cbn. destruct t; cbn; split; intros; congruence.
        * intros e ->. rewrite raised_app. apply in_or_app. right. cbn. auto.
      + injection H as <- <- <-. constructor; auto.
        * intros _ u L. replace u with 0 by lia. rewrite (by_worker_all _ I1), HP. exact I2.
        * intros e He. rewrite (I1 e He). lia.
        * rewrite I2. reflexivity.
        * rewrite J1. split; intros; congruence.
        * discriminate.
    - injection H as <- <- <-. constructor; auto.
      + rewrite I6. discriminate.
      + rewrite I6. discriminate.
      + intros e' He. rewrite (I1 e' He). lia.
      + rewrite I2. reflexivity.
      + rewrite I6. split; intros; congruence.
      + intros e' He. rewrite I6. left. congruence.
  Qed.

  Lemma run_facts : forall w tr st x, 1 <= w ->
    run body post l has_post w s0 g0 tr st (Returned x) -> call_facts w tr (glob (snd st)) x.
  Proof.
    intros w tr st x W R.
    destruct (run_inv _ _ _ _ _ _ _ _ _ _ R) as [St [Dn ->]].
    assert (I := inv_steps _ _ _ _ _ _ _ _ _ St).
    destruct I as [Len Perm Loc Crit Own Gl Ex Rec Rai Tid].
    assert (Dt : forall t, t < w -> nth_error (fst st) t = Some Done).
    { intros t L. destruct (nth_error (fst st) t) as [p|] eqn:E.
      - unfold all_done in Dn. rewrite Forall_forall in Dn.
        rewrite (Dn p); auto. eapply nth_error_In; eauto.
      - apply nth_error_None in E. lia. }
    assert (Run0 : running (fst st) = []).
    { clear - Dn. unfold all_done in Dn. unfold running. induction Dn; cbn; auto. subst x. exact IHDn. }
    rewrite Run0, app_nil_r in Perm.
    assert (NoExc : raised tr = [] -> exc (snd st) = None).
    { intros E. rewrite Ex. destruct (recorded tr) as [|y r]; auto.
      exfalso. specialize (Rec y (or_introl eq_refl)). rewrite E in Rec. exact Rec. }
    constructor; auto.
    - set (k := Nat.min (next (snd st)) (length l)) in *.
      exists (seq (0 + k) (length l - k)).
      replace (seq 0 (length l)) with (seq 0 (k + (length l - k))) by (f_equal; lia).
      rewrite seq_app. apply Permutation_app_tail. exact Perm.
    - intros E. assert (L0 := Loc 0 Done (Dt 0 W)). cbn in L0.
      destruct L0 as [[_ [_ L0]] | L0]; [|rewrite (NoExc E) in L0; congruence].
      replace (Nat.min (next (snd st)) (length l)) with (length l) in Perm by lia. exact Perm.
    - intros E t L. assert (L0 := Loc t Done (Dt t L)). cbn in L0.
      destruct L0 as [[_ [L0 _]] | L0]; [exact L0|rewrite (NoExc E) in L0; congruence].
    - split.
      + intros E F. auto.
      + intros E. destruct (exc (snd st)) eqn:Ee; [congruence|]. exfalso.
        assert (H : exists t, t < w /\ raised (by_worker t tr) <> []).
        { destruct (raised tr) as [|y r] eqn:Er; [congruence|].
          assert (In y (raised tr)) as Hy by (rewrite Er; left; reflexivity).
          unfold raised in Hy. apply in_flat_map in Hy. destruct Hy as [ev [Hev Hy]].
          exists (fst ev). split; auto. intros F.
          assert (In y (raised (by_worker (fst ev) tr))) as Hin.
          { unfold raised. apply in_flat_map. exists ev. split; auto.
            apply filter_In. split; auto. apply Nat.eqb_refl. }
          rewrite F in Hin. exact Hin. }
        destruct H as [t [L H]]. destruct (Rai t H) as [F | [y [F | F]]].
        * congruence.
        * rewrite (Dt t L) in F. discriminate.
        * rewrite (Dt t L) in F. discriminate.
    - intros e E. apply Rec. rewrite Ex in E. destruct (recorded tr); [discriminate|].
      left. cbn in E. congruence.
  Qed.

  Lemma call_ok : forall nt tr g x, 1 <= nt ->
    parallel_do body post l has_post nt s0 g0 tr g x -> l <> [] ->
    call_facts (Nat.min nt (length l)) tr g x.
  Proof.
    intros nt tr g x N H Ne.
    assert (1 <= length l) by (destruct l; cbn; [congruence | lia]).
    destruct H as [E | tr g x _ W E | tr st x _ W R].
    - congruence.
    - rewrite W. apply seq_facts. exact E.
    - apply run_facts; auto. lia.
  Qed.
End Common.

(** ** C15 *)

(** If nothing throws, each element is handled exactly once. *)
Theorem C15_each_element_once :
  forall A S X G (body : A -> S -> S * option X) (post : S -> G -> G * option X)
         l has_post num_threads s0 g0 tr g x,
    1 <= num_threads ->
    parallel_do body post l has_post num_threads s0 g0 tr g x ->
    raised tr = [] ->
    Permutation (bodies tr) (seq 0 (length l)) /\ x = None.
Proof.
  intros A S X G body post l has_post nt s0 g0 tr g x N H R.
  destruct l as [|a r].
  - inversion H; subst; try congruence. cbn. auto.
  - assert (F := call_ok _ _ _ _ _ _ _ _ _ _ N H ltac:(discriminate)). split.
    + apply (cf_all _ _ _ _ _ _ _ _ _ _ F R).
    + destruct x as [e|]; auto. exfalso.
      assert (Hin := cf_in _ _ _ _ _ _ _ _ _ _ F e eq_refl). rewrite R in Hin. exact Hin.
Qed.
Print Assumptions C15_each_element_once.

(** If nothing throws, each worker calls [post] once, with the state it got by
    running its own bodies; there are no other workers, and the final memory is
    the result of these calls of [post]. *)
Theorem C15_post_once_per_worker :
  forall A S X G (body : A -> S -> S * option X) (post : S -> G -> G * option X)
         l num_threads s0 g0 tr g x,
    1 <= num_threads -> l <> [] ->
    parallel_do body post l true num_threads s0 g0 tr g x ->
    raised tr = [] ->
    (forall t, t < Nat.min num_threads (length l) ->
       posts (by_worker t tr) = [accumulate body l s0 (bodies (by_worker t tr))]) /\
    (forall t, Nat.min num_threads (length l) <= t -> by_worker t tr = []) /\
    length (posts tr) = Nat.min num_threads (length l) /\
    g = merge_all post g0 (posts tr).
Proof.
  intros A S X G body post l nt s0 g0 tr g x N Ne H R.
  assert (F := call_ok _ _ _ _ _ _ _ _ _ _ N H Ne).
  assert (P := cf_posts _ _ _ _ _ _ _ _ _ _ F R).
  split; [|split; [|split]].
  - exact P.
  - intros t L. unfold by_worker. assert (T := cf_tids _ _ _ _ _ _ _ _ _ _ F). clear - T L.
    induction tr as [|e r IH]; cbn; auto.
    assert (fst e < Nat.min nt (length l)) by (apply T; now left).
    destruct (fst e =? t) eqn:E; [apply Nat.eqb_eq in E; lia|]. apply IH. intros y Hy. apply T. now right.
  - assert (Pm := by_workers_perm post_state _ tr (cf_tids _ _ _ _ _ _ _ _ _ _ F)).
    apply Permutation_length in Pm. unfold posts. rewrite Pm. clear Pm.
    rewrite (map_ext_in _ (fun t => [accumulate body l s0 (bodies (by_worker t tr))])).
    2:{ intros t Ht. apply in_seq in Ht. apply P. lia. }
    clear. generalize 0. induction (Nat.min nt (length l)) as [|v IH]; intros k; cbn; auto.
  - apply (cf_glob _ _ _ _ _ _ _ _ _ _ F).
Qed.
Print Assumptions C15_post_once_per_worker.

(** At every moment at most one worker is inside [post] (or records an
    exception). *)
Theorem C15_posts_do_not_overlap :
  forall A S X G (body : A -> S -> S * option X) (post : S -> G -> G * option X)
         l has_post w s0 g0 tr st m t u p q,
    run body post l has_post w s0 g0 tr st m ->
    nth_error (fst st) t = Some p -> in_critical_section p ->
    nth_error (fst st) u = Some q -> in_critical_section q ->
    t = u.
Proof.
  intros A S X G body post l hp w s0 g0 tr st m t u p q R Hp Cp Hq Cq.
  destruct (run_inv _ _ _ _ _ _ _ _ _ _ R) as [St _].
  assert (I := inv_steps _ _ _ _ _ _ _ _ _ St).
  assert (E1 := iv_crit _ _ _ _ _ _ _ _ _ I t p Hp Cp).
  assert (E2 := iv_crit _ _ _ _ _ _ _ _ _ I u q Hq Cq). congruence.
Qed.
Print Assumptions C15_posts_do_not_overlap.

(** A reduction with an associative and commutative operation gives the
    sequential result. *)
Theorem C15_reduction :
  forall A S X G (body : A -> S -> S * option X) (post : S -> G -> G * option X)
         l num_threads s0 g0 tr g x
         (M : Type) (op : M -> M -> M) (e : M) (val : A -> M) (of_state : S -> M) (of_mem : G -> M),
    (forall a b c, op a (op b c) = op (op a b) c) ->
    (forall a b, op a b = op b a) ->
    (forall a, op a e = a) ->
    of_state s0 = e ->
    (forall a s, of_state (fst (body a s)) = op (of_state s) (val a)) ->
    (forall s m, of_mem (fst (post s m)) = op (of_mem m) (of_state s)) ->
    1 <= num_threads ->
    parallel_do body post l true num_threads s0 g0 tr g x ->
    raised tr = [] ->
    of_mem g = fold_left op (map val l) (of_mem g0).
Proof.
  intros A S X G body post l nt s0 g0 tr g x M op e val os om Assoc Comm Unit E0 Eb Ep N H R.
  destruct l as [|a0 r0].
  { inversion H; subst; [reflexivity | |];
      match goal with D : [] <> [] |- _ => destruct (D eq_refl) end. }
  remember (a0 :: r0) as l eqn:El.
  assert (Ne : l <> []) by (subst; discriminate).
  assert (F := call_ok _ _ _ _ _ _ _ _ _ _ N H Ne). clear H.
  set (w := Nat.min nt (length l)) in *.
  set (vi := fun i => match nth_error l i with Some a => val a | None => e end).
  assert (Fold : forall ms m, fold_left op ms m = op m (fold_left op ms e)).
  { induction ms as [|m1 ms IH]; intros m; cbn.
    - symmetry. apply Unit.
    - rewrite IH, (IH (op e m1)), (Comm e m1), Unit, Assoc. reflexivity. }
  assert (FoldApp : forall a b, fold_left op (a ++ b) e = op (fold_left op a e) (fold_left op b e)).
  { intros a b. rewrite fold_left_app, Fold. reflexivity. }
  assert (FoldPerm : forall a b, Permutation a b -> fold_left op a e = fold_left op b e).
  { intros a b P. induction P; cbn; auto.
    - rewrite Fold, IHP. symmetry. apply Fold.
    - rewrite (Fold l0 (op (op e y) x0)), (Fold l0 (op (op e x0) y)). f_equal.
      rewrite <- (Assoc e y x0), <- (Assoc e x0 y). f_equal. apply Comm.
    - congruence. }
  assert (AccV : forall is_ s, os (accumulate body l s is_) = op (os s) (fold_left op (map vi is_) e)).
  { unfold accumulate. induction is_ as [|i is_ IH]; intros s; cbn.
    - symmetry. apply Unit.
    - rewrite IH, (Fold _ (op e (vi i))), Assoc. f_equal. rewrite (Comm e), Unit.
      unfold vi. destruct (nth_error l i); [apply Eb | symmetry; apply Unit]. }
  assert (MergeV : forall ss m, om (merge_all post m ss) = op (om m) (fold_left op (map os ss) e)).
  { unfold merge_all. induction ss as [|s ss IH]; intros m; cbn.
    - symmetry. apply Unit.
    - rewrite IH, (Fold _ (op e (os s))), Assoc, Ep, (Comm e), Unit. reflexivity. }
  rewrite (cf_glob _ _ _ _ _ _ _ _ _ _ F), MergeV, (Fold (map val l)). f_equal.
  (* the posts, then the bodies, worker by worker *)
  assert (P1 := by_workers_perm post_state w tr (cf_tids _ _ _ _ _ _ _ _ _ _ F)).
  fold (posts tr) in P1.
  rewrite (FoldPerm _ _ (Permutation_map os P1)).
  rewrite (map_ext_in _ (fun t => [accumulate body l s0 (bodies (by_worker t tr))])).
  2:{ intros t Ht. apply in_seq in Ht. apply (cf_posts _ _ _ _ _ _ _ _ _ _ F R). lia. }
  assert (P2 := by_workers_perm body_index w tr (cf_tids _ _ _ _ _ _ _ _ _ _ F)).
  fold (bodies tr) in P2.
  assert (P3 := cf_all _ _ _ _ _ _ _ _ _ _ F R).
  assert (P4 : fold_left op (map val l) e = fold_left op (map vi (bodies tr)) e).
  { rewrite (FoldPerm _ _ (Permutation_map vi P3)). f_equal.
    assert (Hm : forall k q, skipn k l = q -> map val q = map vi (seq k (length q))).
    { intros k q. revert k. induction q as [|b q IH]; intros k Hk; cbn; auto. f_equal.
      - unfold vi. rewrite <- (Nat.add_0_r k), <- nth_error_skipn, Hk. reflexivity.
      - apply IH. clear - Hk. revert k Hk. induction l as [|c l' IHl]; intros [|k] Hk; cbn in *;
          try discriminate; [congruence | auto]. }
    apply (Hm 0 l eq_refl). }
  rewrite P4, (FoldPerm _ _ (Permutation_map vi P2)). clear - FoldApp AccV E0 Unit Comm.
  induction (seq 0 w) as [|t ts IH]; cbn [map concat]; auto.
  rewrite !map_app, !FoldApp, IH. f_equal. cbn [map fold_left].
  rewrite AccV, E0. rewrite (Comm e (op e _)), Unit, (Comm e _), Unit. reflexivity.
Qed.
Print Assumptions C15_reduction.

(** Every execution is finite, with at most [3n + 5w] worker steps, and every
    partial execution can be completed: the workers never deadlock. *)
Theorem C15_always_returns :
  forall A S X G (body : A -> S -> S * option X) (post : S -> G -> G * option X)
         l has_post w s0 g0 tr st m,
    run body post l has_post w s0 g0 tr st m ->
    length tr <= 3 * length l + 5 * w /\
    exists tr' st' x, run body post l has_post w s0 g0 (tr ++ tr') st' (Returned x).
Proof.
  intros A S X G body post l hp w s0 g0 tr st m R. split.
  - destruct (run_inv _ _ _ _ _ _ _ _ _ _ R) as [St _].
    apply measure_steps in St. rewrite measure_init in St. lia.
  - eapply can_finish; eauto.
Qed.
Print Assumptions C15_always_returns.

(** ** C16 *)

(** The call throws iff some executed body or post threw; what it throws was
    thrown by one of them. *)
Theorem C16_throws_iff_raised :
  forall A S X G (body : A -> S -> S * option X) (post : S -> G -> G * option X)
         l has_post num_threads s0 g0 tr g x,
    1 <= num_threads ->
    parallel_do body post l has_post num_threads s0 g0 tr g x ->
    (x <> None <-> raised tr <> []) /\
    (forall e, x = Some e -> In e (raised tr)).
Proof.
  intros A S X G body post l has_post nt s0 g0 tr g x N H.
  destruct l as [|a r].
  - inversion H; subst; try congruence. cbn. repeat split; intros; congruence.
  - assert (F := call_ok _ _ _ _ _ _ _ _ _ _ N H ltac:(discriminate)). split.
    + apply (cf_throw _ _ _ _ _ _ _ _ _ _ F).
    + apply (cf_in _ _ _ _ _ _ _ _ _ _ F).
Qed.
Print Assumptions C16_throws_iff_raised.

(** With several workers, the exception is the first one recorded by a handler;
    with one worker there is only one. *)
Theorem C16_first_recorded :
  forall A S X G (body : A -> S -> S * option X) (post : S -> G -> G * option X)
         l has_post num_threads s0 g0 tr g e,
    1 <= num_threads ->
    parallel_do body post l has_post num_threads s0 g0 tr g (Some e) ->
    (exists before t after,
       tr = before ++ (t, LRecord e) :: after /\ recorded before = []) \/
    (Nat.min num_threads (length l) = 1 /\ raised tr = [e]).
Proof.
  intros A S X G body post l has_post nt s0 g0 tr g e N H.
  inversion H as [ | tr' g' x' Ne W E | tr' st' x' Ne W R]; subst.
  - right. split; auto. unfold seq_do in E.
    destruct (seq_bodies body 0 l s0) as [tr1 [s | y]] eqn:Eb;
      destruct (seq_bodies_spec _ _ _ _ _ _ _ Eb eq_refl) as [_ [_ [_ [_ [_ I6]]]]].
    + destruct I6 as [J1 _]. destruct has_post; [|congruence].
      destruct (post s g0) as [g'' t]. injection E as <- _ ->.
      rewrite raised_app, J1. reflexivity.
    + injection E as <- _ ->. exact I6.
  - left. destruct (run_inv _ _ _ _ _ _ _ _ _ _ R) as [St [_ Ee]].
    assert (I := inv_steps _ _ _ _ _ _ _ _ _ St).
    rewrite (iv_exc _ _ _ _ _ _ _ _ _ I) in Ee. clear - Ee.
    induction tr as [|[t lb] r IH]; [discriminate|].
    unfold recorded in Ee. cbn [flat_map] in Ee. unfold recorded_by in Ee at 1. cbn [snd] in Ee.
    destruct lb as [i | i o | s o | y | | ]; cbn [app] in Ee;
      try (destruct (IH Ee) as [b [u [a [-> Eb]]]]; eexists (_ :: b), u, a; split; [reflexivity|];
           cbn; exact Eb).
    cbn in Ee. injection Ee as ->. exists [], t, r. auto.
Qed.
Print Assumptions C16_first_recorded.

(** The call returns or throws only when all workers have finished, and then no
    worker runs any more. *)
Theorem C16_after_all_workers :
  forall A S X G (body : A -> S -> S * option X) (post : S -> G -> G * option X)
         l has_post w s0 g0 tr st x,
    run body post l has_post w s0 g0 tr st (Returned x) ->
    length (fst st) = w /\ Forall (fun p => p = Done) (fst st) /\
    (forall tid, step body post l has_post st tid = None).
Proof.
  intros A S X G body post l hp w s0 g0 tr st x R.
  destruct (run_inv _ _ _ _ _ _ _ _ _ _ R) as [St [D _]].
  split; [|split; auto].
  - apply (iv_len _ _ _ _ _ _ _ _ _ (inv_steps _ _ _ _ _ _ _ _ _ St)).
  - intros tid. unfold step. destruct (nth_error (fst st) tid) eqn:E; auto.
    unfold all_done in D. rewrite Forall_forall in D. apply nth_error_In in E.
    rewrite (D _ E). reflexivity.
Qed.
Print Assumptions C16_after_all_workers.

(** A worker that has seen the recorded exception does nothing more; once an
    exception is recorded every worker starts at most one more element. *)
Theorem C16_no_new_elements :
  forall A S X G (body : A -> S -> S * option X) (post : S -> G -> G * option X)
         l has_post w s0 g0 tr st m,
    run body post l has_post w s0 g0 tr st m ->
    (forall before t after, tr = before ++ (t, LSaw) :: after ->
       recorded before <> [] /\ by_worker t after = []) /\
    (forall before u e after t, tr = before ++ (u, LRecord e) :: after ->
       length (bodies (by_worker t after)) <= 1).
Proof.
  intros A S X G body post l hp w s0 g0 tr st m R.
  destruct (run_inv _ _ _ _ _ _ _ _ _ _ R) as [St _]. clear R. split.
  - intros before t after ->.
    destruct (steps_split _ _ _ _ _ _ _ _ St) as [st1 [S1 S2]].
    change ((t, LSaw) :: after) with ([(t, LSaw)] ++ after) in S2.
    destruct (steps_split _ _ _ _ _ _ _ _ S2) as [st2 [S3 S4]].
    apply steps_one in S3. cbn [fst snd] in S3.
    assert (I := inv_steps _ _ _ _ _ _ _ _ _ S1).
    assert (D : exc (snd st1) <> None /\ nth_error (fst st2) t = Some Done).
    { unfold step in S3. destruct (nth_error (fst st1) t) as [p|] eqn:Hp; [|discriminate].
      assert (L : t < length (fst st1)) by (apply nth_error_Some; congruence).
      unfold tstep in S3. destruct p.
      - destruct (next (snd st1) <? length l); discriminate.
      - destruct (nth_error l i); [|discriminate]. destruct (body a s) as [? [?|]]; discriminate.
      - destruct (exc (snd st1)) eqn:Ex; [|discriminate]. injection S3 as <-. split; [discriminate|].
        cbn. apply nth_error_list_set_eq. exact L.
      - destruct (owner (snd st1)); discriminate.
      - destruct (post s (glob (snd st1))) as [? [?|]]; discriminate.
      - destruct (owner (snd st1)); discriminate.
      - discriminate.
      - discriminate. }
    destruct D as [D1 D2]. split.
    + rewrite (iv_exc _ _ _ _ _ _ _ _ _ I) in D1. destruct (recorded before); cbn in *; congruence.
    + apply (done_stays _ _ _ _ _ _ _ _ S4 D2).
  - intros before u e after t ->.
    destruct (steps_split _ _ _ _ _ _ _ _ St) as [st1 [S1 S2]].
    change ((u, LRecord e) :: after) with ([(u, LRecord e)] ++ after) in S2.
    destruct (steps_split _ _ _ _ _ _ _ _ S2) as [st2 [S3 S4]].
    assert (S5 : steps body post l hp (init w s0 g0) (before ++ [(u, LRecord e)]) st2).
    { econstructor; [exact S1|]. apply steps_one in S3. exact S3. }
    assert (I := inv_steps _ _ _ _ _ _ _ _ _ S5).
    assert (Ex : exc (snd st2) <> None).
    { rewrite (iv_exc _ _ _ _ _ _ _ _ _ I), recorded_app. cbn.
      destruct (recorded before); cbn; discriminate. }
    destruct (nth_error (fst st2) t) as [p|] eqn:Hp.
    + destruct (budget_steps _ _ _ _ _ _ _ _ _ S4 Ex Hp) as [p' [_ [_ B]]].
      assert (budget p <= 1) by (destruct p; cbn; lia). lia.
    + assert (T := iv_tids _ _ _ _ _ _ _ _ _ (inv_steps _ _ _ _ _ _ _ _ _ St)).
      assert (L := iv_len _ _ _ _ _ _ _ _ _ I). apply nth_error_None in Hp.
      replace (by_worker t after) with (@nil (nat * label S X)); [cbn; lia|].
      symmetry. unfold by_worker.
      assert (T' : forall y, In y after -> fst y < w).
      { intros y Hy. apply T. apply in_or_app. right. now right. }
      clear - T' L Hp. induction after as [|y r IH]; cbn; auto.
      assert (fst y < w) by (apply T'; now left).
      destruct (fst y =? t) eqn:E; [apply Nat.eqb_eq in E; lia|].
      apply IH. intros z Hz. apply T'. now right.
Qed.
Print Assumptions C16_no_new_elements.

(** Even when something throws, no element is handled twice. *)
Theorem C16_at_most_once :
  forall A S X G (body : A -> S -> S * option X) (post : S -> G -> G * option X)
         l has_post num_threads s0 g0 tr g x,
    1 <= num_threads ->
    parallel_do body post l has_post num_threads s0 g0 tr g x ->
    NoDup (bodies tr) /\ (forall i, In i (bodies tr) -> i < length l).
Proof.
  intros A S X G body post l has_post nt s0 g0 tr g x N H.
  destruct l as [|a r].
  - inversion H; subst; try congruence. cbn. split; [constructor | intros i []].
  - assert (F := call_ok _ _ _ _ _ _ _ _ _ _ N H ltac:(discriminate)).
    destruct (cf_nodup _ _ _ _ _ _ _ _ _ _ F) as [rest P]. split.
    + assert (ND := seq_NoDup (length (a :: r)) 0).
      apply (Permutation_NoDup (Permutation_sym P)) in ND.
      clear - ND. induction (bodies tr); [constructor|].
      cbn in ND. apply NoDup_cons_iff in ND. destruct ND as [N1 N2]. constructor; auto.
      intros Hin. apply N1. apply in_or_app. now left.
    + intros i Hi. assert (In i (seq 0 (length (a :: r)))).
      { apply (Permutation_in _ P). apply in_or_app. now left. }
      apply in_seq in H0. lia.
Qed.
Print Assumptions C16_at_most_once.

(** ** C45 *)

(** [exception_ptr] is read without the mutex: as soon as the first element
    throws and the second does not, two workers race on it. *)
Theorem C45_exception_ptr_race_refuted :
  forall A S X G (body : A -> S -> S * option X) (post : S -> G -> G * option X)
         a0 a1 l has_post w s0 g0 e s1,
    body a0 s0 = (s1, Some e) -> snd (body a1 s0) = None -> 2 <= w ->
    exists tr st m, run body post (a0 :: a1 :: l) has_post w s0 g0 tr st m /\ exception_race st.
Proof.
  intros A S X G body post a0 a1 l hp w s0 g0 e s1 E0 E1 W.
  destruct (body a1 s0) as [s2 o] eqn:B1. cbn in E1. subst o.
  destruct w as [|[|w]]; [lia|lia|].
  eexists _, _, (Joining 0). split.
  - (* worker 0: fetch, run (throws), lock; worker 1: fetch, run *)
    eapply run_worker with (tid := 1); [eapply run_worker with (tid := 1);
      [eapply run_worker with (tid := 0); [eapply run_worker with (tid := 0);
        [eapply run_worker with (tid := 0); [apply run_start|]|]|]|]|].
    + reflexivity.
    + cbn. unfold step. cbn. rewrite E0. reflexivity.
    + cbn. unfold step. cbn. reflexivity.
    + reflexivity.
    + cbn. unfold step. cbn. rewrite B1. reflexivity.
  - exists 1, 0, (Check s2), (InRecord e), false, false, true, true. cbn. repeat split; auto.
Qed.
Print Assumptions C45_exception_ptr_race_refuted.

(** As long as nothing throws there is no race. *)
Theorem C45_race_free_without_exceptions_partial :
  forall A S X G (body : A -> S -> S * option X) (post : S -> G -> G * option X)
         l has_post w s0 g0 tr st m,
    run body post l has_post w s0 g0 tr st m -> raised tr = [] -> ~ exception_race st.
Proof.
  intros A S X G body post l hp w s0 g0 tr st m R E.
  destruct (run_inv _ _ _ _ _ _ _ _ _ _ R) as [St _].
  assert (I := inv_steps _ _ _ _ _ _ _ _ _ St).
  assert (N : forall t x, nth_error (fst st) t <> Some (InRecord x)).
  { intros t x H. assert (L := iv_local _ _ _ _ _ _ _ _ _ I t _ H). cbn in L.
    assert (Hin : In x (raised tr)).
    { assert (In x (raised (by_worker t tr))) as Hx by (rewrite L; now left).
      unfold raised in Hx. apply in_flat_map in Hx. destruct Hx as [ev [Hev Hx]].
      apply filter_In in Hev. unfold raised. apply in_flat_map. exists ev. tauto. }
    rewrite E in Hin. exact Hin. }
  intros [t [u [p [q [wp [lp [wq [lq [D [Hp [Hq [Ap [Aq [W _]]]]]]]]]]]]]].
  destruct p; cbn in Ap; try discriminate.
  - destruct q; cbn in Aq; try discriminate.
    + injection Ap as <- <-. injection Aq as <- <-. discriminate.
    + apply (N u x Hq).
  - apply (N t x Hp).
Qed.
Print Assumptions C45_race_free_without_exceptions_partial.

(** ** The hypotheses are met *)

(** Two workers sum three numbers; worker 1 takes the middle one. *)
Definition sum_body (a s : nat) : nat * option nat := (s + a, None).
Definition sum_post (s g : nat) : nat * option nat := (g + s, None).

Definition run_schedule {A S X G} (body : A -> S -> S * option X) (post : S -> G -> G * option X)
    l hp (sched : list nat) (st : state S X G) : option (list (nat * label S X) * state S X G) :=
  fold_left (fun acc tid =>
    match acc with
    | Some (tr, st) =>
        match step body post l hp st tid with
        | Some (lb, st') => Some (tr ++ [(tid, lb)], st')
        | None => None
        end
    | None => None
    end) sched (Some ([], st)).

Lemma run_schedule_run : forall A S X G (body : A -> S -> S * option X) (post : S -> G -> G * option X)
    l hp w s0 g0 sched tr st,
  run_schedule body post l hp sched (init w s0 g0) = Some (tr, st) ->
  run body post l hp w s0 g0 tr st (Joining 0).
Proof.
  intros A S X G body post l hp w s0 g0 sched. unfold run_schedule.
  induction sched as [|t r IH] using rev_ind; intros tr st H.
  - cbn in H. injection H as <- <-. constructor.
  - rewrite fold_left_app in H. cbn in H.
    destruct (fold_left _ r _) as [[tr1 st1]|]; [|discriminate].
    destruct (step body post l hp st1 t) as [[lb st']|] eqn:E; [|discriminate].
    injection H as <- <-. econstructor; eauto.
Qed.

Example C15_example : exists tr,
  parallel_do sum_body sum_post [10; 20; 30] true 2 0 100 tr 160 None /\
  raised tr = [] /\ bodies (by_worker 0 tr) = [0; 2] /\ bodies (by_worker 1 tr) = [1].
Proof.
  pose (sched := [0; 1; 1; 1; 0; 0; 0; 0; 0; 1; 1; 1; 0; 0; 0]).
  destruct (run_schedule sum_body sum_post [10; 20; 30] true sched (init 2 0 100)) as [[tr st]|] eqn:E.
  2:{ vm_compute in E. discriminate. }
  assert (R := run_schedule_run _ _ _ _ _ _ _ _ _ _ _ _ _ _ E).
  vm_compute in E. injection E as <- <-.
  match type of R with run _ _ _ _ _ _ _ ?tr ?st _ => exists tr; split;
    [apply (pd_workers nat nat nat nat sum_body sum_post [10; 20; 30] true 2 0 100 tr st None) | ] end.
  - discriminate.
  - discriminate.
  - apply (run_return _ _ _ _ sum_body sum_post).
    apply (run_join _ _ _ _ _ _ _ _ _ _ _ _ _ 1); [|reflexivity].
    apply (run_join _ _ _ _ _ _ _ _ _ _ _ _ _ 0); [|reflexivity]. exact R.
  - vm_compute. auto.
Qed.

(** The first element throws 7 while the other worker is at work; the other
    worker sees it and does not call post. *)
Definition bad_body (a s : nat) : nat * option nat := (s + a, if a =? 10 then Some 7 else None).

Example C16_example : exists tr,
  parallel_do bad_body sum_post [10; 20; 30] true 2 0 100 tr 100 (Some 7) /\
  bodies tr = [0; 1] /\ posts tr = [].
Proof.
  pose (sched := [0; 1; 0; 0; 1; 0; 1]).
  destruct (run_schedule bad_body sum_post [10; 20; 30] true sched (init 2 0 100)) as [[tr st]|] eqn:E.
  2:{ vm_compute in E. discriminate. }
  assert (R := run_schedule_run _ _ _ _ _ _ _ _ _ _ _ _ _ _ E).
  vm_compute in E. injection E as <- <-.
  match type of R with run _ _ _ _ _ _ _ ?tr ?st _ => exists tr; split;
    [apply (pd_workers nat nat nat nat bad_body sum_post [10; 20; 30] true 2 0 100 tr st (Some 7)) | ] end.
  - discriminate.
  - discriminate.
  - apply (run_return _ _ _ _ bad_body sum_post).
    apply (run_join _ _ _ _ _ _ _ _ _ _ _ _ _ 1); [|reflexivity].
    apply (run_join _ _ _ _ _ _ _ _ _ _ _ _ _ 0); [|reflexivity]. exact R.
  - vm_compute. auto.
Qed.

Example C45_example : exists tr st m,
  run bad_body sum_post [10; 20; 30] true 2 0 100 tr st m /\ exception_race st.
Proof.
  apply (C45_exception_ptr_race_refuted nat nat nat nat bad_body sum_post 10 20 [30] true 2 0 100 7 10);
    auto.
Qed.
