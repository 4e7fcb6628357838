(** * Whole runs of parallel_do *)
From Coq Require Import List Arith Bool Lia Permutation.
From Verif Require Import Model_base Model_parallel_do Spec_parallel_do Proof_base Proof_parallel_do.
Import ListNotations.

Section Run.
  Context {A S X G : Type}.
  Variable body : A -> S -> S * option X.
  Variable post : S -> G -> G * option X.
  Variable l : list A.
  Variable has_post : bool.
  Variable s0 : S.
  Variable g0 : G.

  Notation trace := (list (nat * label S X)).
  Notation step := (step body post l has_post).
  Notation steps := (steps body post l has_post).
  Notation run := (run body post l has_post).
  Notation acc := (accumulate body l s0).
  Notation n := (length l).
  Notation inv := (inv body post l has_post s0 g0).

  Definition all_done (st : state S X G) : Prop := Forall (fun p => p = Done) (fst st).

  Lemma steps_length : forall st tr st', steps st tr st' -> length (fst st') = length (fst st).
  Proof.
    intros st tr st' H. induction H; auto.
    unfold Model_parallel_do.step in H0. destruct (nth_error (fst st') tid); [|discriminate].
    destruct (tstep body post l has_post tid p (snd st')) as [[[? ?] ?]|]; [|discriminate].
    injection H0 as _ <-. cbn. rewrite length_list_set. exact IHsteps.
  Qed.

  Lemma step_done : forall st tid lb st' t,
    step st tid = Some (lb, st') -> nth_error (fst st) t = Some Done ->
    nth_error (fst st') t = Some Done /\ t <> tid.
  Proof.
    intros st tid lb st' t H D. unfold Model_parallel_do.step in H.
    destruct (nth_error (fst st) tid) eqn:E; [|discriminate].
    destruct (tstep body post l has_post tid p (snd st)) as [[[? ?] ?]|] eqn:T; [|discriminate].
    injection H as _ <-. assert (t <> tid).
    { intros ->. rewrite E in D. injection D as ->. discriminate. }
    split; auto. cbn. rewrite nth_error_list_set_neq by congruence. exact D.
  Qed.

  Lemma run_inv : forall w tr st m, run w s0 g0 tr st m ->
    steps (init w s0 g0) tr st /\
    match m with
    | Joining k => forall t, t < k -> nth_error (fst st) t = Some Done
    | Returned x => all_done st /\ x = exc (snd st)
    end.
  Proof.
    intros w tr st m H. induction H.
    - split; [constructor|]. intros t L. lia.
    - destruct IHrun as [IH1 IH2]. split; [econstructor; eauto|].
      destruct m.
      + intros t L. specialize (IH2 t L). eapply step_done; eauto.
      + exfalso. destruct IH2 as [D _]. unfold Model_parallel_do.step in H0.
        destruct (nth_error (fst st) tid) eqn:E; [|discriminate].
        unfold all_done in D. rewrite Forall_forall in D.
        apply nth_error_In in E. rewrite (D _ E) in H0. discriminate.
    - destruct IHrun as [IH1 IH2]. split; auto. intros t L.
      destruct (Nat.eq_dec t k) as [-> | D]; auto. apply IH2. lia.
    - destruct IHrun as [IH1 IH2]. split; auto. split; auto.
      unfold all_done. rewrite Forall_forall. intros p Hp.
      apply In_nth_error in Hp. destruct Hp as [t Hp].
      assert (t < length (fst st)) by (apply nth_error_Some; congruence).
      rewrite (IH2 t H0) in Hp. congruence.
  Qed.

  (** ** Termination and progress *)

  Definition weight (p : pc S X) : nat :=
    match p with
    | Run _ _ => 7 | Check _ => 6 | Fetch _ => 5 | WantPost _ => 4 | InPost _ => 3
    | WantRecord _ => 2 | InRecord _ => 1 | Done => 0
    end.
  Definition weights (ps : list (pc S X)) : nat := fold_right (fun p a => weight p + a) 0 ps.
  Definition measure (st : state S X G) : nat :=
    3 * (n - next (snd st)) + weights (fst st).

  Lemma weights_split : forall a p b, weights (a ++ p :: b) = weights a + weight p + weights b.
  Proof.
    intros a p b. unfold weights. induction a as [|q a IH]; cbn [app fold_right]; [lia|].
    rewrite IH. lia.
  Qed.

  Lemma measure_step : forall st tid lb st', step st tid = Some (lb, st') -> measure st' < measure st.
  Proof.
    intros [ps sh] tid lb st' H. unfold Model_parallel_do.step in H. cbn [fst snd] in H.
    destruct (nth_error ps tid) as [p|] eqn:Hp; [|discriminate].
    destruct (tstep body post l has_post tid p sh) as [[[lb0 p'] sh']|] eqn:Ht; [|discriminate].
    injection H as -> <-. destruct (list_set_split ps tid p p' Hp) as [a [b [E1 [E2 _]]]].
    unfold measure. cbn [fst snd]. rewrite E2, E1, !weights_split. clear E1 E2 Hp.
    unfold tstep in Ht. destruct p.
    - destruct (next sh <? n) eqn:C; injection Ht as <- <- <-; cbn [next weight].
      + apply Nat.ltb_lt in C. lia.
      + destruct has_post; cbn [next weight]; lia.
    - destruct (nth_error l i); [|discriminate].
      destruct (body a0 s) as [s' [x|]]; injection Ht as <- <- <-; cbn [next weight]; lia.
    - destruct (exc sh); injection Ht as <- <- <-; cbn [next weight]; lia.
    - destruct (owner sh); [discriminate|]. injection Ht as <- <- <-; cbn [next weight]; lia.
    - destruct (post s (glob sh)) as [g' [x|]]; injection Ht as <- <- <-; cbn [next weight]; lia.
    - destruct (owner sh); [discriminate|]. injection Ht as <- <- <-; cbn [next weight]; lia.
    - injection Ht as <- <- <-; cbn [next weight]; lia.
    - discriminate.
  Qed.

  Lemma measure_steps : forall st tr st', steps st tr st' -> length tr + measure st' <= measure st.
  Proof.
    intros st tr st' H. induction H.
    - cbn [length]. lia.
    - rewrite app_length. cbn [length]. apply measure_step in H0. lia.
  Qed.

  Lemma measure_init : forall w, measure (init w s0 g0) = 3 * n + 5 * w.
  Proof.
    intros w. unfold measure, init. cbn [fst snd next].
    assert (weights (repeat (Fetch s0) w) = 5 * w).
    { unfold weights. induction w; cbn [repeat fold_right weight]; auto. rewrite IHw. lia. }
    lia.
  Qed.

  Lemma pc_enabled : forall st t p,
    inv (length (fst st)) [] st \/ (exists w tr, inv w tr st) ->
    nth_error (fst st) t = Some p -> p <> Done ->
    (owner (snd st) = None \/ owner (snd st) = Some t) ->
    exists lb st', step st t = Some (lb, st').
  Proof.
    intros st t p I Hp D O.
    assert (I' : exists w tr, inv w tr st) by (destruct I as [I | I]; eauto). clear I.
    destruct I' as [w [tr I]].
    assert (L := iv_local _ _ _ _ _ _ _ _ _ I t p Hp).
    assert (Cr : owner (snd st) = Some t -> in_critical_section p).
    { intros E. destruct (iv_owner _ _ _ _ _ _ _ _ _ I t E) as [q [Hq C]]. congruence. }
    unfold Model_parallel_do.step. rewrite Hp. unfold tstep. destruct p.
    - destruct (next (snd st) <? n); eauto.
    - destruct (nth_error l i) eqn:E.
      + destruct (body a s) as [s' [x|]]; eauto.
      + exfalso. cbn in L. apply nth_error_None in E. lia.
    - destruct (exc (snd st)); eauto.
    - destruct O as [-> | O]; eauto. destruct (Cr O).
    - destruct (post s (glob (snd st))) as [g' [x|]]; eauto.
    - destruct O as [-> | O]; eauto. destruct (Cr O).
    - eauto.
    - congruence.
  Qed.

  Lemma progress : forall w tr st, inv w tr st -> ~ all_done st ->
    exists tid lb st', step st tid = Some (lb, st').
  Proof.
    intros w tr st I D.
    destruct (owner (snd st)) as [t|] eqn:O.
    - destruct (iv_owner _ _ _ _ _ _ _ _ _ I t O) as [p [Hp C]]. exists t.
      apply (pc_enabled st t p); eauto. intros ->. exact C.
    - assert (E : exists t p, nth_error (fst st) t = Some p /\ p <> Done).
      { unfold all_done in D. apply Exists_Forall_neg in D.
        - apply Exists_exists in D. destruct D as [p [Hp N]].
          apply In_nth_error in Hp. destruct Hp as [t Hp]. eauto.
        - intros p. destruct p; auto; right; discriminate. }
      destruct E as [t [p [Hp N]]]. exists t. apply (pc_enabled st t p); eauto.
  Qed.

  Lemma all_done_dec : forall st, all_done st \/ ~ all_done st.
  Proof.
    intros st. unfold all_done. induction (fst st) as [|p r [IH | IH]].
    - left. constructor.
    - destruct p; try (right; intros H; inversion H; discriminate).
      left. constructor; auto.
    - right. intros H. inversion H. auto.
  Qed.

  Lemma run_joins : forall w tr st k, run w s0 g0 tr st (Joining k) -> all_done st ->
    k <= length (fst st) -> run w s0 g0 tr st (Returned (exc (snd st))).
  Proof.
    intros w tr st k R D L.
    remember (length (fst st) - k) as d eqn:Hd. revert k R L Hd.
    induction d; intros k R L Hd.
    - constructor. replace (length (fst st)) with k by lia. exact R.
    - apply (IHd (k + 1)); try lia. constructor; auto.
      destruct (nth_error (fst st) k) as [p|] eqn:E.
      + unfold all_done in D. rewrite Forall_forall in D. rewrite (D p); auto.
        eapply nth_error_In; eauto.
      + apply nth_error_None in E. lia.
  Qed.

  Lemma joining_le : forall w tr st m, run w s0 g0 tr st m ->
    match m with Joining k => k <= length (fst st) | Returned _ => True end.
  Proof.
    intros w tr st m H. induction H; auto; try lia.
    - destruct m; auto. assert (E := steps_length st [(tid, lb)] st').
      rewrite E; auto. change [(tid, lb)] with ([] ++ [(tid, lb)]).
      econstructor; [constructor | exact H0].
    - assert (k < length (fst st)) by (apply nth_error_Some; congruence). lia.
  Qed.

  Lemma can_finish : forall w tr st m, run w s0 g0 tr st m ->
    exists tr' st' x, run w s0 g0 (tr ++ tr') st' (Returned x).
  Proof.
    intros w tr st m R. remember (measure st) as d eqn:Hd.
    revert tr st m R Hd. induction d as [d IH] using lt_wf_ind. intros tr st m R Hd.
    assert (J := joining_le _ _ _ _ R).
    destruct m as [k | x].
    2:{ exists [], st, x. rewrite app_nil_r. exact R. }
    destruct (all_done_dec st) as [D | D].
    - exists [], st, (exc (snd st)). rewrite app_nil_r. eapply run_joins; eauto.
    - destruct (run_inv _ _ _ _ R) as [St _].
      assert (I := inv_steps _ _ _ _ _ _ _ _ _ St).
      destruct (progress _ _ _ I D) as [tid [lb [st' Hs]]].
      destruct (IH (measure st')) with (tr := tr ++ [(tid, lb)]) (st := st') (m := Joining (X := X) k)
        as [tr' [st'' [x R']]]; auto.
      + subst d. eapply measure_step; eauto.
      + econstructor; eauto.
      + exists ((tid, lb) :: tr'), st'', x. rewrite <- app_assoc in R'. exact R'.
  Qed.

  (** ** After an exception *)

  Lemma steps_split : forall st tr1 tr2 st'', steps st (tr1 ++ tr2) st'' ->
    exists st', steps st tr1 st' /\ steps st' tr2 st''.
  Proof.
    intros st tr1 tr2. induction tr2 as [|e r IH] using rev_ind; intros st'' H.
    - rewrite app_nil_r in H. exists st''. split; auto. constructor.
    - rewrite app_assoc in H. inversion H; subst.
      + destruct (tr1 ++ r); discriminate.
      + apply app_inj_tail in H0. destruct H0 as [-> <-].
        destruct (IH _ H1) as [st1 [S1 S2]]. exists st1. split; auto. econstructor; eauto.
  Qed.

  Lemma steps_one : forall st e st', steps st [e] st' ->
    step st (fst e) = Some (snd e, st').
  Proof.
    intros st e st' H. remember [e] as tr eqn:E. destruct H as [|st tr st1 tid lb st2 H1 H2].
    - discriminate.
    - change [e] with ([] ++ [e]) in E. apply app_inj_tail in E. destruct E as [-> <-].
      remember [] as tr0 eqn:E0. destruct H1 as [|st0 tr0 st1 tid0 lb0 st3 H3 H4].
      + exact H2.
      + destruct tr0; discriminate.
  Qed.

  Lemma done_stays : forall st tr st' t, steps st tr st' -> nth_error (fst st) t = Some Done ->
    by_worker t tr = [] /\ nth_error (fst st') t = Some Done.
  Proof.
    intros st tr st' t H D. induction H; auto.
    destruct (IHsteps D) as [E1 E2]. destruct (step_done _ _ _ _ _ H0 E2) as [E3 E4].
    split; auto. rewrite by_worker_app, E1. apply by_worker_other. exact E4.
  Qed.

  Definition budget (p : pc S X) : nat := match p with Fetch _ | Run _ _ => 1 | _ => 0 end.

  Lemma budget_steps : forall st tr st' t p,
    steps st tr st' -> exc (snd st) <> None -> nth_error (fst st) t = Some p ->
    exists p', nth_error (fst st') t = Some p' /\ exc (snd st') <> None /\
      length (bodies (by_worker t tr)) + budget p' <= budget p.
  Proof.
    intros st tr st' t p H E Hp. induction H.
    - exists p. cbn. auto.
    - destruct (IHsteps E Hp) as [q [Hq [Eq Bq]]]. clear IHsteps.
      unfold Model_parallel_do.step in H0.
      destruct (nth_error (fst st') tid) as [r|] eqn:Hr; [|discriminate].
      destruct (tstep body post l has_post tid r (snd st')) as [[[lb0 r'] sh']|] eqn:Ht; [|discriminate].
      injection H0 as -> <-. cbn [fst snd].
      destruct (next_mono _ _ _ _ _ _ _ _ _ _ Ht) as [_ Em].
      destruct (Nat.eq_dec t tid) as [-> | D].
      + exists r'. rewrite Hr in Hq. injection Hq as ->.
        split; [apply nth_error_list_set_eq; apply nth_error_Some; congruence|].
        split; [auto|]. rewrite by_worker_app, by_worker_same, bodies_app, app_length.
        enough (length (bodies [(tid, lb)]) + budget r' <= budget q) by lia.
        clear - Ht Eq. unfold tstep in Ht. destruct q.
        * destruct (next (snd st') <? n); injection Ht as <- <- <-; cbn; auto.
          destruct has_post; cbn; lia.
        * destruct (nth_error l i); [|discriminate].
          destruct (body a s) as [s' [x|]]; injection Ht as <- <- <-; cbn; lia.
        * destruct (exc (snd st')); [|congruence]. injection Ht as <- <- <-; cbn; lia.
        * destruct (owner (snd st')); [discriminate|]. injection Ht as <- <- <-; cbn; lia.
        * destruct (post s (glob (snd st'))) as [g' [x|]]; injection Ht as <- <- <-; cbn; lia.
        * destruct (owner (snd st')); [discriminate|]. injection Ht as <- <- <-; cbn; lia.
        * injection Ht as <- <- <-; cbn; lia.
        * discriminate.
      + exists q. rewrite nth_error_list_set_neq by congruence.
        rewrite by_worker_app, by_worker_other, app_nil_r by exact D. auto.
  Qed.

  (** ** A single worker *)

  Lemma seq_bodies_spec : forall as_ i s tr o,
    seq_bodies body i as_ s = (tr, o) -> as_ = skipn i l ->
    (forall e, In e tr -> fst e = 0) /\ posts tr = [] /\ recorded tr = [] /\
    bodies tr = seq i (length tr) /\ length tr <= length as_ /\
    match o with
    | inl s' => raised tr = [] /\ length tr = length as_ /\
                s' = accumulate body l s (bodies tr)
    | inr x => raised tr = [x]
    end.
  Proof.
    induction as_ as [|a r IH]; intros i s tr o H E; cbn [seq_bodies] in H.
    - injection H as <- <-. cbn. repeat split; auto. intros e [].
    - assert (Hn : nth_error l i = Some a).
      { rewrite <- (Nat.add_0_r i), <- nth_error_skipn, <- E. reflexivity. }
      assert (Er : r = skipn (i + 1) l).
      { clear - E. revert i E. induction l as [|b l' IHl]; intros [|i] E; cbn in *;
          try discriminate; [congruence|]. apply IHl. exact E. }
      destruct (body a s) as [s' [x|]] eqn:B.
      + injection H as <- <-. cbn. repeat split; auto; [|lia].
        intros e [<- | []]. reflexivity.
      + destruct (seq_bodies body (i + 1) r s') as [tr' o'] eqn:Hr.
        injection H as <- <-.
        destruct (IH _ _ _ _ Hr Er) as [I1 [I2 [I3 [I4 [I5 I6]]]]].
        split; [|split; [|split; [|split; [|split]]]].
        * intros e [<- | He]; auto.
        * cbn. exact I2.
        * cbn. exact I3.
        * cbn. f_equal. replace (Datatypes.S i) with (i + 1) by lia. exact I4.
        * cbn. lia.
        * destruct o' as [s'' | x].
          -- destruct I6 as [J1 [J2 J3]]. cbn. repeat split; auto.
             unfold accumulate. cbn. rewrite Hn, B. exact J3.
          -- cbn. exact I6.
  Qed.

  (** ** Splitting a trace by workers *)

  Lemma by_workers_perm : forall {B} (f : nat * label S X -> list B) w (tr : trace),
    (forall e, In e tr -> fst e < w) ->
    Permutation (flat_map f tr)
      (concat (map (fun t => flat_map f (by_worker t tr)) (seq 0 w))).
  Proof.
    intros B f w tr. induction tr as [|e r IH]; intros H.
    - cbn. replace (concat (map (fun _ : nat => []) (seq 0 w))) with (@nil B); [constructor|].
      induction (seq 0 w); cbn; auto.
    - specialize (IH (fun x Hx => H x (or_intror Hx))).
      assert (L := H e (or_introl eq_refl)).
      destruct (in_split (fst e) (seq 0 w)) as [a [b E]]; [apply in_seq; lia|].
      assert (N : ~ In (fst e) (a ++ b)).
      { assert (ND := seq_NoDup w 0). rewrite E in ND. apply NoDup_remove_2 in ND. exact ND. }
      assert (Same : forall t, In t (a ++ b) -> by_worker t (e :: r) = by_worker t r).
      { intros t Ht. unfold by_worker. cbn. destruct (fst e =? t) eqn:C; auto.
        apply Nat.eqb_eq in C. subst t. contradiction. }
      rewrite E in *. rewrite map_app, concat_app in *. cbn [map concat] in *.
      rewrite (map_ext_in _ (fun t => flat_map f (by_worker t r)) a).
      2:{ intros t Ht. rewrite Same; auto. apply in_or_app. auto. }
      rewrite (map_ext_in (fun t => flat_map f (by_worker t (e :: r)))
                 (fun t => flat_map f (by_worker t r)) b).
      2:{ intros t Ht. rewrite Same; auto. apply in_or_app. auto. }
      replace (by_worker (fst e) (e :: r)) with (e :: by_worker (fst e) r).
      2:{ unfold by_worker. cbn. rewrite Nat.eqb_refl. reflexivity. }
      cbn [flat_map]. rewrite <- app_assoc.
      apply Permutation_trans with
        (f e ++ concat (map (fun t => flat_map f (by_worker t r)) a) ++
         flat_map f (by_worker (fst e) r) ++
         concat (map (fun t => flat_map f (by_worker t r)) b)).
      + apply Permutation_app_head. exact IH.
      + rewrite !app_assoc. do 2 apply Permutation_app_tail. apply Permutation_app_comm.
  Qed.
End Run.
