(** * Invariants of parallel_do over all interleavings *)
From Coq Require Import List Arith Bool Lia Permutation.
From Verif Require Import Model_base Model_parallel_do Spec_parallel_do Proof_base.
Import ListNotations.

Lemma list_set_split : forall {T} (ps : list T) t p p',
  nth_error ps t = Some p ->
  exists a b, ps = a ++ p :: b /\ list_set ps t p' = a ++ p' :: b /\ length a = t.
Proof.
  intros T. induction ps as [|x r IH]; intros [|t] p p' H; cbn in H; try discriminate.
  - injection H as ->. exists [], r. auto.
  - destruct (IH t p p' H) as [a [b [E1 [E2 E3]]]].
    exists (x :: a), b. cbn. rewrite E1 at 1. rewrite E2, E3. auto.
Qed.

Section Inv.
  Context {A S X G : Type}.
  Variable body : A -> S -> S * option X.
  Variable post : S -> G -> G * option X.
  Variable l : list A.
  Variable has_post : bool.
  Variable s0 : S.
  Variable g0 : G.

  Notation trace := (list (nat * label S X)).
  Notation step := (step body post l has_post).
  Notation steps := (steps body post l has_post).
  Notation acc := (accumulate body l s0).
  Notation n := (length l).

  Lemma bodies_app : forall (a b : trace), bodies (a ++ b) = bodies a ++ bodies b.
  Proof. intros. apply flat_map_app. Qed.
  Lemma posts_app : forall (a b : trace), posts (a ++ b) = posts a ++ posts b.
  Proof. intros. apply flat_map_app. Qed.
  Lemma raised_app : forall (a b : trace), raised (a ++ b) = raised a ++ raised b.
  Proof. intros. apply flat_map_app. Qed.
  Lemma recorded_app : forall (a b : trace), recorded (a ++ b) = recorded a ++ recorded b.
  Proof. intros. apply flat_map_app. Qed.
  Lemma by_worker_app : forall t (a b : trace),
    by_worker t (a ++ b) = by_worker t a ++ by_worker t b.
  Proof. intros. apply filter_app. Qed.
  Lemma by_worker_same : forall t lb, by_worker t [(t, lb)] = [(t, lb) : nat * label S X].
  Proof. intros. unfold by_worker. cbn. rewrite Nat.eqb_refl. reflexivity. Qed.
  Lemma by_worker_other : forall t u lb, u <> t -> by_worker u [(t, lb)] = ([] : trace).
  Proof.
    intros. unfold by_worker. cbn.
    destruct (t =? u) eqn:E; auto. apply Nat.eqb_eq in E. congruence.
  Qed.
  Lemma acc_snoc : forall is_ i a, nth_error l i = Some a ->
    acc (is_ ++ [i]) = fst (body a (acc is_)).
  Proof. intros is_ i a H. unfold accumulate. rewrite fold_left_app. cbn. rewrite H. reflexivity. Qed.

  Definition running1 (p : pc S X) : list nat := match p with Run i _ => [i] | _ => [] end.
  Definition running (ps : list (pc S X)) : list nat := flat_map running1 ps.

  Definition local (tr : trace) (sh : shared X G) (t : nat) (p : pc S X) : Prop :=
    let mine := by_worker t tr in
    match p with
    | Fetch s | Check s =>
        s = acc (bodies mine) /\ posts mine = [] /\ raised mine = []
    | Run i s =>
        s = acc (bodies mine) /\ posts mine = [] /\ raised mine = [] /\ i < n
    | WantPost s | InPost s =>
        s = acc (bodies mine) /\ posts mine = [] /\ raised mine = [] /\ n <= next sh /\
        has_post = true
    | WantRecord x | InRecord x => raised mine = [x]
    | Done =>
        (raised mine = [] /\ posts mine = (if has_post then [acc (bodies mine)] else []) /\
         n <= next sh) \/ exc sh <> None
    end.

  Record inv (w : nat) (tr : trace) (st : state S X G) : Prop := {
    iv_len : length (fst st) = w;
    iv_perm : Permutation (bodies tr ++ running (fst st)) (seq 0 (Nat.min (next (snd st)) n));
    iv_local : forall t p, nth_error (fst st) t = Some p -> local tr (snd st) t p;
    iv_crit : forall t p, nth_error (fst st) t = Some p -> in_critical_section p ->
      owner (snd st) = Some t;
    iv_owner : forall t, owner (snd st) = Some t ->
      exists p, nth_error (fst st) t = Some p /\ in_critical_section p;
    iv_glob : glob (snd st) = merge_all post g0 (posts tr);
    iv_exc : exc (snd st) = hd_error (recorded tr);
    iv_rec : incl (recorded tr) (raised tr);
    iv_raised : forall t, raised (by_worker t tr) <> [] -> exc (snd st) <> None \/
      exists x, nth_error (fst st) t = Some (WantRecord x) \/
                nth_error (fst st) t = Some (InRecord x);
    iv_tids : forall e, In e tr -> fst e < w
  }.

  Lemma nth_list_set : forall (ps : list (pc S X)) t p' u p,
    t < length ps -> nth_error (list_set ps t p') u = Some p ->
    (u = t /\ p = p') \/ (u <> t /\ nth_error ps u = Some p).
  Proof.
    intros ps t p' u p L H. destruct (Nat.eq_dec u t) as [-> | D].
    - rewrite nth_error_list_set_eq in H by exact L. left. split; congruence.
    - rewrite nth_error_list_set_neq in H by congruence. auto.
  Qed.

  Lemma inv_init : forall w, inv w [] (init w s0 g0).
  Proof.
    intros w. unfold init. constructor; cbn [fst snd next owner exc glob].
    - apply repeat_length.
    - cbn. replace (running (repeat (Fetch s0) w)) with (@nil nat); [constructor|].
      induction w; cbn; auto.
    - intros t p H. assert (E : p = Fetch s0).
      { apply nth_error_In in H. apply repeat_spec in H. exact H. }
      subst p. cbn. auto.
    - intros t p H C. apply nth_error_In in H. apply repeat_spec in H. subst p. destruct C.
    - discriminate.
    - reflexivity.
    - reflexivity.
    - intros x [].
    - cbn. congruence.
    - intros e [].
  Qed.

  (** Steps of other workers keep what is known of a worker. *)
  Lemma local_other : forall tr sh t lb u p sh',
    u <> t -> local tr sh u p -> next sh <= next sh' -> (exc sh <> None -> exc sh' <> None) ->
    local (tr ++ [(t, lb)]) sh' u p.
  Proof.
    intros tr sh t lb u p sh' D L Nx Ex. unfold local in *.
    rewrite by_worker_app, (by_worker_other t u lb D), app_nil_r.
    destruct p; auto.
    - destruct L as [a [b [c [d e]]]]. repeat split; auto. lia.
    - destruct L as [a [b [c [d e]]]]. repeat split; auto. lia.
    - destruct L as [[a [b c]] | a]; [left|right; auto]. repeat split; auto. lia.
  Qed.

  Lemma next_mono : forall tid p sh lb p' sh',
    tstep body post l has_post tid p sh = Some (lb, p', sh') ->
    next sh <= next sh' /\ (exc sh <> None -> exc sh' <> None).
  Proof.
    intros tid p sh lb p' sh' H. unfold tstep in H. destruct p.
    - destruct (next sh <? n); injection H as <- <- <-; cbn; split; auto; lia.
    - destruct (nth_error l i); [|discriminate].
      destruct (body a s) as [s' [x|]]; injection H as <- <- <-; auto.
    - destruct (exc sh) eqn:E; injection H as <- <- <-; split; auto; congruence.
    - destruct (owner sh); [discriminate|]. injection H as <- <- <-; auto.
    - destruct (post s (glob sh)) as [g' [x|]]; injection H as <- <- <-; auto.
    - destruct (owner sh); [discriminate|]. injection H as <- <- <-; auto.
    - injection H as <- <- <-. cbn. split; auto. destruct (exc sh); congruence.
    - discriminate.
  Qed.

  Lemma running_split : forall a (p : pc S X) b,
    running (a ++ p :: b) = running a ++ running1 p ++ running b.
  Proof. intros. unfold running. rewrite flat_map_app. reflexivity. Qed.

  Lemma inv_step : forall w tr st tid lb st',
    inv w tr st -> step st tid = Some (lb, st') -> inv w (tr ++ [(tid, lb)]) st'.
  Proof.
    intros w tr [ps sh] tid lb st' I H. destruct I as [Len Perm Loc Crit Own Gl Ex Rec Rai Tid].
    cbn [fst snd] in *. unfold Model_parallel_do.step in H. cbn [fst snd] in H.
    destruct (nth_error ps tid) as [p|] eqn:Hp; [|discriminate].
    destruct (tstep body post l has_post tid p sh) as [[[lb0 p'] sh']|] eqn:Ht; [|discriminate].
    injection H as -> <-.
    assert (Lt : tid < length ps) by (apply nth_error_Some; congruence).
    assert (Lp := Loc tid p Hp).
    destruct (next_mono _ _ _ _ _ _ Ht) as [Nx Exm].
    destruct (list_set_split ps tid p p' Hp) as [a [b [E1 [E2 E3]]]].
    assert (P0 := Perm). rewrite E1, running_split in P0.
    (* what is the same in all cases *)
    assert (Loc' : forall u q, u <> tid -> nth_error ps u = Some q ->
                   local (tr ++ [(tid, lb)]) sh' u q).
    { intros u q D Hu. eapply local_other; eauto. }
    assert (Tid' : forall e, In e (tr ++ [(tid, lb)]) -> fst e < w).
    { intros e Hin. apply in_app_or in Hin. destruct Hin as [Hin | [<- | []]]; auto. cbn. lia. }
    assert (Len' : length (list_set ps tid p') = w) by (rewrite length_list_set; exact Len).
    assert (Goal_crit : (forall t q, nth_error (list_set ps tid p') t = Some q ->
                            in_critical_section q -> owner sh' = Some t) /\
                        (forall t, owner sh' = Some t -> exists q,
                            nth_error (list_set ps tid p') t = Some q /\ in_critical_section q)).
    { assert (Same : owner sh' = owner sh -> ~ in_critical_section p -> ~ in_critical_section p' ->
        (forall t q, nth_error (list_set ps tid p') t = Some q ->
                            in_critical_section q -> owner sh' = Some t) /\
        (forall t, owner sh' = Some t -> exists q,
                            nth_error (list_set ps tid p') t = Some q /\ in_critical_section q)).
      { intros E N1 N2. split.
        - intros t q Hq C. destruct (nth_list_set ps tid p' t q Lt Hq) as [[-> ->] | [D Hq']].
          + contradiction.
          + rewrite E. eauto.
        - intros t Ht'. rewrite E in Ht'. destruct (Own t Ht') as [q [Hq C]].
          exists q. split; [|exact C]. rewrite nth_error_list_set_neq; [exact Hq|].
          intros ->. rewrite Hp in Hq. injection Hq as ->. contradiction. }
      assert (Acq : owner sh = None -> owner sh' = Some tid -> in_critical_section p' ->
        (forall t q, nth_error (list_set ps tid p') t = Some q ->
                            in_critical_section q -> owner sh' = Some t) /\
        (forall t, owner sh' = Some t -> exists q,
                            nth_error (list_set ps tid p') t = Some q /\ in_critical_section q)).
      { intros E E' C'. split.
        - intros t q Hq C. destruct (nth_list_set ps tid p' t q Lt Hq) as [[-> ->] | [D Hq']].
          + exact E'.
          + exfalso. specialize (Crit t q Hq' C). congruence.
        - intros t Ht'. rewrite E' in Ht'. injection Ht' as <-. exists p'.
          split; [|exact C']. apply nth_error_list_set_eq. exact Lt. }
      assert (Rel : owner sh' = None -> in_critical_section p -> ~ in_critical_section p' ->
        (forall t q, nth_error (list_set ps tid p') t = Some q ->
                            in_critical_section q -> owner sh' = Some t) /\
        (forall t, owner sh' = Some t -> exists q,
                            nth_error (list_set ps tid p') t = Some q /\ in_critical_section q)).
      { intros E C1 N2. split.
        - intros t q Hq C. destruct (nth_list_set ps tid p' t q Lt Hq) as [[-> ->] | [D Hq']].
          + contradiction.
          + exfalso. assert (O1 := Crit t q Hq' C). assert (O2 := Crit tid p Hp C1). congruence.
        - intros t Ht'. congruence. }
      clear Loc' Tid' Len' P0 Perm Loc Lp. unfold tstep in Ht. destruct p.
      - destruct (next sh <? n); injection Ht as <- <- <-.
        + apply Same; auto.
        + apply Same; cbn; auto. destruct has_post; auto.
      - destruct (nth_error l i); [|discriminate]. destruct (body a0 s) as [s' [x|]];
          injection Ht as <- <- <-; apply Same; auto.
      - destruct (exc sh); injection Ht as <- <- <-; apply Same; auto.
      - destruct (owner sh) eqn:O; [discriminate|]. injection Ht as <- <- <-. apply Acq; cbn; auto.
      - destruct (post s (glob sh)) as [g' [x|]]; injection Ht as <- <- <-; apply Rel; cbn; auto.
      - destruct (owner sh) eqn:O; [discriminate|]. injection Ht as <- <- <-. apply Acq; cbn; auto.
      - injection Ht as <- <- <-. apply Rel; cbn; auto.
      - discriminate. }
    destruct Goal_crit as [Crit' Own'].
    (* the remaining fields, by cases *)
    assert (Core :
      Permutation (bodies (tr ++ [(tid, lb)]) ++ running (a ++ p' :: b))
        (seq 0 (Nat.min (next sh') n)) /\
      local (tr ++ [(tid, lb)]) sh' tid p' /\
      glob sh' = merge_all post g0 (posts (tr ++ [(tid, lb)])) /\
      exc sh' = hd_error (recorded (tr ++ [(tid, lb)])) /\
      incl (recorded (tr ++ [(tid, lb)])) (raised (tr ++ [(tid, lb)])) /\
      (raised (by_worker tid (tr ++ [(tid, lb)])) <> [] ->
        exc sh' <> None \/ (exists x, p' = WantRecord x \/ p' = InRecord x))).
    { clear Loc Crit Own Loc' Tid' Len' Crit' Own' Perm.
      rewrite running_split. unfold local.
      unfold local in Lp.
      rewrite by_worker_app, by_worker_same, !bodies_app, !posts_app, !recorded_app, !raised_app.
      assert (Rai' := Rai tid). rewrite Hp in Rai'. clear Rai.
      unfold tstep in Ht. destruct p; cbn [running1 app] in P0.
      - (* Fetch *)
        destruct (next sh <? n) eqn:C; injection Ht as <- <- <-.
        + apply Nat.ltb_lt in C. cbn [running1 body_index post_state raised_by recorded_by
            bodies posts raised recorded flat_map snd fst app].
          rewrite !app_nil_r. cbn [next exc glob].
          destruct Lp as [L1 [L2 L3]]. repeat split; auto; try (intros R; congruence).
          * replace (Nat.min (next sh + 1) n) with (1 + Nat.min (next sh) n) by lia.
            rewrite Nat.add_comm, seq_app. cbn [seq app Nat.add].
            replace (Nat.min (next sh) n) with (next sh) in * by lia.
            rewrite app_assoc.
            apply Permutation_trans with (next sh :: (bodies tr ++ running a) ++ running b).
            { symmetry. rewrite <- app_comm_cons || idtac. apply Permutation_middle. }
            apply Permutation_trans with (next sh :: seq 0 (next sh)).
            { constructor. rewrite <- app_assoc. exact P0. }
            apply Permutation_cons_append.
        + apply Nat.ltb_ge in C. cbn [running1 body_index post_state raised_by recorded_by
            bodies posts raised recorded flat_map snd fst app].
          rewrite !app_nil_r. cbn [next exc glob]. destruct Lp as [L1 [L2 L3]].
          repeat split; auto; try (intros R; congruence).
          * replace (Nat.min (next sh + 1) n) with (Nat.min (next sh) n) by lia.
            destruct has_post; exact P0.
          * destruct has_post eqn:HP.
            -- repeat split; auto. lia.
            -- left. repeat split; auto. lia.
      - (* Run *)
        destruct Lp as [L1 [L2 [L3 L4]]].
        destruct (nth_error l i) as [e|] eqn:Hn; [|discriminate].
        assert (Pm : Permutation ((bodies tr ++ [i]) ++ running a ++ running b)
                       (seq 0 (Nat.min (next sh) n))).
        { rewrite <- P0. rewrite <- app_assoc. apply Permutation_app_head. cbn.
          apply Permutation_middle. }
        destruct (body e s) as [s' [x|]] eqn:B; injection Ht as <- <- <-;
          cbn [running1 body_index post_state raised_by recorded_by
            bodies posts raised recorded flat_map snd fst app]; rewrite ?app_nil_r.
        + split; [exact Pm|]. rewrite L3. cbn [app].
          repeat split; auto; try (intros R; congruence).
          * apply incl_appl. exact Rec.
          * intros _. right. eauto.
        + split; [exact Pm|]. fold (bodies (by_worker tid tr)). 
          split; [repeat split; auto; rewrite (acc_snoc _ i e Hn), <- L1, B; reflexivity|].
          repeat split; auto; intros R; congruence.
      - (* Check *)
        destruct Lp as [L1 [L2 L3]].
        destruct (exc sh) eqn:E; injection Ht as <- <- <-;
          cbn [running1 body_index post_state raised_by recorded_by
            bodies posts raised recorded flat_map snd fst app]; rewrite !app_nil_r.
        + repeat split; auto; try (intros R; congruence); try congruence; try (right; congruence).
        + repeat split; auto; try (intros R; congruence); try congruence; try (right; congruence).
      - (* WantPost *)
        destruct Lp as [L1 [L2 [L3 [L4 L5]]]].
        destruct (owner sh); [discriminate|]. injection Ht as <- <- <-;
          cbn [running1 body_index post_state raised_by recorded_by next exc glob
            bodies posts raised recorded flat_map snd fst app]; rewrite !app_nil_r.
        repeat split; auto; intros R; congruence.
      - (* InPost *)
        destruct Lp as [L1 [L2 [L3 [L4 L5]]]].
        destruct (post s (glob sh)) as [g' [x|]] eqn:B; injection Ht as <- <- <-;
          cbn [running1 body_index post_state raised_by recorded_by next exc glob
            bodies posts raised recorded flat_map snd fst app]; rewrite ?app_nil_r.
        + rewrite L3. cbn [app]. repeat split; auto; try (intros R; congruence).
          * unfold merge_all. rewrite fold_left_app. cbn. fold (merge_all post g0 (posts tr)).
            rewrite <- Gl, B. reflexivity.
          * apply incl_appl. exact Rec.
          * intros _. right. eauto.
        + repeat split; auto; try (intros R; congruence).
          * left. rewrite L5, L2. cbn [app]. repeat split; auto. congruence.
          * unfold merge_all. rewrite fold_left_app. cbn. fold (merge_all post g0 (posts tr)).
            rewrite <- Gl, B. reflexivity.
      - (* WantRecord *)
        destruct (owner sh); [discriminate|]. injection Ht as <- <- <-;
          cbn [running1 body_index post_state raised_by recorded_by next exc glob
            bodies posts raised recorded flat_map snd fst app]; rewrite !app_nil_r.
        repeat split; auto. intros _. right. eauto.
      - (* InRecord *)
        injection Ht as <- <- <-;
          cbn [running1 body_index post_state raised_by recorded_by next exc glob
            bodies posts raised recorded flat_map snd fst app]; rewrite !app_nil_r.
        repeat split; auto; try (intros R; congruence).
        + right. destruct (exc sh); discriminate.
        + rewrite Ex. destruct (recorded tr); reflexivity.
        + intros y Hy. apply in_app_or in Hy. destruct Hy as [Hy | [<- | []]]; auto.
          assert (In x (raised (by_worker tid tr))) as Hx by (rewrite Lp; left; reflexivity).
          unfold raised in Hx. apply in_flat_map in Hx. destruct Hx as [ev [Hev Hx]].
          apply filter_In in Hev. unfold raised. apply in_flat_map. exists ev. tauto.
        + intros _. left. destruct (exc sh); discriminate.
      - discriminate. }
    destruct Core as [C1 [C2 [C3 [C4 [C5 C6]]]]].
    constructor; cbn [fst snd]; auto.
    - rewrite E2. exact C1.
    - intros t q Hq. destruct (nth_list_set ps tid p' t q Lt Hq) as [[-> ->] | [D Hq']]; auto.
    - intros t R. destruct (Nat.eq_dec t tid) as [-> | D].
      + destruct (C6 R) as [E | [x [E | E]]].
        * left. exact E.
        * right. exists x. left. rewrite nth_error_list_set_eq by exact Lt. congruence.
        * right. exists x. right. rewrite nth_error_list_set_eq by exact Lt. congruence.
      + rewrite by_worker_app, (by_worker_other tid t lb D), app_nil_r in R.
        destruct (Rai t R) as [E | [x E]].
        * left. auto.
        * right. exists x. rewrite nth_error_list_set_neq by congruence. exact E.
  Qed.

  Lemma inv_steps : forall w tr st, steps (init w s0 g0) tr st -> inv w tr st.
  Proof.
    intros w tr st H. remember (init w s0 g0) as st0 eqn:E. induction H.
    - subst. apply inv_init.
    - eapply inv_step; eauto.
  Qed.
End Inv.
