(** * Proofs about Point_list and Intersection_point_inserter *)
From Coq Require Import List Arith NArith Bool Lia Permutation Sorted.
From Verif Require Import Model_base Proof_base Model_region Model_points Spec_points.
Import ListNotations.
Local Open Scope nat_scope.

Section Assoc.
  Context {K V : Type} (eqb : K -> K -> bool).
  Hypothesis eqb_ok : forall a b, eqb a b = true <-> a = b.

  Lemma assoc_find_some : forall k (m : list (K * V)) v,
    assoc_find eqb k m = Some v -> In (k, v) m.
  Proof.
    intros k m v H. unfold assoc_find in H.
    destruct (find (fun e => eqb (fst e) k) m) as [ [k' v'] | ] eqn:E; [ | discriminate ].
    apply find_some in E. destruct E as [Hin Hk]. cbn in *. apply eqb_ok in Hk.
    injection H as <-. subst k'. exact Hin.
  Qed.

  Lemma assoc_find_none : forall k (m : list (K * V)) v,
    assoc_find eqb k m = None -> ~ In (k, v) m.
  Proof.
    intros k m v H Hin. unfold assoc_find in H.
    destruct (find (fun e => eqb (fst e) k) m) as [ x | ] eqn:E; [ discriminate | ].
    pose proof (find_none _ _ E _ Hin) as F. cbn in F.
    assert (eqb k k = true) by (apply eqb_ok; reflexivity). congruence.
  Qed.
End Assoc.

Lemma key_eqb_ok : forall a b, key_eqb a b = true <-> a = b.
Proof.
  intros a b. unfold key_eqb. destruct (list_eq_dec Nat.eq_dec a b); split; intros; congruence.
Qed.

(** ** Point_list *)
Section PL.
  Variable P : Type.
  Variable P_eqb : P -> P -> bool.
  Hypothesis P_eqb_ok : forall a b, P_eqb a b = true <-> a = b.

  Record pl_inv (pl : point_list P) : Prop := {
    pi_map : forall p i, In (p, i) (pl_map pl) <-> nth_error (pl_points pl) i = Some p;
    pi_nodup : NoDup (pl_points pl);
    pi_check : pl_check pl = true
  }.

  Lemma pl_insert_prefix : forall pl p pl' i, pl_insert P_eqb pl p = (pl', i) ->
    exists r, pl_points pl' = pl_points pl ++ r.
  Proof.
    intros pl p pl' i H. unfold pl_insert in H.
    destruct (negb (pl_check pl)).
    - injection H as <- _. exists [p]. reflexivity.
    - destruct (assoc_find P_eqb p (pl_map pl)).
      + injection H as <- _. exists []. symmetry. apply app_nil_r.
      + injection H as <- _. exists [p]. reflexivity.
  Qed.

  Lemma pl_run_prefix : forall ops pl pl' ids, pl_run P_eqb pl ops = (pl', ids) ->
    exists r, pl_points pl' = pl_points pl ++ r.
  Proof.
    induction ops as [ | o ops IH]; intros pl pl' ids H; cbn [pl_run] in H.
    - injection H as <- _. exists []. symmetry. apply app_nil_r.
    - destruct (pl_do P_eqb pl o) as [pl1 id] eqn:E1.
      destruct (pl_run P_eqb pl1 ops) as [pl2 ids2] eqn:E2.
      injection H as <- _. destruct (IH _ _ _ E2) as [r Hr].
      assert (exists r1, pl_points pl1 = pl_points pl ++ r1) as [r1 Hr1].
      { destruct o; cbn [pl_do] in E1.
        - destruct (pl_insert P_eqb pl p) as [pl'' i] eqn:E. injection E1 as <- _.
          apply (pl_insert_prefix _ _ _ _ E).
        - injection E1 as <- _. exists []. symmetry. apply app_nil_r.
        - injection E1 as <- _. exists []. symmetry. apply app_nil_r.
        - injection E1 as <- _. exists []. symmetry. apply app_nil_r. }
      exists (r1 ++ r). rewrite Hr, Hr1. symmetry. apply app_assoc.
  Qed.

  Lemma pl_insert_inv : forall pl p pl' i, pl_inv pl -> pl_insert P_eqb pl p = (pl', i) ->
    pl_inv pl' /\ nth_error (pl_points pl') i = Some p /\
    (forall q, In q (pl_points pl') <-> In q (pl_points pl) \/ q = p).
  Proof.
    intros pl p pl' i [Hm Hn Hc] H. unfold pl_insert in H. rewrite Hc in H. cbn [negb] in H.
    destruct (assoc_find P_eqb p (pl_map pl)) as [j | ] eqn:E.
    - injection H as <- <-. apply (assoc_find_some _ P_eqb_ok) in E. apply Hm in E.
      repeat split; auto; intros; try (apply Hm; assumption).
      destruct H as [H | ->]; auto. eapply nth_error_In; exact E.
    - injection H as <- <-. cbn [pl_points pl_map pl_check].
      assert (Hp : ~ In p (pl_points pl)).
      { intro Hin. apply In_nth_error in Hin. destruct Hin as [k Hk].
        apply Hm in Hk. exact (assoc_find_none _ P_eqb_ok _ _ _ E Hk). }
      split; [ | split ].
      + constructor; cbn [pl_points pl_map pl_check].
        * intros q i. rewrite in_app_iff. cbn [In]. split.
          -- intros [H | [H | [] ] ].
             ++ apply Hm in H. rewrite nth_error_app1; auto. apply nth_error_Some. congruence.
             ++ injection H as <- <-. rewrite nth_error_app2, Nat.sub_diag by lia. reflexivity.
          -- intro H. destruct (Nat.lt_ge_cases i (length (pl_points pl))) as [L | L].
             ++ rewrite nth_error_app1 in H by lia. left. apply Hm. exact H.
             ++ rewrite nth_error_app2 in H by lia.
                destruct (i - length (pl_points pl)) as [ | k] eqn:Ek.
                ** cbn in H. injection H as <-. right. left. f_equal. lia.
                ** cbn in H. destruct k; discriminate.
        * apply NoDup_Add with (a := p) (l := pl_points pl ++ []).
          -- apply Add_app.
          -- rewrite app_nil_r. split; assumption.
        * reflexivity.
      + rewrite nth_error_app2, Nat.sub_diag by lia. reflexivity.
      + intro q. rewrite in_app_iff. cbn [In].
        split; (intros [H | H]; [ auto | ]); [ destruct H as [H | [] ] | ]; subst; auto.
  Qed.

  Lemma pl_run_inv : forall ops pl pl' ids,
    pl_inv pl -> ~ In OpStop ops -> pl_run P_eqb pl ops = (pl', ids) ->
    pl_inv pl' /\
    Forall2 (fun p i => nth_error (pl_points pl') i = Some p) (inserted ops) ids /\
    (forall q, In q (pl_points pl') <-> In q (pl_points pl) \/ In q (inserted ops)).
  Proof.
    induction ops as [ | o ops IH]; intros pl pl' ids Hinv Hns H; cbn [pl_run] in H.
    - injection H as <- <-. cbn. split; [ assumption | split; [ constructor | intro; tauto ] ].
    - destruct (pl_do P_eqb pl o) as [pl1 id] eqn:E1.
      destruct (pl_run P_eqb pl1 ops) as [pl2 ids2] eqn:E2.
      injection H as <- <-.
      assert (Hns' : ~ In OpStop ops) by (intro; apply Hns; right; assumption).
      destruct o as [p | n | | ]; cbn [pl_do] in E1.
      + destruct (pl_insert P_eqb pl p) as [pl'' i] eqn:E. injection E1 as <- <-.
        destruct (pl_insert_inv _ _ _ _ Hinv E) as [Hinv1 [Hi Hq] ].
        destruct (IH _ _ _ Hinv1 Hns' E2) as [Hinv2 [Hf Hq2] ].
        destruct (pl_run_prefix _ _ _ _ E2) as [r Hr].
        split; [ assumption | ]. cbn [inserted flat_map app]. split.
        * constructor; [ | exact Hf ]. rewrite Hr. rewrite nth_error_app1; auto.
          apply nth_error_Some. congruence.
        * intro q. rewrite Hq2, Hq. cbn [In]. fold (inserted ops).
          split; [ intros [ [H | H] | H] | intros [H | [H | H] ] ]; auto.
      + injection E1 as <- <-. exact (IH _ _ _ Hinv Hns' E2).
      + injection E1 as <- <-. apply (IH (pl_start pl)); auto. destruct Hinv. constructor; auto.
      + exfalso. apply Hns. left. reflexivity.
  Qed.

  Lemma pl_inv_start : pl_inv (pl_start (@pl_empty P)).
  Proof.
    constructor; cbn.
    - intros p i. split; [ intros [] | destruct i; discriminate ].
    - constructor.
    - reflexivity.
  Qed.
End PL.

(** ** Canonical keys *)
Lemma sorted_perm_eq : forall l1 l2 : list nat,
  StronglySorted lt l1 -> StronglySorted lt l2 -> Permutation l1 l2 -> l1 = l2.
Proof.
  induction l1 as [ | x l1 IH]; intros l2 H1 H2 Hp.
  - apply Permutation_nil in Hp. auto.
  - destruct l2 as [ | y l2]; [ apply Permutation_sym, Permutation_nil in Hp; discriminate | ].
    inversion H1 as [ | ? ? S1 F1]; subst. inversion H2 as [ | ? ? S2 F2]; subst.
    assert (x = y).
    { assert (In x (y :: l2)) as Hx by (apply (Permutation_in _ Hp); left; reflexivity).
      assert (In y (x :: l1)) as Hy
        by (apply (Permutation_in _ (Permutation_sym Hp)); left; reflexivity).
      destruct Hx as [ | Hx]; [ auto | ]. destruct Hy as [ | Hy]; [ auto | ].
      rewrite Forall_forall in F1, F2. specialize (F1 _ Hy). specialize (F2 _ Hx). lia. }
    subst y. f_equal. apply IH; auto. apply Permutation_cons_inv in Hp. exact Hp.
Qed.

Record canonical (L R A B : list nat) : Prop := {
  cn_A : StronglySorted lt A;
  cn_B : StronglySorted lt B;
  cn_order : (length A = 3 /\ length B = 2) \/
             (length A = 2 /\ length B = 2 /\ hd 0 A < hd 0 B);
  cn_match : (Permutation L A /\ Permutation R B) \/ (Permutation L B /\ Permutation R A)
}.

Lemma canonical_iff : forall r1 r2 A1 B1 A2 B2,
  canonical (left_vertices r1) (right_vertices r1) A1 B1 ->
  canonical (left_vertices r2) (right_vertices r2) A2 B2 ->
  (A1 ++ B1 = A2 ++ B2 <-> same_feature r1 r2).
Proof.
  intros r1 r2 A1 B1 A2 B2 [SA1 SB1 O1 M1] [SA2 SB2 O2 M2].
  assert (Hiff : (A1 = A2 /\ B1 = B2) <-> same_feature r1 r2).
  { split.
    - intros [-> ->]. unfold same_feature.
      destruct M1 as [ [a b] | [a b] ], M2 as [ [c d] | [c d] ];
        apply Permutation_sym in c; apply Permutation_sym in d;
        [ left | right | right | left ]; split; eapply Permutation_trans; eassumption.
    - intro Hs.
      assert (Hp : (Permutation A1 A2 /\ Permutation B1 B2) \/ (Permutation A1 B2 /\ Permutation B1 A2)).
      { destruct M1 as [ [a b] | [a b] ], M2 as [ [c d] | [c d] ];
          apply Permutation_sym in a; apply Permutation_sym in b;
          destruct Hs as [ [e f] | [e f] ];
          first [ left; split; (eapply Permutation_trans; [ eassumption | ]);
                  (eapply Permutation_trans; [ eassumption | ]); eassumption
                | right; split; (eapply Permutation_trans; [ eassumption | ]);
                  (eapply Permutation_trans; [ eassumption | ]); eassumption ]. }
      destruct Hp as [ [a b] | [a b] ].
      + split; apply sorted_perm_eq; assumption.
      + exfalso. apply sorted_perm_eq in a; auto. apply sorted_perm_eq in b; auto. subst.
        destruct O1 as [ [? ?] | [? [? ?] ] ], O2 as [ [? ?] | [? [? ?] ] ]; lia. }
  rewrite <- Hiff. split; [ | intros [-> ->]; reflexivity ].
  intro He.
  assert (Hl : length A1 = length A2).
  { pose proof (f_equal (@length nat) He) as HL. rewrite !app_length in HL.
    destruct O1 as [ [? ?] | [? [? ?] ] ], O2 as [ [? ?] | [? [? ?] ] ]; lia. }
  clear - He Hl. revert A2 Hl He. induction A1 as [ | x A1 IH]; intros [ | y A2] Hl He;
    cbn in *; try discriminate; [ auto | ].
  injection He as -> He. destruct (IH A2) as [-> ->]; auto.
Qed.

Lemma order2_spec : forall x y u v, order2 x y = (u, v) ->
  Permutation [x; y] [u; v] /\ u <= v.
Proof.
  intros x y u v H. unfold order2 in H. destruct (Nat.ltb_spec y x); injection H as <- <-.
  - split; [ apply perm_swap | lia ].
  - split; [ apply Permutation_refl | lia ].
Qed.

Lemma sorted2 : forall a b, a < b -> StronglySorted lt [a; b].
Proof. intros; repeat constructor; auto. Qed.
Lemma sorted3 : forall a b c, a < b -> b < c -> StronglySorted lt [a; b; c].
Proof. intros; repeat constructor; auto; lia. Qed.

Lemma ll_key_canonical : forall L R a b p q a' b' p' q',
  Permutation L [a; b] -> Permutation R [p; q] ->
  NoDup [a; b; p; q] -> ll_key a b p q = (a', b', p', q') ->
  canonical L R [a'; b'] [p'; q'] /\ Permutation [a; b; p; q] [a'; b'; p'; q'].
Proof.
  intros L R a b p q a' b' p' q' HL HR Hn H. unfold ll_key in H.
  destruct (order2 a b) as [u v] eqn:E1. destruct (order2 p q) as [s t] eqn:E2.
  apply order2_spec in E1. apply order2_spec in E2. destruct E1 as [P1 L1], E2 as [P2 L2].
  assert (Hp : Permutation [a; b; p; q] [u; v; s; t])
    by exact (Permutation_app P1 P2).
  pose proof (Permutation_NoDup Hp Hn) as Hn'.
  inversion Hn' as [ | ? ? N1 Hn1]; subst. inversion Hn1 as [ | ? ? N2 Hn2]; subst.
  inversion Hn2 as [ | ? ? N3 Hn3]; subst. cbn in N1, N2, N3.
  assert (u <> v) by (intro; apply N1; auto). assert (u <> s) by (intro; apply N1; auto).
  assert (s <> t) by (intro; apply N3; auto).
  assert (PL : Permutation L [u; v]) by (eapply Permutation_trans; eassumption).
  assert (PR : Permutation R [s; t]) by (eapply Permutation_trans; eassumption).
  destruct (Nat.ltb_spec s u); injection H as <- <- <- <-.
  - split.
    + constructor; [ apply sorted2; lia | apply sorted2; lia | right; cbn; lia | ].
      right. split; assumption.
    + eapply Permutation_trans; [ exact Hp | ]. apply (Permutation_app_comm [u; v] [s; t]).
  - split; [ | exact Hp ].
    constructor; [ apply sorted2; lia | apply sorted2; lia | right; cbn; lia | ].
    left. split; assumption.
Qed.

Lemma pl_key_canonical : forall a b c p q a' b' c' p' q',
  NoDup [a; b; c] -> NoDup [p; q] -> pl_key a b c p q = (a', b', c', p', q') ->
  Permutation [a; b; c] [a'; b'; c'] /\ Permutation [p; q] [p'; q'] /\
  a' < b' /\ b' < c' /\ p' < q'.
Proof.
  intros a b c p q a' b' c' p' q' Hn Hm H. unfold pl_key in H.
  destruct (order2 a b) as [a1 b1] eqn:E1. destruct (order2 a1 c) as [a2 c2] eqn:E2.
  destruct (order2 b1 c2) as [b3 c3] eqn:E3. destruct (order2 p q) as [s t] eqn:E4.
  injection H as <- <- <- <- <-.
  apply order2_spec in E1. apply order2_spec in E2.
  apply order2_spec in E3. apply order2_spec in E4.
  destruct E1 as [P1 L1], E2 as [P2 L2], E3 as [P3 L3], E4 as [P4 L4].
  assert (Hp : Permutation [a; b; c] [a2; b3; c3]).
  { eapply Permutation_trans; [ exact (Permutation_app_tail [c] P1) | ]. cbn.
    eapply Permutation_trans; [ apply perm_skip; apply perm_swap | ].
    eapply Permutation_trans; [ exact (Permutation_app_tail [b1] P2) | ]. cbn.
    eapply Permutation_trans; [ apply perm_skip; apply perm_swap | ].
    apply perm_skip. exact P3. }
  pose proof (Permutation_NoDup Hp Hn) as Hn'. pose proof (Permutation_NoDup P4 Hm) as Hm'.
  inversion Hn' as [ | ? ? N1 Hn1]; subst. inversion Hn1 as [ | ? ? N2 Hn2]; subst.
  inversion Hm' as [ | ? ? M1 Hm1]; subst. cbn in N1, N2, M1.
  assert (a2 <> b3) by (intro; apply N1; auto). assert (b3 <> c3) by (intro; apply N2; auto).
  assert (s <> t) by (intro; apply M1; auto).
  assert (a2 <= b3).
  { assert (In b3 [b1; c2]) as Hb by (apply (Permutation_in _ (Permutation_sym P3)); left; auto).
    assert (a2 <= a1).
    { assert (In a1 [a2; c2]) as Ha by (apply (Permutation_in _ P2); left; auto).
      destruct Ha as [ <- | [ <- | [] ] ]; lia. }
    destruct Hb as [ <- | [ <- | [] ] ]; lia. }
  repeat split; auto; lia.
Qed.

(** ** The inserter *)
Section Ins.
  Variable P : Type.
  Variable P_eqb : P -> P -> bool.
  Variable construct_ll : P -> P -> P -> P -> P.
  Variable construct_pl : P -> P -> P -> P -> P -> P.

  (** The point of a key: the constructed intersection of the original points. *)
  Definition key_point (base : list P) (k : list nat) (x : P) : Prop :=
    (exists a b p q pa pb pp pq, k = [a; b; p; q] /\
      nth_error base a = Some pa /\ nth_error base b = Some pb /\
      nth_error base p = Some pp /\ nth_error base q = Some pq /\
      x = construct_ll pa pb pp pq) \/
    (exists a b c p q pa pb pc pp pq, k = [a; b; c; p; q] /\
      nth_error base a = Some pa /\ nth_error base b = Some pb /\ nth_error base c = Some pc /\
      nth_error base p = Some pp /\ nth_error base q = Some pq /\
      x = construct_pl pa pb pc pp pq).

  (** Both caches as one table. *)
  Definition cached (st : inserter P) (k : list nat) (id : nat) : Prop :=
    In (k, id) (in_ll st ++ in_pl st).

  Record in_inv (base : list P) (st : inserter P) : Prop := {
    ii_check : pl_check (in_points st) = false;
    ii_pts : exists new, pl_points (in_points st) = base ++ new;
    ii_key_fun : forall k i j, cached st k i -> cached st k j -> i = j;
    ii_id_fun : forall k1 k2 i, cached st k1 i -> cached st k2 i -> k1 = k2;
    ii_range : forall k i, cached st k i -> length base <= i < length (pl_points (in_points st));
    ii_dense : forall i, length base <= i < length (pl_points (in_points st)) ->
      exists k, cached st k i;
    ii_len_ll : forall k i, In (k, i) (in_ll st) -> length k = 4;
    ii_len_pl : forall k i, In (k, i) (in_pl st) -> length k = 5;
    ii_point : forall k i, cached st k i ->
      exists x, nth_error (pl_points (in_points st)) i = Some x /\ key_point base k x
  }.

  Lemma in_inv_new : forall pl, pl_check pl = false -> in_inv (pl_points pl) (in_new pl).
  Proof.
    intros pl Hc. constructor; cbn; auto; try contradiction;
      try (intros; exfalso; assumption); try (intros; lia).
    exists []. symmetry. apply app_nil_r.
  Qed.

  (** Adding a new key. *)
  Lemma in_inv_add : forall base st k x st',
    in_inv base st ->
    (forall i, ~ cached st k i) ->
    key_point base k x ->
    pl_check (in_points st') = false ->
    pl_points (in_points st') = pl_points (in_points st) ++ [x] ->
    (in_ll st' = in_ll st ++ [(k, length (pl_points (in_points st)))] /\ in_pl st' = in_pl st /\
       length k = 4 \/
     in_pl st' = in_pl st ++ [(k, length (pl_points (in_points st)))] /\ in_ll st' = in_ll st /\
       length k = 5) ->
    in_inv base st' /\ cached st' k (length (pl_points (in_points st))) /\
    (forall k' i, cached st k' i -> cached st' k' i) /\
    (forall k' i, cached st' k' i -> cached st k' i \/ (k', i) = (k, length (pl_points (in_points st)))).
  Proof.
    intros base st k x st' [Hc [new Hp] Hkf Hif Hr Hd Hl4 Hl5 Hpt] Hk Hx Hc' Hp' Hst.
    set (n := length (pl_points (in_points st))) in *.
    assert (Hcach : forall k' i, cached st' k' i <-> cached st k' i \/ (k', i) = (k, n)).
    { intros k' i. unfold cached.
      destruct Hst as [ [-> [-> _] ] | [-> [-> _] ] ]; rewrite !in_app_iff; cbn [In];
        intuition congruence. }
    assert (Hn : length base <= n) by (unfold n; rewrite Hp, app_length; lia).
    assert (Hlen : length (pl_points (in_points st')) = n + 1)
      by (rewrite Hp', app_length; reflexivity).
    split; [ | split; [ | split ] ].
    - constructor; auto.
      + exists (new ++ [x]). rewrite Hp', Hp. symmetry. apply app_assoc.
      + intros k' i j H1 H2. apply Hcach in H1. apply Hcach in H2.
        destruct H1 as [H1 | H1], H2 as [H2 | H2].
        * eapply Hkf; eassumption.
        * injection H2 as -> ->. exfalso. eapply Hk; exact H1.
        * injection H1 as -> ->. exfalso. eapply Hk; exact H2.
        * injection H1 as -> ->. injection H2 as ->. reflexivity.
      + intros k1 k2 i H1 H2. apply Hcach in H1. apply Hcach in H2.
        destruct H1 as [H1 | H1], H2 as [H2 | H2].
        * eapply Hif; eassumption.
        * injection H2 as -> ->. apply Hr in H1. exfalso. lia.
        * injection H1 as -> ->. apply Hr in H2. exfalso. lia.
        * congruence.
      + intros k' i H. apply Hcach in H. rewrite Hlen. destruct H as [H | H].
        * apply Hr in H. lia.
        * injection H as -> ->. lia.
      + intros i Hi. rewrite Hlen in Hi. destruct (Nat.eq_dec i n) as [-> | ].
        * exists k. apply Hcach. auto.
        * destruct (Hd i) as [k' Hk']; [ lia | ]. exists k'. apply Hcach. auto.
      + intros k' i Hi. destruct Hst as [ [He [_ H4] ] | [_ [He _] ] ]; rewrite He in Hi.
        * apply in_app_iff in Hi. destruct Hi as [Hi | [Hi | [] ] ]; [ eauto | congruence ].
        * eauto.
      + intros k' i Hi. destruct Hst as [ [_ [He _] ] | [He [_ H5] ] ]; rewrite He in Hi.
        * eauto.
        * apply in_app_iff in Hi. destruct Hi as [Hi | [Hi | [] ] ]; [ eauto | congruence ].
      + intros k' i H. apply Hcach in H. rewrite Hp'. destruct H as [H | H].
        * destruct (Hpt _ _ H) as [y [Hy Hky] ]. exists y. split; [ | exact Hky ].
          rewrite nth_error_app1; auto. apply nth_error_Some. congruence.
        * injection H as -> ->. exists x. split; [ | exact Hx ].
          unfold n. rewrite nth_error_app2, Nat.sub_diag by lia. reflexivity.
    - apply Hcach. auto.
    - intros k' i H. apply Hcach. auto.
    - intros k' i H. apply Hcach. exact H.
  Qed.

  Definition step_spec (base : list P) (st st' : inserter P) (k : list nat) (id : nat) : Prop :=
    in_inv base st' /\ cached st' k id /\
    (forall k' i, cached st k' i -> cached st' k' i) /\
    (forall k' i, cached st' k' i -> cached st k' i \/ k' = k).

  Lemma step_spec_hit : forall base st k id, in_inv base st -> cached st k id ->
    step_spec base st st k id.
  Proof. intros; unfold step_spec; auto. Qed.

  Lemma pl_at_base : forall base st i, in_inv base st -> i < length base ->
    exists x, nth_error base i = Some x /\ pl_at (in_points st) i = Ok x.
  Proof.
    intros base st i Hinv Hi. destruct (ii_pts _ _ Hinv) as [new Hp].
    destruct (nth_error base i) as [x | ] eqn:E; [ | apply nth_error_None in E; lia ].
    exists x. split; [ reflexivity | ]. unfold pl_at, vec_at. rewrite Hp.
    rewrite nth_error_app1 by lia. rewrite E. reflexivity.
  Qed.

  Lemma pl_insert_unchecked : forall pl x, pl_check pl = false ->
    pl_insert P_eqb pl x = (mk_pl (pl_points pl ++ [x]) (pl_map pl) false, length (pl_points pl)).
  Proof.
    intros pl x Hc. unfold pl_insert. rewrite Hc. cbn [negb].
    rewrite app_length. cbn [length]. f_equal. lia.
  Qed.

  Lemma insert_ll_spec : forall base st a b p q a' b' p' q',
    in_inv base st -> ll_key a b p q = (a', b', p', q') ->
    Forall (fun i => i < length base) [a'; b'; p'; q'] ->
    exists st' id, insert_ll P_eqb construct_ll st a b p q = Ok (st', id) /\
      step_spec base st st' [a'; b'; p'; q'] id.
  Proof.
    intros base st a b p q a' b' p' q' Hinv Hk Hf. unfold insert_ll. rewrite Hk.
    destruct (assoc_find key_eqb [a'; b'; p'; q'] (in_ll st)) as [id | ] eqn:E.
    - exists st, id. split; [ reflexivity | ]. apply step_spec_hit; auto.
      apply (assoc_find_some _ key_eqb_ok) in E. apply in_app_iff. auto.
    - inversion Hf as [ | ? ? F1 Hf1]; subst. inversion Hf1 as [ | ? ? F2 Hf2]; subst.
      inversion Hf2 as [ | ? ? F3 Hf3]; subst. inversion Hf3 as [ | ? ? F4 _]; subst.
      destruct (pl_at_base _ _ _ Hinv F1) as [x1 [B1 ->] ].
      destruct (pl_at_base _ _ _ Hinv F2) as [x2 [B2 ->] ].
      destruct (pl_at_base _ _ _ Hinv F3) as [x3 [B3 ->] ].
      destruct (pl_at_base _ _ _ Hinv F4) as [x4 [B4 ->] ].
      cbn [bind]. rewrite (pl_insert_unchecked _ _ (ii_check _ _ Hinv)).
      eexists _, _. split; [ reflexivity | ].
      match goal with |- step_spec _ _ ?s _ _ =>
      destruct (in_inv_add base st [a'; b'; p'; q'] (construct_ll x1 x2 x3 x4) s) as [I1 [I2 [I3 I4] ] ] end;
        [ exact Hinv | | | | | left; cbn [in_ll in_pl]; repeat split | ].
      + intros i Hi. apply in_app_iff in Hi. destruct Hi as [Hi | Hi].
        * exact (assoc_find_none _ key_eqb_ok _ _ _ E Hi).
        * apply (ii_len_pl _ _ Hinv) in Hi. discriminate.
      + left. exists a', b', p', q', x1, x2, x3, x4. repeat split; auto.
      + reflexivity.
      + reflexivity.
      + split; [ exact I1 | split; [ exact I2 | split; [ exact I3 | ] ] ].
        intros k' i H. destruct (I4 _ _ H) as [ | He]; auto. right. congruence.
  Qed.

  Lemma insert_pl_spec : forall base st a b c p q a' b' c' p' q',
    in_inv base st -> pl_key a b c p q = (a', b', c', p', q') ->
    Forall (fun i => i < length base) [a'; b'; c'; p'; q'] ->
    exists st' id, insert_pl P_eqb construct_pl st a b c p q = Ok (st', id) /\
      step_spec base st st' [a'; b'; c'; p'; q'] id.
  Proof.
    intros base st a b c p q a' b' c' p' q' Hinv Hk Hf. unfold insert_pl. rewrite Hk.
    destruct (assoc_find key_eqb [a'; b'; c'; p'; q'] (in_pl st)) as [id | ] eqn:E.
    - exists st, id. split; [ reflexivity | ]. apply step_spec_hit; auto.
      apply (assoc_find_some _ key_eqb_ok) in E. apply in_app_iff. auto.
    - inversion Hf as [ | ? ? F1 Hf1]; subst. inversion Hf1 as [ | ? ? F2 Hf2]; subst.
      inversion Hf2 as [ | ? ? F3 Hf3]; subst. inversion Hf3 as [ | ? ? F4 Hf4]; subst.
      inversion Hf4 as [ | ? ? F5 _]; subst.
      destruct (pl_at_base _ _ _ Hinv F1) as [x1 [B1 ->] ].
      destruct (pl_at_base _ _ _ Hinv F2) as [x2 [B2 ->] ].
      destruct (pl_at_base _ _ _ Hinv F3) as [x3 [B3 ->] ].
      destruct (pl_at_base _ _ _ Hinv F4) as [x4 [B4 ->] ].
      destruct (pl_at_base _ _ _ Hinv F5) as [x5 [B5 ->] ].
      cbn [bind]. rewrite (pl_insert_unchecked _ _ (ii_check _ _ Hinv)).
      eexists _, _. split; [ reflexivity | ].
      match goal with |- step_spec _ _ ?s _ _ =>
      destruct (in_inv_add base st [a'; b'; c'; p'; q'] (construct_pl x1 x2 x3 x4 x5) s) as [I1 [I2 [I3 I4] ] ] end;
        [ exact Hinv | | | | | right; cbn [in_ll in_pl]; repeat split | ].
      + intros i Hi. apply in_app_iff in Hi. destruct Hi as [Hi | Hi].
        * apply (ii_len_ll _ _ Hinv) in Hi. discriminate.
        * exact (assoc_find_none _ key_eqb_ok _ _ _ E Hi).
      + right. exists a', b', c', p', q', x1, x2, x3, x4, x5. repeat split; auto.
      + reflexivity.
      + reflexivity.
      + split; [ exact I1 | split; [ exact I2 | split; [ exact I3 | ] ] ].
        intros k' i H. destruct (I4 _ _ H) as [ | He]; auto. right. congruence.
  Qed.

  (** The two edges or the edge and face a request is about. *)
  Definition vertex_id (rq : request) : nat :=
    match left_vertices rq with
    | [v] => v
    | _ => match right_vertices rq with [v] => v | _ => 0 end
    end.

  Lemma in_do_spec : forall base st rq,
    in_inv base st -> valid_request (length base) rq ->
    (at_vertex rq /\ in_do P_eqb construct_ll construct_pl st rq = Ok (st, vertex_id rq)) \/
    (~ at_vertex rq /\ exists A B st' id,
       canonical (left_vertices rq) (right_vertices rq) A B /\
       in_do P_eqb construct_ll construct_pl st rq = Ok (st', id) /\
       step_spec base st st' (A ++ B) id).
  Proof.
    intros base st rq Hinv [Hl Hr Hnl Hnr Hids Hnf He].
    destruct rq as [lr a b c rr p q r]. cbn [rq_lr rq_rr rq_a rq_b rq_c rq_p rq_q rq_r] in *.
    assert (Hll : forall a b p q L R, Permutation L [a; b] -> Permutation R [p; q] ->
      NoDup [a; b; p; q] -> Forall (fun i => i < length base) [a; b; p; q] ->
      exists A B st' id, canonical L R A B /\
        insert_ll P_eqb construct_ll st a b p q = Ok (st', id) /\
        step_spec base st st' (A ++ B) id).
    { clear - Hinv. intros a b p q L R HL HR Hn Hf.
      destruct (ll_key a b p q) as [ [ [a' b'] p'] q'] eqn:Ek.
      destruct (ll_key_canonical _ _ _ _ _ _ _ _ _ _ HL HR Hn Ek) as [Hc Hp].
      destruct (insert_ll_spec base st a b p q a' b' p' q' Hinv Ek) as [st' [id [H1 H2] ] ].
      { eapply Permutation_Forall; eassumption. }
      exists [a'; b'], [p'; q'], st', id. auto. }
    assert (Hpl : forall a b c p q, NoDup [a; b; c] -> NoDup [p; q] ->
      Forall (fun i => i < length base) ([a; b; c] ++ [p; q]) ->
      exists A B st' id, StronglySorted lt A /\ StronglySorted lt B /\ length A = 3 /\ length B = 2 /\
        Permutation [a; b; c] A /\ Permutation [p; q] B /\
        insert_pl P_eqb construct_pl st a b c p q = Ok (st', id) /\
        step_spec base st st' (A ++ B) id).
    { clear - Hinv. intros a b c p q Hn Hm Hf.
      destruct (pl_key a b c p q) as [ [ [ [a' b'] c'] p'] q'] eqn:Ek.
      destruct (pl_key_canonical _ _ _ _ _ _ _ _ _ _ Hn Hm Ek) as [P1 [P2 [L1 [L2 L3] ] ] ].
      destruct (insert_pl_spec base st a b c p q a' b' c' p' q' Hinv Ek) as [st' [id [H1 H2] ] ].
      { eapply Permutation_Forall; [ exact (Permutation_app P1 P2) | exact Hf ]. }
      exists [a'; b'; c'], [p'; q'], st', id.
      split; [ apply sorted3; assumption | split; [ apply sorted2; assumption | ] ].
      repeat (split; [ first [ reflexivity | assumption ] | ]). exact H2. }
    assert (Hcan1 : forall L R X Y A B, StronglySorted lt A -> StronglySorted lt B ->
      length A = 3 -> length B = 2 -> Permutation X A -> Permutation Y B ->
      (Permutation L X /\ Permutation R Y \/ Permutation L Y /\ Permutation R X) ->
      canonical L R A B).
    { intros L R X Y A B S1 S2 L1 L2 P1 P2 Hx. constructor; auto.
      destruct Hx as [ [u v] | [u v] ]; [ left | right ]; split;
        eapply Permutation_trans; eassumption. }
    inversion Hnl as [ | ? ? NL1 Hnl1]; subst. inversion Hnl1 as [ | ? ? NL2 _]; subst.
    inversion Hnr as [ | ? ? NR1 Hnr1]; subst. inversion Hnr1 as [ | ? ? NR2 _]; subst.
    cbn [In] in NL1, NL2, NR1, NR2.
    inversion Hids as [ | ? ? I1 Hi1]; subst. inversion Hi1 as [ | ? ? I2 Hi2]; subst.
    inversion Hi2 as [ | ? ? I3 Hi3]; subst. inversion Hi3 as [ | ? ? I4 Hi4]; subst.
    inversion Hi4 as [ | ? ? I5 Hi5]; subst. inversion Hi5 as [ | ? ? I6 _]; subst.
    clear Hids Hi1 Hi2 Hi3 Hi4 Hi5 Hnl Hnl1 Hnr Hnr1.
    unfold at_vertex, vertex_id.
    repeat (destruct Hl as [ <- | Hl]); [ | | | | | | | destruct Hl ];
    repeat (destruct Hr as [ <- | Hr]); [ | | | | | | | destruct Hr | | | | | | | | destruct Hr
      | | | | | | | | destruct Hr | | | | | | | | destruct Hr | | | | | | | | destruct Hr
      | | | | | | | | destruct Hr | | | | | | | | destruct Hr ];
    cbn -[insert_ll insert_pl] in Hnf, He |- *;
    try (left; split; [ auto; fail | reflexivity ]);
    try (exfalso; lia);
    (right; split; [ lia | ]).
    all: first
      [ apply Hll;
        [ first [ apply Permutation_refl | apply perm_swap ]
        | first [ apply Permutation_refl | apply perm_swap ]
        | specialize (He eq_refl eq_refl);
          repeat constructor; cbn [In]; intro Hx;
          repeat (destruct Hx as [Hx | Hx]); try contradiction; subst;
          first [ apply NL1; tauto | apply NL2; tauto | apply NR1; tauto | apply NR2; tauto
                | match goal with v : nat |- _ => apply (He v); tauto end ]
        | repeat constructor; assumption ]
      | idtac ].
    all: match goal with |- context [ insert_pl _ _ _ ?a ?b ?c ?p ?q ] =>
           destruct (Hpl a b c p q) as [A [B [st' [id [S1 [S2 [L1 [L2 [P1 [P2 [H1 H2] ] ] ] ] ] ] ] ] ] ];
           [ repeat constructor; cbn [In]; intuition congruence
           | repeat constructor; cbn [In]; intuition congruence
           | repeat constructor; assumption
           | exists A, B, st', id; split; [ | auto ];
             eapply (Hcan1 _ _ [a; b; c] [p; q]); try eassumption;
             first [ left; split; first [ apply Permutation_refl | apply perm_swap ]
                   | right; split; first [ apply Permutation_refl | apply perm_swap ] ] ]
         end.
  Qed.
End Ins.

Section Hist.
  Variable P : Type.
  Variable P_eqb : P -> P -> bool.
  Variable construct_ll : P -> P -> P -> P -> P.
  Variable construct_pl : P -> P -> P -> P -> P -> P.

  Definition answered (st : inserter P) (rq : request) (id : nat) : Prop :=
    (at_vertex rq /\ id = vertex_id rq) \/
    (~ at_vertex rq /\ exists A B, canonical (left_vertices rq) (right_vertices rq) A B /\
       cached P st (A ++ B) id).

  Lemma answered_mono : forall st st' rq id,
    (forall k i, cached P st k i -> cached P st' k i) -> answered st rq id -> answered st' rq id.
  Proof.
    intros st st' rq id Hm [H | [H [A [B [Hc Hk] ] ] ] ]; [ left; exact H | right ].
    split; [ exact H | ]. exists A, B. auto.
  Qed.

  Lemma in_run_spec : forall base rqs st,
    in_inv P construct_ll construct_pl base st ->
    Forall (valid_request (length base)) rqs ->
    exists st' ids, in_run P_eqb construct_ll construct_pl st rqs = Ok (st', ids) /\
      in_inv P construct_ll construct_pl base st' /\
      (forall k i, cached P st k i -> cached P st' k i) /\
      Forall2 (answered st') rqs ids /\
      (forall k i, cached P st' k i -> cached P st k i \/
         exists n rq, nth_error rqs n = Some rq /\ nth_error ids n = Some i /\ ~ at_vertex rq).
  Proof.
    induction rqs as [ | rq rqs IH]; intros st Hinv Hv; cbn [in_run].
    - exists st, []. repeat split; auto.
      + apply (ii_check _ _ _ _ _ Hinv). + apply (ii_pts _ _ _ _ _ Hinv).
      + apply (ii_key_fun _ _ _ _ _ Hinv). + apply (ii_id_fun _ _ _ _ _ Hinv).
      + apply (ii_range _ _ _ _ _ Hinv _ _ H). + apply (ii_range _ _ _ _ _ Hinv _ _ H).
      + apply (ii_dense _ _ _ _ _ Hinv). + apply (ii_len_ll _ _ _ _ _ Hinv).
      + apply (ii_len_pl _ _ _ _ _ Hinv). + apply (ii_point _ _ _ _ _ Hinv).
    - inversion Hv as [ | ? ? V1 V2]; subst.
      destruct (in_do_spec P P_eqb construct_ll construct_pl base st rq Hinv V1)
        as [ [Ha Hd] | [Ha [A [B [st1 [id [Hc [Hd Hs] ] ] ] ] ] ] ]; rewrite Hd; cbn [bind fst snd].
      + destruct (IH st Hinv V2) as [st' [ids [H1 [H2 [H3 [H4 H5] ] ] ] ] ].
        rewrite H1. cbn [bind fst snd]. exists st', (vertex_id rq :: ids).
        split; [ reflexivity | split; [ exact H2 | split; [ exact H3 | split ] ] ].
        * constructor; [ left; auto | exact H4 ].
        * intros k i Hk. destruct (H5 _ _ Hk) as [ | [n [rq' Hn] ] ]; [ auto | ].
          right. exists (S n), rq'. exact Hn.
      + destruct Hs as [Hi1 [Hk1 [Hm1 Hn1] ] ].
        destruct (IH st1 Hi1 V2) as [st' [ids [H1 [H2 [H3 [H4 H5] ] ] ] ] ].
        rewrite H1. cbn [bind fst snd]. exists st', (id :: ids).
        split; [ reflexivity | split; [ exact H2 | split; [ auto | split ] ] ].
        * constructor; [ right; split; [ exact Ha | exists A, B; auto ] | exact H4 ].
        * intros k i Hk. destruct (H5 _ _ Hk) as [Hk' | [n [rq' Hn] ] ].
          -- destruct (Hn1 _ _ Hk') as [ | -> ]; [ auto | ]. right. exists 0, rq.
             cbn. repeat split; auto. f_equal. exact (ii_key_fun _ _ _ _ _ Hi1 _ _ _ Hk1 Hk').
          -- right. exists (S n), rq'. exact Hn.
  Qed.
End Hist.
