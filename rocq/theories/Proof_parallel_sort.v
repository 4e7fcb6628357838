(** * Invariants of parallel_sort over all interleavings *)
From Coq Require Import List Arith Bool Lia Permutation Sorted.
From Verif Require Import Model_base Model_parallel_sort Spec_parallel_sort Proof_base Proof_parallel_do.
Import ListNotations.

(** ** Subranges *)

Lemma nth_ext : forall {T} (a b : list T), (forall k, nth_error a k = nth_error b k) -> a = b.
Proof.
  intros T. induction a as [|x a IH]; intros [|y b] H; auto.
  - specialize (H 0). discriminate.
  - specialize (H 0). discriminate.
  - assert (H0 := H 0). cbn in H0. injection H0 as ->. f_equal. apply IH.
    intros k. apply (H (S k)).
Qed.

Lemma nth_slice : forall {T} (l : list T) i j k,
  nth_error (slice l i j) k = if k <? j - i then nth_error l (i + k) else None.
Proof.
  intros T l i j k. unfold slice. destruct (k <? j - i) eqn:E.
  - apply Nat.ltb_lt in E. rewrite nth_error_firstn by exact E. apply nth_error_skipn.
  - apply Nat.ltb_ge in E. apply nth_error_None. rewrite firstn_length. lia.
Qed.

Lemma nth_splice : forall {T} (l : list T) i j new k,
  i <= j -> j <= length l -> length new = j - i ->
  nth_error (splice l i j new) k =
    if k <? i then nth_error l k else if k <? j then nth_error new (k - i) else nth_error l k.
Proof.
  intros T l i j new k L1 L2 Ln. unfold splice.
  assert (Lf : length (firstn i l) = i) by (rewrite firstn_length; lia).
  destruct (k <? i) eqn:E1.
  - apply Nat.ltb_lt in E1. rewrite nth_error_app1 by lia. apply nth_error_firstn. exact E1.
  - apply Nat.ltb_ge in E1. rewrite nth_error_app2 by lia. rewrite Lf.
    destruct (k <? j) eqn:E2.
    + apply Nat.ltb_lt in E2. apply nth_error_app1. lia.
    + apply Nat.ltb_ge in E2. rewrite nth_error_app2 by lia. rewrite nth_error_skipn. f_equal. lia.
Qed.

Lemma slice_app : forall {T} (l : list T) i j k, i <= j -> j <= k -> k <= length l ->
  slice l i j ++ slice l j k = slice l i k.
Proof.
  intros T l i j k L1 L2 L3. apply nth_ext. intros q.
  assert (Ls : length (slice l i j) = j - i).
  { unfold slice. rewrite firstn_length, skipn_length. lia. }
  rewrite nth_slice. destruct (Nat.lt_ge_cases q (j - i)).
  - rewrite nth_error_app1 by lia. rewrite nth_slice.
    replace (q <? j - i) with true by (symmetry; apply Nat.ltb_lt; lia).
    replace (q <? k - i) with true by (symmetry; apply Nat.ltb_lt; lia). reflexivity.
  - rewrite nth_error_app2 by lia. rewrite nth_slice, Ls.
    destruct (q <? k - i) eqn:E.
    + apply Nat.ltb_lt in E.
      replace (q - (j - i) <? k - j) with true by (symmetry; apply Nat.ltb_lt; lia). f_equal. lia.
    + apply Nat.ltb_ge in E.
      replace (q - (j - i) <? k - j) with false by (symmetry; apply Nat.ltb_ge; lia). reflexivity.
Qed.

Lemma length_slice : forall {T} (l : list T) i j, i <= j -> j <= length l ->
  length (slice l i j) = j - i.
Proof. intros. unfold slice. rewrite firstn_length, skipn_length. lia. Qed.

Lemma slice_all : forall {T} (l : list T), slice l 0 (length l) = l.
Proof. intros. unfold slice. cbn. rewrite Nat.sub_0_r. apply firstn_all. Qed.

Lemma splice_self : forall {T} (l : list T) i j, i <= j -> j <= length l ->
  splice l i j (slice l i j) = l.
Proof.
  intros T l i j L1 L2. apply nth_ext. intros k.
  rewrite nth_splice by (auto using length_slice). rewrite nth_slice.
  destruct (k <? i) eqn:E1; auto. destruct (k <? j) eqn:E2; auto.
  apply Nat.ltb_ge in E1. apply Nat.ltb_lt in E2.
  replace (k - i <? j - i) with true by (symmetry; apply Nat.ltb_lt; lia). f_equal. lia.
Qed.

Lemma splice_perm : forall {T} (l : list T) i j new, i <= j -> j <= length l ->
  Permutation new (slice l i j) -> Permutation (splice l i j new) l.
Proof.
  intros T l i j new L1 L2 P. apply Permutation_trans with (splice l i j (slice l i j)).
  - unfold splice. apply Permutation_app_head, Permutation_app_tail. exact P.
  - rewrite splice_self by auto. apply Permutation_refl.
Qed.

Lemma slice_splice_same : forall {T} (l : list T) i j new, i <= j -> j <= length l ->
  length new = j - i -> slice (splice l i j new) i j = new.
Proof.
  intros T l i j new L1 L2 Ln. apply nth_ext. intros k.
  rewrite nth_slice, nth_splice by auto. destruct (k <? j - i) eqn:E.
  - apply Nat.ltb_lt in E. replace (i + k <? i) with false by (symmetry; apply Nat.ltb_ge; lia).
    replace (i + k <? j) with true by (symmetry; apply Nat.ltb_lt; lia). f_equal. lia.
  - apply Nat.ltb_ge in E. symmetry. apply nth_error_None. lia.
Qed.

Lemma slice_splice_other : forall {T} (l : list T) i j new a b, i <= j -> j <= length l ->
  length new = j - i -> b <= i \/ j <= a -> slice (splice l i j new) a b = slice l a b.
Proof.
  intros T l i j new a b L1 L2 Ln D. apply nth_ext. intros k. rewrite !nth_slice.
  destruct (k <? b - a) eqn:E; auto. apply Nat.ltb_lt in E. rewrite nth_splice by auto.
  destruct (a + k <? i) eqn:E1; auto. destruct (a + k <? j) eqn:E2; auto.
  apply Nat.ltb_ge in E1. apply Nat.ltb_lt in E2. lia.
Qed.

Section Sort.
  Context {T : Type}.
  Variable comp : T -> T -> bool.
  Variable sort : list T -> list T.
  Variable merge : list T -> list T -> list T.
  Hypothesis Sort : sort_contract comp sort.
  Hypothesis Merge : merge_contract comp merge.

  Lemma sortedb_iff : forall l, sortedb comp l = true <-> sorted_by comp l.
  Proof.
    unfold sorted_by. induction l as [|a r IH]; cbn.
    - split; auto. constructor.
    - rewrite andb_true_iff, IH. split.
      + intros [H1 H2]. constructor; auto. rewrite Forall_forall. intros b Hb.
        rewrite forallb_forall in H1. specialize (H1 b Hb). now destruct (comp b a).
      + intros H. apply StronglySorted_inv in H. destruct H as [H1 H2]. split; auto.
        rewrite forallb_forall. intros b Hb. rewrite Forall_forall in H2. now rewrite (H2 b Hb).
  Qed.

  Variables sz w : nat.
  Hypothesis W : 1 <= w.

  Notation part := (part sz w).
  Notation work := (work comp sort merge sz w).

  Lemma part_mono : forall a b, a <= b -> part a <= part b.
  Proof.
    intros a b L. unfold Model_parallel_sort.part.
    assert (D : w * (sz / w) <= sz) by (apply Nat.mul_div_le; lia).
    destruct (a <? w) eqn:E1, (b <? w) eqn:E2.
    - apply Nat.mul_le_mono_r. exact L.
    - apply Nat.ltb_lt in E1. apply Nat.le_trans with (w * (sz / w)); auto.
      apply Nat.mul_le_mono_r. lia.
    - apply Nat.ltb_ge in E1. apply Nat.ltb_lt in E2. lia.
    - lia.
  Qed.

  Lemma part_le : forall t, part t <= sz.
  Proof.
    intros t. unfold Model_parallel_sort.part. destruct (t <? w) eqn:E; auto.
    apply Nat.ltb_lt in E. apply Nat.le_trans with (w * (sz / w)).
    - apply Nat.mul_le_mono_r. lia.
    - apply Nat.mul_div_le. lia.
  Qed.

  (** The part of the range of the threads [a, b). *)
  Definition seg (l : list T) (a b : nat) : list T :=
    slice l (part (Nat.min a w)) (part (Nat.min b w)).

  Definition finished (p : nat) (s : spc) : bool :=
    match s with
    | Work _ => false
    | Arrive _ => true
    | Waiting r => r =? p
    | SDone => true
    end.

  Definition status_ok (p : nat) (s : spc) : Prop :=
    match s with
    | Work r => r = p
    | Arrive r => r = p /\ 2 ^ p < w
    | Waiting r => (r = p /\ 2 ^ p < w) \/ r + 1 = p
    | SDone => w <= 2 ^ p
    end.

  Definition waits (p : nat) (s : spc) : bool :=
    match s with Waiting r => r =? p | _ => false end.

  Record sinv (l : list T) (st : sstate T) : Prop := {
    sv_len : length (spcs st) = w;
    sv_ub : ub st = false;
    sv_perm : Permutation (arr st) l;
    sv_status : forall t s, nth_error (spcs st) t = Some s -> status_ok (phase st) s;
    sv_round : phase st = 0 \/ 2 ^ (phase st - 1) < w;
    sv_arrived : arrived st = length (filter (waits (phase st)) (spcs st));
    sv_lt : arrived st < w;
    sv_done : forall t s, nth_error (spcs st) t = Some s -> finished (phase st) s = true ->
      t mod 2 ^ phase st = 0 -> sorted_by comp (seg (arr st) t (t + 2 ^ phase st));
    sv_todo : forall t s q, nth_error (spcs st) t = Some s -> finished (phase st) s = false ->
      phase st = q + 1 -> t mod 2 ^ phase st = 0 ->
      sorted_by comp (seg (arr st) t (t + 2 ^ q)) /\
      sorted_by comp (seg (arr st) (t + 2 ^ q) (t + 2 ^ phase st))
  }.

  (** What a piece of work does. *)
  Lemma work_spec : forall t p l,
    length l = sz -> t < w ->
    (forall q, p = q + 1 -> t mod 2 ^ p = 0 ->
       sorted_by comp (seg l t (t + 2 ^ q)) /\ sorted_by comp (seg l (t + 2 ^ q) (t + 2 ^ p))) ->
    exists l', work t p l = Some l' /\ Permutation l' l /\
      (t mod 2 ^ p = 0 -> sorted_by comp (seg l' t (t + 2 ^ p))) /\
      (forall a b, b <= t \/ t + 2 ^ p <= a -> seg l' a b = seg l a b) /\
      (t mod 2 ^ p <> 0 -> l' = l).
  Proof.
    intros t p l Ll Lt H.
    assert (Pm : forall a b, a <= b -> part (Nat.min a w) <= part (Nat.min b w)).
    { intros a b L. apply part_mono. lia. }
    assert (Main : forall new, Permutation new (seg l t (t + 2 ^ p)) ->
      let l' := splice l (part t) (part (Nat.min (t + 2 ^ p) w)) new in
      sorted_by comp new ->
      Permutation l' l /\ sorted_by comp (seg l' t (t + 2 ^ p)) /\
      (forall a b, b <= t \/ t + 2 ^ p <= a -> seg l' a b = seg l a b)).
    { intros new P l' Sn.
      assert (L1 : part t <= part (Nat.min (t + 2 ^ p) w)) by (apply part_mono; lia).
      assert (L2 : part (Nat.min (t + 2 ^ p) w) <= length l) by (rewrite Ll; apply part_le).
      assert (Et : Nat.min t w = t) by lia.
      assert (Ln : length new = part (Nat.min (t + 2 ^ p) w) - part t).
      { apply Permutation_length in P. rewrite P. unfold seg. rewrite Et.
        apply length_slice; auto. }
      split; [|split].
      - apply splice_perm; auto. unfold seg in P. rewrite Et in P. exact P.
      - unfold seg, l'. rewrite Et, slice_splice_same by auto. exact Sn.
      - intros a b D. unfold seg, l'. apply slice_splice_other; auto.
        destruct D as [D | D].
        + left. rewrite <- Et. apply Pm. exact D.
        + right. apply Pm. exact D. }
    destruct p as [|p].
    - cbn [Model_parallel_sort.work]. eexists. split; [reflexivity|].
      destruct (Sort (slice l (part t) (part (t + 1)))) as [P Sd].
      assert (E1 : part (t + 1) = part (Nat.min (t + 2 ^ 0) w)) by (cbn; f_equal; lia).
      rewrite E1 in *.
      assert (P' : Permutation (sort (slice l (part t) (part (Nat.min (t + 2 ^ 0) w))))
                     (seg l t (t + 2 ^ 0))).
      { unfold seg. replace (Nat.min t w) with t by lia. exact P. }
      destruct (Main _ P' Sd) as [M1 [M2 M3]].
      split; [exact M1|]. split; [intros _; exact M2|]. split; [exact M3|].
      cbn. intros N. lia.
    - unfold Model_parallel_sort.work.
      replace (2 * 2 ^ p) with (2 ^ S p) by reflexivity.
      destruct (t mod 2 ^ S p =? 0) eqn:E.
      + apply Nat.eqb_eq in E. destruct (H p ltac:(lia) E) as [H1 H2].
        assert (Et : Nat.min t w = t) by lia.
        unfold seg in H1, H2. rewrite Et in H1.
        rewrite (proj2 (sortedb_iff _) H1), (proj2 (sortedb_iff _) H2). cbn [andb].
        destruct (Merge _ _ H1 H2) as [P Sd].
        eexists. split; [reflexivity|].
        rewrite slice_app in P.
        2:{ apply part_mono. lia. }
        2:{ apply Pm. cbn. lia. }
        2:{ rewrite Ll. apply part_le. }
        assert (P' : Permutation (merge (slice l (part t) (part (Nat.min (t + 2 ^ p) w)))
                                   (slice l (part (Nat.min (t + 2 ^ p) w))
                                      (part (Nat.min (t + 2 ^ S p) w)))) (seg l t (t + 2 ^ S p))).
        { unfold seg. rewrite Et. exact P. }
        destruct (Main _ P' Sd) as [M1 [M2 M3]].
        split; [exact M1|]. split; [intros _; exact M2|]. split; [exact M3|].
        intros N. congruence.
      + apply Nat.eqb_neq in E. exists l. repeat split; auto.
        intros F. congruence.
  Qed.

  Lemma multiples_apart : forall k a b, a mod k = 0 -> b mod k = 0 -> k <> 0 -> a < b -> a + k <= b.
  Proof.
    intros k a b Ha Hb K L.
    apply Nat.mod_divides in Ha; auto. apply Nat.mod_divides in Hb; auto.
    destruct Ha as [x ->], Hb as [y ->].
    assert (x < y) by (apply (Nat.mul_lt_mono_pos_l k); lia).
    apply Nat.le_trans with (k * (x + 1)); [lia|]. apply Nat.mul_le_mono_l. lia.
  Qed.

  Lemma count_set : forall {U} (f : U -> bool) ps t s s', nth_error ps t = Some s ->
    length (filter f (list_set ps t s')) + (if f s then 1 else 0) =
    length (filter f ps) + (if f s' then 1 else 0).
  Proof.
    intros U f ps t s s' H. destruct (list_set_split ps t s s' H) as [a [b [E1 [E2 _]]]].
    rewrite E2, E1, !filter_app, !app_length. cbn. destruct (f s), (f s'); cbn; lia.
  Qed.

  Lemma filter_full : forall {U} (f : U -> bool) ps, length (filter f ps) = length ps ->
    forall s, In s ps -> f s = true.
  Proof.
    intros U f ps. induction ps as [|a r IH]; intros H s Hs; [destruct Hs|].
    assert (L : length (filter f r) <= length r).
    { clear. induction r as [|b r IHr]; cbn; auto. destruct (f b); cbn; lia. }
    cbn in H. destruct (f a) eqn:E; cbn in H.
    - destruct Hs as [<- | Hs]; auto.
    - lia.
  Qed.

  Lemma nth_set_cases : forall {U} (ps : list U) t s' u s, t < length ps ->
    nth_error (list_set ps t s') u = Some s ->
    (u = t /\ s = s') \/ (u <> t /\ nth_error ps u = Some s).
  Proof.
    intros U ps t s' u s L H. destruct (Nat.eq_dec u t) as [-> | D].
    - rewrite nth_error_list_set_eq in H by exact L. left. split; congruence.
    - rewrite nth_error_list_set_neq in H by congruence. auto.
  Qed.

  Lemma sinv_init : forall l, length l = sz ->
    sinv l (mk_sstate l 0 0 false (repeat (Work 0) w)).
  Proof.
    intros l Ll.
    assert (Rp : forall t s, nth_error (repeat (Work 0) w) t = Some s -> s = Work 0).
    { intros t s H. apply nth_error_In in H. apply repeat_spec in H. exact H. }
    constructor; cbn [arr phase arrived ub spcs]; auto.
    - apply repeat_length.
    - intros t s H. rewrite (Rp t s H). reflexivity.
    - clear - w. induction w; cbn; auto.
    - intros t s H F. rewrite (Rp t s H) in F. discriminate.
    - intros t s q _ _ E. lia.
  Qed.

  Lemma seg_empty : forall l a b, w <= a -> w <= b -> seg l a b = [].
  Proof.
    intros l a b A B. unfold seg, slice. replace (Nat.min a w) with (Nat.min b w) by lia.
    rewrite Nat.sub_diag. reflexivity.
  Qed.

  Lemma sinv_step : forall l st tid st', length l = sz -> sinv l st ->
    sstep comp sort merge sz w st tid = Some st' -> sinv l st'.
  Proof.
    intros l st tid st' Ll I H. destruct I as [Len Ub Perm Stat Round Arr Lt Dn Td].
    unfold sstep in H. destruct (nth_error (spcs st) tid) as [s|] eqn:Hs; [|discriminate].
    assert (L : tid < length (spcs st)) by (apply nth_error_Some; congruence).
    assert (La : length (arr st) = sz) by (rewrite (Permutation_length Perm); exact Ll).
    assert (Ss := Stat tid s Hs).
    assert (Pow : 2 ^ phase st <> 0) by (apply Nat.pow_nonzero; lia).
    destruct s as [r | r | r | ]; [| | |discriminate].
    - (* Work *)
      cbn in Ss. subst r.
      destruct (work_spec tid (phase st) (arr st) La ltac:(lia)) as [a [Ha [Pa [Sa [Oa Na]]]]].
      { intros q Eq Em. apply (Td tid (Work (phase st)) q Hs eq_refl Eq Em). }
      rewrite Ha in H. injection H as <-.
      set (nx := if 2 ^ phase st <? w then Arrive (phase st) else SDone) in *.
      assert (Fn : finished (phase st) nx = true) by (unfold nx; destruct (_ <? _); reflexivity).
      assert (Wn : waits (phase st) nx = false) by (unfold nx; destruct (_ <? _); reflexivity).
      assert (Other : forall u x y, u <> tid -> u mod 2 ^ phase st = 0 ->
                u <= x -> y <= u + 2 ^ phase st -> seg a x y = seg (arr st) x y).
      { intros u x y D Eu Lx Ly. destruct (Nat.eq_dec (tid mod 2 ^ phase st) 0) as [Et | Et].
        - apply Oa. destruct (Nat.lt_ge_cases u tid) as [C | C].
          + left. assert (X := multiples_apart _ _ _ Eu Et Pow C). lia.
          + right. assert (X := multiples_apart _ _ _ Et Eu Pow ltac:(lia)). lia.
        - rewrite (Na Et). reflexivity. }
      constructor; cbn [arr phase arrived ub spcs]; auto.
      + rewrite length_list_set. exact Len.
      + apply Permutation_trans with (arr st); auto.
      + intros t s Ht. destruct (nth_set_cases _ _ _ _ _ L Ht) as [[-> ->] | [D Ht']]; [|eauto].
        unfold nx. destruct (2 ^ phase st <? w) eqn:E; cbn.
        * apply Nat.ltb_lt in E. auto.
        * apply Nat.ltb_ge in E. exact E.
      + assert (C := count_set (waits (phase st)) _ _ _ nx Hs). rewrite Wn in C. cbn in C. lia.
      + intros t s Ht F Em. destruct (nth_set_cases _ _ _ _ _ L Ht) as [[-> ->] | [D Ht']].
        * apply Sa. exact Em.
        * rewrite (Other t) by auto. eapply Dn; eauto.
      + intros t s q Ht F Eq Em. destruct (nth_set_cases _ _ _ _ _ L Ht) as [[-> ->] | [D Ht']].
        * congruence.
        * assert (2 ^ phase st = 2 ^ q + 2 ^ q).
          { rewrite Eq, Nat.add_comm. cbn. lia. }
          rewrite !(Other t) by (auto; lia). eapply Td; eauto.
    - (* Arrive *)
      destruct Ss as [-> Lw]. injection H as <-.
      assert (C := count_set (waits (phase st)) _ _ _ (Waiting (phase st)) Hs).
      cbn [waits] in C. rewrite Nat.eqb_refl in C.
      destruct (arrived st + 1 =? w) eqn:E.
      + apply Nat.eqb_eq in E.
        assert (All : forall u s, nth_error (list_set (spcs st) tid (Waiting (phase st))) u = Some s ->
                        s = Waiting (phase st)).
        { intros u s Hu. apply nth_error_In in Hu.
          assert (X := filter_full (waits (phase st)) (list_set (spcs st) tid (Waiting (phase st)))).
          rewrite length_list_set in X. specialize (X ltac:(lia) s Hu).
          destruct s; cbn in X; try discriminate. apply Nat.eqb_eq in X. congruence. }
        assert (Old : forall u, u < w -> u mod 2 ^ phase st = 0 ->
                        sorted_by comp (seg (arr st) u (u + 2 ^ phase st))).
        { intros u Lu Eu. destruct (nth_error (spcs st) u) as [s|] eqn:Hu.
          - apply (Dn u s Hu); auto. destruct (Nat.eq_dec u tid) as [-> | D].
            + rewrite Hs in Hu. injection Hu as <-. reflexivity.
            + rewrite <- (nth_error_list_set_neq _ (spcs st) tid u (Waiting (phase st))) in Hu by congruence.
              rewrite (All u s Hu). cbn. apply Nat.eqb_refl.
          - apply nth_error_None in Hu. lia. }
        assert (P2 : 2 ^ (phase st + 1) = 2 ^ phase st + 2 ^ phase st).
        { rewrite Nat.add_comm. cbn. lia. }
        constructor; cbn [arr phase arrived ub spcs]; auto.
        * rewrite length_list_set. exact Len.
        * intros t s Ht. rewrite (All t s Ht). cbn. auto.
        * right. replace (phase st + 1 - 1) with (phase st) by lia. exact Lw.
        * assert (None_waits : forall ps : list spc, (forall s, In s ps -> s = Waiting (phase st)) ->
                    length (filter (waits (phase st + 1)) ps) = 0).
          { clear. induction ps as [|a r IH]; intros X; cbn [filter]; auto.
            rewrite (X a (or_introl eq_refl)). cbn [waits].
            replace (phase st =? phase st + 1) with false by (symmetry; apply Nat.eqb_neq; lia).
            apply IH. intros s Hs. apply X. now right. }
          symmetry. apply None_waits. intros s Hin. apply In_nth_error in Hin.
          destruct Hin as [u Hu]. eauto.
        * intros t s Ht F. rewrite (All t s Ht) in F. cbn in F. apply Nat.eqb_eq in F. lia.
        * intros t s q Ht F Eq Em. replace q with (phase st) by lia.
          assert (Lt' : t < w).
          { rewrite <- Len, <- (length_list_set _ (spcs st) tid (Waiting (phase st))).
            apply nth_error_Some. congruence. }
          rewrite P2 in Em.
          assert (Em' : t mod 2 ^ phase st = 0).
          { apply Nat.mod_divides in Em; [|lia]. destruct Em as [k ->].
            replace ((2 ^ phase st + 2 ^ phase st) * k) with ((2 * k) * 2 ^ phase st) by ring.
            apply Nat.mod_mul. exact Pow. }
          split; [apply Old; auto|]. rewrite P2, Nat.add_assoc.
          destruct (Nat.lt_ge_cases (t + 2 ^ phase st) w) as [C1 | C1].
          -- apply Old; auto. rewrite Nat.add_mod, Em', Nat.mod_same by exact Pow.
             cbn. apply Nat.mod_0_l. exact Pow.
          -- rewrite seg_empty by lia. constructor.
      + apply Nat.eqb_neq in E.
        constructor; cbn [arr phase arrived ub spcs]; auto.
        * rewrite length_list_set. exact Len.
        * intros t s Ht. destruct (nth_set_cases _ _ _ _ _ L Ht) as [[-> ->] | [D Ht']]; [|eauto].
          cbn. auto.
        * lia.
        * lia.
        * intros t s Ht F Em. destruct (nth_set_cases _ _ _ _ _ L Ht) as [[-> ->] | [D Ht']]; [|eauto].
          apply (Dn tid _ Hs eq_refl Em).
        * intros t s q Ht F Eq Em. destruct (nth_set_cases _ _ _ _ _ L Ht) as [[-> ->] | [D Ht']].
          -- cbn in F. rewrite Nat.eqb_refl in F. discriminate.
          -- eapply Td; eauto.
    - (* Waiting *)
      destruct (r <? phase st) eqn:E; [|discriminate]. injection H as <-.
      apply Nat.ltb_lt in E. cbn in Ss. destruct Ss as [[-> _] | Ss]; [lia|].
      assert (C := count_set (waits (phase st)) _ _ _ (Work (r + 1)) Hs).
      cbn [waits] in C. replace (r =? phase st) with false in C by (symmetry; apply Nat.eqb_neq; lia).
      constructor; cbn [arr phase arrived ub spcs]; auto.
      + rewrite length_list_set. exact Len.
      + intros t s Ht. destruct (nth_set_cases _ _ _ _ _ L Ht) as [[-> ->] | [D Ht']]; [|eauto].
        cbn. exact Ss.
      + lia.
      + intros t s Ht F Em. destruct (nth_set_cases _ _ _ _ _ L Ht) as [[-> ->] | [D Ht']]; [|eauto].
        discriminate.
      + intros t s q Ht F Eq Em. destruct (nth_set_cases _ _ _ _ _ L Ht) as [[-> ->] | [D Ht']].
        * eapply Td; eauto. cbn. apply Nat.eqb_neq. lia.
        * eapply Td; eauto.
  Qed.

  Lemma sinv_steps : forall l sched st, length l = sz ->
    ssteps comp sort merge sz w l sched st -> sinv l st.
  Proof.
    intros l sched st Ll H. induction H.
    - apply sinv_init. exact Ll.
    - eapply sinv_step; eauto.
  Qed.

  (** ** Progress and termination *)

  Lemma sprogress : forall l st, length l = sz -> sinv l st -> ~ Forall (fun p => p = SDone) (spcs st) ->
    exists tid st', sstep comp sort merge sz w st tid = Some st'.
  Proof.
    intros l st Ll [Len Ub Perm Stat Round Arr Lt Dn Td] N.
    (* either some thread is able to move, or all wait *)
    assert (Cases : (exists t s, nth_error (spcs st) t = Some s /\
                       match s with Work _ | Arrive _ => True
                       | Waiting r => r + 1 = phase st | SDone => False end) \/
                    (forall t s, nth_error (spcs st) t = Some s ->
                       s = Waiting (phase st) \/ s = SDone)).
    { clear - Stat.
      assert (X : forall ps, (forall t s, nth_error ps t = Some s -> status_ok (phase st) s) ->
        (exists t s, nth_error ps t = Some s /\
                       match s with Work _ | Arrive _ => True
                       | Waiting r => r + 1 = phase st | SDone => False end) \/
                    (forall t s, nth_error ps t = Some s ->
                       s = Waiting (phase st) \/ s = SDone)).
      { induction ps as [|a r IH]; intros H.
        - right. intros [|t] s Hs; discriminate.
        - destruct IH as [[t [s [H1 H2]]] | IH].
          + intros t s Hs. apply (H (S t) s Hs).
          + left. exists (S t), s. auto.
          + assert (Ha := H 0 a eq_refl). destruct a as [q | q | q |].
            * left. exists 0, (Work q). auto.
            * left. exists 0, (Arrive q). auto.
            * cbn in Ha. destruct Ha as [[-> _] | Ha].
              -- right. intros [|t] s Hs; [injection Hs as <-; auto | eauto].
              -- left. exists 0, (Waiting q). auto.
            * right. intros [|t] s Hs; [injection Hs as <-; auto | eauto]. }
      apply X. exact Stat. }
    destruct Cases as [[t [s [Hs Hm]]] | All].
    - exists t. unfold sstep. rewrite Hs. destruct s as [r | r | r |].
      + destruct (work t r (arr st)); eauto.
      + eauto.
      + replace (r <? phase st) with true by (symmetry; apply Nat.ltb_lt; lia). eauto.
      + destruct Hm.
    - exfalso. destruct (Nat.lt_ge_cases (2 ^ phase st) w) as [C | C].
      + (* nobody is done *)
        assert (E : filter (waits (phase st)) (spcs st) = spcs st).
        { assert (X : forall s, In s (spcs st) -> waits (phase st) s = true).
          { intros s Hs. apply In_nth_error in Hs. destruct Hs as [t Hs].
            destruct (All t s Hs) as [-> | ->]; [cbn; apply Nat.eqb_refl|].
            specialize (Stat t _ Hs). cbn in Stat. lia. }
          clear - X. induction (spcs st) as [|a r IH]; cbn; auto.
          rewrite (X a (or_introl eq_refl)). f_equal. apply IH. intros s Hs. apply X. now right. }
        rewrite E in Arr. lia.
      + apply N. rewrite Forall_forall. intros s Hs. apply In_nth_error in Hs. destruct Hs as [t Hs].
        destruct (All t s Hs) as [-> | ->]; auto.
        specialize (Stat t _ Hs). cbn in Stat. lia.
  Qed.

  Definition rank (s : spc) : nat :=
    match s with
    | Work r => 3 * r | Arrive r => 3 * r + 1 | Waiting r => 3 * r + 2
    | SDone => 3 * Nat.log2_up w + 3
    end.
  Definition ranks (ps : list spc) : nat := fold_right (fun p a => rank p + a) 0 ps.

  Lemma ranks_split : forall a p b, ranks (a ++ p :: b) = ranks a + rank p + ranks b.
  Proof.
    intros a p b. unfold ranks. induction a as [|q a IH]; cbn [app fold_right]; [lia|].
    rewrite IH. lia.
  Qed.

  Lemma round_bound : forall st l, sinv l st -> phase st <= Nat.log2_up w.
  Proof.
    intros st l I. destruct (sv_round _ _ I) as [E | E]; [lia|].
    destruct (phase st) as [|q]; [lia|]. replace (S q - 1) with q in E by lia.
    destruct (Nat.lt_ge_cases q (Nat.log2_up w)) as [C | C]; [lia|]. exfalso.
    assert (w <= 2 ^ Nat.log2_up w).
    { destruct (Nat.eq_dec w 1) as [-> | D]; [cbn; lia|]. apply Nat.log2_up_spec. lia. }
    assert (2 ^ Nat.log2_up w <= 2 ^ q) by (apply Nat.pow_le_mono_r; lia). lia.
  Qed.

  Lemma rank_bound : forall st l, sinv l st -> ranks (spcs st) <= w * (3 * Nat.log2_up w + 3).
  Proof.
    intros st l I. assert (B := round_bound st l I).
    enough (ranks (spcs st) <= length (spcs st) * (3 * Nat.log2_up w + 3)) as Y
      by (rewrite (sv_len _ _ I) in Y; exact Y).
    assert (S := sv_status _ _ I).
    assert (X : forall s, In s (spcs st) -> rank s <= 3 * Nat.log2_up w + 3).
    { intros s Hs. apply In_nth_error in Hs. destruct Hs as [t Hs]. specialize (S t s Hs).
      destruct s; cbn [rank status_ok] in *; lia. }
    clear - X. unfold ranks. induction (spcs st) as [|a r IH]; cbn [fold_right length]; [lia|].
    assert (rank a <= 3 * Nat.log2_up w + 3) by (apply X; now left).
    assert (fold_right (fun p a => rank p + a) 0 r <= length r * (3 * Nat.log2_up w + 3)).
    { apply IH. intros s Hs. apply X. now right. }
    lia.
  Qed.

  Lemma rank_step : forall l st tid st', sinv l st -> sstep comp sort merge sz w st tid = Some st' ->
    ranks (spcs st) < ranks (spcs st').
  Proof.
    intros l st tid st' I H. assert (B := round_bound st l I).
    unfold sstep in H. destruct (nth_error (spcs st) tid) as [s|] eqn:Hs; [|discriminate].
    assert (Ss := sv_status _ _ I tid s Hs).
    destruct s as [r | r | r |]; [| | |discriminate].
    - assert (E : spcs st' = list_set (spcs st) tid (if 2 ^ r <? w then Arrive r else SDone)).
      { destruct (work tid r (arr st)); injection H as <-; reflexivity. }
      rewrite E.
      destruct (list_set_split _ _ _ (if 2 ^ r <? w then Arrive r else SDone) Hs) as [a [b [E1 [E2 _]]]].
      rewrite E2, E1, !ranks_split. cbn in Ss. subst r.
      destruct (2 ^ phase st <? w); cbn [rank]; lia.
    - injection H as <-. cbn [spcs].
      destruct (list_set_split _ _ _ (Waiting r) Hs) as [a [b [E1 [E2 _]]]].
      rewrite E2, E1, !ranks_split. cbn [rank]. lia.
    - destruct (r <? phase st); [|discriminate]. injection H as <-. cbn [spcs].
      destruct (list_set_split _ _ _ (Work (r + 1)) Hs) as [a [b [E1 [E2 _]]]].
      rewrite E2, E1, !ranks_split. cbn [rank]. lia.
  Qed.

  Lemma rank_steps : forall l sched st, length l = sz ->
    ssteps comp sort merge sz w l sched st -> length sched <= ranks (spcs st).
  Proof.
    intros l sched st Ll H. induction H; [cbn; lia|].
    rewrite app_length. cbn [length].
    assert (R := rank_step l st tid st' (sinv_steps _ _ _ Ll H) H0). lia.
  Qed.

  Lemma scan_finish : forall l sched st, length l = sz ->
    ssteps comp sort merge sz w l sched st ->
    exists sched' st', ssteps comp sort merge sz w l (sched ++ sched') st' /\
      Forall (fun p => p = SDone) (spcs st').
  Proof.
    intros l sched st Ll H.
    remember (w * (3 * Nat.log2_up w + 3) - ranks (spcs st)) as d eqn:Hd.
    revert sched st H Hd. induction d as [d IH] using lt_wf_ind. intros sched st H Hd.
    assert (I := sinv_steps _ _ _ Ll H).
    assert (Dec : Forall (fun p => p = SDone) (spcs st) \/ ~ Forall (fun p => p = SDone) (spcs st)).
    { clear. induction (spcs st) as [|p r [IH | IH]].
      - left. constructor.
      - destruct p; try (right; intros H; inversion H; discriminate). left. constructor; auto.
      - right. intros H. inversion H. auto. }
    destruct Dec as [D | D].
    - exists [], st. rewrite app_nil_r. auto.
    - destruct (sprogress l st Ll I D) as [tid [st' Hs]].
      assert (R := rank_step l st tid st' I Hs).
      assert (H' : ssteps comp sort merge sz w l (sched ++ [tid]) st') by (econstructor; eauto).
      assert (B := rank_bound st' l (sinv_steps _ _ _ Ll H')).
      destruct (IH (w * (3 * Nat.log2_up w + 3) - ranks (spcs st')) ltac:(lia) _ _ H' eq_refl)
        as [sched' [st'' [H1 H2]]].
      exists (tid :: sched'), st''. rewrite <- app_assoc in H1. auto.
  Qed.

  (** ** The result *)

  Lemma all_sorted : forall l st, length l = sz -> sinv l st ->
    Forall (fun p => p = SDone) (spcs st) -> sorted_by comp (arr st).
  Proof.
    intros l st Ll I D.
    assert (H : nth_error (spcs st) 0 = Some SDone).
    { destruct (spcs st) eqn:E.
      - assert (X := sv_len _ _ I). rewrite E in X. cbn in X. lia.
      - inversion D. subst. reflexivity. }
    assert (S := sv_status _ _ I 0 _ H). cbn in S.
    assert (X := sv_done _ _ I 0 _ H eq_refl).
    rewrite Nat.mod_0_l in X by (apply Nat.pow_nonzero; lia). specialize (X eq_refl).
    unfold seg in X. replace (Nat.min 0 w) with 0 in X by lia.
    replace (Nat.min (0 + 2 ^ phase st) w) with w in X by lia.
    assert (La : length (arr st) = sz) by (rewrite (Permutation_length (sv_perm _ _ I)); exact Ll).
    replace (part 0) with 0 in X.
    2:{ unfold Model_parallel_sort.part. destruct (0 <? w) eqn:E; auto. apply Nat.ltb_ge in E. lia. }
    replace (part w) with sz in X.
    2:{ unfold Model_parallel_sort.part. rewrite Nat.ltb_irrefl. reflexivity. }
    rewrite <- La, slice_all in X. exact X.
  Qed.
End Sort.
