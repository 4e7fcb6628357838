From Coq Require Import List Arith Bool Lia QArith.
From Verif Require Import Model_base Model_soup Model_mesh Model_classify Model_geometry Model_local
  Spec_radial Spec_local Proof_base Proof_propagate Proof_radial.
Import ListNotations.
Open Scope nat_scope.

Lemma orientation_eqb_spec : forall a b, reflect (a = b) (orientation_eqb a b).
Proof. destruct a, b; simpl; constructor; congruence. Qed.

Lemma only_tags_refl : forall D l (ds : list (mixed_data D)), only_tags_of l ds ds.
Proof. intros. split; auto. intros g d H. exists d. auto. Qed.

Lemma only_tags_trans : forall D l (a b c : list (mixed_data D)),
  only_tags_of l a b -> only_tags_of l b c -> only_tags_of l a c.
Proof.
  intros D l a b c (L1 & H1) (L2 & H2). split; [congruence|].
  intros g d Hg. destruct (H1 g d Hg) as (d1 & G1 & A1 & B1 & C1).
  destruct (H2 g d1 G1) as (d2 & G2 & A2 & B2 & C2).
  exists d2. split; auto. split; [congruence|]. split; [congruence|].
  intros Hn. rewrite C2, C1; auto.
Qed.

Section Around.
  Variable D : Type.
  Variable fs : list around.
  Let n := length fs.

  Hypothesis HND : NoDup (map fi fs).

  Definition default_around : around := mk_around 0 0 (0%Q, 0%Q) 0 CLOCKWISE.
  Definition F (i : nat) : around := nth i fs default_around.

  Lemma F_nth : forall i, i < n -> nth_error fs i = Some (F i).
  Proof. intros. unfold F. now apply nth_error_nth'. Qed.

  Lemma F_eq : forall i f, nth_error fs i = Some f -> i < n /\ f = F i.
  Proof.
    intros i f H. split. apply nth_error_Some. congruence. unfold F. symmetry. now apply nth_error_nth.
  Qed.

  Lemma F_inj : forall i j, i < n -> j < n -> fi (F i) = fi (F j) -> i = j.
  Proof.
    intros i j Hi Hj E. apply (proj1 (NoDup_nth_error (map fi fs)) HND).
    - now rewrite map_length.
    - rewrite !nth_error_map, (F_nth i Hi), (F_nth j Hj). simpl. congruence.
  Qed.

  Definition valid (ds : list (mixed_data D)) : Prop := forall i, i < n -> fi (F i) < length ds.

  Definition tg (ds : list (mixed_data D)) (i : nat) : face_tag :=
    match nth_error ds (fi (F i)) with Some d => tag d | None => UNKNOWN end.

  Lemma valid_only : forall l ds ds', only_tags_of l ds ds' -> valid ds -> valid ds'.
  Proof. intros l ds ds' (L & _) H i Hi. rewrite L. auto. Qed.

  Lemma tg_has : forall ds i, valid ds -> i < n -> has_tag ds (fi (F i)) (tg ds i).
  Proof.
    intros ds i H Hi. unfold has_tag, tg. specialize (H i Hi).
    destruct (nth_error ds (fi (F i))) eqn:E; eauto. apply nth_error_None in E. lia.
  Qed.

  Lemma has_tg : forall ds i t, has_tag ds (fi (F i)) t -> tg ds i = t.
  Proof. intros ds i t (d & E & H). unfold tg. now rewrite E. Qed.

  Lemma get_tag_ok : forall ds i, valid ds -> i < n -> get_tag ds (fi (F i)) = Ok (tg ds i).
  Proof.
    intros ds i H Hi. unfold get_tag, tg, vec_at. specialize (H i Hi).
    destruct (nth_error ds (fi (F i))) eqn:E; auto. apply nth_error_None in E. lia.
  Qed.

  Lemma at_F : forall i, i < n -> vec_at fs i = Ok (F i).
  Proof. intros. apply vec_at_ok. now apply F_nth. Qed.

  Lemma set_tag_ok : forall ds i t, valid ds -> i < n ->
    exists ds', set_tag ds (fi (F i)) t = Ok ds' /\ valid ds' /\ only_tags_of (map fi fs) ds ds' /\
      forall j, j < n -> tg ds' j = if j =? i then t else tg ds j.
  Proof.
    intros ds i t H Hi. pose proof (H i Hi) as Hl. unfold set_tag.
    destruct (vec_at_lt _ ds _ Hl) as (d & E). rewrite E. cbn [bind]. unfold vec_set.
    destruct (Nat.ltb_spec (fi (F i)) (length ds)); [|lia].
    eexists. split; [reflexivity|].
    assert (HO : only_tags_of (map fi fs) ds (list_set ds (fi (F i)) (retag t d))).
    { split; [apply length_list_set|]. intros g d0 Hg.
      apply vec_at_ok in E.
      destruct (Nat.eq_dec (fi (F i)) g) as [<-|Hn].
      - rewrite nth_error_list_set_eq by auto. exists (retag t d). split; auto.
        assert (d0 = d) by congruence. subst d0. split; [reflexivity|]. split; [reflexivity|].
        intros K. exfalso. apply K. apply in_map. apply nth_In. auto.
      - rewrite nth_error_list_set_neq by auto. exists d0. auto. }
    split; [now apply valid_only with (1 := HO)|]. split; auto.
    intros j Hj. unfold tg. destruct (Nat.eqb_spec j i) as [->|Hn].
    - now rewrite nth_error_list_set_eq by auto.
    - rewrite nth_error_list_set_neq; auto. intros K. apply Hn. symmetry. now apply F_inj.
  Qed.

  Definition nx (i : nat) : nat := (i + 1) mod n.

  Lemma nx_lt : forall i, i < n -> nx i < n.
  Proof. intros. unfold nx. apply Nat.mod_upper_bound. lia. Qed.

  Definition ov (i : nat) : bool := vi_r (F i) =? vi_r (F (nx i)).
  Definition otag (i : nat) : face_tag :=
    if orientation_eqb (orient (F i)) (orient (F (nx i))) then COPLANAR else OPPOSITE.

  (** *** First loop *)
  Definition covered_ov (pre : list nat) (ds0 ds : list (mixed_data D)) (j : nat) : Prop :=
    (exists i, In i pre /\ ov i = true /\ (j = i \/ j = nx i) /\ tg ds j = otag i) \/
    ((forall i, In i pre -> ov i = true -> j <> i /\ j <> nx i) /\ tg ds j = tg ds0 j).

  Lemma in_seq_split : forall a b c (pre post : list nat) x, seq a b = pre ++ x :: post -> c = a + b ->
    x = a + length pre /\ x < c.
  Proof.
    intros a b c pre post x E ->.
    assert (Hl : length (seq a b) = b) by apply seq_length.
    rewrite E, app_length in Hl. simpl in Hl.
    assert (H : nth_error (seq a b) (length pre) = Some x).
    { rewrite E, nth_error_app2 by lia. now rewrite Nat.sub_diag. }
    rewrite nth_error_seq in H by lia. injection H as <-. lia.
  Qed.

  Lemma tag_overlaps_ok : forall ds0, valid ds0 ->
    exists ds, tag_overlaps fs ds0 = Ok ds /\ valid ds /\ only_tags_of (map fi fs) ds0 ds /\
      forall j, j < n -> covered_ov (seq 0 n) ds0 ds j.
  Proof.
    intros ds0 HV. unfold tag_overlaps. fold n.
    apply (foldM_inv _ _ (overlap_step fs)
      (fun pre ds => valid ds /\ only_tags_of (map fi fs) ds0 ds /\ forall j, j < n -> covered_ov pre ds0 ds j)).
    - split; auto. split; [apply only_tags_refl|]. intros j Hj. right. split; [intros i []|reflexivity].
    - intros pre i post ds E (V & O & HC). pose proof (in_seq_split 0 n n pre post i E eq_refl) as (Ei & Hi).
      unfold overlap_step. fold n. fold (nx i). pose proof (nx_lt i Hi) as Hj.
      rewrite (at_F i Hi), (at_F _ Hj). cbn [bind]. fold (ov i). destruct (ov i) eqn:Eo.
      + fold (otag i).
        destruct (set_tag_ok ds i (otag i) V Hi) as (d1 & E1 & V1 & O1 & T1). rewrite E1. cbn [bind].
        destruct (set_tag_ok d1 (nx i) (otag i) V1 Hj) as (d2 & E2 & V2 & O2 & T2). rewrite E2.
        exists d2. split; auto. split; auto.
        split; [apply only_tags_trans with ds; [auto|apply only_tags_trans with d1; auto]|].
        intros j Hjn. specialize (T2 j Hjn). rewrite (T1 j Hjn) in T2.
        destruct (Nat.eqb_spec j (nx i)) as [Ej|N1].
        { left. exists i. rewrite in_app_iff. simpl. auto. }
        destruct (Nat.eqb_spec j i) as [Ej|N2].
        { left. exists i. rewrite in_app_iff. simpl. auto. }
        destruct (HC j Hjn) as [(i' & A & B & C & G)|(A & B)].
        * left. exists i'. rewrite in_app_iff. split; auto. split; auto. split; auto. congruence.
        * right. split; [|congruence]. intros i' Hin Ho. apply in_app_iff in Hin. destruct Hin as [Hin|[<-|[]]]; auto.
      + exists ds. split; auto. split; auto. split; auto. intros j Hjn.
        destruct (HC j Hjn) as [(i' & A & B & C & G)|(A & B)].
        * left. exists i'. rewrite in_app_iff. auto.
        * right. split; auto. intros i' Hin Ho. apply in_app_iff in Hin. destruct Hin as [Hin|[<-|[]]]; auto. congruence.
  Qed.

  (** *** Second loop *)
  Definition el (ds1 : list (mixed_data D)) (i : nat) : bool :=
    negb (is_overlap_tag (tg ds1 i)) && negb (is_overlap_tag (tg ds1 (nx i))) &&
    orientation_eqb (orient (F i)) (orient (F (nx i))).

  Definition tag1 (i : nat) : face_tag :=
    match orient (F i) with COUNTERCLOCKWISE => INTERIOR | CLOCKWISE => EXTERIOR end.
  Definition tag2 (i : nat) : face_tag :=
    match orient (F i) with COUNTERCLOCKWISE => EXTERIOR | CLOCKWISE => INTERIOR end.

  Definition covered_pair (pre : list nat) (ds1 ds : list (mixed_data D)) (j : nat) : Prop :=
    (exists i, In i pre /\ el ds1 i = true /\ ((j = i /\ tg ds j = tag1 i) \/ (j = nx i /\ tg ds j = tag2 i))) \/
    ((forall i, In i pre -> el ds1 i = true -> j <> i /\ j <> nx i) /\ tg ds j = tg ds1 j).

  Definition k_ok (pre : list nat) (ds1 : list (mixed_data D)) (k : option nat) : Prop :=
    match k with
    | None => forall i, In i pre -> el ds1 i = false
    | Some j => exists i, In i pre /\ el ds1 i = true /\ j = nx i
    end.

  Lemma covered_overlap : forall pre ds1 ds j, covered_pair pre ds1 ds j ->
    is_overlap_tag (tg ds j) = is_overlap_tag (tg ds1 j).
  Proof.
    intros pre ds1 ds j [(i & A & B & C)|(A & B)]; [|congruence].
    unfold el in B. apply andb_true_iff in B. destruct B as (B & _). apply andb_true_iff in B.
    destruct B as (B1 & B2). apply negb_true_iff in B1, B2.
    destruct C as [(-> & ->)|(-> & ->)]; [rewrite B1|rewrite B2]; unfold tag1, tag2;
      now destruct (orient (F i)).
  Qed.

  Lemma tag_pairs_ok : forall ds1, valid ds1 ->
    exists ds k, tag_pairs fs ds1 = Ok (ds, k) /\ valid ds /\ only_tags_of (map fi fs) ds1 ds /\
      (forall j, j < n -> covered_pair (seq 0 n) ds1 ds j) /\ k_ok (seq 0 n) ds1 k.
  Proof.
    intros ds1 HV. unfold tag_pairs. fold n.
    destruct (foldM_inv _ _ (pair_step fs)
      (fun pre (st : list (mixed_data D) * option nat) => valid (fst st) /\ only_tags_of (map fi fs) ds1 (fst st) /\
         (forall j, j < n -> covered_pair pre ds1 (fst st) j) /\ k_ok pre ds1 (snd st)) (seq 0 n) (ds1, None))
      as ((ds & k) & E & V & O & C & K).
    - simpl. split; auto. split; [apply only_tags_refl|]. split.
      + intros j Hj. right. split; [intros i []|reflexivity].
      + intros i [].
    - intros pre i post (ds & k) E (V & O & HC & HK). cbn [fst snd] in *.
      pose proof (in_seq_split 0 n n pre post i E eq_refl) as (Ei & Hi).
      unfold pair_step. fold n. fold (nx i). pose proof (nx_lt i Hi) as Hj.
      rewrite (at_F i Hi), (at_F _ Hj). cbn [bind].
      rewrite (get_tag_ok ds i V Hi), (get_tag_ok ds _ V Hj). cbn [bind].
      rewrite (covered_overlap _ _ _ _ (HC i Hi)), (covered_overlap _ _ _ _ (HC _ Hj)).
      assert (Hnone : el ds1 i = false ->
        exists s', Ok (ds, k) = Ok s' /\ valid (fst s') /\ only_tags_of (map fi fs) ds1 (fst s') /\
         (forall j, j < n -> covered_pair (pre ++ [i]) ds1 (fst s') j) /\ k_ok (pre ++ [i]) ds1 (snd s')).
      { intros He. eexists. split; [reflexivity|]. cbn [fst snd]. split; auto. split; auto. split.
        - intros j Hjn. destruct (HC j Hjn) as [(i' & A & B & C)|(A & B)].
          + left. exists i'. rewrite in_app_iff. auto.
          + right. split; auto. intros i' Hin. apply in_app_iff in Hin. destruct Hin as [Hin|[<-|[]]]; auto. congruence.
        - destruct k as [j|]; simpl in HK |- *.
          + destruct HK as (i' & A & B). exists i'. rewrite in_app_iff. auto.
          + intros i' Hin. apply in_app_iff in Hin. destruct Hin as [Hin|[<-|[]]]; auto. }
      destruct (is_overlap_tag (tg ds1 i)) eqn:O1.
      { cbn [orb]. apply Hnone. unfold el. now rewrite O1. }
      destruct (is_overlap_tag (tg ds1 (nx i))) eqn:O2.
      { cbn [orb]. apply Hnone. unfold el. rewrite O2. now rewrite andb_false_r. }
      cbn [orb]. destruct (orientation_eqb (orient (F i)) (orient (F (nx i)))) eqn:Eo.
      2:{ apply Hnone. unfold el. now rewrite Eo, andb_false_r. }
      clear Hnone.
      assert (He : el ds1 i = true) by (unfold el; now rewrite O1, O2, Eo).
      replace (match orient (F i) with CLOCKWISE => (EXTERIOR, INTERIOR) | COUNTERCLOCKWISE => (INTERIOR, EXTERIOR) end)
        with (tag1 i, tag2 i) by (unfold tag1, tag2; destruct (orient (F i)); reflexivity).
      destruct (set_tag_ok ds i (tag1 i) V Hi) as (d1 & E1 & V1 & P1 & T1). rewrite E1. cbn [bind].
      destruct (set_tag_ok d1 (nx i) (tag2 i) V1 Hj) as (d2 & E2 & V2 & P2 & T2). rewrite E2. cbn [bind].
      eexists. split; [reflexivity|]. cbn [fst snd]. split; auto.
      split; [apply only_tags_trans with ds; [auto|apply only_tags_trans with d1; auto]|]. split.
      + intros j Hjn. specialize (T2 j Hjn). rewrite (T1 j Hjn) in T2.
        destruct (Nat.eqb_spec j (nx i)) as [Ej|N1].
        { left. exists i. rewrite in_app_iff. simpl. auto. }
        destruct (Nat.eqb_spec j i) as [Ej|N2].
        { left. exists i. rewrite in_app_iff. simpl. auto. }
        destruct (HC j Hjn) as [(i' & A & B & C)|(A & B)].
        * left. exists i'. rewrite in_app_iff. split; auto. split; auto. rewrite T2. auto.
        * right. split; [|congruence]. intros i' Hin Ho. apply in_app_iff in Hin. destruct Hin as [Hin|[<-|[]]]; auto.
      + simpl. exists i. rewrite in_app_iff. simpl. auto.
    - exists ds, k. auto.
  Qed.

  (** *** Walk *)
  Fixpoint cr (k m : nat) (t : face_tag) : face_tag :=
    match m with
    | 0 => t
    | S m' =>
        let t' := cr k m' t in
        if orientation_eqb (orient (F ((k + S m') mod n))) (orient (F ((k + m') mod n))) then flip_tag t' else t'
    end.

  Definition at_pos (k m : nat) : nat := (k + m) mod n.

  Definition okm (ds : list (mixed_data D)) (k m : nat) : Prop :=
    side_tag (tg ds (at_pos k m)) -> tg ds (at_pos k m) = cr k m (tg ds k).

  Lemma at_pos_lt : forall k m, k < n -> at_pos k m < n.
  Proof. intros. unfold at_pos. apply Nat.mod_upper_bound. lia. Qed.

  Lemma at_pos_0 : forall k, k < n -> at_pos k 0 = k.
  Proof. intros. unfold at_pos. rewrite Nat.add_0_r. now apply Nat.mod_small. Qed.

  Lemma at_pos_S : forall k m, k < n -> at_pos k (S m) = nx (at_pos k m).
  Proof.
    intros. unfold at_pos, nx. rewrite Nat.add_mod_idemp_l by lia. f_equal. lia.
  Qed.

  Lemma at_pos_add : forall k a b, k < n -> at_pos (at_pos k a) b = at_pos k (a + b).
  Proof. intros. unfold at_pos. rewrite Nat.add_mod_idemp_l by lia. f_equal. lia. Qed.

  Lemma at_pos_n : forall k m, k < n -> at_pos k (n + m) = at_pos k m.
  Proof.
    intros. unfold at_pos. replace (k + (n + m)) with (k + m + 1 * n) by lia.
    apply Nat.mod_add. lia.
  Qed.

  Lemma at_pos_surj : forall k j, k < n -> j < n -> exists m, 1 <= m <= n /\ at_pos k m = j.
  Proof.
    intros k j Hk Hj. unfold at_pos. destruct (le_lt_dec j k) as [H|H].
    - exists (j + n - k). split; [lia|]. replace (k + (j + n - k)) with (j + 1 * n) by lia.
      rewrite Nat.mod_add by lia. now apply Nat.mod_small.
    - exists (j - k). split; [lia|]. replace (k + (j - k)) with j by lia. now apply Nat.mod_small.
  Qed.

  Lemma at_pos_inj : forall k a b, k < n -> 1 <= a <= n -> 1 <= b <= n -> at_pos k a = at_pos k b -> a = b.
  Proof.
    intros k a b Hk Ha Hb E. unfold at_pos in E.
    assert (Hs : forall x, k + x < 2 * n -> (k + x) mod n = if k + x <? n then k + x else k + x - n).
    { intros x Hx. destruct (Nat.ltb_spec (k + x) n) as [L|L]; [now apply Nat.mod_small|].
      replace (k + x) with ((k + x - n) + 1 * n) at 1 by lia. rewrite Nat.mod_add by lia. apply Nat.mod_small. lia. }
    rewrite (Hs a), (Hs b) in E by lia.
    destruct (Nat.ltb_spec (k + a) n), (Nat.ltb_spec (k + b) n); lia.
  Qed.

  Lemma side_tag_test : forall t t',
    (face_tag_eqb t EXTERIOR || face_tag_eqb t INTERIOR) && negb (face_tag_eqb t t') = true <->
    side_tag t /\ t <> t'.
  Proof.
    intros t t'. unfold side_tag. destruct t, t'; simpl; split; intros H; try discriminate; auto;
      try (split; [auto|discriminate]); destruct H as ([H|H] & K); congruence.
  Qed.

  Lemma walk_dry : forall ds k, valid ds -> k < n ->
    exists c, walk fs k true ds = Ok (ds, c) /\
      (c = true -> forall m, 1 <= m <= n -> okm ds k m) /\
      (c = false -> exists m, 1 <= m <= n /\ ~ okm ds k m).
  Proof.
    intros ds k V Hk. unfold walk. rewrite (at_F k Hk). cbn [bind]. rewrite (get_tag_ok ds k V Hk). cbn [bind].
    fold n.
    destruct (foldM_inv _ _ (walk_step (D:=D) fs true)
      (fun pre st => let '(d', t, o, c) := st in d' = ds /\
         (c = true -> t = cr k (length pre) (tg ds k) /\ o = orient (F (at_pos k (length pre))) /\
            forall m, 1 <= m <= length pre -> okm ds k m) /\
         (c = false -> exists m, 1 <= m <= length pre /\ ~ okm ds k m))
      (seq (k + 1) n) (ds, tg ds k, orient (F k), true)) as (st & E & HI).
    - split; auto. split; [|discriminate]. intros _. simpl. split; auto. rewrite at_pos_0 by auto. split; auto. intros; lia.
    - intros pre i post (((d' & t) & o) & c) E (-> & H1 & H2).
      pose proof (in_seq_split (k + 1) n (k + 1 + n) pre post i E eq_refl) as (Ei & Hi).
      unfold walk_step. destruct c; cbn [negb].
      2:{ eexists. split; [reflexivity|]. split; auto. split; [discriminate|]. intros _.
          destruct H2 as (m & Hm & K); auto. exists m. split; auto. rewrite app_length. simpl. lia. }
      destruct (H1 eq_refl) as (-> & -> & HO). clear H1 H2.
      fold n. assert (Hp : i mod n = at_pos k (S (length pre))) by (unfold at_pos; f_equal; lia).
      rewrite Hp. pose proof (at_pos_lt k (S (length pre)) Hk) as Hp'. rewrite (at_F _ Hp'). cbn [bind].
      rewrite (get_tag_ok ds _ V Hp'). cbn [bind].
      replace (if orientation_eqb (orient (F (at_pos k (S (length pre))))) (orient (F (at_pos k (length pre))))
               then flip_tag (cr k (length pre) (tg ds k)) else cr k (length pre) (tg ds k))
        with (cr k (S (length pre)) (tg ds k)) by reflexivity.
      set (pos := at_pos k (S (length pre))) in *. set (t' := cr k (S (length pre)) (tg ds k)) in *.
      assert (Hgood : okm ds k (S (length pre)) ->
         ds = ds /\
         (true = true -> t' = cr k (length (pre ++ [i])) (tg ds k) /\
            orient (F pos) = orient (F (at_pos k (length (pre ++ [i])))) /\
            forall m, 1 <= m <= length (pre ++ [i]) -> okm ds k m) /\
         (true = false -> exists m, 1 <= m <= length (pre ++ [i]) /\ ~ okm ds k m)).
      { intros Hok. rewrite app_length. simpl length. replace (length pre + 1) with (S (length pre)) by lia.
        split; auto. split; [|discriminate]. intros _. split; auto. split; auto.
        intros m Hm. destruct (Nat.eq_dec m (S (length pre))) as [->|]; auto. apply HO. lia. }
      destruct (face_tag_eqb (tg ds pos) UNKNOWN) eqn:Eu.
      { eexists. split; [reflexivity|]. apply Hgood. intros [K|K]; fold pos in K; rewrite K in Eu; discriminate. }
      destruct ((face_tag_eqb (tg ds pos) EXTERIOR || face_tag_eqb (tg ds pos) INTERIOR) && negb (face_tag_eqb (tg ds pos) t')) eqn:Et.
      + eexists. split; [reflexivity|]. split; auto. split; [discriminate|]. intros _.
        exists (S (length pre)). rewrite app_length. simpl. split; [lia|].
        apply side_tag_test in Et. unfold okm. fold pos. fold t'. tauto.
      + eexists. split; [reflexivity|]. apply Hgood. unfold okm. fold pos. fold t'. intros Hs.
        destruct (face_tag_eqb_spec (tg ds pos) t'); auto.
        exfalso. destruct Hs as [Q|Q]; rewrite Q in Et; discriminate Et.
    - rewrite E. destruct st as (((d' & t) & o) & c). destruct HI as (-> & H1 & H2). cbn [bind].
      rewrite seq_length in H1, H2. exists c. split; auto. split; auto. intros Hc. apply H1; auto.
  Qed.

  Lemma walk_wet : forall ds k, valid ds -> k < n -> (forall m, 1 <= m <= n -> okm ds k m) ->
    exists ds' c, walk fs k false ds = Ok (ds', c) /\ valid ds' /\ only_tags_of (map fi fs) ds ds' /\
      forall m, 1 <= m <= n ->
        tg ds' (at_pos k m) = if face_tag_eqb (tg ds (at_pos k m)) UNKNOWN then cr k m (tg ds k) else tg ds (at_pos k m).
  Proof.
    intros ds k V Hk HO. unfold walk. rewrite (at_F k Hk). cbn [bind]. rewrite (get_tag_ok ds k V Hk). cbn [bind].
    fold n.
    destruct (foldM_inv _ _ (walk_step (D:=D) fs false)
      (fun pre st => let '(d', t, o, c) := st in c = true /\ valid d' /\ only_tags_of (map fi fs) ds d' /\
         t = cr k (length pre) (tg ds k) /\ o = orient (F (at_pos k (length pre))) /\
         (forall m, 1 <= m <= length pre -> tg d' (at_pos k m) =
            if face_tag_eqb (tg ds (at_pos k m)) UNKNOWN then cr k m (tg ds k) else tg ds (at_pos k m)) /\
         (forall m, length pre < m <= n -> tg d' (at_pos k m) = tg ds (at_pos k m)))
      (seq (k + 1) n) (ds, tg ds k, orient (F k), true)) as (st & E & HI).
    - split; auto. split; auto. split; [apply only_tags_refl|]. simpl. rewrite at_pos_0 by auto.
      split; auto. split; auto. split; [intros; lia|auto].
    - intros pre i post (((d' & t) & o) & c) E (-> & V' & O' & -> & -> & H1 & H2).
      pose proof (in_seq_split (k + 1) n (k + 1 + n) pre post i E eq_refl) as (Ei & Hi).
      unfold walk_step. cbn [negb].
      fold n. assert (Hp : i mod n = at_pos k (S (length pre))) by (unfold at_pos; f_equal; lia).
      rewrite Hp. pose proof (at_pos_lt k (S (length pre)) Hk) as Hp'. rewrite (at_F _ Hp'). cbn [bind].
      rewrite (get_tag_ok d' _ V' Hp'). cbn [bind].
      replace (if orientation_eqb (orient (F (at_pos k (S (length pre))))) (orient (F (at_pos k (length pre))))
               then flip_tag (cr k (length pre) (tg ds k)) else cr k (length pre) (tg ds k))
        with (cr k (S (length pre)) (tg ds k)) by reflexivity.
      rewrite (H2 (S (length pre))) by lia.
      pose proof (HO (S (length pre)) ltac:(lia)) as Hok. unfold okm in Hok.
      set (pos := at_pos k (S (length pre))) in *. set (t' := cr k (S (length pre)) (tg ds k)) in *.
      assert (Hlen : length (pre ++ [i]) = S (length pre)) by (rewrite app_length; simpl; lia).
      destruct (face_tag_eqb (tg ds pos) UNKNOWN) eqn:Eu.
      + destruct (set_tag_ok d' pos t' V' Hp') as (d1 & E1 & V1 & O1 & T1). rewrite E1. cbn [bind].
        eexists. split; [reflexivity|]. split; auto. split; auto.
        split; [apply only_tags_trans with d'; auto|]. rewrite Hlen. split; auto. split; auto. split.
        * intros m Hm. rewrite T1 by (now apply at_pos_lt).
          destruct (Nat.eq_dec m (S (length pre))) as [->|Hne].
          { fold pos. now rewrite Nat.eqb_refl, Eu. }
          destruct (Nat.eqb_spec (at_pos k m) pos) as [Ep|_].
          { exfalso. apply Hne. apply (at_pos_inj k); auto; lia. }
          apply H1. lia.
        * intros m Hm. rewrite T1 by (now apply at_pos_lt).
          destruct (Nat.eqb_spec (at_pos k m) pos) as [Ep|_].
          { exfalso. assert (m = S (length pre)) by (apply (at_pos_inj k); auto; lia). lia. }
          apply H2. lia.
      + assert (Hgood : true = true /\ valid d' /\ only_tags_of (map fi fs) ds d' /\
           t' = cr k (length (pre ++ [i])) (tg ds k) /\ orient (F pos) = orient (F (at_pos k (length (pre ++ [i])))) /\
           (forall m, 1 <= m <= length (pre ++ [i]) -> tg d' (at_pos k m) =
              if face_tag_eqb (tg ds (at_pos k m)) UNKNOWN then cr k m (tg ds k) else tg ds (at_pos k m)) /\
           (forall m, length (pre ++ [i]) < m <= n -> tg d' (at_pos k m) = tg ds (at_pos k m))).
        { rewrite Hlen. split; auto. split; auto. split; auto. split; auto. split; auto. split.
          - intros m Hm. destruct (Nat.eq_dec m (S (length pre))) as [->|Hne].
            + fold pos. rewrite Eu. unfold pos. rewrite H2 by lia. reflexivity.
            + apply H1. lia.
          - intros m Hm. apply H2. lia. }
        destruct ((face_tag_eqb (tg ds pos) EXTERIOR || face_tag_eqb (tg ds pos) INTERIOR) && negb (face_tag_eqb (tg ds pos) t')) eqn:Et.
        * exfalso. apply side_tag_test in Et. tauto.
        * eexists. split; [reflexivity|]. exact Hgood.
    - rewrite E. destruct st as (((d' & t) & o) & c). destruct HI as (-> & V' & O' & -> & -> & H1 & H2).
      cbn [bind]. rewrite seq_length in H1. exists d', true. auto.
  Qed.
End Around.
