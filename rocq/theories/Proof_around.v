From Coq Require Import List Arith Bool Lia QArith.
From Verif Require Import Model_base Model_soup Model_mesh Model_classify Model_geometry Model_local
  Spec_radial Spec_local Proof_base Proof_propagate Proof_radial Proof_local.
Import ListNotations.
Open Scope nat_scope.

Section TagAround.
  Variable D : Type.
  Variable fs : list around.
  Notation n := (length fs).
  Hypothesis HND : NoDup (map fi fs).
  Notation F := (F fs).
  Notation tg := (tg D fs).
  Notation nx := (nx fs).
  Notation valid := (valid D fs).

  Lemma tag_around_ok : forall ds0, valid ds0 ->
    exists ds1 ds2 ds3 k, tag_around fs ds0 = Ok ds3 /\
      valid ds1 /\ valid ds2 /\ valid ds3 /\ only_tags_of (map fi fs) ds0 ds3 /\
      (forall j, j < n -> covered_ov D fs (seq 0 n) ds0 ds1 j) /\
      (forall j, j < n -> covered_pair D fs (seq 0 n) ds1 ds2 j) /\
      k_ok D fs (seq 0 n) ds1 k /\
      ((ds3 = ds2 /\ (k = None \/ exists kk m, k = Some kk /\ kk < n /\ 1 <= m <= n /\ ~ okm D fs ds2 kk m)) \/
       (exists kk, k = Some kk /\ kk < n /\ (forall m, 1 <= m <= n -> okm D fs ds2 kk m) /\
          forall m, 1 <= m <= n -> tg ds3 (at_pos fs kk m) =
            if face_tag_eqb (tg ds2 (at_pos fs kk m)) UNKNOWN then cr fs kk m (tg ds2 kk) else tg ds2 (at_pos fs kk m))).
  Proof.
    intros ds0 V0. unfold tag_around.
    destruct (tag_overlaps_ok D fs HND ds0 V0) as (ds1 & E1 & V1 & O1 & C1). rewrite E1. cbn [bind].
    destruct (tag_pairs_ok D fs HND ds1 V1) as (ds2 & k & E2 & V2 & O2 & C2 & K). rewrite E2. cbn [bind].
    assert (O12 : only_tags_of (map fi fs) ds0 ds2) by (apply only_tags_trans with ds1; auto).
    destruct k as [kk|]; cbn [tag_rest].
    2:{ exists ds1, ds2, ds2, None. do 8 (split; [now auto|]). left. auto. }
    assert (Hk : kk < n).
    { destruct K as (i & Hi & _ & ->). apply in_seq in Hi. apply nx_lt. lia. }
    destruct (walk_dry D fs ds2 kk V2 Hk) as (c & Ew & Ht & Hf). rewrite Ew. cbn [bind].
    destruct c.
    - destruct (walk_wet D fs HND ds2 kk V2 Hk (Ht eq_refl)) as (ds3 & c' & E3 & V3 & O3 & T3).
      rewrite E3. cbn [bind]. exists ds1, ds2, ds3, (Some kk).
      split; auto. split; auto. split; auto. split; auto.
      split; [apply only_tags_trans with ds2; auto|]. split; auto. split; auto. split; auto.
      right. exists kk. auto.
    - exists ds1, ds2, ds2, (Some kk). do 8 (split; [now auto|]). left. split; auto. right.
      destruct (Hf eq_refl) as (m & Hm & K'). exists kk, m. auto.
  Qed.

  Lemma nth_lt_n : forall i f, nth_error fs i = Some f -> i < n /\ f = F i.
  Proof. intros. now apply F_eq. Qed.

  Lemma coincide_ov : forall i, i < n -> (coincide fs i <-> ov fs i = true).
  Proof.
    intros i Hi. unfold coincide, ov. pose proof (nx_lt fs i Hi) as Hj.
    change (next_pos n i) with (nx i). rewrite (F_nth fs i Hi), (F_nth fs _ Hj), Nat.eqb_eq. split.
    - intros (f & g & A & B & C). congruence.
    - intros H. eauto.
  Qed.

  Lemma coincide_lt : forall i, coincide fs i -> i < n.
  Proof. intros i (f & g & A & _). apply nth_error_Some. congruence. Qed.

  Lemma equally_iff : forall i, i < n -> (equally_oriented fs i <-> orient (F i) = orient (F (nx i))).
  Proof.
    intros i Hi. unfold equally_oriented. pose proof (nx_lt fs i Hi) as Hj.
    change (next_pos n i) with (nx i). rewrite (F_nth fs i Hi), (F_nth fs _ Hj). split.
    - intros (f & g & A & B & C). congruence.
    - intros H. eauto.
  Qed.

  Lemma side_flip : forall t, side_tag t -> flip_tag t = other_side t /\ side_tag (flip_tag t).
  Proof. intros t [-> | ->]; unfold side_tag; simpl; auto. Qed.

  Lemma cr_side : forall k m t, side_tag t -> side_tag (cr fs k m t).
  Proof.
    induction m; simpl; intros t Ht; auto. destruct (orientation_eqb _ _); auto. apply side_flip. auto.
  Qed.

  Lemma carried_cr : forall k t, k < n -> side_tag t -> forall m, carried fs k t m (cr fs k m t).
  Proof.
    intros k t Hk Ht. induction m; simpl; [constructor|].
    assert (Hp : (k + m) mod n < n) by (apply Nat.mod_upper_bound; lia).
    assert (En : (k + S m) mod n = nx ((k + m) mod n)).
    { pose proof (at_pos_S fs k m Hk) as E. exact E. }
    rewrite En. destruct (orientation_eqb_spec (orient (F (nx ((k + m) mod n)))) (orient (F ((k + m) mod n)))) as [E|E].
    - destruct (side_flip (cr fs k m t) (cr_side k m t Ht)) as (-> & _).
      apply carried_flip; auto. apply equally_iff; auto.
    - apply carried_same; auto. rewrite equally_iff by auto. congruence.
  Qed.

  Lemma carried_fun : forall k t m a b, carried fs k t m a -> carried fs k t m b -> a = b.
  Proof.
    intros k t m a b H. revert b. induction H; intros b Hb; inversion Hb; subst; auto; try contradiction.
    f_equal. auto.
  Qed.

  Lemma cr_add : forall k a b t, k < n -> cr fs (at_pos fs k a) b (cr fs k a t) = cr fs k (a + b) t.
  Proof.
    intros k a b t Hk. induction b.
    - simpl. now rewrite Nat.add_0_r.
    - replace (a + S b) with (S (a + b)) by lia. simpl. rewrite IHb.
      assert (E : forall x, (at_pos fs k a + x) mod n = (k + (a + x)) mod n).
      { intros x. pose proof (at_pos_add fs k a x Hk) as E. exact E. }
      rewrite !E. replace (a + S b) with (S (a + b)) by lia. reflexivity.
  Qed.

  Definition contra (ds : list (mixed_data D)) : Prop :=
    exists i m, i < n /\ m <= n /\ side_tag (tg ds i) /\ side_tag (tg ds (at_pos fs i m)) /\
      tg ds (at_pos fs i m) <> cr fs i m (tg ds i).

  Lemma contradiction_iff : forall ds, valid ds -> (contradiction fs ds <-> contra ds).
  Proof.
    intros ds V. unfold contradiction, contra. split.
    - intros (i & f & m & g & t & t' & t'' & A & B & C & E & S1 & G & S2 & Hc & Hn).
      destruct (nth_lt_n _ _ A) as (Hi & ->). destruct (nth_lt_n _ _ B) as (Hj & ->).
      apply has_tg in E. apply has_tg in G.
      exists i, m. unfold at_pos. rewrite E, G. repeat (split; auto).
      pose proof (carried_cr i t Hi S1 m) as Hc'. rewrite (carried_fun _ _ _ _ _ Hc' Hc). auto.
    - intros (i & m & Hi & Hm & S1 & S2 & Hn).
      exists i, (F i), m, (F (at_pos fs i m)), (tg ds i), (tg ds (at_pos fs i m)), (cr fs i m (tg ds i)).
      pose proof (at_pos_lt fs i m Hi) as Hj.
      split; [now apply F_nth|]. split; [now apply F_nth|]. split; auto. split; [now apply tg_has|]. split; auto.
      split; [now apply tg_has|]. split; auto. split; auto. now apply carried_cr.
  Qed.

  Lemma k_tagged : forall ds1 ds2 kk, (forall j, j < n -> covered_pair D fs (seq 0 n) ds1 ds2 j) ->
    k_ok D fs (seq 0 n) ds1 (Some kk) -> side_tag (tg ds2 kk).
  Proof.
    intros ds1 ds2 kk HC (i & Hi & He & ->). apply in_seq in Hi.
    assert (Hj : nx i < n) by (apply nx_lt; lia).
    destruct (HC (nx i) Hj) as [(i' & _ & _ & [(_ & ->)|(_ & ->)])|(A & _)].
    - unfold tag1, side_tag. destruct (orient _); auto.
    - unfold tag2, side_tag. destruct (orient _); auto.
    - destruct (A i) as (_ & K); auto; [apply in_seq; lia|congruence].
  Qed.

  (** In the consistent case the final tags do not contradict each other. *)
  Lemma consistent_no_contra : forall ds2 ds3 kk, kk < n -> side_tag (tg ds2 kk) ->
    (forall m, 1 <= m <= n -> okm D fs ds2 kk m) ->
    (forall m, 1 <= m <= n -> tg ds3 (at_pos fs kk m) =
       if face_tag_eqb (tg ds2 (at_pos fs kk m)) UNKNOWN then cr fs kk m (tg ds2 kk) else tg ds2 (at_pos fs kk m)) ->
    ~ contra ds3.
  Proof.
    intros ds2 ds3 kk Hk Hs Hok H3 (i & m & Hi & Hm & S1 & S2 & Hn).
    assert (G : forall a, 1 <= a <= n -> side_tag (tg ds3 (at_pos fs kk a)) ->
                tg ds3 (at_pos fs kk a) = cr fs kk a (tg ds2 kk)).
    { intros a Ha. rewrite (H3 a Ha). destruct (face_tag_eqb _ UNKNOWN); auto. intros Hsa. apply Hok; auto. }
    assert (Hround : cr fs kk n (tg ds2 kk) = tg ds2 kk).
    { assert (E : at_pos fs kk n = kk).
      { rewrite <- (Nat.add_0_r n), at_pos_n by auto. now apply at_pos_0. }
      pose proof (Hok n ltac:(lia)) as Hx. unfold okm in Hx. rewrite E in Hx. symmetry. auto. }
    destruct (at_pos_surj fs kk i Hk Hi) as (a & Ha & <-).
    rewrite at_pos_add in S2, Hn by auto.
    rewrite (G a Ha S1), cr_add in Hn by auto.
    destruct (le_lt_dec (a + m) n) as [L|L].
    - apply Hn. apply G; auto. lia.
    - replace (a + m) with (n + (a + m - n)) in S2, Hn by lia.
      rewrite at_pos_n in S2, Hn by auto.
      rewrite <- (cr_add kk n) in Hn by auto.
      rewrite Hround in Hn.
      assert (E : at_pos fs kk n = kk).
      { rewrite <- (Nat.add_0_r n), at_pos_n by auto. now apply at_pos_0. }
      rewrite E in Hn. apply Hn. apply G; auto. lia.
  Qed.

  Lemma in_pair_ov : forall i, i < n -> ~ in_pair (coincide fs) n i ->
    forall j, In j (seq 0 n) -> ov fs j = true -> i <> j /\ i <> nx j.
  Proof.
    intros i Hi H j Hj Ho. apply in_seq in Hj. split; intros ->; apply H.
    - left. apply coincide_ov; auto.
    - right. exists j. split; [lia|]. split; auto. apply coincide_ov; auto. lia.
  Qed.

  Lemma in_pair_el : forall ds1 i, i < n -> ~ in_pair (equally_oriented fs) n i ->
    forall j, In j (seq 0 n) -> el D fs ds1 j = true -> i <> j /\ i <> nx j.
  Proof.
    intros ds1 i Hi H j Hj He. apply in_seq in Hj.
    assert (Hq : equally_oriented fs j).
    { apply equally_iff; [lia|]. unfold el in He. apply andb_true_iff in He. destruct He as (_ & He).
      now destruct (orientation_eqb_spec (orient (F j)) (orient (F (nx j)))). }
    split; intros ->; apply H.
    - left. auto.
    - right. exists j. split; [lia|]. auto.
  Qed.

  Theorem arbitrary_arrangement : forall ds : list (mixed_data D), (forall f, In f fs -> fi f < length ds) ->
    exists ds', tag_around fs ds = Ok ds' /\ only_tags_of (map fi fs) ds ds' /\
      (forall i f t, nth_error fs i = Some f -> has_tag ds (fi f) t -> t <> UNKNOWN ->
         ~ in_pair (coincide fs) n i -> ~ in_pair (equally_oriented fs) n i -> has_tag ds' (fi f) t) /\
      (contradiction fs ds' ->
         forall i f t, nth_error fs i = Some f -> has_tag ds (fi f) t ->
           ~ in_pair (coincide fs) n i -> ~ in_pair (equally_oriented fs) n i -> has_tag ds' (fi f) t) /\
      (forall i f, nth_error fs i = Some f -> in_pair (coincide fs) n i ->
         exists j, coincide fs j /\ (i = j \/ i = next_pos n j) /\
           (equally_oriented fs j -> has_tag ds' (fi f) COPLANAR) /\
           (~ equally_oriented fs j -> has_tag ds' (fi f) OPPOSITE)) /\
      (forall i f, nth_error fs i = Some f -> in_pair (coincide fs) n i \/
         exists t, has_tag ds (fi f) t /\ (t <> COPLANAR -> t <> OPPOSITE -> exists t', has_tag ds' (fi f) t' /\ (t' = UNKNOWN \/ side_tag t'))) /\
      (forall i f g t t', nth_error fs i = Some f -> nth_error fs (next_pos n i) = Some g -> orient f = orient g ->
         has_tag ds' (fi f) t -> has_tag ds' (fi g) t' ->
         t <> COPLANAR -> t <> OPPOSITE -> t' <> COPLANAR -> t' <> OPPOSITE ->
         side_tag t /\ side_tag t' /\
         (~ contradiction fs ds' -> forall j h, nth_error fs j = Some h -> ~ has_tag ds' (fi h) UNKNOWN)).
  Proof.
    intros ds HL.
    assert (V0 : valid ds). { intros i Hi. apply HL. apply nth_In. auto. }
    destruct (tag_around_ok ds V0) as (ds1 & ds2 & ds3 & k & E & V1 & V2 & V3 & O & C1 & C2 & K & Hcase).
    exists ds3. split; auto. split; auto.
    (* final tags in terms of the second loop's *)
    assert (Hfin : forall i, i < n -> tg ds2 i <> UNKNOWN -> tg ds3 i = tg ds2 i).
    { intros i Hi Hu. destruct Hcase as [(-> & _)|(kk & _ & Hk & _ & H3)]; auto.
      destruct (at_pos_surj fs kk i Hk Hi) as (m & Hm & <-). rewrite (H3 m Hm).
      destruct (face_tag_eqb_spec (tg ds2 (at_pos fs kk m)) UNKNOWN); auto. contradiction. }
    assert (Hcon : contradiction fs ds3 -> ds3 = ds2).
    { intros Hc. apply contradiction_iff in Hc; auto.
      destruct Hcase as [(-> & _)|(kk & -> & Hk & Hok & H3)]; auto. exfalso.
      apply (consistent_no_contra ds2 ds3 kk); auto. apply (k_tagged ds1); auto. }
    assert (Hov3 : forall i, i < n -> is_overlap_tag (tg ds3 i) = is_overlap_tag (tg ds1 i)).
    { intros i Hi. rewrite <- (covered_overlap D fs _ _ _ _ (C2 i Hi)).
      destruct Hcase as [(-> & _)|(kk & -> & Hk & Hok & H3)]; auto.
      destruct (at_pos_surj fs kk i Hk Hi) as (m & Hm & <-). rewrite (H3 m Hm).
      destruct (face_tag_eqb_spec (tg ds2 (at_pos fs kk m)) UNKNOWN) as [Hu|Hu]; auto. rewrite Hu.
      destruct (cr_side kk m (tg ds2 kk)) as [-> | ->]; auto. apply (k_tagged ds1); auto. }
    assert (Hcov1 : forall i, i < n -> is_overlap_tag (tg ds1 i) = true -> tg ds3 i = tg ds1 i).
    { intros i Hi Hot.
      assert (E2 : tg ds2 i = tg ds1 i).
      { pose proof (covered_overlap D fs _ _ _ _ (C2 i Hi)) as Ho. rewrite Hot in Ho.
        destruct (C2 i Hi) as [(j & _ & _ & [(_ & Et)|(_ & Et)])|(_ & Et)]; auto; rewrite Et in Ho; exfalso;
          revert Ho; unfold tag1, tag2; destruct (orient (F j)); discriminate. }
      rewrite <- E2. apply Hfin; auto. rewrite E2. intros Q. rewrite Q in Hot. discriminate. }
    assert (Hkeep : forall i, i < n -> ~ in_pair (coincide fs) n i -> ~ in_pair (equally_oriented fs) n i -> tg ds2 i = tg ds i).
    { intros i Hi N1 N2. transitivity (tg ds1 i).
      - destruct (C2 i Hi) as [(j & Hj & He & Hc)|(_ & Et)]; auto.
        destruct (in_pair_el ds1 i Hi N2 j Hj He). tauto.
      - destruct (C1 i Hi) as [(j & Hj & Ho & Hc & _)|(_ & Et)]; auto.
        destruct (in_pair_ov i Hi N1 j Hj Ho). tauto. }
    split.
    { intros i f t Hf Ht Hu N1 N2. destruct (nth_lt_n _ _ Hf) as (Hi & ->). apply has_tg in Ht.
      rewrite <- Ht in Hu |- *. rewrite <- (Hkeep i Hi N1 N2) in Hu |- *. rewrite <- (Hfin i Hi Hu). now apply tg_has. }
    split.
    { intros Hc i f t Hf Ht N1 N2. rewrite (Hcon Hc). destruct (nth_lt_n _ _ Hf) as (Hi & ->). apply has_tg in Ht.
      rewrite <- Ht, <- (Hkeep i Hi N1 N2). now apply tg_has. }
    split.
    { intros i f Hf Hp. destruct (nth_lt_n _ _ Hf) as (Hi & ->).
      destruct (C1 i Hi) as [(j & Hj & Ho & Hc & Et)|(A & _)].
      - apply in_seq in Hj. exists j. assert (Hjn : j < n) by lia.
        split; [apply coincide_ov; auto|]. split; auto.
        assert (Et3 : tg ds3 i = otag fs j).
        { rewrite <- Et. apply Hcov1; auto. rewrite Et. unfold otag. destruct (orientation_eqb _ _); reflexivity. }
        rewrite equally_iff by auto. unfold otag in Et3.
        destruct (orientation_eqb_spec (orient (F j)) (orient (F (nx j)))) as [Eo|Eo];
          (split; [intros Q|intros Q]); try contradiction; rewrite <- Et3; now apply tg_has.
      - exfalso. destruct Hp as [Hp|(j & Hj & En & Hp)].
        + destruct (A i) as (Q & _); auto; [apply in_seq; lia|now apply coincide_ov].
        + destruct (A j) as (_ & Q); auto; [apply in_seq; lia|now apply coincide_ov]. }
    split.
    { intros i f Hf. destruct (nth_lt_n _ _ Hf) as (Hi & ->).
      destruct (C1 i Hi) as [(j & Hj & Ho & Hc & Et)|(A & Et)].
      - left. apply in_seq in Hj. assert (Hq : coincide fs j) by (apply coincide_ov; auto; lia).
        destruct Hc as [-> | ->]; [left; auto|right; exists j; split; [lia|auto]].
      - right. exists (tg ds i). split; [now apply tg_has|]. intros T1 T2.
        exists (tg ds3 i). split; [now apply tg_has|].
        pose proof (Hov3 i Hi) as Ho. rewrite Et in Ho.
        destruct (tg ds i), (tg ds3 i); unfold side_tag; auto; try discriminate; congruence. }
    intros i f g t t' Hf Hg Eo Ht Ht' T1 T2 T3 T4.
    destruct (nth_lt_n _ _ Hf) as (Hi & ->). destruct (nth_lt_n _ _ Hg) as (Hj & ->).
    change (next_pos n i) with (nx i) in *. apply has_tg in Ht, Ht'. subst t t'.
    assert (He : el D fs ds1 i = true).
    { unfold el. rewrite <- (Hov3 i Hi), <- (Hov3 _ Hj), Eo.
      destruct (orientation_eqb_spec (orient (F (nx i))) (orient (F (nx i)))); [|congruence].
      destruct (tg ds3 i), (tg ds3 (nx i)); auto; congruence. }
    assert (Hin : In i (seq 0 n)) by (apply in_seq; lia).
    assert (Hside : forall j, j < n -> (j = i \/ j = nx i) -> side_tag (tg ds2 j)).
    { intros j Hjn Hor. destruct (C2 j Hjn) as [(i' & _ & _ & [(_ & ->)|(_ & ->)])|(A & _)].
      - unfold tag1, side_tag. destruct (orient (F i')); auto.
      - unfold tag2, side_tag. destruct (orient (F i')); auto.
      - destruct (A i Hin He). tauto. }
    assert (Hnu : forall t, side_tag t -> t <> UNKNOWN) by (intros ? [-> | ->]; discriminate).
    split. { rewrite Hfin; auto. }
    split. { rewrite Hfin; auto. }
    intros Hnc j h Hh Ht. destruct (nth_lt_n _ _ Hh) as (Hjn & ->). apply has_tg in Ht.
    rewrite contradiction_iff in Hnc by auto.
    destruct Hcase as [(-> & [-> | (kk & m & -> & Hk & Hm & Hbad)])|(kk & -> & Hk & Hok & H3)].
    - rewrite (K i Hin) in He. discriminate.
    - apply Hnc. exists kk, m. split; auto. split; [lia|].
      pose proof (k_tagged ds1 ds2 kk C2 K) as Hs. split; auto. unfold okm in Hbad.
      assert (Hst : side_tag (tg ds2 (at_pos fs kk m))).
      { destruct (tg ds2 (at_pos fs kk m)); unfold side_tag; auto; exfalso; apply Hbad; intros [Q|Q]; discriminate. }
      split; auto.
    - destruct (at_pos_surj fs kk j Hk Hjn) as (m & Hm & <-). rewrite (H3 m Hm) in Ht.
      destruct (face_tag_eqb_spec (tg ds2 (at_pos fs kk m)) UNKNOWN) as [Hu|Hu]; [|contradiction].
      apply (Hnu (cr fs kk m (tg ds2 kk))); auto. apply cr_side. apply (k_tagged ds1); auto.
  Qed.

  (** *** Solid wedges *)
  Variable left : nat -> bool.
  Variable inside : bool -> nat -> bool.
  Hypothesis HS : same_edge (fun f => In f fs).
  Hypothesis HSort : radially_sorted fs.
  Hypothesis HW : solid_wedges left fs inside.
  Hypothesis HDup : no_duplicates left fs.
  Hypothesis HPar : no_partial_overlap fs.

  Lemma W : forall i, i < n ->
    inside (left (fi (F i))) (prev_pos n i) = ccw (orient (F i)) /\
    inside (left (fi (F i))) i = negb (ccw (orient (F i))) /\
    inside (negb (left (fi (F i)))) i = inside (negb (left (fi (F i)))) (prev_pos n i).
  Proof. intros i Hi. apply HW. now apply F_nth. Qed.

  Lemma prev_nx : forall i, i < n -> prev_pos n (nx i) = i.
  Proof.
    intros i Hi. unfold prev_pos, Proof_local.nx. rewrite Nat.add_mod_idemp_l by lia.
    replace (i + 1 + (n - 1)) with (i + 1 * n) by lia. rewrite Nat.mod_add by lia. now apply Nat.mod_small.
  Qed.

  Lemma n_ge_2 : forall i, i < n -> nx i <> i.
  Proof.
    intros i Hi E. destruct (W i Hi) as (A & B & _).
    rewrite <- E in A at 2. rewrite prev_nx in A by auto. rewrite A in B. destruct (ccw _); discriminate.
  Qed.

  Lemma coincide_adjacent : forall i j, i < j -> j < n -> vi_r (F i) = vi_r (F j) -> j = S i.
  Proof.
    intros i j Hij Hj E. destruct (Nat.eq_dec j (S i)) as [|Hn]; auto. exfalso.
    assert (Hc : S i < n) by lia. assert (Hi : i < n) by lia.
    pose proof (F_nth fs i Hi) as Ni. pose proof (F_nth fs j Hj) as Nj. pose proof (F_nth fs (S i) Hc) as Nc.
    assert (Ii := nth_error_In _ _ Ni). assert (Ij := nth_error_In _ _ Nj). assert (Ic := nth_error_In _ _ Nc).
    pose proof (HSort i (S i) _ _ ltac:(lia) Ni Nc) as L1.
    pose proof (HSort (S i) j _ _ ltac:(lia) Nc Nj) as L2.
    (* f_i and f_j are in the same direction, so neither is before the middle one *)
    assert (L3 : radial_less (F i) (F (S i)) = false).
    { apply not_true_iff_false. intros K. apply not_true_iff_false in L2. apply L2.
      apply (radial_less_iff _ HS) in K; auto. apply (radial_less_iff _ HS); auto.
      unfold angle_less in *. destruct HS as (_ & Hr).
      rewrite (S_same_vertex _ HS (F j) (F i)), (Hr (F j) (F i)); auto. }
    assert (Hsd : same_direction (F i) (F (S i))).
    { apply (incomparable_direction _ HS); auto. split; auto. }
    pose proof (HPar _ _ Ii Ic Hsd) as Ev.
    pose proof (HDup i (S i) _ _ ltac:(lia) Ni Nc Ev) as D1.
    pose proof (HDup i j _ _ ltac:(lia) Ni Nj E) as D2.
    pose proof (HDup (S i) j _ _ ltac:(lia) Nc Nj ltac:(congruence)) as D3.
    destruct (left (fi (F i))), (left (fi (F (S i)))), (left (fi (F j))); congruence.
  Qed.

  Lemma nx_S : forall i, S i < n -> nx i = S i.
  Proof. intros. unfold Proof_local.nx. rewrite Nat.add_1_r. now apply Nat.mod_small. Qed.

  Lemma overlapping_covered : forall i, i < n -> overlapping fs i ->
    exists j, j < n /\ ov fs j = true /\ (i = j \/ i = nx j).
  Proof.
    intros i Hi (f & j & g & A & B & C & E).
    destruct (nth_lt_n _ _ A) as (_ & ->). destruct (nth_lt_n _ _ C) as (Hj & ->).
    destruct (lt_dec i j) as [L|L].
    - assert (j = S i) by (apply coincide_adjacent; auto). subst j. exists i. split; auto.
      split; auto. unfold ov. rewrite nx_S by auto. apply Nat.eqb_eq. auto.
    - assert (i = S j) by (apply coincide_adjacent; auto; lia). subst i. exists j. split; auto.
      rewrite nx_S by auto. split; auto. unfold ov. rewrite nx_S by auto. now apply Nat.eqb_eq.
  Qed.

  Lemma covered_overlapping : forall i j, i < n -> j < n -> ov fs j = true -> (i = j \/ i = nx j) ->
    true_tag left fs inside i (otag fs j) /\ overlapping fs i.
  Proof.
    intros i j Hi Hj Ho Hc. pose proof (n_ge_2 j Hj) as Hne. pose proof (nx_lt fs j Hj) as Hx.
    unfold ov in Ho. apply Nat.eqb_eq in Ho. unfold otag.
    assert (G : exists i', i' <> i /\ i' < n /\ vi_r (F i') = vi_r (F i) /\
              (orient (F i') = orient (F i) <-> orient (F j) = orient (F (nx j)))).
    { destruct Hc as [-> | ->]; [exists (nx j)|exists j]; split; auto; split; auto; split; auto; split; congruence. }
    destruct G as (i' & N1 & N2 & N3 & N4). split.
    - left. exists (F i), i', (F i'). split; [now apply F_nth|]. split; auto. split; [now apply F_nth|]. split; auto.
      destruct (orientation_eqb_spec (orient (F j)) (orient (F (nx j)))); split; intros; tauto.
    - exists (F i), i', (F i'). split; [now apply F_nth|]. split; auto. split; [now apply F_nth|]. auto.
  Qed.

  (** Exactly one of the sectors before and after each face has odd cover. *)
  Definition x (i : nat) : bool := xorb (inside true i) (inside false i).

  Lemma x_flip : forall i, i < n -> x i = negb (x (prev_pos n i)).
  Proof.
    intros i Hi. destruct (W i Hi) as (A & B & C). unfold x.
    destruct (left (fi (F i))); simpl in *; rewrite B, C, A;
    destruct (ccw (orient (F i))), (inside false (prev_pos n i)), (inside true (prev_pos n i)); auto.
  Qed.

  Definition is_int (t : face_tag) : bool := match t with INTERIOR => true | _ => false end.

  Lemma truth_parity : forall i t, i < n -> ~ overlapping fs i -> side_tag t ->
    (true_tag left fs inside i t <-> xorb (is_int t) (negb (ccw (orient (F i)))) = x i).
  Proof.
    intros i t Hi Hno Hs. destruct (W i Hi) as (A & B & C). split.
    - intros [(f & j & g & H1 & H2 & H3 & H4 & _)|(f & H1 & _ & H2 & H3)].
      + exfalso. apply Hno. exists f, j, g. auto.
      + destruct (nth_lt_n _ _ H1) as (_ & ->). unfold x. 
        destruct (left (fi (F i))); simpl in *; rewrite B.
        * destruct (inside false i); [rewrite (H2 eq_refl)|rewrite (H3 eq_refl)]; destruct (ccw _); reflexivity.
        * destruct (inside true i); [rewrite (H2 eq_refl)|rewrite (H3 eq_refl)]; destruct (ccw _); reflexivity.
    - intros E. right. exists (F i). split; [now apply F_nth|]. split; auto. unfold x in E.
      destruct (left (fi (F i))); simpl in *; rewrite B in E.
      + destruct (inside false i), (ccw (orient (F i))), Hs as [-> | ->]; simpl in E; try discriminate;
          split; intros; auto; discriminate.
      + destruct (inside true i), (ccw (orient (F i))), Hs as [-> | ->]; simpl in E; try discriminate;
          split; intros; auto; discriminate.
  Qed.

  Lemma cr_parity : forall k m t, k < n -> side_tag t ->
    xorb (is_int t) (negb (ccw (orient (F k)))) = x k ->
    xorb (is_int (cr fs k m t)) (negb (ccw (orient (F (at_pos fs k m))))) = x (at_pos fs k m).
  Proof.
    intros k m t Hk Hs E. induction m.
    - rewrite at_pos_0 by auto. auto.
    - pose proof (at_pos_lt fs k m Hk) as Hp. pose proof (nx_lt fs _ Hp) as Hp'.
      rewrite at_pos_S by auto. rewrite x_flip by auto. rewrite prev_nx by auto. rewrite <- IHm.
      simpl. change ((k + S m) mod n) with (at_pos fs k (S m)). rewrite at_pos_S by auto.
      change ((k + m) mod n) with (at_pos fs k m).
      pose proof (cr_side k m t Hs) as Hsm.
      destruct (orient (F (nx (at_pos fs k m)))), (orient (F (at_pos fs k m))); simpl;
        destruct Hsm as [-> | ->]; reflexivity.
  Qed.

  Lemma true_tag_fun : forall i t t', true_tag left fs inside i t -> true_tag left fs inside i t' -> t = t'.
  Proof.
    intros i t t' [(f & j & g & H1 & H2 & H3 & H4 & H5 & H6)|(f & H1 & H2 & H3 & H4)]
      [(f' & j' & g' & H1' & H2' & H3' & H4' & H5' & H6')|(f' & H1' & H2' & H3' & H4')].
    - assert (f' = f) by congruence. subst f'.
      assert (j' = j).
      { destruct (Nat.eq_dec j' j) as [|Hn]; auto. exfalso.
        pose proof (HDup j i g f H2 H3 H1 H4) as D1. pose proof (HDup j' i g' f H2' H3' H1 H4') as D2.
        pose proof (HDup j' j g' g Hn H3' H3 ltac:(congruence)) as D3.
        destruct (left (fi f)), (left (fi g)), (left (fi g')); congruence. }
      subst j'. assert (g' = g) by congruence. subst g'.
      destruct (orientation_eqb_spec (orient g) (orient f)) as [Eo|Eo].
      + rewrite H5, H5'; auto.
      + rewrite H6, H6'; auto.
    - exfalso. apply H2'. exists f, j, g. auto.
    - exfalso. apply H2. exists f', j', g'. auto.
    - assert (f' = f) by congruence. subst f'.
      destruct (inside (negb (left (fi f))) i); [rewrite H3, H3'|rewrite H4, H4']; auto.
  Qed.

  Theorem wedges_correct : forall ds : list (mixed_data D), (forall f, In f fs -> fi f < length ds) ->
    (forall i f t, nth_error fs i = Some f -> has_tag ds (fi f) t -> t = UNKNOWN \/ true_tag left fs inside i t) ->
    exists ds', tag_around fs ds = Ok ds' /\ only_tags_of (map fi fs) ds ds' /\
      (forall i f t, nth_error fs i = Some f -> has_tag ds' (fi f) t -> t = UNKNOWN \/ true_tag left fs inside i t) /\
      (forall i f, nth_error fs i = Some f -> has_tag ds' (fi f) UNKNOWN -> has_tag ds (fi f) UNKNOWN) /\
      (forall i f, nth_error fs i = Some f -> overlapping fs i -> ~ has_tag ds' (fi f) UNKNOWN) /\
      (forall i, i < n -> ~ overlapping fs i -> ~ overlapping fs (next_pos n i) -> equally_oriented fs i ->
         forall j f, nth_error fs j = Some f -> ~ has_tag ds' (fi f) UNKNOWN).
  Proof.
    intros ds HL H0.
    assert (V0 : valid ds). { intros i Hi. apply HL. apply nth_In. auto. }
    destruct (tag_around_ok ds V0) as (ds1 & ds2 & ds3 & k & E & V1 & V2 & V3 & O & C1 & C2 & K & Hcase).
    exists ds3. split; auto. split; auto.
    set (good := fun d i => tg d i = UNKNOWN \/ true_tag left fs inside i (tg d i)).
    assert (G0 : forall i, i < n -> good ds i).
    { intros i Hi. apply (H0 i (F i)). now apply F_nth. now apply tg_has. }
    assert (Hnov : forall t i, i < n -> true_tag left fs inside i t -> ~ overlapping fs i -> side_tag t).
    { intros t i Hi [(f & j & g & A1 & A2 & A3 & A4 & _)|(f & A1 & _ & A2 & A3)] Hno.
      - exfalso. apply Hno. exists f, j, g. auto.
      - destruct (inside (negb (left (fi f))) i); [rewrite A2|rewrite A3]; auto; unfold side_tag; auto. }
    assert (G1 : forall i, i < n -> good ds1 i /\ (overlapping fs i -> is_overlap_tag (tg ds1 i) = true) /\
               (~ overlapping fs i -> tg ds1 i = tg ds i) /\ (overlapping fs i \/ ~ overlapping fs i)).
    { intros i Hi. destruct (C1 i Hi) as [(j & Hj & Ho & Hc & Et)|(A & Et)].
      - apply in_seq in Hj. destruct (covered_overlapping i j Hi ltac:(lia) Ho Hc) as (Ht & Hov).
        split; [right; rewrite Et; auto|]. split; [|split; [tauto|auto]].
        intros _. rewrite Et. unfold otag. destruct (orientation_eqb _ _); auto.
      - assert (Hno : ~ overlapping fs i).
        { intros Hov. destruct (overlapping_covered i Hi Hov) as (j & Hj & Ho & Hc).
          destruct (A j) as (Q1 & Q2); auto; [apply in_seq; lia|]. destruct Hc; congruence. }
        split; [unfold good; rewrite Et; now apply G0|]. split; [tauto|]. auto. }
    assert (Hnot1 : forall i, i < n -> ~ overlapping fs i -> is_overlap_tag (tg ds1 i) = false).
    { intros i Hi Hno. destruct (G1 i Hi) as ([-> | Ht] & _); auto.
      destruct (Hnov _ i Hi Ht Hno) as [-> | ->]; auto. }
    assert (Hel : forall i, i < n -> el D fs ds1 i = true ->
      ~ overlapping fs i /\ ~ overlapping fs (nx i) /\
      true_tag left fs inside i (tag1 fs i) /\ true_tag left fs inside (nx i) (tag2 fs i)).
    { intros i Hi He. unfold el in He. apply andb_true_iff in He. destruct He as (He & Eo).
      apply andb_true_iff in He. destruct He as (N1 & N2). apply negb_true_iff in N1, N2.
      pose proof (nx_lt fs i Hi) as Hj.
      destruct (G1 i Hi) as (_ & P1 & _). destruct (G1 (nx i) Hj) as (_ & P2 & _).
      assert (M1 : ~ overlapping fs i) by (intros Q; rewrite P1 in N1; auto; discriminate).
      assert (M2 : ~ overlapping fs (nx i)) by (intros Q; rewrite P2 in N2; auto; discriminate).
      split; auto. split; auto.
      destruct (orientation_eqb_spec (orient (F i)) (orient (F (nx i)))) as [Eo'|]; [|discriminate].
      destruct (W i Hi) as (A & B & _). destruct (W (nx i) Hj) as (A' & B' & C').
      rewrite prev_nx in A', C' by auto. unfold tag1, tag2. rewrite <- Eo' in *.
      assert (Hdiff : left (fi (F (nx i))) = negb (left (fi (F i)))).
      { destruct (left (fi (F i))), (left (fi (F (nx i)))); auto; exfalso;
        rewrite A' in B; destruct (ccw _); discriminate. }
      rewrite Hdiff in *. rewrite negb_involutive in C'.
      split; right.
      - exists (F i). split; [now apply F_nth|]. split; auto. rewrite A'.
        destruct (orient (F i)); simpl; split; intros; auto; discriminate.
      - exists (F (nx i)). split; [now apply F_nth|]. split; auto. rewrite Hdiff, negb_involutive, C', B.
        destruct (orient (F i)); simpl; split; intros; auto; discriminate. }
    assert (G2 : forall i, i < n -> good ds2 i /\ (tg ds2 i = UNKNOWN -> tg ds1 i = UNKNOWN) /\
               (overlapping fs i -> is_overlap_tag (tg ds2 i) = true)).
    { intros i Hi. destruct (G1 i Hi) as (Gi & Oi & _).
      pose proof (covered_overlap D fs _ _ _ _ (C2 i Hi)) as Eo.
      destruct (C2 i Hi) as [(j & Hj & He & Hc)|(A & Et)].
      - apply in_seq in Hj. destruct (Hel j ltac:(lia) He) as (M1 & M2 & T1 & T2).
        split; [|split; [|rewrite Eo; auto]].
        + destruct Hc as [(-> & Et)|(-> & Et)]; right; rewrite Et; auto.
        + destruct Hc as [(-> & Et)|(-> & Et)]; rewrite Et; unfold tag1, tag2; destruct (orient _); discriminate.
      - unfold good. rewrite Et. auto. }
    assert (Hpar : forall kk, k = Some kk -> kk < n -> side_tag (tg ds2 kk) /\
               xorb (is_int (tg ds2 kk)) (negb (ccw (orient (F kk)))) = x kk).
    { intros kk -> Hk. pose proof (k_tagged ds1 ds2 kk C2 K) as Hs. split; auto.
      destruct K as (i & Hi & He & Ek). apply in_seq in Hi.
      destruct (Hel i ltac:(lia) He) as (_ & M2 & _). rewrite <- Ek in M2.
      apply truth_parity; auto. destruct (G2 kk Hk) as ([Q|Q] & _); auto.
      rewrite Q in Hs. destruct Hs; discriminate. }
    assert (Htrue : forall kk m, k = Some kk -> kk < n -> ~ overlapping fs (at_pos fs kk m) ->
              true_tag left fs inside (at_pos fs kk m) (cr fs kk m (tg ds2 kk))).
    { intros kk m Ek Hk Hno. destruct (Hpar kk Ek Hk) as (Hs & Hp). apply truth_parity; auto.
      - now apply at_pos_lt.
      - now apply cr_side.
      - now apply cr_parity. }
    assert (Hnoov2 : forall i, i < n -> is_overlap_tag (tg ds2 i) = false -> ~ overlapping fs i).
    { intros i Hi Ho Hov. destruct (G2 i Hi) as (_ & _ & Q). rewrite (Q Hov) in Ho. discriminate. }
    assert (Hallok : forall kk m, k = Some kk -> kk < n -> 1 <= m <= n -> okm D fs ds2 kk m).
    { intros kk m Ek Hk Hm Hs. pose proof (at_pos_lt fs kk m Hk) as Hp.
      assert (Hno : ~ overlapping fs (at_pos fs kk m)).
      { apply Hnoov2; auto. destruct Hs as [-> | ->]; auto. }
      destruct (G2 _ Hp) as ([Q|Q] & _).
      - rewrite Q in Hs. destruct Hs; discriminate.
      - apply (true_tag_fun (at_pos fs kk m)); auto. }
    assert (G3 : forall i, i < n -> good ds3 i /\ (tg ds3 i = UNKNOWN -> tg ds2 i = UNKNOWN /\ k = None)).
    { intros i Hi. destruct Hcase as [(-> & [-> | (kk & m & Ek & Hk & Hm & Hbad)])|(kk & Ek & Hk & Hok & H3)].
      - destruct (G2 i Hi). auto.
      - exfalso. apply Hbad. now apply Hallok.
      - destruct (at_pos_surj fs kk i Hk Hi) as (m & Hm & <-). unfold good. rewrite (H3 m Hm).
        destruct (face_tag_eqb_spec (tg ds2 (at_pos fs kk m)) UNKNOWN) as [Hu|Hu].
        + assert (Hno : ~ overlapping fs (at_pos fs kk m)) by (apply Hnoov2; auto; rewrite Hu; auto).
          split; [right; now apply Htrue|]. intros Q. destruct (Hpar kk Ek Hk) as (Hs & _).
          destruct (cr_side kk m _ Hs) as [Q'|Q']; rewrite Q' in Q; discriminate.
        + destruct (G2 _ Hi) as (G & _). split; auto. intros Q. contradiction. }
    split; [|split; [|split]].
    - intros i f t Hf Ht. destruct (nth_lt_n _ _ Hf) as (Hi & ->). apply has_tg in Ht. subst t.
      destruct (G3 i Hi). auto.
    - intros i f Hf Ht. destruct (nth_lt_n _ _ Hf) as (Hi & ->). apply has_tg in Ht.
      destruct (G3 i Hi) as (_ & Q). destruct (Q Ht) as (Q2 & _).
      destruct (G2 i Hi) as (_ & Q1 & _). specialize (Q1 Q2).
      destruct (G1 i Hi) as (_ & P1 & P2 & [Ho|Hno]).
      + rewrite Q1 in P1. specialize (P1 Ho). discriminate.
      + rewrite <- Q1, (P2 Hno). now apply tg_has.
    - intros i f Hf Ho Ht. destruct (nth_lt_n _ _ Hf) as (Hi & ->). apply has_tg in Ht.
      destruct (G3 i Hi) as (_ & Q). destruct (Q Ht) as (Q2 & _).
      destruct (G2 i Hi) as (_ & _ & P). rewrite Q2 in P. specialize (P Ho). discriminate.
    - intros i Hi N1 N2 He j f Hf Ht. destruct (nth_lt_n _ _ Hf) as (Hj & ->). apply has_tg in Ht.
      destruct (G3 j Hj) as (_ & Q). destruct (Q Ht) as (_ & ->).
      assert (He' : el D fs ds1 i = true).
      { unfold el. change (next_pos n i) with (nx i) in N2. pose proof (nx_lt fs i Hi) as Hx.
        rewrite (Hnot1 i Hi N1), (Hnot1 (nx i) Hx N2). simpl.
        apply equally_iff in He; auto. rewrite He. now destruct (orient (F (nx i))). }
      simpl in K. rewrite K in He'; [discriminate|]. apply in_seq. lia.
  Qed.
End TagAround.
