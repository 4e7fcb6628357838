From Coq Require Import List Arith Bool Lia.
From Verif Require Import Model_base Model_soup Model_mesh Model_classify Spec_mesh Spec_classify Proof_base Proof_mesh.
Import ListNotations.

Lemma face_tag_eqb_spec : forall a b, reflect (a = b) (face_tag_eqb a b).
Proof. intros a b. destruct a, b; simpl; constructor; congruence. Qed.

Definition count_unknown {D} (ds : list (mixed_data D)) : nat :=
  length (filter (fun d => face_tag_eqb (tag d) UNKNOWN) ds).

Lemma count_unknown_le : forall D (ds : list (mixed_data D)), count_unknown ds <= length ds.
Proof. intros. unfold count_unknown. induction ds; simpl; auto. destruct (face_tag_eqb (tag a) UNKNOWN); simpl; lia. Qed.

Lemma count_unknown_set : forall D (ds : list (mixed_data D)) g d t,
  nth_error ds g = Some d -> tag d = UNKNOWN -> t <> UNKNOWN ->
  S (count_unknown (list_set ds g (retag t d))) = count_unknown ds.
Proof.
  unfold count_unknown. induction ds; intros g d t Hn Hd Ht; destruct g; simpl in *; try discriminate.
  - injection Hn as ->. rewrite Hd. simpl. destruct (face_tag_eqb_spec t UNKNOWN); [contradiction|]. reflexivity.
  - destruct (face_tag_eqb (tag a) UNKNOWN); simpl; rewrite <- (IHds g d t) by auto; reflexivity.
Qed.

Section Propagate.
  Variables P D : Type.
  Variable m : mesh P (mixed_data D).
  Variable border : list edge.
  Variable seed : nat.
  Variable d0 : mixed_data D.
  Hypothesis HF : finalized m.
  Hypothesis HL : length (m_data m) = length (m_faces m).
  Hypothesis Hseed : nth_error (m_data m) seed = Some d0.
  Let t := tag d0.
  Let fl := from_left d0.
  Hypothesis Ht : t <> UNKNOWN.

  Notation nb := (neighbour (m_faces m) border).
  Notation reach := (reached m border seed).
  Let pw := partial_warning fl.

  Definition colored (ds : list (mixed_data D)) (f : nat) : Prop :=
    f = seed \/ (tagged m f UNKNOWN /\ exists d, nth_error ds f = Some d /\ tag d = t).

  Definition settled (ds : list (mixed_data D)) (w : warnings) (g : nat) : Prop :=
    forall d, nth_error ds g = Some d -> tag d <> UNKNOWN /\ (tag d = t \/ w = pw).

  Definition done (ds : list (mixed_data D)) (w : warnings) (f : nat) : Prop :=
    forall g, nb f g -> settled ds w g.

  Definition inv0 (st : list (mixed_data D) * list nat * warnings) : Prop :=
    let '(ds, q, w) := st in
    length ds = length (m_data m) /\
    (forall g d, nth_error (m_data m) g = Some d ->
       nth_error ds g = Some d \/ (tag d = UNKNOWN /\ reach g /\ nth_error ds g = Some (retag t d))) /\
    (forall x, In x q -> reach x /\ colored ds x) /\
    (w = no_warnings \/ (w = pw /\ conflict m border seed t)).

  Lemma reached_lt : forall x, reach x -> x < length (m_data m).
  Proof.
    intros x H. destruct H as [|f g _ _ (d & Hd & _)].
    - apply nth_error_Some. congruence.
    - apply nth_error_Some. congruence.
  Qed.

  Lemma colored_tag : forall ds q w x, inv0 (ds, q, w) -> colored ds x ->
    exists d, nth_error ds x = Some d /\ tag d = t.
  Proof.
    intros ds q w x (_ & HA & _) [->|(_ & H)]; auto.
    destruct (HA seed d0 Hseed) as [E|(E & _)].
    - exists d0. auto.
    - unfold t in Ht. congruence.
  Qed.

  Lemma warn_cases : forall w, w = no_warnings \/ w = pw -> warn_or w pw = pw.
  Proof. intros w [-> | ->]; unfold pw; destruct fl; reflexivity. Qed.

  Lemma pw_not_none : pw <> no_warnings.
  Proof. unfold pw. destruct fl; discriminate. Qed.

  Lemma propagate_visits : forall fi adj ds q w,
    (forall g, g <> fi -> In g adj -> nb fi g) ->
    (forall g, In g adj -> g < length (m_faces m)) ->
    reach fi -> colored ds fi ->
    inv0 (ds, q, w) ->
    (forall f, colored ds f -> f = fi \/ In f q \/ done ds w f) ->
    exists ds' q' w', foldM (propagate_visit fl t) (ds, q, w) adj = Ok (ds', q', w') /\
      inv0 (ds', q', w') /\ colored ds' fi /\
      (forall f, colored ds' f -> f = fi \/ In f q' \/ done ds' w' f) /\
      (forall g, In g adj -> settled ds' w' g) /\
      count_unknown ds' + length q' <= count_unknown ds + length q.
  Proof.
    intros fi adj ds q w Hadj Hlt Hr Hc HI HD.
    pose (I := fun (pre : list nat) (st : list (mixed_data D) * list nat * warnings) =>
      let '(ds', q', w') := st in
      inv0 (ds', q', w') /\ colored ds' fi /\
      (forall f, colored ds' f -> f = fi \/ In f q' \/ done ds' w' f) /\
      (forall g, In g pre -> settled ds' w' g) /\
      count_unknown ds' + length q' <= count_unknown ds + length q).
    destruct (foldM_inv _ _ (propagate_visit fl t) I adj (ds, q, w)) as (st & E & HIx).
    - simpl. split; [auto|]. split; [auto|]. split; [auto|]. split; [intros ? []|lia].
    - subst I. clear Hc HI HD. intros pre g post [[ds' q'] w'] Eadj HH.
      cbn beta iota in HH. destruct HH as (HI & Hc & HD & HS & HM).
      assert (Hgin : In g adj) by (rewrite Eadj; apply in_or_app; simpl; auto).
      destruct HI as (HI1 & HI2 & HI3 & HI4).
      assert (Hg : g < length ds') by (rewrite HI1, HL; apply Hlt; auto).
      destruct (nth_error ds' g) as [dg|] eqn:Eg; [|apply nth_error_None in Eg; lia].
      unfold propagate_visit. rewrite (proj2 (vec_at_ok _ _ _ _) Eg). cbn [bind].
      destruct (face_tag_eqb_spec (tag dg) UNKNOWN) as [Hu|Hu].
      + (* newly flooded *)
        assert (Hgf : g <> fi).
        { intros ->. destruct (colored_tag ds' q' w' fi) as (d & Ed & Et); simpl; auto. congruence. }
        destruct (nth_error (m_data m) g) as [dg0|] eqn:Eg0; [|apply nth_error_None in Eg0; lia].
        assert (dg0 = dg).
        { destruct (HI2 g dg0 Eg0) as [Q|(Q1 & Q2 & Q3)]; [congruence|].
          rewrite Eg in Q3. injection Q3 as ->. simpl in Hu. contradiction. }
        subst dg0.
        assert (Hgu : tagged m g UNKNOWN) by (exists dg; auto).
        assert (Hgr : reach g) by (eapply reached_step; eauto).
        eexists. split; [reflexivity|]. cbn beta iota.
        assert (Hcol : forall f, colored ds' f -> colored (list_set ds' g (retag t dg)) f).
        { intros f [->|(H1 & d & H2 & H3)]; [left; auto|]. right. split; auto.
          exists d. split; auto. rewrite nth_error_list_set_neq; auto. intros ->. congruence. }
        assert (Hset : forall x, settled ds' w' x -> settled (list_set ds' g (retag t dg)) w' x).
        { intros x Hx d Hd. destruct (Nat.eq_dec g x) as [<-|Hne].
          - rewrite nth_error_list_set_eq in Hd by auto. injection Hd as <-. simpl. auto.
          - rewrite nth_error_list_set_neq in Hd by auto. auto. }
        assert (Hsg : settled (list_set ds' g (retag t dg)) w' g).
        { intros d Hd. rewrite nth_error_list_set_eq in Hd by auto. injection Hd as <-. simpl. auto. }
        split; [|split; [|split; [|split]]].
        * unfold inv0. split; [now rewrite length_list_set|]. split; [|split].
          -- intros x d Hd. destruct (Nat.eq_dec g x) as [<-|Hne].
             ++ right. assert (d = dg) by congruence. subst d. split; auto. split; auto.
                now rewrite nth_error_list_set_eq.
             ++ rewrite nth_error_list_set_neq by auto. auto.
          -- intros x Hx. apply in_app_or in Hx. destruct Hx as [Hx|[<-|[]]].
             ++ destruct (HI3 x Hx). split; auto.
             ++ split; auto. right. split; auto. exists (retag t dg). rewrite nth_error_list_set_eq by auto. auto.
          -- auto.
        * auto.
        * intros f Hf. destruct (Nat.eq_dec g f) as [<-|Hne].
          -- right. left. apply in_or_app. simpl. auto.
          -- assert (Hf' : colored ds' f).
             { destruct Hf as [->|(H1 & d & H2 & H3)]; [left; auto|]. right. split; auto.
               rewrite nth_error_list_set_neq in H2 by auto. eauto. }
             destruct (HD f Hf') as [|[|HDf]]; auto.
             ++ right. left. apply in_or_app. auto.
             ++ right. right. intros x Hx. auto.
        * intros x Hx. apply in_app_or in Hx. destruct Hx as [Hx|[<-|[]]]; auto.
        * rewrite app_length. simpl. pose proof (count_unknown_set _ ds' g dg t Eg Hu Ht). lia.
      + destruct (face_tag_eqb_spec (tag dg) t) as [Hgt|Hgt]; cbn [negb].
        * (* already has the seed's tag *)
          eexists. split; [reflexivity|]. cbn beta iota.
          split; [unfold inv0; auto|]. split; [auto|]. split; [auto|]. split; [|auto].
          intros x Hx. apply in_app_or in Hx. destruct Hx as [Hx|[<-|[]]]; auto.
          intros d Hd. rewrite Eg in Hd. injection Hd as <-. auto.
        * (* conflict *)
          assert (Hgf : g <> fi).
          { intros ->. destruct (colored_tag ds' q' w' fi) as (d & Ed & Et); simpl; auto. congruence. }
          assert (Hw : warn_or w' (partial_warning fl) = pw).
          { fold pw. apply warn_cases. destruct HI4 as [|(? & _)]; auto. }
          rewrite Hw.
          assert (Hset : forall x, settled ds' w' x -> settled ds' pw x).
          { intros x Hx d Hd. destruct (Hx d Hd). auto. }
          eexists. split; [reflexivity|]. cbn beta iota.
          split; [|split; [auto|split; [|split; [|auto]]]].
          -- unfold inv0. split; auto. split; auto. split; auto. right. split; auto.
             destruct (nth_error (m_data m) g) as [dg0|] eqn:Eg0; [|apply nth_error_None in Eg0; lia].
             destruct (HI2 g dg0 Eg0) as [Q|(Q1 & Q2 & Q3)].
             ++ exists fi, g, (tag dg). split; auto. split; auto. split; auto. exists dg0. split; auto. congruence.
             ++ rewrite Eg in Q3. injection Q3 as ->. simpl in Hgt. contradiction.
          -- intros f Hf. destruct (HD f Hf) as [|[|HDf]]; auto. right. right. intros x Hx. auto.
          -- intros x Hx. apply in_app_or in Hx. destruct Hx as [Hx|[<-|[]]]; auto.
             intros d Hd. rewrite Eg in Hd. injection Hd as <-. auto.
    - destruct st as [[ds' q'] w']. exists ds', q', w'. split; auto.
  Qed.

  Lemma propagate_loop_inv : forall fuel ds q w,
    inv0 (ds, q, w) -> colored ds seed ->
    (forall f, colored ds f -> In f q \/ done ds w f) ->
    count_unknown ds + length q <= fuel ->
    exists ds' w', propagate_loop fuel m border fl t (ds, q, w) = Ok (ds', w') /\
      inv0 (ds', [], w') /\ (forall f, colored ds' f -> done ds' w' f).
  Proof.
    induction fuel; intros ds q w HI HC HD HM; destruct q as [|fi q].
    - simpl. exists ds, w. split; auto. split; auto. intros f Hf. destruct (HD f Hf) as [[]|]; auto.
    - simpl in HM. lia.
    - simpl. exists ds, w. split; auto. split; auto. intros f Hf. destruct (HD f Hf) as [[]|]; auto.
    - cbn [propagate_loop].
      destruct HI as (HI1 & HI2 & HI3 & HI4).
      destruct (HI3 fi (or_introl eq_refl)) as (Hr & Hc).
      assert (Hfi : fi < length (m_faces m)) by (rewrite <- HL; now apply reached_lt).
      destruct (faces_around_face_exact _ _ m fi border HF Hfi) as (adj & Ea & HA & HB).
      rewrite Ea. cbn [bind].
      destruct (propagate_visits fi adj ds q w) as (ds' & q' & w' & E & HI' & Hc' & HD' & HS' & HM'); auto.
      + intros g Hne Hin. now apply HA.
      + split; [auto|]. split; [auto|]. split; auto. intros x Hx. apply HI3. simpl. auto.
      + intros f Hf. destruct (HD f Hf) as [[|]|]; auto.
      + rewrite E. cbn [bind]. apply IHfuel; auto.
        * left. auto.
        * intros f Hf. destruct (HD' f Hf) as [->|[|]]; auto. right.
          intros g Hg d Hd. destruct (Nat.eq_dec g fi) as [->|Hne].
          -- destruct (colored_tag ds' q' w' fi HI' Hc') as (d' & Ed & Et).
             rewrite Ed in Hd. injection Hd as <-. rewrite Et. auto.
          -- apply (HS' g); auto. apply HA; auto.
        * simpl in HM. lia.
  Qed.

  Lemma colored_reached : forall ds q w f, inv0 (ds, q, w) -> (forall f, colored ds f -> done ds w f) ->
    reach f -> colored ds f.
  Proof.
    intros ds q w f HI HD H. induction H as [|f g Hf IH Hn (d & Hd & Hu)].
    - left. auto.
    - right. split; [exists d; auto|]. specialize (HD f IH g Hn).
      destruct HI as (HI1 & HI2 & _).
      destruct (HI2 g d Hd) as [Q|(_ & _ & Q)].
      + destruct (HD d Q). contradiction.
      + exists (retag t d). split; auto.
  Qed.

  Lemma propagate_correct : exists m' w,
    propagate m border seed = Ok (m', w) /\
    retagged m (fun g => tagged m g UNKNOWN /\ reach g) t m' /\
    (conflict m border seed t -> w = pw) /\
    (~ conflict m border seed t -> w = no_warnings) /\
    (w = no_warnings \/ (w = pw /\ conflict m border seed t)) /\
    (forall g d, nth_error (m_data m) g = Some d ->
       nth_error (m_data m') g = Some d \/
       (tag d = UNKNOWN /\ reach g /\ nth_error (m_data m') g = Some (retag t d))).
  Proof.
    unfold propagate. rewrite (proj2 (vec_at_ok _ _ _ _) Hseed). cbn [bind]. fold fl t.
    destruct (propagate_loop_inv (S (length (m_faces m))) (m_data m) [seed] no_warnings)
      as (ds' & w' & E & HI & HD).
    - unfold inv0. split; auto. split; auto. split; [|auto].
      intros x [<-|[]]. split; [constructor|left; auto].
    - left. auto.
    - intros f [->|((d & H1 & H2) & d' & H3 & H4)]; simpl; auto. rewrite H1 in H3. injection H3 as <-. congruence.
    - pose proof (count_unknown_le _ (m_data m)). simpl. lia.
    - rewrite E. cbn [bind]. eexists. eexists. split; [reflexivity|].
      pose proof (colored_reached ds' [] w') as HCR.
      split; [|split; [|split; [|split]]].
      + unfold retagged, with_data. cbn [m_points m_faces m_data indices face_indices].
        destruct HI as (HI1 & HI2 & HI3 & HI4).
        do 5 (split; [auto|]).
        intros g d Hd. split.
        * intros ((d' & H1 & H2) & H3).
          assert (Hc : colored ds' g) by (apply HCR; unfold inv0; auto).
          destruct (colored_tag ds' [] w' g) as (d1 & Q1 & Q2); [unfold inv0; auto|auto|].
          destruct (HI2 g d Hd) as [Q|(_ & _ & Q)]; [|auto].
          exfalso. rewrite Hd in H1. injection H1 as <-. congruence.
        * intros Hn. destruct (HI2 g d Hd) as [Q|(Q1 & Q2 & _)]; auto.
          exfalso. apply Hn. split; auto. exists d. auto.
      + intros (f & g & t' & Hr & Hn & (d & Hd & Hdt) & Hu & Hne).
        assert (Hc : colored ds' f) by (apply HCR; auto).
        destruct HI as (HI1 & HI2 & HI3 & HI4).
        destruct (HI2 g d Hd) as [Q|(Q1 & Q2 & _)]; [|congruence].
        destruct (HD f Hc g Hn d Q) as (_ & [|]); auto. congruence.
      + intros Hn. destruct HI as (_ & _ & _ & [|(_ & ?)]); auto. contradiction.
      + apply HI.
      + apply HI.
  Qed.
End Propagate.
