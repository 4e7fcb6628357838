From Coq Require Import List Arith Bool Lia Permutation.
From Verif Require Import Model_base Model_soup Model_mesh Model_classify Spec_mesh Spec_classify
  Proof_base Proof_mesh Proof_propagate.
Import ListNotations.

(** *** Symmetry of adjacency *)
Lemma neighbour_lt_r : forall fs border f g, neighbour fs border f g -> g < length fs.
Proof. intros fs border f g (u & v & _ & (t & Ht & _) & _). apply nth_error_Some. congruence. Qed.

Lemma neighbour_sym : forall fs border f g, nondegenerate fs -> neighbour fs border f g -> neighbour fs border g f.
Proof.
  intros fs border f g HN (u & v & (tf & Hf & Hs) & (tg & Hg & Hu) & (tg' & Hg' & Hv) & Hb).
  rewrite Hg in Hg'. injection Hg' as <-.
  unfold nondegenerate in HN. rewrite Forall_forall in HN.
  pose proof (HN tf (nth_error_In _ _ Hf)) as Nf.
  destruct tf as [[a b] c], tg as [[x y] z].
  assert (Huv : u <> v) by (intuition congruence).
  assert (Iu : incident fs f u /\ incident fs f v).
  { split; eexists; (split; [exact Hf|]); simpl; intuition congruence. }
  destruct Iu as (Iu & Iv).
  assert (W : (exists p q, ((p = x /\ q = y) \/ (p = y /\ q = z) \/ (p = z /\ q = x)) /\
            ((p = u /\ q = v) \/ (p = v /\ q = u)))).
  { simpl in Hu, Hv. destruct Hu as [-> | [-> | ->]], Hv as [-> | [-> | ->]]; try congruence.
    - exists x, y; tauto. - exists z, x; tauto. - exists x, y; tauto.
    - exists y, z; tauto. - exists z, x; tauto. - exists y, z; tauto. }
  destruct W as (p & q & Hside & Hpq). exists p, q.
  split; [eexists; split; [exact Hg|exact Hside]|].
  destruct Hpq as [(-> & ->)|(-> & ->)]; auto. rewrite make_edge_sym. auto.
Qed.

Lemma NoDup_app_last : forall A (l : list A) x, NoDup l -> ~ In x l -> NoDup (l ++ [x]).
Proof.
  intros A l x H Hn. apply (Permutation_NoDup (l := x :: l)); [apply Permutation_cons_append|]. now constructor.
Qed.

(** *** Breadth-first marking *)
Definition vis (V : list bool) (f : nat) : Prop := nth_error V f = Some true.

Definition count_false (V : list bool) : nat := length (filter negb V).

Lemma count_false_le : forall V, count_false V <= length V.
Proof. intros. unfold count_false. induction V as [|[|] V]; simpl; lia. Qed.

Lemma count_false_set : forall V g, nth_error V g = Some false -> S (count_false (list_set V g true)) = count_false V.
Proof.
  unfold count_false. induction V; intros g H; destruct g; simpl in *; try discriminate.
  - injection H as ->. reflexivity.
  - destruct a; simpl; rewrite <- (IHV g H); reflexivity.
Qed.

Lemma vis_set : forall V g f, g < length V -> (vis (list_set V g true) f <-> vis V f \/ f = g).
Proof.
  intros V g f H. unfold vis. destruct (Nat.eq_dec g f) as [<-|Hne].
  - rewrite nth_error_list_set_eq by auto. tauto.
  - rewrite nth_error_list_set_neq by auto. intuition congruence.
Qed.

Lemma component_visits : forall adj V q, (forall g, In g adj -> g < length V) ->
  exists V' new, foldM component_visit (V, q) adj = Ok (V', q ++ new) /\
    length V' = length V /\ (forall f, vis V' f <-> vis V f \/ In f new) /\
    (forall x, In x new -> In x adj /\ ~ vis V x) /\ (forall g, In g adj -> vis V' g) /\
    count_false V' + length new = count_false V.
Proof.
  induction adj as [|g adj IH]; intros V q H.
  - exists V, []. simpl. rewrite app_nil_r. repeat split; auto; try tauto; try lia; try contradiction.
  - cbn [foldM component_visit].
    destruct (vec_at_lt _ V g) as ([|] & E); [apply H; simpl; auto| |]; rewrite E; cbn [bind];
      apply vec_at_ok in E.
    + destruct (IH V q) as (V' & new & E' & H1 & H2 & H3 & H4 & H5); [intros; apply H; simpl; auto|].
      exists V', new. repeat split; auto; try apply H2.
      * right. now apply H3.
      * now apply H3.
      * intros x [<-|Hx]; auto. apply H2. left. auto.
    + assert (Hg : g < length V) by (apply nth_error_Some; congruence).
      destruct (IH (list_set V g true) (q ++ [g])) as (V' & new & E' & H1 & H2 & H3 & H4 & H5).
      { intros. rewrite length_list_set. apply H; simpl; auto. }
      rewrite <- app_assoc in E'. exists V', ([g] ++ new).
      rewrite length_list_set in H1. split; [auto|]. split; [auto|].
      split; [intros f; rewrite H2, vis_set by auto; simpl; intuition congruence|].
      split.
      { intros x [<-|Hx]; simpl; [split; auto; unfold vis; congruence|].
        destruct (H3 x Hx) as (Q1 & Q2). split; auto. intros Q. apply Q2. apply vis_set; auto. }
      split; [intros x [<-|Hx]; auto; apply H2; left; apply vis_set; auto|].
      pose proof (count_false_set V g E). simpl. lia.
Qed.

Section Classify.
  Variables P D : Type.
  Variable m : mesh P (mixed_data D).
  Variable border : list edge.
  Hypothesis HF : finalized m.
  Hypothesis HW : wf_mixed_mesh m.
  Notation nb := (neighbour (m_faces m) border).
  Notation n := (length (m_faces m)).

  Lemma component_loop_spec : forall fuel V q,
    length V = n -> (forall x, In x q -> vis V x) -> count_false V + length q <= fuel ->
    exists V', component_loop fuel m border (V, q) = Ok V' /\ length V' = n /\
      (forall f, vis V f -> vis V' f) /\
      (forall R : nat -> Prop, (forall x, In x q -> R x) -> (forall f g, R f -> nb f g -> R g) ->
         forall f, vis V' f -> vis V f \/ R f) /\
      (forall f g, vis V' f -> (In f q \/ ~ vis V f) -> nb f g -> vis V' g).
  Proof.
    induction fuel; intros V q HV HQ HM; destruct q as [|fi q].
    - exists V. simpl. repeat split; auto. intros f g H [[]|H']; contradiction.
    - simpl in HM. lia.
    - exists V. simpl. repeat split; auto. intros f g H [[]|H']; contradiction.
    - cbn [component_loop].
      assert (Hvfi : vis V fi) by (apply HQ; simpl; auto).
      assert (Hfi : fi < n) by (rewrite <- HV; apply nth_error_Some; unfold vis in Hvfi; congruence).
      destruct (faces_around_face_exact _ _ m fi border HF Hfi) as (adj & Ea & HA & HB).
      rewrite Ea. cbn [bind].
      destruct (component_visits adj V q) as (V1 & new & E1 & L1 & H1 & H2 & H3 & H4);
        [intros; rewrite HV; auto|].
      rewrite E1. cbn [bind].
      destruct (IHfuel V1 (q ++ new)) as (V' & E' & L' & G1 & G2 & G3).
      + lia.
      + intros x Hx. apply H1. apply in_app_or in Hx. destruct Hx; auto. left. apply HQ. simpl. auto.
      + rewrite app_length. simpl in HM. lia.
      + assert (Hnew : forall x, In x new -> nb fi x).
        { intros x Hx. destruct (H2 x Hx) as (Q1 & Q2). apply HA; auto. intros ->. contradiction. }
        exists V'. split; [auto|]. split; [auto|]. split; [|split].
        * intros f Hf. apply G1, H1. auto.
        * intros R HR HC f Hf.
          assert (HRn : forall x, In x new -> R x) by (intros; apply (HC fi); auto; apply HR; simpl; auto).
          destruct (G2 R) with (f := f) as [Q|Q]; auto.
          -- intros x Hx. apply in_app_or in Hx. destruct Hx; auto. apply HR. simpl. auto.
          -- apply H1 in Q. destruct Q; auto.
        * intros f g Hf Hor Hn.
          assert (Hfq : f = fi \/ (In f (q ++ new) \/ ~ vis V1 f)).
          { destruct Hor as [[<-|Hq]|Hnv]; auto.
            - right. left. apply in_or_app. auto.
            - right. destruct (nth_error V1 f) as [[|]|] eqn:Ef.
              + left. apply in_or_app. right. apply H1 in Ef. tauto.
              + right. unfold vis. congruence.
              + right. unfold vis. congruence. }
          destruct Hfq as [->|Hfq].
          -- destruct (Nat.eq_dec g fi) as [->|Hne]; [apply G1, H1; auto|].
             apply G1, H3, HA; auto.
          -- eapply G3; eauto.
  Qed.

  Definition unk (f : nat) : Prop := tagged m f UNKNOWN.
  Notation reach := (reached m border).

  Lemma unk_lt : forall f, unk f -> f < n.
  Proof. intros f (d & H & _). destruct HW as (<- & _). apply nth_error_Some. congruence. Qed.

  Lemma reach_unk : forall r g, unk r -> reach r g -> unk g.
  Proof. intros r g Hr H. destruct H; auto. Qed.

  Lemma reach_trans : forall a b c, reach a b -> reach b c -> reach a c.
  Proof. intros a b c H1 H2. induction H2; auto. eapply reached_step; eauto. Qed.

  Lemma reach_sym : forall a b, unk a -> reach a b -> reach b a.
  Proof.
    intros a b Ha H. induction H as [|f g H IH Hn Hu]; [constructor|].
    assert (Hgf : reach g f).
    { apply (reached_step _ _ m border g g f); [constructor| |].
      - apply neighbour_sym; [apply HW|exact Hn].
      - apply (reach_unk a f); auto. }
    apply (reach_trans g f a); auto.
  Qed.

  Lemma scan_spec : forall count it V, count + it = n -> length V = n ->
    (forall f, f < it -> vis V f) ->
    exists V' found, scan_unknown (m_data m) count it V = Ok (V', found) /\
      length V' = n /\ (forall f, vis V f -> vis V' f) /\
      match found with
      | None => (forall f, f < n -> vis V' f) /\ (forall f, vis V' f -> vis V f \/ ~ unk f)
      | Some fi => it <= fi < n /\ ~ vis V fi /\ unk fi /\ vis V' fi /\
          (forall f, f < fi -> vis V' f) /\ (forall f, vis V' f -> vis V f \/ ~ unk f \/ f = fi)
      end.
  Proof.
    induction count; intros it V Hn HL HV.
    - exists V, None. simpl. repeat split; auto. intros f Hf. apply HV. lia.
    - cbn [scan_unknown].
      destruct (vec_at_lt _ V it) as ([|] & E); [lia| |]; rewrite E; cbn [bind]; apply vec_at_ok in E.
      + destruct (IHcount (S it) V) as (V' & found & E' & H1 & H2 & H3); auto; try lia.
        { intros f Hf. destruct (Nat.eq_dec f it) as [-> |]; auto. apply HV. lia. }
        exists V', found. split; auto. split; auto. split; auto.
        destruct found; auto. intuition lia.
      + assert (Hnv : ~ vis V it) by (unfold vis; congruence).
        assert (Hit : it < length V) by lia.
        destruct (vec_at_lt _ (m_data m) it) as (d & Ed).
        { destruct HW as (-> & _). lia. }
        rewrite Ed. cbn [bind]. apply vec_at_ok in Ed.
        destruct (face_tag_eqb_spec (tag d) UNKNOWN) as [Hu|Hu].
        * exists (list_set V it true), (Some it). rewrite length_list_set.
          split; auto. split; auto. split; [intros; apply vis_set; auto|].
          split; [lia|]. split; auto. split; [exists d; auto|].
          split; [apply vis_set; auto|]. split; [intros; apply vis_set; auto|].
          intros f Hf. apply vis_set in Hf; tauto.
        * destruct (IHcount (S it) (list_set V it true)) as (V' & found & E' & H1 & H2 & H3).
          -- lia.
          -- now rewrite length_list_set.
          -- intros f Hf. apply vis_set; auto. destruct (Nat.eq_dec f it) as [-> |]; auto. left. apply HV. lia.
          -- assert (Hnu : ~ unk it) by (intros (d' & Q1 & Q2); congruence).
             exists V', found. split; auto. split; auto. split; [intros; apply H2, vis_set; auto|].
             destruct found.
             ++ destruct H3 as (A1 & A2 & A3 & A4 & A5 & A6). split; [lia|].
                split; [intros Q; apply A2, vis_set; auto|]. split; auto. split; auto. split; auto.
                intros f Hf. destruct (A6 f Hf) as [Q|[Q|Q]]; auto. apply vis_set in Q; auto.
                destruct Q as [| ->]; auto.
             ++ destruct H3 as (A1 & A2). split; auto. intros f Hf. destruct (A2 f Hf) as [Q|Q]; auto.
                apply vis_set in Q; auto. destruct Q as [| ->]; auto.
  Qed.

  Definition reps_ok (reps : list nat) : Prop :=
    NoDup reps /\ (forall r, In r reps -> unk r /\ forall g, reach r g -> r <= g) /\
    (forall r1 r2, In r1 reps -> In r2 reps -> reach r1 r2 -> r1 = r2).

  Definition comp_inv (b : nat) (V : list bool) (reps : list nat) : Prop :=
    length V = n /\ b <= n /\ (forall f, f < b -> vis V f) /\
    (forall f g, vis V f -> unk f -> nb f g -> vis V g) /\
    (forall r, In r reps -> vis V r) /\ reps_ok reps /\
    (unknown_closed m border -> forall f, vis V f -> unk f -> exists r, In r reps /\ reach r f).

  Lemma vis_reach : forall V f g, (forall f g, vis V f -> unk f -> nb f g -> vis V g) ->
    vis V f -> unk f -> reach f g -> vis V g.
  Proof.
    intros V f g HK Hv Hu H. induction H as [|a b H IH Hn Hb]; auto.
    apply (HK a b); auto. apply (reach_unk f a); auto.
  Qed.

  Lemma components_loop_spec : forall fuel b V reps, comp_inv b V reps -> n - b < fuel ->
    exists reps', components_loop fuel m border b V reps = Ok reps' /\ reps_ok reps' /\
      (unknown_closed m border -> forall f, unk f -> exists r, In r reps' /\ reach r f).
  Proof.
    induction fuel; intros b V reps (HL & Hb & HV & HK & HR & HO & HC) HM; [lia|].
    cbn [components_loop].
    destruct (scan_spec (n - b) b V) as (V1 & found & E1 & L1 & H1 & H2); auto; [lia|].
    rewrite E1. cbn [bind]. destruct found as [fi|].
    - destruct H2 as (A1 & A2 & A3 & A4 & A5 & A6).
      destruct (component_loop_spec (S n) V1 [fi]) as (V' & E' & L' & G1 & G2 & G3); auto.
      { intros x [<-|[]]. auto. }
      { pose proof (count_false_le V1). simpl. lia. }
      rewrite E'. cbn [bind].
      assert (Hnr : forall r, In r reps -> ~ reach r fi).
      { intros r Hr Q. apply A2. apply (vis_reach V r fi); auto. now apply HO. }
      apply IHfuel; [|lia].
      split; [auto|]. split; [lia|]. split; [|split; [|split; [|split]]].
      + intros f Hf. apply G1. destruct (Nat.eq_dec f fi) as [-> |]; auto. apply A5. lia.
      + intros f g Hf Hu Hn.
        destruct (nth_error V1 f) as [[|]|] eqn:Ef.
        * destruct (A6 f Ef) as [Q|[Q|Q]].
          -- apply G1, H1. eapply HK; eauto.
          -- contradiction.
          -- subst f. apply (G3 fi g); simpl; auto.
        * apply (G3 f g); auto. right. unfold vis. congruence.
        * apply (G3 f g); auto. right. unfold vis. congruence.
      + intros r Hr. apply in_app_or in Hr. destruct Hr as [Hr|[<-|[]]]; auto.
      + destruct HO as (O1 & O2 & O3). split; [|split].
        * apply NoDup_app_last; auto.
        * intros r Hr. apply in_app_or in Hr. destruct Hr as [Hr|[<-|[]]]; auto. split; auto.
          intros g Hg. destruct (Nat.le_gt_cases fi g); auto. exfalso.
          assert (Hug : unk g) by (apply (reach_unk fi g); auto).
          destruct (A6 g (A5 g H)) as [Q|[Q|Q]]; [|contradiction|lia].
          apply A2. apply (vis_reach V g fi); auto. apply reach_sym; auto.
        * intros r1 r2 Hr1 Hr2 Hr. apply in_app_or in Hr1. apply in_app_or in Hr2.
          destruct Hr1 as [Hr1|[<-|[]]], Hr2 as [Hr2|[<-|[]]]; auto.
          -- exfalso. apply (Hnr r1); auto.
          -- exfalso. apply (Hnr r2); auto. apply reach_sym; auto.
      + intros Hcl f Hf Hu.
        destruct (G2 (fun x => unk x /\ reach fi x)) with (f := f) as [Q|Q]; auto.
        * intros x [<-|[]]. split; auto. constructor.
        * intros x y (Hx & Hrx) Hxy. assert (unk y) by (eapply Hcl; eauto). split; auto.
          eapply reached_step; eauto.
        * destruct (A6 f Q) as [Q'|[Q'|Q']].
          -- destruct (HC Hcl f Q' Hu) as (r & Hr & Hrr). exists r. split; auto. apply in_or_app. auto.
          -- contradiction.
          -- subst f. exists fi. split; [apply in_or_app; simpl; auto|constructor].
        * exists fi. split; [apply in_or_app; simpl; auto|]. apply Q.
    - destruct H2 as (A1 & A2). exists reps. split; auto. split; auto.
      intros Hcl f Hu. destruct (A2 f (A1 f (unk_lt f Hu))) as [Q|Q]; [|contradiction]. eauto.
  Qed.

  Lemma find_unclassified_spec : exists reps, find_unclassified m border = Ok reps /\ reps_ok reps /\
    (unknown_closed m border -> forall f, unk f -> exists r, In r reps /\ reach r f).
  Proof.
    apply components_loop_spec; [|lia].
    assert (Hnv : forall f, ~ vis (repeat false n) f).
    { intros f H. unfold vis in H. apply nth_error_In, repeat_spec in H. discriminate. }
    split; [apply repeat_length|]. split; [lia|]. split; [intros; lia|].
    split; [intros f g H; apply Hnv in H; contradiction|].
    split; [intros r []|]. split.
    - split; [constructor|]. split; [intros r []|intros r1 r2 []].
    - intros _ f H. apply Hnv in H. contradiction.
  Qed.

  (** *** Processing the representatives in any order *)
  Variable centroid : P -> P -> P -> P.
  Variables side_left side_right : P -> res oriented_side.
  Notation fside := (face_side centroid side_left side_right m).
  Notation fquery := (face_query centroid side_left side_right m).
  (** The side of the face is known, or asking for it throws [e]. *)
  Definition answered (f : nat) : Prop := exists s, fside f s /\ s <> ON_BOUNDARY.
  Definition refused (f : nat) (e : exn) : Prop := fquery f (Throw e) \/ (fside f ON_BOUNDARY /\ e = RuntimeError).

  Lemma face_query_total : forall f, f < n -> exists r, fquery f r.
  Proof.
    intros f Hf. destruct HW as (HL & HP & _).
    destruct (nth_error (m_data m) f) as [d|] eqn:Ed; [|apply nth_error_None in Ed; lia].
    destruct (nth_error (m_faces m) f) as [[[a b] c]|] eqn:Ef; [|apply nth_error_None in Ef; lia].
    rewrite Forall_forall in HP. specialize (HP _ (nth_error_In _ _ Ef)). simpl in HP.
    destruct (nth_error (m_points m) a) as [pa|] eqn:Ea; [|apply nth_error_None in Ea; lia].
    destruct (nth_error (m_points m) b) as [pb|] eqn:Eb; [|apply nth_error_None in Eb; lia].
    destruct (nth_error (m_points m) c) as [pc|] eqn:Ec; [|apply nth_error_None in Ec; lia].
    eexists. exists d, a, b, c, pa, pb, pc. repeat split; auto.
  Qed.

  Lemma face_query_fun : forall f s s', fquery f s -> fquery f s' -> s = s'.
  Proof.
    intros f s s' (d & a & b & c & pa & pb & pc & H1 & H2 & H3 & H4 & H5 & ->)
      (d' & a' & b' & c' & pa' & pb' & pc' & H1' & H2' & H3' & H4' & H5' & ->).
    rewrite H1 in H1'. injection H1' as <-. rewrite H2 in H2'. injection H2' as <- <- <-.
    rewrite H3 in H3'. injection H3' as <-. rewrite H4 in H4'. injection H4' as <-.
    rewrite H5 in H5'. injection H5' as <-. reflexivity.
  Qed.
  Lemma face_side_fun : forall f s s', fside f s -> fside f s' -> s = s'.
  Proof. intros f s s' H H'. pose proof (face_query_fun _ _ _ H H') as E. injection E as ->. reflexivity. Qed.
  Lemma answered_not_refused : forall f e, answered f -> ~ refused f e.
  Proof.
    intros f e (s & H & N) [H' | (H' & _)]; [ pose proof (face_query_fun _ _ _ H H'); discriminate | ].
    apply N. exact (face_side_fun _ _ _ H H').
  Qed.

  (** State after the bodies of the representatives [pre]. *)
  Definition after (pre : list nat) (st : mesh P (mixed_data D) * warnings) : Prop :=
    let '(m', w) := st in
    m_points m' = m_points m /\ m_faces m' = m_faces m /\
    indices m' = indices m /\ face_indices m' = face_indices m /\
    length (m_data m') = length (m_data m) /\
    (forall g d, nth_error (m_data m) g = Some d ->
       (forall r s t, In r pre -> tag d = UNKNOWN -> reach r g -> fside r s -> tag_of_side s t ->
          nth_error (m_data m') g = Some (retag t d)) /\
       ((tag d <> UNKNOWN \/ (forall r, In r pre -> ~ reach r g)) -> nth_error (m_data m') g = Some d)) /\
    (forall g d, nth_error (m_data m) g = Some d ->
       nth_error (m_data m') g = Some d \/
       exists r s t, In r pre /\ tag d = UNKNOWN /\ reach r g /\ fside r s /\ tag_of_side s t /\
         nth_error (m_data m') g = Some (retag t d)) /\
    (forall x, In x pre -> answered x) /\
    (unknown_closed m border -> w = no_warnings).

  Lemma finalized_same : forall m' : mesh P (mixed_data D), m_faces m' = m_faces m ->
    indices m' = indices m -> face_indices m' = face_indices m -> finalized m'.
  Proof.
    intros m' E1 E2 E3. destruct HF as (m0 & A1 & A2 & A3 & A4 & A5).
    exists m0. repeat split; congruence.
  Qed.

  Lemma reach_dec_class : forall reps r1 r2 g, reps_ok reps -> In r1 reps -> In r2 reps ->
    reach r1 g -> reach r2 g -> r1 = r2.
  Proof.
    intros reps r1 r2 g (O1 & O2 & O3) H1 H2 R1 R2. apply O3; auto.
    apply reach_trans with g; auto. apply reach_sym; auto. now apply O2.
  Qed.

  Lemma classify_rep_spec : forall reps pre r st, reps_ok reps ->
    (forall x, In x pre -> In x reps) -> In r reps -> ~ In r pre ->
    after pre st -> answered r ->
    exists st', classify_rep centroid side_left side_right border st r = Ok st' /\ after (pre ++ [r]) st'.
  Proof.
    intros reps pre r [m1 w1] HO Hpre Hr Hnr (A1 & A2 & A3 & A4 & A5 & A6 & AD & A7 & A8) Hs.
    pose proof HO as (O1 & O2 & O3).
    destruct (O2 r Hr) as (Hur & Hmin).
    assert (Hrn : r < n) by now apply unk_lt.
    pose proof Hs as (s & Hside & Hnb).
    pose proof Hside as (d & a & b & c & pa & pb & pc & Ed & Ef & Ea & Eb & Ec & Es).
    assert (Hud : tag d = UNKNOWN) by (destruct Hur as (d' & Q1 & Q2); congruence).
    assert (Ed1 : nth_error (m_data m1) r = Some d).
    { apply (A6 r d Ed). right. intros x Hx Q. apply Hnr. replace r with x; auto. }
    unfold classify_rep. rewrite (proj2 (vec_at_ok _ _ _ _) Ed1). cbn [bind].
    rewrite A2, (proj2 (vec_at_ok _ _ _ _) Ef). cbn [bind].
    rewrite A1, (proj2 (vec_at_ok _ _ _ _) Ea), (proj2 (vec_at_ok _ _ _ _) Eb), (proj2 (vec_at_ok _ _ _ _) Ec).
    cbn [bind].
    replace (if from_left d then side_right (centroid pa pb pc) else side_left (centroid pa pb pc)) with (Ok s)
      by (rewrite Es; destruct (from_left d); reflexivity).
    cbn [bind].
    destruct (oriented_side_eqb s ON_BOUNDARY) eqn:Eb'; [destruct s; try discriminate; congruence|].
    set (t := if oriented_side_eqb s POSITIVE_SIDE then EXTERIOR else INTERIOR).
    assert (Htag : tag_of_side s t) by (unfold t, tag_of_side; destruct s; simpl; auto; congruence).
    assert (Htu : t <> UNKNOWN) by (unfold t; destruct (oriented_side_eqb s POSITIVE_SIDE); discriminate).
    set (m2 := with_data m1 (list_set (m_data m1) r (retag t d))).
    assert (Hr1 : r < length (m_data m1)) by (apply nth_error_Some; congruence).
    assert (Hnth2 : forall g, g <> r -> nth_error (m_data m2) g = nth_error (m_data m1) g).
    { intros g Hg. unfold m2, with_data. cbn [m_data]. now rewrite nth_error_list_set_neq by auto. }
    assert (Hnth2r : nth_error (m_data m2) r = Some (retag t d)).
    { unfold m2, with_data. cbn [m_data]. now rewrite nth_error_list_set_eq. }
    (* the faces still UNKNOWN in m2 *)
    assert (T2 : forall g, tagged m2 g UNKNOWN -> tagged m g UNKNOWN).
    { intros g (dg & Q1 & Q2).
      destruct (Nat.eq_dec g r) as [->|Hne]; [rewrite Hnth2r in Q1; injection Q1 as <-; simpl in Q2; contradiction|].
      rewrite Hnth2 in Q1 by auto.
      destruct (nth_error (m_data m) g) as [dg0|] eqn:Eg.
      - destruct (face_tag_eqb_spec (tag dg0) UNKNOWN) as [Hu|Hu]; [exists dg0; auto|].
        rewrite (proj2 (A6 g dg0 Eg)) in Q1 by auto. congruence.
      - apply nth_error_None in Eg. assert (nth_error (m_data m1) g = None) by (apply nth_error_None; lia). congruence. }
    assert (T2' : forall g dg, reach r g -> g <> r -> nth_error (m_data m) g = Some dg -> nth_error (m_data m2) g = Some dg).
    { intros g dg Hg Hne Q1. rewrite Hnth2 by auto.
      apply (A6 g dg Q1). right. intros x Hx Hxg. apply Hnr.
      replace r with x; auto. eapply reach_dec_class; eauto. }
    assert (R2 : forall g, reached m2 border r g <-> reach r g).
    { intros g. split.
      - induction 1 as [|f g H IH Hn Hu]; [constructor|].
        apply (reached_step _ _ m border r f g); auto.
        unfold m2, with_data in Hn. cbn [m_faces] in Hn. now rewrite A2 in Hn.
      - induction 1 as [|f g H IH Hn Hu]; [constructor|].
        destruct (Nat.eq_dec g r) as [->|Hne]; [constructor|].
        assert (Hrg : reach r g) by (eapply reached_step; eauto).
        eapply reached_step; [exact IH| |].
        + unfold m2, with_data. cbn [m_faces]. now rewrite A2.
        + destruct Hu as (dg & Q1 & Q2). exists dg. split; auto. }
    destruct (propagate_correct _ _ m2 border r (retag t d)) as (m3 & lw & E3 & HR3 & HC1 & HC2 & _ & HD3); auto.
    { apply finalized_same; unfold m2, with_data; auto. }
    { unfold m2, with_data. cbn [m_data m_faces]. rewrite length_list_set, A5, A2. apply HW. }
    rewrite E3. cbn [bind]. cbn [tag retag] in HR3.
    destruct HR3 as (B1 & B2 & B3 & B4 & B5 & B6).
    unfold m2, with_data in B1, B2, B3, B4, B5. cbn [m_points m_faces m_data indices face_indices] in B1, B2, B3, B4, B5.
    rewrite length_list_set in B5.
    eexists. split; [reflexivity|]. unfold after.
    split; [congruence|]. split; [congruence|]. split; [congruence|]. split; [congruence|]. split; [congruence|].
    split; [|split; [|split]].
    - intros g dg Eg.
      assert (Hg2 : exists d2, nth_error (m_data m2) g = Some d2).
      { destruct (nth_error (m_data m2) g) eqn:Q; eauto. apply nth_error_None in Q.
        assert (g < length (m_data m)) by (apply nth_error_Some; congruence).
        unfold m2, with_data in Q. cbn [m_data] in Q. rewrite length_list_set in Q. lia. }
      destruct Hg2 as (d2 & Ed2). destruct (B6 g d2 Ed2) as (C1 & C2).
      split.
      + intros r' s' t' Hr' Hu Hrg Hs' Ht'. apply in_app_or in Hr'. destruct Hr' as [Hr'|[<-|[]]].
        * (* an earlier representative *)
          assert (Hne : g <> r).
          { intros ->. apply Hnr. replace r with r'; auto. }
          assert (Hnrg : ~ reach r g).
          { intros Q. apply Hnr. replace r with r'; auto. apply (reach_dec_class reps r' r g); auto. }
          rewrite C2.
          -- rewrite <- Ed2, Hnth2 by auto. apply (proj1 (A6 g dg Eg) r' s' t'); auto.
          -- intros (_ & Q). apply R2 in Q. contradiction.
        * assert (s' = s) by (eapply face_side_fun; eauto). subst s'.
          assert (t' = t) by (destruct Htag as [(? & ?)|(? & ?)], Ht' as [(? & ?)|(? & ?)]; congruence). subst t'.
          destruct (Nat.eq_dec g r) as [->|Hne].
          -- rewrite C2.
             ++ rewrite Ed in Eg. injection Eg as <-. congruence.
             ++ intros ((q & Q1 & Q2) & _). rewrite Hnth2r in Q1. injection Q1 as <-. simpl in Q2. contradiction.
          -- rewrite (T2' g dg Hrg Hne Eg) in Ed2. injection Ed2 as <-.
             rewrite C1; auto. split; [exists dg; auto|]. now apply R2.
      + intros Hor.
        assert (Hne : g <> r).
        { intros ->. destruct Hor as [Q|Q]; [congruence|]. apply (Q r); [apply in_or_app; simpl; auto|constructor]. }
        rewrite C2.
        * rewrite <- Ed2, Hnth2 by auto. apply (A6 g dg Eg). destruct Hor as [|Q]; auto. right.
          intros x Hx. apply Q. apply in_or_app. auto.
        * intros (Q1 & Q2). apply T2 in Q1. destruct Q1 as (q & Q1 & Q1'). destruct Hor as [Q|Q]; [congruence|].
          apply (Q r); [apply in_or_app; simpl; auto|]. now apply R2.
    - intros g dg Eg.
      destruct (AD g dg Eg) as [Q|(r' & s' & t' & C1 & C2 & C3 & C4 & C5 & C6)].
      + destruct (Nat.eq_dec g r) as [->|Hne].
        * right. exists r, s, t. split; [apply in_or_app; simpl; auto|].
          rewrite Ed in Eg. injection Eg as <-. split; [auto|]. split; [constructor|]. split; [auto|]. split; [auto|].
          destruct (HD3 r (retag t d) Hnth2r) as [Q'|(Q' & _)]; auto. simpl in Q'. contradiction.
        * rewrite <- Hnth2 in Q by auto. destruct (HD3 g dg Q) as [Q'|(Q1 & Q2 & Q3)]; auto.
          right. exists r, s, t. split; [apply in_or_app; simpl; auto|]. split; [auto|]. split; [now apply R2|].
          split; [auto|]. split; [auto|]. apply Q3.
      + right. exists r', s', t'. split; [apply in_or_app; simpl; auto|].
        do 4 (split; [auto|]).
        assert (Hne : g <> r).
        { intros ->. apply Hnr. replace r with r'; auto. }
        rewrite <- Hnth2 in C6 by auto.
        destruct (HD3 g _ C6) as [Q'|(Q1 & Q2 & Q3)]; auto.
        simpl in Q1. destruct C5 as [(_ & ->)|(_ & ->)]; discriminate.
    - intros x Hx. apply in_app_or in Hx. destruct Hx as [Hx|[<-|[]]]; eauto.
    - intros Hcl. rewrite A8 by auto. rewrite HC2; [reflexivity|].
      intros (f & g & t' & Hf & Hn & (dg & Q1 & Q2) & Hu' & Ht').
      apply R2 in Hf. unfold m2, with_data in Hn. cbn [m_faces] in Hn. rewrite A2 in Hn.
      assert (Huf : unk f) by (apply (reach_unk r f); auto).
      assert (Hug : unk g) by (eapply Hcl; eauto).
      assert (Hrg : reach r g) by (eapply reached_step; eauto).
      destruct (Nat.eq_dec g r) as [->|Hne].
      + rewrite Hnth2r in Q1. injection Q1 as <-. simpl in Q2. simpl in Ht'. congruence.
      + destruct Hug as (dg0 & G1 & G2). rewrite (T2' g dg0 Hrg Hne G1) in Q1. congruence.
  Qed.

  Lemma classify_rep_refused : forall reps pre r st e, reps_ok reps ->
    (forall x, In x pre -> In x reps) -> In r reps -> ~ In r pre ->
    after pre st -> refused r e ->
    classify_rep centroid side_left side_right border st r = Throw e.
  Proof.
    intros reps pre r [m1 w1] e HO Hpre Hr Hnr (A1 & A2 & A3 & A4 & A5 & A6 & AD & A7 & A8) Hq.
    assert (exists q, fquery r q /\ (q = Throw e \/ q = Ok ON_BOUNDARY /\ e = RuntimeError)) as (q & (d & a & b & c & pa & pb & pc & Ed & Ef & Ea & Eb & Ec & Es) & Q)
      by (destruct Hq as [H | (H & ->)]; eexists; split; try exact H; auto).
    pose proof HO as (O1 & O2 & O3).
    assert (Ed1 : nth_error (m_data m1) r = Some d).
    { apply (A6 r d Ed). right. intros x Hx X. apply Hnr. replace r with x; auto. }
    unfold classify_rep. rewrite (proj2 (vec_at_ok _ _ _ _) Ed1). cbn [bind].
    rewrite A2, (proj2 (vec_at_ok _ _ _ _) Ef). cbn [bind].
    rewrite A1, (proj2 (vec_at_ok _ _ _ _) Ea), (proj2 (vec_at_ok _ _ _ _) Eb), (proj2 (vec_at_ok _ _ _ _) Ec).
    cbn [bind].
    replace (if from_left d then side_right (centroid pa pb pc) else side_left (centroid pa pb pc)) with q
      by (rewrite Es; destruct (from_left d); reflexivity).
    destruct Q as [-> | (-> & ->)]; reflexivity.
  Qed.

  Lemma classify_reps_spec : forall reps order, reps_ok reps -> Permutation reps order ->
    (forall r, In r reps -> answered r \/ exists e, refused r e) ->
    (exists st', foldM (classify_rep centroid side_left side_right border) (m, no_warnings) order = Ok st' /\
      after order st') \/
    (exists r e, In r reps /\ refused r e /\
      foldM (classify_rep centroid side_left side_right border) (m, no_warnings) order = Throw e).
  Proof.
    intros reps order HO HP Hs.
    assert (G : forall post pre st, Permutation reps (pre ++ post) -> after pre st ->
       (exists st', foldM (classify_rep centroid side_left side_right border) st post = Ok st' /\ after (pre ++ post) st') \/
       (exists r e, In r reps /\ refused r e /\ foldM (classify_rep centroid side_left side_right border) st post = Throw e)).
    { induction post as [|r post IH]; intros pre st HPp HA; [left; exists st; rewrite app_nil_r; auto|].
      assert (Hin : forall y, In y pre \/ y = r -> In y reps).
      { intros y Hy. apply (Permutation_in y (Permutation_sym HPp)). apply in_or_app. simpl. intuition. }
      assert (Hnr : ~ In r pre).
      { assert (ND : NoDup (pre ++ r :: post)) by (eapply Permutation_NoDup; [exact HPp|apply HO]).
        apply NoDup_remove_2 in ND. intros Q. apply ND. apply in_or_app. auto. }
      cbn [foldM]. destruct (Hs r) as [Ha | (e & He)]; [auto| |].
      - destruct (classify_rep_spec reps pre r st) as (st' & E' & HA'); auto.
        rewrite E'. cbn [bind]. destruct (IH (pre ++ [r]) st') as [(st2 & E2 & A2)|X]; auto.
        + now rewrite <- app_assoc.
        + left. exists st2. rewrite <- app_assoc in A2. auto.
      - right. exists r, e. split; [auto|]. split; [auto|]. rewrite (classify_rep_refused reps pre r st e); auto. }
    apply (G order [] (m, no_warnings)); [exact HP|].
    unfold after. repeat split; auto. intros r s t [].
    intros x [].
  Qed.

  Lemma classify_globally_or : forall order,
    (forall l, Permutation l (order l)) ->
    unknown_closed m border ->
    (forall f, tagged m f UNKNOWN -> answered f \/ exists e, refused f e) ->
    (exists m', classify_globally centroid side_left side_right border m order = Ok (m', no_warnings) /\
      m_points m' = m_points m /\ m_faces m' = m_faces m /\
      length (m_data m') = length (m_data m) /\
      (forall g, ~ tagged m' g UNKNOWN) /\
      (forall g d, nth_error (m_data m) g = Some d -> tag d <> UNKNOWN -> nth_error (m_data m') g = Some d) /\
      (forall g d, nth_error (m_data m) g = Some d -> tag d = UNKNOWN ->
         exists r s t, reach g r /\ (forall h, reach g h -> r <= h) /\ fside r s /\ tag_of_side s t /\
           nth_error (m_data m') g = Some (mk_mixed (from_left d) t (data d)))) \/
    (exists f e, tagged m f UNKNOWN /\ (forall h, reach f h -> f <= h) /\ refused f e /\
       classify_globally centroid side_left side_right border m order = Throw e).
  Proof.
    intros order HP Hcl Hs. unfold classify_globally.
    destruct find_unclassified_spec as (reps & E & HO & HC). rewrite E. cbn [bind].
    destruct (classify_reps_spec reps (order reps) HO (HP reps)) as [((m' & w) & E' & A1 & A2 & A3 & A4 & A5 & A6 & AD & A7 & A8)|(r & e & Hr & He & E')].
    { intros r Hr. apply Hs. now apply HO. }
    2:{ right. exists r, e. destruct HO as (O1 & O2 & O3). destruct (O2 r Hr) as (Hur & Hmin). auto. }
    left. rewrite E'. rewrite (A8 Hcl). exists m'.
    assert (HU : forall g d, nth_error (m_data m) g = Some d -> tag d = UNKNOWN ->
         exists r s t, reach g r /\ (forall h, reach g h -> r <= h) /\ fside r s /\ tag_of_side s t /\
           nth_error (m_data m') g = Some (mk_mixed (from_left d) t (data d))).
    { intros g d Hd Hu.
      assert (Hug : unk g) by (exists d; auto).
      destruct (HC Hcl g Hug) as (r & Hr & Hrg).
      destruct HO as (O1 & O2 & O3). destruct (O2 r Hr) as (Hur & Hmin).
      assert (Hro : In r (order reps)) by (apply (Permutation_in r (HP reps)); auto).
      destruct (A7 r Hro) as (s & Hside & Hnb).
      assert (Ht : exists t, tag_of_side s t).
      { unfold tag_of_side. destruct s; [exists INTERIOR|congruence|exists EXTERIOR]; auto. }
      destruct Ht as (t & Ht). exists r, s, t.
      split; [apply reach_sym; auto|]. split; [intros h Hh; apply Hmin; eapply reach_trans; eauto|].
      split; auto. split; auto.
      apply (proj1 (A6 g d Hd) r s t); auto. }
    split; [auto|]. split; [auto|]. split; [auto|]. split; [auto|]. split; [|split; auto].
    - intros g (d' & Q1 & Q2).
      assert (Hg : g < length (m_data m)) by (rewrite <- A5; apply nth_error_Some; congruence).
      destruct (nth_error (m_data m) g) as [d|] eqn:Ed; [|apply nth_error_None in Ed; lia].
      destruct (face_tag_eqb_spec (tag d) UNKNOWN) as [Hu|Hu].
      + destruct (HU g d Ed Hu) as (r & s & t & _ & _ & _ & Ht & Q). rewrite Q in Q1. injection Q1 as <-.
        simpl in Q2. destruct Ht as [(_ & ->)|(_ & ->)]; discriminate.
      + rewrite (proj2 (A6 g d Ed)) in Q1 by auto. congruence.
    - intros g d Hd Hu. apply (A6 g d Hd). auto.
  Qed.

  Lemma classify_globally_correct : forall order,
    (forall l, Permutation l (order l)) ->
    unknown_closed m border ->
    (forall f, tagged m f UNKNOWN -> exists s, fside f s /\ s <> ON_BOUNDARY) ->
    exists m', classify_globally centroid side_left side_right border m order = Ok (m', no_warnings) /\
      m_points m' = m_points m /\ m_faces m' = m_faces m /\
      length (m_data m') = length (m_data m) /\
      (forall g, ~ tagged m' g UNKNOWN) /\
      (forall g d, nth_error (m_data m) g = Some d -> tag d <> UNKNOWN -> nth_error (m_data m') g = Some d) /\
      (forall g d, nth_error (m_data m) g = Some d -> tag d = UNKNOWN ->
         exists r s t, reach g r /\ (forall h, reach g h -> r <= h) /\ fside r s /\ tag_of_side s t /\
           nth_error (m_data m') g = Some (mk_mixed (from_left d) t (data d))).
  Proof.
    intros order HP Hcl Hs. destruct (classify_globally_or order HP Hcl (fun f Hf => or_introl (Hs f Hf))) as [X|(f & e & Hf & _ & He & _)]; [exact X|].
    exfalso. exact (answered_not_refused f e (Hs f Hf) He).
  Qed.

  (** Without the closure hypothesis: tags are only ever given to UNKNOWN
      faces, and each tag given is that of the least face of its component. *)
  Lemma classify_globally_sound : forall order,
    (forall l, Permutation l (order l)) ->
    (forall f, tagged m f UNKNOWN -> exists s, fside f s /\ s <> ON_BOUNDARY) ->
    exists m' w, classify_globally centroid side_left side_right border m order = Ok (m', w) /\
      m_points m' = m_points m /\ m_faces m' = m_faces m /\
      length (m_data m') = length (m_data m) /\
      (forall g d, nth_error (m_data m) g = Some d ->
         nth_error (m_data m') g = Some d \/
         (tag d = UNKNOWN /\
          exists r s t, reach g r /\ (forall h, reach g h -> r <= h) /\ fside r s /\ tag_of_side s t /\
           nth_error (m_data m') g = Some (mk_mixed (from_left d) t (data d)))).
  Proof.
    intros order HP Hs. unfold classify_globally.
    destruct find_unclassified_spec as (reps & E & HO & HC). rewrite E. cbn [bind].
    destruct (classify_reps_spec reps (order reps) HO (HP reps)) as [((m' & w) & E' & A1 & A2 & A3 & A4 & A5 & A6 & AD & A7 & A8)|(r & e & Hr & He & _)].
    { intros r Hr. left. apply Hs. now apply HO. }
    2:{ exfalso. apply (answered_not_refused r e); [|exact He]. apply Hs. now apply HO. }
    exists m', w. split; [auto|]. split; [auto|]. split; [auto|]. split; [auto|].
    intros g d Hd. destruct (AD g d Hd) as [|(r & s & t & C1 & C2 & C3 & C4 & C5 & C6)]; auto.
    right. split; auto. exists r, s, t.
    apply (Permutation_in r (Permutation_sym (HP reps))) in C1.
    destruct HO as (O1 & O2 & O3). destruct (O2 r C1) as (Hur & Hmin).
    split; [apply reach_sym; auto|]. split; [intros h Hh; apply Hmin; eapply reach_trans; eauto|].
    auto.
  Qed.

  (** A representative on the boundary of the other operand, or one whose side is not
      found, is reported. *)
  Lemma classify_globally_throws : forall order,
    (forall l, Permutation l (order l)) ->
    unknown_closed m border ->
    (forall f, tagged m f UNKNOWN -> (exists s, fside f s) \/ fquery f (Throw RuntimeError)) ->
    (exists f, tagged m f UNKNOWN /\ (forall h, reach f h -> f <= h) /\ (fside f ON_BOUNDARY \/ fquery f (Throw RuntimeError))) ->
    classify_globally centroid side_left side_right border m order = Throw RuntimeError.
  Proof.
    intros order HP Hcl Hall (f & Hf & Hmin & Hs). unfold classify_globally.
    destruct find_unclassified_spec as (reps & E & HO & HC). rewrite E. cbn [bind].
    assert (Hfr : In f reps).
    { destruct (HC Hcl f Hf) as (r & Hr & Hrf). replace f with r; auto.
      destruct HO as (O1 & O2 & O3). destruct (O2 r Hr) as (Hur & Hm).
      assert (f <= r) by (apply Hmin, reach_sym; auto). specialize (Hm f Hrf). lia. }
    assert (Hb : refused f RuntimeError) by (destruct Hs; [right|left]; auto).
    destruct (classify_reps_spec reps (order reps) HO (HP reps)) as [((m' & w) & E' & A1 & A2 & A3 & A4 & A5 & A6 & AD & A7 & A8)|(r & e & Hr & He & E')].
    - intros r Hr. destruct (Hall r) as [([| |] & H)|H]; [now apply HO| | | |].
      + left. exists NEGATIVE_SIDE. split; [exact H|discriminate].
      + right. exists RuntimeError. right. auto.
      + left. exists POSITIVE_SIDE. split; [exact H|discriminate].
      + right. exists RuntimeError. left. auto.
    - exfalso. apply (answered_not_refused f RuntimeError); [|exact Hb]. apply A7. apply (Permutation_in f (HP reps)); auto.
    - rewrite E'. destruct (Hall r) as [(s & H)|H]; [now apply HO| |]; destruct He as [He|(_ & ->)]; auto.
      + pose proof (face_query_fun _ _ _ H He). discriminate.
      + pose proof (face_query_fun _ _ _ H He) as X. congruence.
  Qed.
End Classify.
