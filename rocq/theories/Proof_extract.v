From Coq Require Import List Arith Bool Lia.
From Verif Require Import Model_base Model_soup Model_boolean Spec_boolean Proof_base.
Import ListNotations.

(** The two Boolean flags computed by the code, as an [output]. *)
Definition to_output (x : bool * bool) : output :=
  match x with
  | (true, false) => Keep
  | (_, true) => Reverse
  | (false, false) => Drop
  end.

Lemma face_output_correct : forall op pf t l,
  to_output (face_output op pf t l) = required op pf t l.
Proof. intros op pf t l; destruct op, pf, t, l; reflexivity. Qed.

Lemma face_output_exclusive : forall op pf t l,
  face_output op pf t l <> (true, true).
Proof. intros op pf t l; destruct op, pf, t, l; intro H; discriminate H. Qed.

Section E.
  Context {P D : Type}.
  Variable d0 : D.
  Variable m : soup P (mixed_data D).

  Definition src_ok (src : list nat) (pts : list P) : Prop :=
    Forall2 (fun v p => nth_error (points m) v = Some p) src pts.

  Definition mapinv (mp : list (option nat)) (src : list nat) : Prop :=
    length mp = num_vertices m /\ NoDup src /\
    (forall v n, nth_error mp v = Some (Some n) <-> nth_error src n = Some v).

  Lemma src_ok_nth : forall src pts n v,
    src_ok src pts -> nth_error src n = Some v -> nth_error pts n = nth_error (points m) v.
  Proof.
    intros src pts n v H. revert n. induction H; intros n Hn; destruct n; simpl in *; try discriminate.
    - injection Hn as <-. now rewrite H.
    - auto.
  Qed.

  Lemma map_vertex_spec : forall mp s src v,
    mapinv mp src -> src_ok src (points s) -> v < num_vertices m ->
    exists n mp' s' src',
      map_vertex m (mp, s) v = Ok (n, (mp', s')) /\
      mapinv mp' src' /\ src_ok src' (points s') /\
      nth_error src' n = Some v /\
      (src' = src \/ src' = src ++ [v]) /\
      faces s' = faces s /\ face_data s' = face_data s /\
      (exists tl, points s' = points s ++ tl).
  Proof.
    intros mp s src v (HL & HN & HM) HS Hv.
    unfold map_vertex.
    destruct (vec_at_lt _ mp v) as (cur & Ecur); [lia|].
    rewrite Ecur. simpl.
    assert (Ec := proj1 (vec_at_ok _ _ _ _) Ecur).
    destruct cur as [n|].
    - exists n, mp, s, src. repeat split; auto.
      + apply HM.
      + apply HM.
      + apply HM; auto.
      + exists []. now rewrite app_nil_r.
    - unfold soup_point. destruct (vec_at_lt _ (points m) v Hv) as (p & Ep). rewrite Ep. simpl.
      assert (Hp := proj1 (vec_at_ok _ _ _ _) Ep).
      unfold vec_set. destruct (Nat.ltb_spec v (length mp)); [|lia]. simpl.
      unfold num_vertices. simpl. rewrite app_length. simpl.
      replace (length (points s) + 1 - 1) with (length (points s)) by lia.
      assert (HlenSrc : length src = length (points s)) by (eapply Forall2_len; eauto).
      assert (Hnin : ~ In v src).
      { intros Hin. apply In_nth_error in Hin. destruct Hin as (k & Hk).
        apply HM in Hk. congruence. }
      exists (length (points s)), (list_set mp v (Some (length (points s)))),
        (mk_soup (points s ++ [p]) (faces s) (face_data s)), (src ++ [v]).
      split; [reflexivity|]. split; [|split; [|split; [|split; [|split; [|split]]]]]; simpl; auto.
      + split; [now rewrite length_list_set|]. split.
        * rewrite <- (rev_involutive (src ++ [v])). apply NoDup_rev. rewrite rev_app_distr. simpl.
          constructor; [rewrite <- in_rev; auto | now apply NoDup_rev].
        * intros v' n. destruct (Nat.eq_dec v v') as [<-|Hne].
          -- rewrite nth_error_list_set_eq by lia. split; intros HH.
             ++ injection HH as <-. rewrite <- HlenSrc. apply nth_error_app_last.
             ++ destruct (Nat.lt_ge_cases n (length src)).
                ** rewrite nth_error_app1 in HH by lia. exfalso. apply Hnin.
                   eapply nth_error_In; eauto.
                ** assert (n < length (src ++ [v])) by (apply nth_error_Some; congruence).
                   rewrite app_length in *. simpl in *. repeat f_equal. lia.
          -- rewrite nth_error_list_set_neq by auto. rewrite HM.
             destruct (Nat.lt_ge_cases n (length src)).
             ++ now rewrite nth_error_app1 by lia.
             ++ assert (nth_error src n = None) as -> by now apply nth_error_None.
                split; [discriminate|]. intros HH.
                rewrite nth_error_app2 in HH by lia.
                destruct (n - length src); simpl in HH; [congruence|].
                now destruct n0.
      + apply Forall2_app; auto.
      + rewrite <- HlenSrc. apply nth_error_app_last.
      + eauto.
  Qed.

  (** The part of the specification that is built up by the loop. *)
  Record einv (op : boolean_operator) (pf : bool) (pre : list nat)
      (st : list (option nat) * soup P D) : Prop := {
    ei_src : exists src, mapinv (fst st) src /\ src_ok src (points (snd st)) /\
               (forall n, n < length (points (snd st)) -> exists f, In f (faces (snd st)) /\ uses f n);
    ei_wf : wf_soup (snd st);
    ei_tris : tris (snd st) =
      flat_map (fun i => match nth_error (tris m) i with
                         | Some (t, md) =>
                             match required op pf (tag md) (from_left md) with
                             | Drop => []
                             | Keep => [(t, data md)]
                             | Reverse => [(option_map flip t, data md)]
                             end
                         | None => []
                         end) pre
  }.

  Lemma tri_of_ext : forall (pts tl : list P) f,
    face_in_range (length pts) f -> tri_of (pts ++ tl) f = tri_of pts f.
  Proof.
    intros pts tl [[a b] c] (Ha & Hb & Hc). simpl.
    now rewrite !nth_error_app1 by assumption.
  Qed.

  Lemma tris_ext : forall (pts tl : list P) fs (ds : list D),
    Forall (face_in_range (length pts)) fs ->
    tris (mk_soup (pts ++ tl) fs ds) = tris (mk_soup pts fs ds).
  Proof.
    intros pts tl fs ds H. unfold tris. simpl. f_equal.
    induction H; simpl; auto. f_equal; auto. now apply tri_of_ext.
  Qed.

  Lemma face_in_range_mono : forall n n' f, n <= n' -> face_in_range n f -> face_in_range n' f.
  Proof. intros n n' [[a b] c] H (?&?&?). repeat split; lia. Qed.

  Lemma tris_snoc : forall (pts : list P) fs (ds : list D) f d,
    length ds = length fs ->
    tris (mk_soup pts (fs ++ [f]) (ds ++ [d])) = tris (mk_soup pts fs ds) ++ [(tri_of pts f, d)].
  Proof.
    intros. unfold tris. simpl. rewrite map_app, combine_app; auto. now rewrite map_length.
  Qed.

  Local Arguments face_output : simpl never.
  Local Arguments map_vertex : simpl never.

  Lemma extract_step_spec : forall op pf pre i st,
    wf_mixed m -> i < num_faces m -> einv op pf pre st ->
    exists st', extract_step d0 m op pf st i = Ok st' /\ einv op pf (pre ++ [i]) st'.
  Proof.
    intros op pf pre i [mp s] (HLm & HRm) Hi [Hsrc (HwL & HwR) Htris].
    unfold num_faces in Hi.
    destruct (vec_at_lt _ (face_data m) i) as (fd & Efd); [lia|].
    destruct (vec_at_lt _ (faces m) i) as (f & Ef); [lia|].
    unfold extract_step, soup_data, soup_face. rewrite Efd. cbn [bind].
    assert (Hfd := proj1 (vec_at_ok _ _ _ _) Efd).
    assert (Hf := proj1 (vec_at_ok _ _ _ _) Ef).
    assert (Htri : nth_error (tris m) i = Some (tri_of (points m) f, fd)).
    { unfold tris. clear -Hfd Hf. revert Hfd Hf.
      generalize (face_data m) (faces m). intros ds fs. revert ds i.
      induction fs; intros ds i Hd Hf; destruct i; simpl in *; try discriminate; destruct ds; simpl in *; try discriminate.
      - congruence.
      - apply IHfs; auto. }
    assert (Hfr : face_in_range (num_vertices m) f).
    { eapply Forall_forall in HRm; [exact HRm|]. eapply nth_error_In; eauto. }
    assert (HO := face_output_correct op pf (tag fd) (from_left fd)).
    assert (HX := face_output_exclusive op pf (tag fd) (from_left fd)).
    destruct (face_output op pf (tag fd) (from_left fd)) as [oid oinv].
    destruct (negb oid && negb oinv) eqn:Eskip.
    - exists (mp, s). split; auto.
      apply andb_true_iff in Eskip. rewrite !negb_true_iff in Eskip. destruct Eskip; subst.
      simpl in HO.
      constructor; simpl; auto.
      + split; auto.
      + rewrite flat_map_app. simpl. rewrite Htri, <- HO. simpl. rewrite app_nil_r. exact Htris.
    - rewrite Ef. cbn [bind].
      destruct f as [[v0 v1] v2]. destruct Hfr as (H0 & H1 & H2).
      destruct Hsrc as (src & HM & HS & HU). simpl in HM, HS, HU, HwL, HwR, Htris.
      destruct (map_vertex_spec mp s src v0 HM HS H0)
        as (n0 & mp0 & s0 & src0 & E0 & HM0 & HS0 & HN0 & HA0 & HF0 & HD0 & (tl0 & HP0)).
      rewrite E0. cbn [bind].
      destruct (map_vertex_spec mp0 s0 src0 v1 HM0 HS0 H1)
        as (n1 & mp1 & s1 & src1 & E1 & HM1 & HS1 & HN1 & HA1 & HF1 & HD1 & (tl1 & HP1)).
      rewrite E1. cbn [bind].
      destruct (map_vertex_spec mp1 s1 src1 v2 HM1 HS1 H2)
        as (n2 & mp2 & s2 & src2 & E2 & HM2 & HS2 & HN2 & HA2 & HF2 & HD2 & (tl2 & HP2)).
      rewrite E2. cbn [bind].
      unfold set_data, vec_set. simpl.
      unfold num_faces. simpl. rewrite !app_length. simpl.
      assert (HfdE : face_data s2 = face_data s) by congruence.
      assert (HfE : faces s2 = faces s) by congruence.
      rewrite HfdE, HfE.
      replace (length (faces s) + 1 - 1) with (length (faces s)) by lia.
      rewrite HwL.
      destruct (Nat.ltb_spec (length (faces s)) (length (faces s) + 1)); [|lia]. simpl.
      rewrite <- HwL, list_set_app_last.
      assert (HpE : points s2 = points s ++ (tl0 ++ tl1 ++ tl2)).
      { rewrite HP2, HP1, HP0. now rewrite <- !app_assoc. }
      assert (Hsrc20 : nth_error src2 n0 = Some v0).
      { destruct HA1 as [-> | ->]; destruct HA2 as [-> | ->]; auto;
          repeat (rewrite nth_error_app1; [|apply nth_error_Some; rewrite ?nth_error_app1; try congruence]); auto;
          try (apply nth_error_Some; congruence). }
      assert (Hsrc21 : nth_error src2 n1 = Some v1).
      { destruct HA2 as [-> | ->]; auto. rewrite nth_error_app1; auto. apply nth_error_Some; congruence. }
      assert (Hlen2 : length src2 = length (points s2)) by (eapply Forall2_len; eauto).
      assert (B0 : n0 < length (points s2)) by (rewrite <- Hlen2; apply nth_error_Some; congruence).
      assert (B1 : n1 < length (points s2)) by (rewrite <- Hlen2; apply nth_error_Some; congruence).
      assert (B2 : n2 < length (points s2)) by (rewrite <- Hlen2; apply nth_error_Some; congruence).
      set (nf := if oinv then (n0, n2, n1) else (n0, n1, n2)).
      eexists. split; [reflexivity|].
      assert (Huse : uses nf n0 /\ uses nf n1 /\ uses nf n2).
      { unfold nf. destruct oinv; simpl; intuition. }
      destruct Huse as (U0 & U1 & U2).
      constructor; simpl.
      + exists src2. split; [exact HM2|]. split; [exact HS2|].
        intros n Hn.
        assert (Hcase : n < length (points s) \/ n = n0 \/ n = n1 \/ n = n2).
        { rewrite <- Hlen2 in Hn.
          assert (Hl : length src = length (points s)) by (eapply Forall2_len; eauto).
          destruct (nth_error src2 n) as [v|] eqn:Ev; [|apply nth_error_None in Ev; lia].
          assert (Heq : forall k, nth_error src2 k = Some v -> n = k).
          { intros k Hk. destruct HM2 as (_ & HND & _). eapply NoDup_nth_error; eauto. congruence. }
          destruct (Nat.lt_ge_cases n (length src)); [left; lia|right].
          assert (Hin : v = v0 \/ v = v1 \/ v = v2).
          { assert (Happ : exists ys, src2 = src ++ ys /\ (forall y, In y ys -> y = v0 \/ y = v1 \/ y = v2)).
            { destruct HA0 as [-> | ->]; destruct HA1 as [-> | ->]; destruct HA2 as [-> | ->];
                rewrite <- ?app_assoc; simpl;
                first [ exists []; rewrite app_nil_r; split; [reflexivity|simpl; tauto]
                      | eexists; split; [reflexivity|simpl; intuition] ]. }
            destruct Happ as (ys & Eys & Hys). rewrite Eys in Ev.
            rewrite nth_error_app2 in Ev by lia. apply nth_error_In in Ev. auto. }
          destruct Hin as [-> | [-> | ->]]; auto. }
        destruct Hcase as [Hc | [-> | [-> | ->]]].
        * destruct (HU n Hc) as (g & Hg & Hug). exists g. split; auto. apply in_or_app; auto.
        * exists nf. split; auto. apply in_or_app; simpl; auto.
        * exists nf. split; auto. apply in_or_app; simpl; auto.
        * exists nf. split; auto. apply in_or_app; simpl; auto.
      + split; simpl.
        * rewrite !app_length. simpl. lia.
        * apply Forall_app. split.
          -- eapply Forall_impl; [|exact HwR]. intros g. apply face_in_range_mono.
             rewrite HpE, app_length. lia.
          -- repeat constructor. unfold nf. destruct oinv; simpl; auto.
      + rewrite tris_snoc by auto. rewrite HpE, tris_ext by auto.
        rewrite flat_map_app. simpl. rewrite Htri. rewrite <- HO.
        assert (E : tris {| points := points s; faces := faces s; face_data := face_data s |} = tris s) by reflexivity.
        rewrite E, Htris. f_equal.
        rewrite <- HpE.
        assert (T0 : nth_error (points s2) n0 = nth_error (points m) v0) by (eapply src_ok_nth; eauto).
        assert (T1 : nth_error (points s2) n1 = nth_error (points m) v1) by (eapply src_ok_nth; eauto).
        assert (T2 : nth_error (points s2) n2 = nth_error (points m) v2) by (eapply src_ok_nth; eauto).
        unfold nf. destruct oid, oinv; try discriminate; simpl in *; try congruence;
          rewrite T0, T1, T2; destruct (nth_error (points m) v0), (nth_error (points m) v1), (nth_error (points m) v2); reflexivity.
  Qed.

  Lemma flat_map_nth_error_seq : forall A B (l : list A) (g : A -> list B),
    flat_map (fun i => match nth_error l i with Some x => g x | None => [] end) (seq 0 (length l))
    = flat_map g l.
  Proof.
    intros. induction l using rev_ind; auto.
    rewrite app_length. simpl. rewrite Nat.add_1_r, seq_S. simpl.
    rewrite !flat_map_app. simpl. rewrite nth_error_app_last. f_equal.
    rewrite <- IHl. rewrite !flat_map_concat_map. f_equal. apply map_ext_in.
    intros i Hi. apply in_seq in Hi. now rewrite nth_error_app1 by lia.
  Qed.

  Lemma extract_correct : forall op pf,
    wf_mixed m ->
    exists s, extract d0 m op pf = Ok s /\
      wf_soup s /\
      tris s = required_tris op pf m /\
      (forall v, v < length (points s) -> exists f, In f (faces s) /\ uses f v) /\
      (exists src, NoDup src /\ src_ok src (points s)).
  Proof.
    intros op pf Hwf. unfold extract.
    destruct (foldM_inv _ _ (extract_step d0 m op pf) (einv op pf) (seq 0 (num_faces m))
                (repeat None (num_vertices m), empty_soup)) as (st & E & HI).
    - constructor; simpl; auto.
      + exists []. split; [|split].
        * split; [apply repeat_length|]. split; [constructor|].
          intros v n. split; intros HH.
          -- exfalso. apply nth_error_In in HH. apply repeat_spec in HH. discriminate.
          -- destruct n; discriminate.
        * constructor.
        * simpl. lia.
      + split; simpl; auto.
    - intros pre x post st Esplit HI. apply extract_step_spec; auto.
      assert (In x (seq 0 (num_faces m))) as Hin by (rewrite Esplit; apply in_or_app; simpl; auto).
      apply in_seq in Hin. lia.
    - rewrite E. simpl. destruct HI as [(src & HM & HS & HU) HW HT].
      exists (snd st). split; auto. split; auto. split; [|split; auto].
      + rewrite HT. unfold required_tris. rewrite <- (flat_map_nth_error_seq _ _ (tris m)).
        replace (length (tris m)) with (num_faces m).
        * reflexivity.
        * unfold tris, num_faces. destruct Hwf as (HL & _). rewrite combine_length, map_length. lia.
      + destruct HM as (_ & HN & _). eauto.
  Qed.
End E.
