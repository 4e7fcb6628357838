From Coq Require Import List Arith Bool Lia NArith.
From Verif Require Import Model_base Model_soup Model_boolean Spec_boolean Proof_base Proof_extract Proof_builder.
Import ListNotations.

Section S.
  Context {P D : Type}.
  Variable d0 : D.

  Lemma required_tris_const : forall op pf (b : soup P D) l t,
    required_tris op pf (mk_soup (points b) (faces b) (map (mk_mixed l t) (face_data b))) =
    match required op pf t l with
    | Drop => []
    | Keep => tris b
    | Reverse => map flip_td (tris b)
    end.
  Proof.
    intros. unfold required_tris, tris. simpl.
    generalize (map (tri_of (points b)) (faces b)) (face_data b).
    intros ts ds. revert ds. induction ts; intros ds; simpl.
    - now destruct (required op pf t l).
    - destruct ds; simpl.
      + now destruct (required op pf t l).
      + rewrite IHts. destruct (required op pf t l); simpl; auto.
  Qed.

  Lemma wf_soup_mapped : forall (b : soup P D) l t,
    wf_soup b -> wf_soup (mk_soup (points b) (faces b) (map (mk_mixed l t) (face_data b))).
  Proof. intros b l t (H1 & H2). split; simpl; auto. now rewrite map_length. Qed.

  (** One constant operand, the other boundary-defined: common core. *)
  Lemma run_const : forall (b : soup P D) (l : bool) (t : face_tag) op pf k1 k2 w (f : bool -> bool),
    wf_soup b -> faces b <> [] ->
    t = EXTERIOR \/ t = INTERIOR ->
    (f = fun x : bool => member op (if l then (x, match t with EXTERIOR => false | _ => true end)
                             else (match t with EXTERIOR => false | _ => true end, x))) ->
    (k1, k2) = (if l then (BOUNDARY_DEFINED, match t with EXTERIOR => EMPTY | _ => FULL end)
                else (match t with EXTERIOR => EMPTY | _ => FULL end, BOUNDARY_DEFINED)) ->
    exists r', run d0 (mk_builder k1 k2 (mk_soup (points b) (faces b) (map (mk_mixed l t) (face_data b))) w) op pf = Ok r' /\
      is_image f (mk_region BOUNDARY_DEFINED b) r'.
  Proof.
    intros b l t op pf k1 k2 w f Hwf Hne Ht Hf Hk.
    set (m := mk_soup (points b) (faces b) (map (mk_mixed l t) (face_data b))).
    destruct (extract_correct d0 m op pf (wf_soup_mapped b l t Hwf)) as (s & E & Hws & HT & _).
    unfold run. cbn [mixed first_kind second_kind]. fold m. rewrite E. cbn [bind].
    unfold m in HT. rewrite required_tris_const in HT.
    assert (Hlen := length_tris _ _ s Hws). rewrite HT in Hlen.
    assert (Hlb := length_tris _ _ b Hwf).
    assert (Hnb : num_faces b <> 0).
    { unfold num_faces. intro Q. apply Hne. now apply length_zero_iff_nil. }
    assert (HR : required op pf t l =
       match f true, f false with true, false => Keep | false, true => Reverse | _, _ => Drop end).
    { subst f. destruct Ht as [-> | ->]; destruct l; unfold required; simpl; reflexivity. }
    rewrite HR in HT, Hlen. unfold is_image.
    destruct (f true) eqn:F1, (f false) eqn:F0.
    - rewrite <- Hlen. simpl.
      destruct Ht as [-> | ->]; destruct l; injection Hk as -> ->; simpl;
        eexists; (split; [reflexivity|]); rewrite apply_member; simpl;
        subst f; simpl in F1, F0; rewrite ?F1, ?F0; reflexivity.
    - rewrite <- Hlen, Hlb. destruct (Nat.eqb_spec (num_faces b) 0); [lia|]. cbn [negb].
      unfold region_of_soup. rewrite <- Hlen, Hlb. destruct (Nat.eqb_spec (num_faces b) 0); [lia|].
      eexists. split; [reflexivity|]. simpl. split; auto. split; auto.
      unfold wf_region. simpl. split; auto. intro Q. unfold num_faces in Hlen. rewrite Q in Hlen. simpl in Hlen. lia.
    - rewrite <- Hlen. rewrite map_length, Hlb in *. destruct (Nat.eqb_spec (num_faces b) 0); [lia|]. cbn [negb].
      unfold region_of_soup. rewrite <- Hlen. destruct (Nat.eqb_spec (num_faces b) 0); [lia|].
      eexists. split; [reflexivity|]. simpl. split; auto. split; auto.
      unfold wf_region. simpl. split; auto. intro Q. unfold num_faces in Hlen. rewrite Q in Hlen. simpl in Hlen. unfold num_faces in Hnb. lia.
    - rewrite <- Hlen. simpl.
      destruct Ht as [-> | ->]; destruct l; injection Hk as -> ->; simpl;
        eexists; (split; [reflexivity|]); rewrite apply_member; simpl;
        subst f; simpl in F1, F0; rewrite ?F1, ?F0; reflexivity.
  Qed.

  Lemma special_both : forall mix (a b : region P D) va vb op pf,
    constant_of a = Some va -> constant_of b = Some vb ->
    exists bd, build mix a b = Ok bd /\ warnings bd = 0%N /\
      run d0 bd op pf = Ok (special (member op (va, vb))).
  Proof.
    intros mix [ka ba] [kb bb] va vb op pf Ha Hb. unfold constant_of in *. simpl in *.
    destruct ka, kb; try discriminate; injection Ha as <-; injection Hb as <-;
      unfold build; simpl; eexists; (split; [reflexivity|]); (split; [reflexivity|]);
      unfold run; simpl; rewrite apply_member; reflexivity.
  Qed.

  Lemma special_left : forall mix (a b : region P D) va op pf,
    wf_region a -> wf_region b -> constant_of a = Some va -> constant_of b = None ->
    exists bd r', build mix a b = Ok bd /\ warnings bd = 0%N /\ run d0 bd op pf = Ok r' /\
      is_image (fun x => member op (va, x)) b r'.
  Proof.
    intros mix [ka ba] [kb bb] va op pf Wa Wb Ha Hb. unfold constant_of, wf_region in *. simpl in *.
    destruct kb; try discriminate. destruct Wb as (Wb & Nb).
    destruct ka; try discriminate; subst ba; injection Ha as <-.
    - destruct (run_const bb false EXTERIOR op pf EMPTY BOUNDARY_DEFINED 0%N (fun x => member op (false, x)))
        as (r' & E & HI); auto.
      unfold build; simpl. eexists; exists r'. split; [reflexivity|]. split; [reflexivity|]. split; auto.
    - destruct (run_const bb false INTERIOR op pf FULL BOUNDARY_DEFINED 0%N (fun x => member op (true, x)))
        as (r' & E & HI); auto.
      unfold build; simpl. eexists; exists r'. split; [reflexivity|]. split; [reflexivity|]. split; auto.
  Qed.

  Lemma special_right : forall mix (a b : region P D) vb op pf,
    wf_region a -> wf_region b -> constant_of a = None -> constant_of b = Some vb ->
    exists bd r', build mix a b = Ok bd /\ warnings bd = 0%N /\ run d0 bd op pf = Ok r' /\
      is_image (fun x => member op (x, vb)) a r'.
  Proof.
    intros mix [ka ba] [kb bb] vb op pf Wa Wb Ha Hb. unfold constant_of, wf_region in *. simpl in *.
    destruct ka; try discriminate. destruct Wa as (Wa & Na).
    destruct kb; try discriminate; subst bb; injection Hb as <-.
    - destruct (run_const ba true EXTERIOR op pf BOUNDARY_DEFINED EMPTY 0%N (fun x => member op (x, false)))
        as (r' & E & HI); auto.
      unfold build; simpl. rewrite !app_nil_r. eexists; exists r'. split; [reflexivity|]. split; [reflexivity|]. split; auto.
    - destruct (run_const ba true INTERIOR op pf BOUNDARY_DEFINED FULL 0%N (fun x => member op (x, true)))
        as (r' & E & HI); auto.
      unfold build; simpl. rewrite !app_nil_r. eexists; exists r'. split; [reflexivity|]. split; [reflexivity|]. split; auto.
  Qed.

  (** *** C05: laws *)

  Lemma complementary_fun : forall op op' op'', complementary op op' -> complementary op op'' -> op' = op''.
  Proof.
    intros op op' op'' H1 H2.
    pose proof (H1 (true,true)) as A1; pose proof (H1 (true,false)) as A2;
    pose proof (H1 (false,true)) as A3; pose proof (H1 (false,false)) as A4.
    rewrite <- H2 in A1, A2, A3, A4.
    clear H1 H2 op.
    destruct op', op''; try reflexivity; vm_compute in A1, A2, A3, A4; discriminate.
  Qed.

  Lemma required_compl : forall op op' pf t l, complementary op op' ->
    required op' pf t l = match required op pf t l with Drop => Drop | Keep => Reverse | Reverse => Keep end.
  Proof.
    intros op op' pf t l H. unfold required.
    destruct (side l t true), (side l t false); auto.
    destruct (match t with COPLANAR | OPPOSITE => eqb l pf | _ => true end); auto.
    rewrite !H. destruct (member op p), (member op p0); reflexivity.
  Qed.

  Lemma flip_flip : forall (t : option (P * P * P)), option_map flip (option_map flip t) = t.
  Proof. intros [[[a b] c]|]; reflexivity. Qed.

  Lemma required_tris_compl : forall op op' pf (m : soup P (mixed_data D)), complementary op op' ->
    required_tris op' pf m = map flip_td (required_tris op pf m).
  Proof.
    intros op op' pf m H. unfold required_tris. generalize (tris m). induction l as [|[t md] l IH]; simpl; auto.
    rewrite (required_compl op op') by auto. rewrite map_app, <- IH.
    destruct (required op pf (tag md) (from_left md)); simpl; auto.
    unfold flip_td. simpl. now rewrite flip_flip.
  Qed.

  Lemma run_cases : forall (bd : @builder P D) op pf, wf_mixed (mixed bd) ->
    exists s, extract d0 (mixed bd) op pf = Ok s /\ wf_soup s /\ tris s = required_tris op pf (mixed bd) /\
      ((required_tris op pf (mixed bd) <> [] /\ run d0 bd op pf = Ok (mk_region BOUNDARY_DEFINED s)) \/
       (required_tris op pf (mixed bd) = [] /\
        run d0 bd op pf =
          if region_kind_eqb (first_kind bd) EMPTY || region_kind_eqb (second_kind bd) EMPTY then
            Ok (special (apply op (negb (region_kind_eqb (first_kind bd) EMPTY))
                                  (negb (region_kind_eqb (second_kind bd) EMPTY))))
          else if region_kind_eqb (first_kind bd) FULL || region_kind_eqb (second_kind bd) FULL then
            Ok (special (apply op (region_kind_eqb (first_kind bd) FULL)
                                  (region_kind_eqb (second_kind bd) FULL)))
          else
            match op with
            | opV | opA | opB | opC | opD => Ok region_full
            | opK | opL | opM | opX | opO => Ok region_empty
            | opE | opJ =>
                if forallb (fun md => face_tag_eqb (tag md) COPLANAR) (face_data (mixed bd)) then Ok (special (apply op false false))
                else if forallb (fun md => face_tag_eqb (tag md) OPPOSITE) (face_data (mixed bd)) then Ok (special (apply op false true))
                else Throw RuntimeError
            | opF | opG | opH | opI => Throw RuntimeError
            end)).
  Proof.
    intros bd op pf Hwf.
    destruct (extract_correct d0 (mixed bd) op pf Hwf) as (s & E & Hws & HT & _).
    exists s. split; auto. split; auto. split; auto.
    assert (Hlen := length_tris _ _ s Hws). rewrite HT in Hlen.
    unfold run. rewrite E. cbn [bind].
    destruct (Nat.eqb_spec (num_faces s) 0) as [Hz|Hnz]; cbn [negb].
    - right. split; [apply length_zero_iff_nil; lia|].
      rewrite !all_tags_spec by auto. reflexivity.
    - left. split.
      + intro Q. rewrite Q in Hlen. simpl in Hlen. lia.
      + unfold region_of_soup. destruct (Nat.eqb_spec (num_faces s) 0); [lia|auto].
  Qed.

  Lemma complement_law : forall (bd : @builder P D) op op' pf, wf_mixed (mixed bd) -> complementary op op' ->
    match run d0 bd op pf with
    | Ok r => exists r', run d0 bd op' pf = Ok r' /\ opposite_region r r'
    | Throw e => run d0 bd op' pf = Throw e
    | UB => False
    end.
  Proof.
    intros bd op op' pf Hwf Hc.
    destruct (run_cases bd op pf Hwf) as (s & E & Ws & T & C).
    destruct (run_cases bd op' pf Hwf) as (s' & E' & Ws' & T' & C').
    rewrite (required_tris_compl op op') in T', C' by auto.
    destruct C as [(Hn & ->)|(Hz & ->)].
    - destruct C' as [(_ & ->)|(Hz' & _)].
      + eexists. split; [reflexivity|]. unfold opposite_region. cbn [kind boundary]. split; auto. congruence.
      + exfalso. apply Hn. destruct (required_tris op pf (mixed bd)); auto. discriminate.
    - rewrite Hz in C'. destruct C' as [(Hn' & _)|(_ & ->)]; [exfalso; apply Hn'; reflexivity|].
      assert (HA : forall a b, apply op' a b = negb (apply op a b)).
      { intros. rewrite !apply_member. apply Hc. }
      assert (HS : forall a b, opposite_region (@special P D (apply op a b)) (special (apply op' a b))).
      { intros. rewrite HA. destruct (apply op a b); reflexivity. }
      destruct (region_kind_eqb (first_kind bd) EMPTY || region_kind_eqb (second_kind bd) EMPTY); [eauto|].
      destruct (region_kind_eqb (first_kind bd) FULL || region_kind_eqb (second_kind bd) FULL); [eauto|].
      assert (Hop : op' = match op with
        | opV => opO | opO => opV | opA => opX | opX => opA | opB => opM | opM => opB
        | opC => opL | opL => opC | opD => opK | opK => opD | opE => opJ | opJ => opE
        | opF => opI | opI => opF | opG => opH | opH => opG end).
      { eapply complementary_fun; [exact Hc|]. intros [[] []]; destruct op; reflexivity. }
      destruct op; subst op';
        try (eexists; split; [reflexivity|reflexivity]); try reflexivity;
        (destruct (forallb (fun md => face_tag_eqb (tag md) COPLANAR) (face_data (mixed bd)));
         [eexists; split; [reflexivity|reflexivity]|];
         destruct (forallb (fun md => face_tag_eqb (tag md) OPPOSITE) (face_data (mixed bd)));
         [eexists; split; [reflexivity|reflexivity]|reflexivity]).
  Qed.

  Lemma required_mirror : forall op op' pf t l, mirrored op op' ->
    required op' (negb pf) t (negb l) = required op pf t l.
  Proof.
    intros op op' pf t l H.
    destruct l, pf, t; unfold required, side, in_other; simpl; auto; rewrite ?H; reflexivity.
  Qed.

  Lemma mirrored_fun : forall op op' op'', mirrored op op' -> mirrored op op'' -> op' = op''.
  Proof.
    intros op op' op'' H1 H2.
    pose proof (H1 true true) as A1; pose proof (H1 true false) as A2;
    pose proof (H1 false true) as A3; pose proof (H1 false false) as A4.
    rewrite <- H2 in A1, A2, A3, A4.
    clear H1 H2 op.
    destruct op', op''; try reflexivity; vm_compute in A1, A2, A3, A4; discriminate.
  Qed.

  Lemma tris_swap : forall (m : soup P (mixed_data D)),
    tris (mk_soup (points m) (faces m) (map swap_data (face_data m))) =
    map (fun x => (fst x, swap_data (snd x))) (tris m).
  Proof.
    intros. unfold tris. simpl. generalize (map (tri_of (points m)) (faces m)) (face_data m).
    induction l; intros l0; destruct l0; simpl; auto. now rewrite IHl.
  Qed.

  Lemma swap_law : forall (bd : @builder P D) op op' pf, wf_mixed (mixed bd) -> mirrored op op' ->
    match run d0 bd op pf with
    | Ok r => exists r', run d0 (swap_operands bd) op' (negb pf) = Ok r' /\ same_region r r'
    | Throw e => run d0 (swap_operands bd) op' (negb pf) = Throw e
    | UB => False
    end.
  Proof.
    intros bd op op' pf Hwf Hm.
    assert (Hwf' : wf_mixed (mixed (swap_operands bd))).
    { destruct Hwf as (H1 & H2). split; simpl; auto. now rewrite map_length. }
    destruct (run_cases bd op pf Hwf) as (s & E & Ws & T & C).
    destruct (run_cases (swap_operands bd) op' (negb pf) Hwf') as (s' & E' & Ws' & T' & C').
    assert (RT : required_tris op' (negb pf) (mixed (swap_operands bd)) = required_tris op pf (mixed bd)).
    { unfold required_tris, swap_operands. cbn [mixed]. rewrite tris_swap.
      generalize (tris (mixed bd)). induction l as [|[t md] l IH]; cbn [map flat_map]; auto.
      rewrite IH. cbn [fst snd swap_data tag from_left data].
      now rewrite (required_mirror op op') by auto. }
    rewrite RT in *.
    destruct C as [(Hn & ->)|(Hz & ->)].
    - destruct C' as [(_ & ->)|(Hz' & _)]; [|contradiction].
      eexists. split; [reflexivity|]. split; simpl; auto. congruence.
    - destruct C' as [(Hn' & _)|(_ & ->)]; [contradiction|].
      cbn [swap_operands first_kind second_kind mixed face_data].
      assert (HA : forall a b, apply op' a b = apply op b a).
      { intros. rewrite !apply_member. apply Hm. }
      rewrite (orb_comm (region_kind_eqb (second_kind bd) EMPTY)), (orb_comm (region_kind_eqb (second_kind bd) FULL)).
      rewrite !HA.
      assert (HR : forall x : region P D, same_region x x) by (intros; split; reflexivity).
      destruct (region_kind_eqb (first_kind bd) EMPTY || region_kind_eqb (second_kind bd) EMPTY); [eauto|].
      destruct (region_kind_eqb (first_kind bd) FULL || region_kind_eqb (second_kind bd) FULL); [eauto|].
      assert (HF : forall t, forallb (fun md => face_tag_eqb (tag md) t) (map swap_data (face_data (mixed bd)))
                        = forallb (fun md : mixed_data D => face_tag_eqb (tag md) t) (face_data (mixed bd))).
      { intros t. generalize (face_data (mixed bd)). induction l; simpl; auto. now rewrite IHl. }
      rewrite !HF.
      assert (Hop : op' = match op with
        | opB => opC | opC => opB | opF => opG | opG => opF | opH => opI | opI => opH
        | opL => opM | opM => opL | o => o end).
      { eapply mirrored_fun; [exact Hm|]. intros [] []; destruct op; reflexivity. }
      destruct op; subst op';
        try (eexists; split; [reflexivity|apply HR]); try reflexivity;
        (destruct (forallb (fun md => face_tag_eqb (tag md) COPLANAR) (face_data (mixed bd)));
         [eexists; split; [reflexivity|split; reflexivity]|];
         destruct (forallb (fun md => face_tag_eqb (tag md) OPPOSITE) (face_data (mixed bd)));
         [eexists; split; [reflexivity|split; reflexivity]|reflexivity]).
  Qed.

  (** Which results are special does not depend on the preference, provided
      overlapping faces come in pairs. *)
  Lemma prefer_law : forall (bd : @builder P D) op pf, wf_mixed (mixed bd) ->
    (forall t, t = COPLANAR \/ t = OPPOSITE ->
       forall l, (exists md, In md (face_data (mixed bd)) /\ tag md = t /\ from_left md = l) ->
                 (exists md, In md (face_data (mixed bd)) /\ tag md = t /\ from_left md = negb l)) ->
    match run d0 bd op pf with
    | Ok r => exists r', run d0 bd op (negb pf) = Ok r' /\ kind r' = kind r /\
                (kind r <> BOUNDARY_DEFINED -> r' = r)
    | Throw e => run d0 bd op (negb pf) = Throw e
    | UB => False
    end.
  Proof.
    intros bd op pf Hwf Hp.
    destruct (run_cases bd op pf Hwf) as (s & E & Ws & T & C).
    destruct (run_cases bd op (negb pf) Hwf) as (s' & E' & Ws' & T' & C').
    assert (Hone : forall pf, required_tris op pf (mixed bd) = [] <->
       Forall (fun md => required op pf (tag md) (from_left md) = Drop) (face_data (mixed bd))).
    { intros pf0. destruct Hwf as (HL & _). unfold required_tris, tris.
      assert (HL' : length (map (tri_of (points (mixed bd))) (faces (mixed bd))) = length (face_data (mixed bd)))
        by (rewrite map_length; lia).
      revert HL'. generalize (map (tri_of (points (mixed bd))) (faces (mixed bd))) (face_data (mixed bd)).
      induction l; intros ds HLL; destruct ds; simpl in *; try discriminate.
      - split; auto.
      - rewrite (Forall_cons_iff), <- IHl by lia.
        destruct (required op pf0 (tag m) (from_left m)); simpl; split; intros; try discriminate; auto.
        destruct H; auto. all: destruct H; discriminate. }
    assert (Himp : forall pf, required_tris op pf (mixed bd) = [] -> required_tris op (negb pf) (mixed bd) = []).
    { intros pf0 H. apply Hone. apply Hone in H. rewrite Forall_forall in *.
      intros md Hmd. specialize (H md Hmd) as Hd.
      destruct (tag md) eqn:Et.
      1,2,3: exact Hd.
      - destruct (bool_dec (from_left md) (negb pf0)) as [Ef|Ef].
        + destruct (Hp COPLANAR (or_introl eq_refl) (from_left md)) as (md' & Hin & Ht & Hl); [eauto|].
          specialize (H md' Hin). rewrite Ht, Hl in H. rewrite Ef in *. clear -H.
          destruct op, pf0; vm_compute in H |- *; congruence.
        + unfold required. simpl. destruct (eqb (from_left md) (negb pf0)) eqn:Q; auto.
          apply eqb_prop in Q. contradiction.
      - destruct (bool_dec (from_left md) (negb pf0)) as [Ef|Ef].
        + destruct (Hp OPPOSITE (or_intror eq_refl) (from_left md)) as (md' & Hin & Ht & Hl); [eauto|].
          specialize (H md' Hin). rewrite Ht, Hl in H. rewrite Ef in *. clear -H.
          destruct op, pf0; vm_compute in H |- *; congruence.
        + unfold required. simpl. destruct (eqb (from_left md) (negb pf0)) eqn:Q; auto.
          apply eqb_prop in Q. contradiction. }
    destruct C as [(Hn & ->)|(Hz & ->)].
    - destruct C' as [(_ & ->)|(Hz' & _)].
      + eexists. split; [reflexivity|]. simpl. split; auto. congruence.
      + apply Himp in Hz'. rewrite negb_involutive in Hz'. contradiction.
    - destruct C' as [(Hn' & _)|(_ & ->)]; [exfalso; apply Hn', Himp; auto|].
      match goal with |- match ?x with _ => _ end => destruct x eqn:Q end; auto.
      + eexists; split; [reflexivity|]. auto.
      + repeat match type of Q with context [if ?c then _ else _] => destruct c end; try discriminate;
          destruct op; repeat match type of Q with context [if ?c then _ else _] => destruct c end; discriminate.
  Qed.
End S.
