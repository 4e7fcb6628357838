From Coq Require Import List Arith Bool Lia Sorted.
From Verif Require Import Model_base Model_soup Model_boolean Spec_boolean Proof_base Proof_extract.
Import ListNotations.

Lemma apply_member : forall op a b, apply op a b = member op (a, b).
Proof. intros [] [] []; reflexivity. Qed.

Lemma inR_member : forall C (inA inB : C -> bool) op c, inR inA inB op c = member op (inA c, inB c).
Proof. intros C inA inB [] c; reflexivity. Qed.

Lemma length_tris : forall P D (s : soup P D), wf_soup s -> length (tris s) = num_faces s.
Proof. intros P D s (H & _). unfold tris, num_faces. rewrite combine_length, map_length. lia. Qed.

Lemma nth_error_combine : forall A B (la : list A) (lb : list B) i a b,
  nth_error la i = Some a -> nth_error lb i = Some b -> nth_error (combine la lb) i = Some (a, b).
Proof.
  induction la; intros lb i x y H1 H2; destruct i; simpl in *; try discriminate; destruct lb; simpl in *; try discriminate.
  - congruence.
  - auto.
Qed.

Lemma nth_error_combine_inv : forall A B (la : list A) (lb : list B) i a b,
  nth_error (combine la lb) i = Some (a, b) -> nth_error la i = Some a /\ nth_error lb i = Some b.
Proof.
  induction la; intros lb i x y H; destruct i, lb; simpl in *; try discriminate.
  - injection H; intros; subst; auto.
  - auto.
Qed.

Lemma nth_error_tris : forall P D (s : soup P D) i d, wf_soup s ->
  nth_error (face_data s) i = Some d -> exists t, nth_error (tris s) i = Some (t, d).
Proof.
  intros P D s i d (HL & _) Hd.
  assert (i < length (faces s)) by (rewrite <- HL; apply nth_error_Some; congruence).
  destruct (nth_error (faces s) i) as [f|] eqn:Ef; [|apply nth_error_None in Ef; lia].
  exists (tri_of (points s) f). apply nth_error_combine; auto. now apply map_nth_error.
Qed.

Lemma nth_error_tris_inv : forall P D (s : soup P D) i t d,
  nth_error (tris s) i = Some (t, d) -> nth_error (face_data s) i = Some d.
Proof. intros. eapply nth_error_combine_inv; eauto. Qed.

Lemma all_tags_spec : forall P D (m : soup P (mixed_data D)) t,
  wf_soup m -> all_tags m t = Ok (forallb (fun md => face_tag_eqb (tag md) t) (face_data m)).
Proof.
  intros P D m t (HL & _). unfold all_tags, num_faces. rewrite <- HL.
  assert (G : forall pre suf acc, face_data m = pre ++ suf ->
    foldM (fun acc fi => if (acc : bool) then let* fd := soup_data m fi in Ok (face_tag_eqb (tag fd) t) else Ok false)
      acc (seq (length pre) (length suf)) = Ok (acc && forallb (fun md => face_tag_eqb (tag md) t) suf)).
  { intros pre suf. revert pre. induction suf; intros pre acc E; simpl.
    - now rewrite andb_true_r.
    - assert (En : nth_error (face_data m) (length pre) = Some a).
      { rewrite E, nth_error_app2 by lia. now rewrite Nat.sub_diag. }
      destruct acc; simpl.
      + unfold soup_data, vec_at. rewrite En. simpl.
        specialize (IHsuf (pre ++ [a]) (face_tag_eqb (tag a) t)).
        rewrite app_length in IHsuf. simpl in IHsuf. rewrite Nat.add_1_r in IHsuf.
        apply IHsuf. rewrite <- app_assoc. auto.
      + specialize (IHsuf (pre ++ [a]) false).
        rewrite app_length in IHsuf. simpl in IHsuf. rewrite Nat.add_1_r in IHsuf.
        apply IHsuf. rewrite <- app_assoc. auto. }
  apply (G [] (face_data m) true); auto.
Qed.

Lemma face_tag_eqb_eq : forall a b, face_tag_eqb a b = true <-> a = b.
Proof. intros [] []; simpl; split; intros; congruence. Qed.

(** *** The faces of the mixed mesh that make up the result *)
Section Picked.
  Context {P D : Type}.
  Variable m : soup P (mixed_data D).
  Hypothesis WF : wf_mixed m.

  Definition picked (op : boolean_operator) (pf : bool) : list (nat * bool) :=
    flat_map (fun i => match nth_error (face_data m) i with
                       | Some md => match required op pf (tag md) (from_left md) with
                                    | Drop => [] | Keep => [(i, false)] | Reverse => [(i, true)] end
                       | None => [] end) (seq 0 (length (tris m))).

  Lemma in_picked : forall op pf i rv, In (i, rv) (picked op pf) <->
    exists md, nth_error (face_data m) i = Some md /\
      required op pf (tag md) (from_left md) = if rv then Reverse else Keep.
  Proof.
    intros. unfold picked. rewrite in_flat_map. split.
    - intros (k & Hk & Hin). destruct (nth_error (face_data m) k) as [md|] eqn:E; [|contradiction].
      destruct (required op pf (tag md) (from_left md)) eqn:R; simpl in Hin; try contradiction;
        destruct Hin as [Hin|[]]; injection Hin; intros; subst; eauto.
    - intros (md & E & R). exists i. split.
      + apply in_seq. destruct (nth_error_tris _ _ m i md WF E) as (t & Ht).
        assert (i < length (tris m)) by (apply nth_error_Some; congruence). lia.
      + rewrite E, R. destruct rv; simpl; auto.
  Qed.

  Lemma picked_sorted : forall op pf, StronglySorted lt (map fst (picked op pf)).
  Proof.
    intros. unfold picked.
    assert (G : forall n s, StronglySorted lt (map fst (flat_map (fun i => match nth_error (face_data m) i with
                       | Some md => match required op pf (tag md) (from_left md) with
                                    | Drop => [] | Keep => [(i, false)] | Reverse => [(i, true)] end
                       | None => [] end) (seq s n)))
             /\ Forall (fun k => s <= k) (map fst (flat_map (fun i => match nth_error (face_data m) i with
                       | Some md => match required op pf (tag md) (from_left md) with
                                    | Drop => [] | Keep => [(i, false)] | Reverse => [(i, true)] end
                       | None => [] end) (seq s n)))).
    { induction n; intros s; simpl.
      - split; constructor.
      - destruct (IHn (S s)) as (A & B).
        assert (B' := Forall_impl (fun k => s <= k) (fun k (H : S s <= k) => Nat.le_trans _ _ _ (Nat.le_succ_diag_r s) H) B).
        destruct (nth_error (face_data m) s) as [md|]; simpl; auto.
        destruct (required op pf (tag md) (from_left md)); simpl; auto.
        + split; constructor; auto. 
        + split; constructor; auto. }
    apply G.
  Qed.

  Lemma consists_picked : forall op pf (s : soup P D),
    tris s = required_tris op pf m -> consists_of m s (picked op pf).
  Proof.
    intros op pf s E. unfold consists_of. rewrite E. unfold required_tris, picked.
    rewrite <- (flat_map_nth_error_seq _ _ (tris m)).
    assert (G : forall l, Forall (fun i => i < length (tris m)) l ->
      Forall2 (fun (ir : nat * bool) td => exists t md, nth_error (tris m) (fst ir) = Some (t, md) /\
                 td = (if snd ir then option_map flip t else t, data md))
       (flat_map (fun i => match nth_error (face_data m) i with
                       | Some md => match required op pf (tag md) (from_left md) with
                                    | Drop => [] | Keep => [(i, false)] | Reverse => [(i, true)] end
                       | None => [] end) l)
       (flat_map (fun i => match nth_error (tris m) i with
           | Some x => (let '(t, md) := x in match required op pf (tag md) (from_left md) with
              | Drop => [] | Keep => [(t, data md)] | Reverse => [(option_map flip t, data md)] end)
           | None => [] end) l)).
    { induction 1 as [|i l Hi HF IH]; simpl; auto.
      destruct (nth_error (tris m) i) as [[t md]|] eqn:Et; [|apply nth_error_None in Et; lia].
      rewrite (nth_error_tris_inv _ _ _ _ _ _ Et).
      destruct (required op pf (tag md) (from_left md)); simpl; auto;
        constructor; auto; exists t, md; auto. }
    apply G. apply Forall_forall. intros i Hi. apply in_seq in Hi. lia.
  Qed.
End Picked.

(** *** C03 *)
Section Arr.
  Context {P D C : Type}.
  Variable d0 : D.
  Variables (m : soup P (mixed_data D)) (inA inB : C -> bool) (neg pos : nat -> C).
  Hypothesis ARR : arrangement m inA inB neg pos.

  Lemma sides_of_face : forall i md, nth_error (face_data m) i = Some md ->
    side (from_left md) (tag md) true = Some (inA (neg i), inB (neg i)) /\
    side (from_left md) (tag md) false = Some (inA (pos i), inB (pos i)).
  Proof.
    intros i md H. destruct (arr_faces _ _ _ _ _ ARR i md H) as (H1 & H2 & H3).
    unfold own, other in *. unfold side, in_other, in_own.
    destruct (from_left md), (tag md); try contradiction; destruct H3; simpl in *; split; congruence.
  Qed.

  Local Notation selected := (picked m).
  Local Notation in_selected := (in_picked m (arr_wf _ _ _ _ _ ARR)).
  Local Notation selected_sorted := (picked_sorted m).
  Local Notation consists_selected := (consists_picked m).

  Lemma face_count : forall i md, nth_error (face_data m) i = Some md -> i < length (faces m).
  Proof.
    intros i md H. destruct (arr_wf _ _ _ _ _ ARR) as (HL & _).
    rewrite <- HL. apply nth_error_Some. congruence.
  Qed.

  Lemma face_exists : forall i, i < length (faces m) -> exists md, nth_error (face_data m) i = Some md.
  Proof.
    intros i H. destruct (arr_wf _ _ _ _ _ ARR) as (HL & _).
    rewrite <- HL in H. apply nth_error_Some in H. destruct (nth_error (face_data m) i); [eauto|congruence].
  Qed.

  (** Every crossing where the result changes is represented by exactly one selected face. *)
  Lemma selected_complete : forall op pf i, i < length (faces m) ->
    inR inA inB op (neg i) <> inR inA inB op (pos i) ->
    exists j rv, In (j, rv) (selected op pf) /\ (j = i \/ overlaps m neg pos i j).
  Proof.
    intros op pf i Hi Hne. destruct (face_exists i Hi) as (md & Hmd).
    assert (Use : forall j mj, nth_error (face_data m) j = Some mj ->
       (tag mj = COPLANAR \/ tag mj = OPPOSITE -> from_left mj = pf) ->
       inR inA inB op (neg j) <> inR inA inB op (pos j) -> exists rv, In (j, rv) (selected op pf)).
    { intros j mj Hj Hpf Hnej. destruct (sides_of_face j mj Hj) as (S1 & S2).
      rewrite !inR_member in Hnej.
      assert (HU : (match tag mj with COPLANAR | OPPOSITE => eqb (from_left mj) pf | _ => true end) = true).
      { destruct (tag mj); auto; rewrite Hpf by auto; apply eqb_reflx. }
      assert (R : required op pf (tag mj) (from_left mj) =
                  if member op (inA (neg j), inB (neg j)) then Keep else Reverse).
      { unfold required. rewrite S1, S2, HU.
        destruct (member op (inA (neg j), inB (neg j))) eqn:Q1, (member op (inA (pos j), inB (pos j))) eqn:Q2; congruence. }
      destruct (member op (inA (neg j), inB (neg j))).
      - exists false. apply in_selected. eauto.
      - exists true. apply in_selected. eauto. }
    assert (Hov : {tag md = COPLANAR \/ tag md = OPPOSITE} + {~ (tag md = COPLANAR \/ tag md = OPPOSITE)}).
    { destruct (tag md); (left; now auto) || (right; intros [|]; discriminate). }
    destruct Hov as [Hov|Hov].
    - destruct (bool_dec (from_left md) pf) as [Epf|Npf].
      + destruct (Use i md Hmd (fun _ => Epf) Hne) as (rv & Hin). exists i, rv. auto.
      + destruct (arr_overlap _ _ _ _ _ ARR i md Hmd Hov) as (j & Hj).
        pose proof Hj as Hj'.
        destruct Hj as (mi & mj & E1 & E2 & EL & ET & HC). rewrite Hmd in E1. injection E1 as <-.
        assert (from_left mj = pf) by (rewrite EL; destruct (from_left md), pf; simpl; congruence).
        assert (inR inA inB op (neg j) <> inR inA inB op (pos j)).
        { destruct HC as [(_ & -> & ->)|(_ & -> & ->)]; auto. }
        destruct (Use j mj E2 (fun _ => H) H0) as (rv & Hin). exists j, rv. auto.
    - destruct (Use i md Hmd) as (rv & Hin); auto; [tauto|]. exists i, rv. auto.
  Qed.

  Lemma selected_sound : forall op pf i rv, In (i, rv) (selected op pf) ->
    inR inA inB op (if rv then pos i else neg i) = true /\
    inR inA inB op (if rv then neg i else pos i) = false.
  Proof.
    intros op pf i rv H. apply in_selected in H. destruct H as (md & Hmd & R).
    destruct (sides_of_face i md Hmd) as (S1 & S2). rewrite !inR_member.
    unfold required in R. rewrite S1, S2 in R.
    destruct (match tag md with COPLANAR | OPPOSITE => eqb (from_left md) pf | _ => true end);
      [|destruct rv; discriminate].
    destruct rv, (member op (inA (neg i), inB (neg i))) eqn:E1, (member op (inA (pos i), inB (pos i))) eqn:E2; try discriminate; auto.
  Qed.

  Lemma selected_single : forall op pf i rv md, In (i, rv) (selected op pf) ->
    nth_error (face_data m) i = Some md -> tag md = COPLANAR \/ tag md = OPPOSITE -> from_left md = pf.
  Proof.
    intros op pf i rv md H Hmd Ht. apply in_selected in H. destruct H as (md' & E & R).
    rewrite Hmd in E. injection E as <-.
    unfold required in R. destruct (side (from_left md) (tag md) true), (side (from_left md) (tag md) false);
      try (destruct rv; discriminate).
    destruct Ht as [-> | ->] in R; destruct (eqb (from_left md) pf) eqn:Eq; try (destruct rv; discriminate);
      now apply eqb_prop.
  Qed.

  Lemma const_if_empty : forall op pf, selected op pf = [] ->
    forall c c', inR inA inB op c = inR inA inB op c'.
  Proof.
    intros op pf Hs c c'.
    assert (HE : forall i, i < length (faces m) -> inR inA inB op (neg i) = inR inA inB op (pos i)).
    { intros i Hi. destruct (bool_dec (inR inA inB op (neg i)) (inR inA inB op (pos i))); auto.
      destruct (selected_complete op pf i Hi n) as (j & rv & Hin & _). rewrite Hs in Hin. contradiction. }
    induction (arr_connected _ _ _ _ _ ARR c c'); auto.
    - rewrite <- HE by auto. auto.
    - rewrite HE by auto. auto.
  Qed.

  Theorem builder_correct : forall w op pf,
    exists r, run d0 (mk_builder BOUNDARY_DEFINED BOUNDARY_DEFINED m w) op pf = Ok r /\
      match kind r with
      | EMPTY => r = region_empty /\ forall c, inR inA inB op c = false
      | FULL => r = region_full /\ forall c, inR inA inB op c = true
      | BOUNDARY_DEFINED =>
          wf_region r /\
          exists sel, consists_of m (boundary r) sel /\ StronglySorted lt (map fst sel) /\
            (forall i rv, In (i, rv) sel ->
               inR inA inB op (if rv then pos i else neg i) = true /\
               inR inA inB op (if rv then neg i else pos i) = false) /\
            (forall i, i < length (faces m) -> inR inA inB op (neg i) <> inR inA inB op (pos i) ->
               exists j rv, In (j, rv) sel /\ (j = i \/ overlaps m neg pos i j)) /\
            (forall i rv md, In (i, rv) sel -> nth_error (face_data m) i = Some md ->
               tag md = COPLANAR \/ tag md = OPPOSITE -> from_left md = pf)
      end.
  Proof.
    intros w op pf.
    destruct (extract_correct d0 m op pf (arr_wf _ _ _ _ _ ARR)) as (s & E & Hwf & HT & HU & HS).
    unfold run. cbn [mixed]. rewrite E. cbn [bind].
    pose proof (consists_selected op pf s HT) as HC.
    assert (Hlen : length (selected op pf) = num_faces s).
    { rewrite <- length_tris by auto. eapply Forall2_len. exact HC. }
    destruct (Nat.eqb_spec (num_faces s) 0) as [Hz|Hnz]; cbn [negb].
    - assert (Hnil : selected op pf = []) by (apply length_zero_iff_nil; lia).
      pose proof (const_if_empty op pf Hnil) as HK.
      destruct (arr_left _ _ _ _ _ ARR) as (ia & ma & Ha & La).
      destruct (arr_right _ _ _ _ _ ARR) as (ib & mb & Hb & Lb).
      destruct (arr_faces _ _ _ _ _ ARR ia ma Ha) as (A1 & A2 & _). unfold own in A1, A2. rewrite La in A1, A2.
      destruct (arr_faces _ _ _ _ _ ARR ib mb Hb) as (B1 & B2 & _). unfold own in B1, B2. rewrite Lb in B1, B2.
      cbn [first_kind second_kind region_kind_eqb orb].
      assert (KT : forall c0, inR inA inB op c0 = true -> forall c, inR inA inB op c = true)
        by (intros; rewrite (HK c c0); auto).
      assert (KF : forall c0, inR inA inB op c0 = false -> forall c, inR inA inB op c = false)
        by (intros; rewrite (HK c c0); auto).
      assert (Neq : forall op', op = op' -> (op' = opF \/ op' = opG \/ op' = opH \/ op' = opI) -> False).
      { intros op' -> Hop.
        pose proof (HK (neg ia) (pos ia)) as K1. pose proof (HK (neg ib) (pos ib)) as K2.
        rewrite !inR_member in K1, K2. 
        destruct Hop as [->|[->|[->| ->]]]; unfold member in K1, K2; simpl in K1, K2;
          unfold s_compl in *; rewrite ?A1, ?A2, ?B1, ?B2 in *; discriminate. }
      assert (EJ : (op = opE \/ op = opJ) ->
        exists r, (let* cop := all_tags m COPLANAR in
          if (cop : bool) then Ok (special (apply op false false))
          else let* opp := all_tags m OPPOSITE in
            if (opp : bool) then Ok (special (apply op false true)) else @Throw (region P D) RuntimeError) = Ok r /\
          match kind r with
          | EMPTY => r = region_empty /\ forall c, inR inA inB op c = false
          | FULL => r = region_full /\ forall c, inR inA inB op c = true
          | BOUNDARY_DEFINED => False end).
      { intros Hop. rewrite !all_tags_spec by apply (arr_wf _ _ _ _ _ ARR). cbn [bind].
        assert (HTag : forall i md, nth_error (face_data m) i = Some md ->
                  (tag md = COPLANAR /\ inR inA inB op (neg i) = apply op false false) \/
                  (tag md = OPPOSITE /\ inR inA inB op (neg i) = apply op false true)).
        { intros i md Hi. destruct (arr_faces _ _ _ _ _ ARR i md Hi) as (O1 & O2 & O3).
          pose proof (HK (neg i) (pos i)) as K1. rewrite !inR_member in *.
          unfold own, other in *.
          destruct (from_left md), (tag md); try contradiction; destruct O3 as (O3 & O4);
            rewrite ?O1, ?O2, ?O3, ?O4 in *; destruct Hop as [-> | ->]; simpl in *;
            unfold member in *; simpl in *; try discriminate; auto. }
        destruct (forallb (fun md => face_tag_eqb (tag md) COPLANAR) (face_data m)) eqn:FC.
        - eexists. split; [reflexivity|].
          rewrite forallb_forall in FC.
          pose proof (FC ma (nth_error_In _ _ Ha)) as T. apply face_tag_eqb_eq in T.
          destruct (HTag ia ma Ha) as [(_ & V)|(T' & _)]; [|congruence].
          destruct (apply op false false); simpl; split; auto.
          + now apply KT with (neg ia).
          + now apply KF with (neg ia).
        - assert (Exop : exists i md, nth_error (face_data m) i = Some md /\ tag md = OPPOSITE).
          { destruct (existsb (fun md => negb (face_tag_eqb (tag md) COPLANAR)) (face_data m)) eqn:EX.
            - apply existsb_exists in EX. destruct EX as (md & Hin & Hne).
              apply In_nth_error in Hin. destruct Hin as (i & Hi). exists i, md. split; auto.
              destruct (HTag i md Hi) as [(T & _)|(T & _)]; auto. rewrite T in Hne. discriminate.
            - exfalso. assert (forallb (fun md => face_tag_eqb (tag md) COPLANAR) (face_data m) = true); [|congruence].
              apply forallb_forall. intros md Hin. destruct (face_tag_eqb (tag md) COPLANAR) eqn:Q; auto.
              assert (existsb (fun md => negb (face_tag_eqb (tag md) COPLANAR)) (face_data m) = true); [|congruence].
              apply existsb_exists. exists md. rewrite Q. auto. }
          destruct Exop as (io & mo & Ho & To).
          destruct (HTag io mo Ho) as [(T' & _)|(_ & V)]; [congruence|].
          assert (FO : forallb (fun md => face_tag_eqb (tag md) OPPOSITE) (face_data m) = true).
          { apply forallb_forall. intros md Hin. apply In_nth_error in Hin. destruct Hin as (i & Hi).
            destruct (HTag i md Hi) as [(T & V')|(T & _)]; [|now rewrite T].
            exfalso. rewrite (HK (neg i) (neg io)), V in V'.
            destruct Hop as [-> | ->]; discriminate. }
          rewrite FO. eexists. split; [reflexivity|].
          destruct (apply op false true); simpl; split; auto.
          + now apply KT with (neg io).
          + now apply KF with (neg io). }
      destruct op;
        try (exfalso; eapply Neq; [reflexivity|tauto]);
        try (destruct EJ as (r & Er & Hr); [auto|]; exists r; split; [exact Er|];
             destruct (kind r); [exact Hr|exact Hr|contradiction]);
        eexists; (split; [reflexivity|]); simpl; (split; [reflexivity|]);
        first [ solve [apply (KT (neg ia)); (rewrite inR_member, ?A1, ?A2; unfold member; simpl; unfold s_compl, s_union, s_minus, s_inter; simpl; solve [reflexivity | now destruct (inB (neg ia)) | now destruct (inB (pos ia))])] | solve [apply (KF (neg ia)); (rewrite inR_member, ?A1, ?A2; unfold member; simpl; unfold s_compl, s_union, s_minus, s_inter; simpl; solve [reflexivity | now destruct (inB (neg ia)) | now destruct (inB (pos ia))])] | solve [apply (KT (pos ia)); (rewrite inR_member, ?A1, ?A2; unfold member; simpl; unfold s_compl, s_union, s_minus, s_inter; simpl; solve [reflexivity | now destruct (inB (neg ia)) | now destruct (inB (pos ia))])] | solve [apply (KF (pos ia)); (rewrite inR_member, ?A1, ?A2; unfold member; simpl; unfold s_compl, s_union, s_minus, s_inter; simpl; solve [reflexivity | now destruct (inB (neg ia)) | now destruct (inB (pos ia))])] ].
    - unfold region_of_soup. destruct (Nat.eqb_spec (num_faces s) 0); [lia|].
      eexists. split; [reflexivity|]. cbn [kind boundary].
      split.
      + simpl. split; auto. intros C0. apply Hnz. unfold num_faces. cbn [kind boundary] in C0. rewrite C0. reflexivity.
      + exists (selected op pf). split; [exact HC|]. split; [apply selected_sorted|].
        split; [apply selected_sound|]. split; [apply selected_complete|]. intros. eapply selected_single; eauto.
  Qed.
End Arr.
