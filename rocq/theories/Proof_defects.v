(** * Lemmas about Find_defects *)
From Coq Require Import List Arith Bool NArith QArith Lia Lqa Relations Permutation.
From Verif Require Import Model_base Proof_base Proof_mesh Model_soup Model_points Proof_points Model_parallel_do Model_aabb.
From Verif Require Import Model_candidates Spec_candidates Model_graph Spec_graph Proof_graph Proof_paths Model_geometry.
From Verif Require Import Proof_builder Model_defects Spec_defects Proof_collect Proof_pairs.
Import ListNotations.
Local Open Scope nat_scope.

(** ** Loops *)
Lemma Forall2_weaken : forall {A B} (R S : A -> B -> Prop) l l', (forall a b, R a b -> S a b) -> Forall2 R l l' -> Forall2 S l l'.
Proof. intros A B R S l l' H F. induction F; constructor; auto. Qed.
Lemma foldM_faces : forall {P D S} (m : soup P D) (k : S -> nat -> face -> res S) s,
  foldM (fun s fi => let* f := soup_face m fi in k s fi f) s (seq 0 (num_faces m)) =
  foldM (fun s e => k s (fst e) (snd e)) s (combine (seq 0 (num_faces m)) (faces m)).
Proof.
  intros P D S m k s.
  assert (G : forall l pre s, faces m = pre ++ l ->
    foldM (fun s fi => let* f := soup_face m fi in k s fi f) s (seq (length pre) (length l)) =
    foldM (fun s e => k s (fst e) (snd e)) s (combine (seq (length pre) (length l)) l)).
  { clear s. induction l as [ | f l IH]; intros pre s E; [ reflexivity | ]. cbn [length seq combine foldM fst snd].
    replace (soup_face m (length pre)) with (@Ok face f)
      by (unfold soup_face, vec_at; rewrite E, nth_error_app2, Nat.sub_diag by lia; reflexivity). cbn [bind].
    destruct (k s (length pre) f) as [s' | | ]; cbn [bind]; [ | reflexivity | reflexivity ].
    specialize (IH (pre ++ [f]) s'). rewrite app_length in IH. cbn [length] in IH. rewrite Nat.add_1_r in IH.
    apply IH. rewrite <- app_assoc. exact E. }
  apply (G (faces m) [] s eq_refl).
Qed.
Lemma foldM_select : forall {A} (F : list A -> A -> res (list A)) (h : A -> bool) l acc,
  (forall x acc, In x l -> F acc x = Ok (if h x then acc ++ [x] else acc)) ->
  foldM F acc l = Ok (acc ++ filter h l).
Proof.
  intros A F h l. induction l as [ | x l IH]; intros acc H; cbn [foldM filter]; [ rewrite app_nil_r; reflexivity | ].
  rewrite (H x acc (or_introl eq_refl)). cbn [bind]. rewrite IH by (intros; apply H; right; assumption).
  destruct (h x); [ rewrite <- app_assoc; reflexivity | reflexivity ].
Qed.

Lemma repeated_properb : forall f, repeated f = negb (properb f).
Proof. intros [ [a b] c]. unfold repeated, properb. destruct (a =? b), (b =? c), (c =? a); reflexivity. Qed.
Lemma properb_iff : forall f, properb f = true <-> proper f.
Proof.
  intros [ [a b] c]. unfold properb, proper. rewrite !andb_true_iff, !negb_true_iff, !Nat.eqb_neq. tauto.
Qed.
Lemma has_vertexb_iff : forall f v, has_vertexb f v = true <-> has_vertex f v.
Proof.
  intros [ [a b] c] v. unfold has_vertexb, has_vertex. rewrite !orb_true_iff, !Nat.eqb_eq. tauto.
Qed.

(** ** merge_duplicate_vertices *)
Section Merge.
  Context {P D : Type}.
  Variable P_eqb : P -> P -> bool.
  Hypothesis P_eqb_ok : forall a b, P_eqb a b = true <-> a = b.
  Variable d0 : D.

  Definition merged (pre : list P) (s : soup P D * list nat * point_list P) : Prop :=
    let '(new_m, vi_map, pts) := s in
    pl_inv P pts /\ points new_m = pl_points pts /\ faces new_m = [] /\ face_data new_m = [] /\
    (forall p, In p (pl_points pts) <-> In p pre) /\
    Forall2 (fun p i => nth_error (pl_points pts) i = Some p) pre vi_map.

  Lemma merge_vertex_ok : forall pre s p, merged pre s -> merged (pre ++ [p]) (merge_vertex P_eqb s p).
  Proof.
    intros pre [ [new_m vi_map] pts] p (Inv & Hp & Hf & Hd & Hin & HF). unfold merge_vertex.
    destruct (pl_insert P_eqb pts p) as [pts' idx] eqn:E.
    destruct (pl_insert_inv P P_eqb P_eqb_ok _ _ _ _ Inv E) as (Inv' & Hn & Hin').
    destruct (pl_insert_prefix P P_eqb _ _ _ _ E) as (r & Hr).
    assert (HF' : Forall2 (fun p i => nth_error (pl_points pts') i = Some p) (pre ++ [p]) (vi_map ++ [idx])).
    { apply Forall2_app; [ | constructor; [ exact Hn | constructor ] ].
      eapply Forall2_weaken; [ | exact HF ]. intros q i Hq. cbn beta in Hq. rewrite Hr, nth_error_app1; [ exact Hq | ].
      apply nth_error_Some. congruence. }
    assert (Hin2 : forall q, In q (pl_points pts') <-> In q (pre ++ [p])).
    { intro q. rewrite Hin', in_app_iff, Hin. cbn [In]. split; intros [H | H]; auto. destruct H as [H | [ ] ]; auto. }
    assert (K : if idx =? length (pl_points pts) then pl_points pts' = pl_points pts ++ [p] else pl_points pts' = pl_points pts).
    { unfold pl_insert in E. rewrite (pi_check _ _ Inv) in E. cbn [negb] in E.
      destruct (assoc_find P_eqb p (pl_map pts)) as [i | ] eqn:A; injection E as <- <-.
      - apply (assoc_find_some P_eqb P_eqb_ok) in A. apply (pi_map _ _ Inv) in A.
        assert (i < length (pl_points pts)) by (apply nth_error_Some; congruence).
        replace (i =? length (pl_points pts)) with false by (symmetry; apply Nat.eqb_neq; lia). reflexivity.
      - rewrite Nat.eqb_refl. reflexivity. }
    unfold merged. destruct (idx =? length (pl_points pts)); cbn [snd add_vertex points faces face_data];
      (split; [ exact Inv' | ]; split; [ rewrite Hp, K; reflexivity | auto ]).
  Qed.
  Lemma merge_vertices_ok : forall l pre s, merged pre s -> merged (pre ++ l) (fold_left (merge_vertex P_eqb) l s).
  Proof.
    induction l as [ | p l IH]; intros pre s H; cbn [fold_left]; [ rewrite app_nil_r; exact H | ].
    replace (pre ++ p :: l) with ((pre ++ [p]) ++ l) by (rewrite <- app_assoc; reflexivity).
    apply IH. apply merge_vertex_ok. exact H.
  Qed.

  Lemma Forall2_nth1 : forall {A B} (R : A -> B -> Prop) l l' i a, Forall2 R l l' -> nth_error l i = Some a ->
    exists b, nth_error l' i = Some b /\ R a b.
  Proof.
    intros A B R l l' i a H. revert i. induction H as [ | x y l l' Hxy H IH]; intros i E; [ destruct i; discriminate | ].
    destruct i as [ | i]; cbn in *; [ injection E as ->; eauto | apply IH; exact E ].
  Qed.

  Lemma merge_ok : forall m : soup P D, valid_faces m -> exists m',
    merge_duplicate_vertices P_eqb d0 m = Ok m' /\ NoDup (points m') /\
    (forall p, In p (points m') <-> In p (points m)) /\
    num_faces m' = num_faces m /\ face_data m' = repeat d0 (num_faces m) /\ valid_faces m' /\
    forall fi t, face_corners m' fi t <-> face_corners m fi t.
  Proof.
    intros m V. unfold merge_duplicate_vertices.
    pose proof (merge_vertices_ok (points m) [] (empty_soup, [], pl_start pl_empty)) as M.
    destruct (fold_left (merge_vertex P_eqb) (points m) (empty_soup, [], pl_start pl_empty)) as [ [new_m vi_map] pts].
    destruct M as (Inv & Hp & Hf & Hd & Hin & HF).
    { repeat split; cbn; auto; try tauto; try apply (pl_inv_start P); constructor. }
    cbn [app] in *.
    assert (Mp : forall v, v < length (points m) -> exists p i,
      nth_error (points m) v = Some p /\ vec_at vi_map v = Ok i /\ nth_error (points new_m) i = Some p).
    { intros v Hv. destruct (nth_error (points m) v) as [p | ] eqn:E; [ | apply nth_error_None in E; lia ].
      destruct (Forall2_nth1 _ _ _ _ _ HF E) as (i & Hi & Ri). exists p, i. unfold vec_at. rewrite Hi, Hp. auto. }
    assert (G : forall l pre acc, faces m = pre ++ l -> points acc = points new_m ->
      length (faces acc) = length pre -> face_data acc = repeat d0 (length pre) ->
      valid_faces acc ->
      (forall fi t, fi < length pre -> (face_corners acc fi t <-> face_corners m fi t)) ->
      exists m', foldM (merge_face d0 m vi_map) acc (seq (length pre) (length l)) = Ok m' /\
        points m' = points new_m /\ num_faces m' = num_faces m /\ face_data m' = repeat d0 (num_faces m) /\ valid_faces m' /\
        forall fi t, fi < num_faces m -> (face_corners m' fi t <-> face_corners m fi t)).
    { induction l as [ | f l IH]; intros pre acc Ef Hpa La Da Va Ca.
      - rewrite app_nil_r in Ef. exists acc. unfold num_faces. rewrite Ef. auto 10.
      - cbn [length seq foldM].
        assert (Vf : let '(a, b, c) := f in a < length (points m) /\ b < length (points m) /\ c < length (points m)).
        { unfold valid_faces in V. rewrite Forall_forall in V. apply (V f). rewrite Ef. apply in_or_app. right. left. reflexivity. }
        assert (Nf : nth_error (faces m) (length pre) = Some f) by (rewrite Ef, nth_error_app2, Nat.sub_diag by lia; reflexivity).
        destruct f as [ [a b] c]. destruct Vf as (Va' & Vb & Vc).
        destruct (Mp a Va') as (pa & ia & Ea & Eia & Pa). destruct (Mp b Vb) as (pb & ib & Eb & Eib & Pb).
        destruct (Mp c Vc) as (pc & ic & Ec & Eic & Pc).
        unfold merge_face at 1. unfold soup_face, vec_at. rewrite Nf. cbn [bind].
        change (match nth_error vi_map a with Some a0 => Ok a0 | None => Throw OutOfRange end) with (vec_at vi_map a).
        change (match nth_error vi_map b with Some a0 => Ok a0 | None => Throw OutOfRange end) with (vec_at vi_map b).
        change (match nth_error vi_map c with Some a0 => Ok a0 | None => Throw OutOfRange end) with (vec_at vi_map c).
        rewrite Eia. cbn [bind]. rewrite Eib. cbn [bind]. rewrite Eic. cbn [bind].
        set (acc' := snd (add_face d0 acc (ia, ib, ic))).
        specialize (IH (pre ++ [(a, b, c)]) acc'). rewrite app_length in IH. cbn [length] in IH. rewrite Nat.add_1_r in IH.
        apply IH.
        + rewrite <- app_assoc. exact Ef.
        + exact Hpa.
        + unfold acc'. cbn. rewrite app_length, La. cbn. lia.
        + unfold acc'. cbn [snd add_face face_data]. rewrite Da. rewrite <- repeat_cons. reflexivity.
        + unfold valid_faces, acc'. cbn [snd add_face points faces]. apply Forall_app. split; [ exact Va | ].
          constructor; [ | constructor ]. rewrite Hpa. repeat split; apply nth_error_Some; congruence.
        + intros fi t Hfi. destruct (Nat.eq_dec fi (length pre)) as [-> | N].
          * unfold face_corners. unfold acc'. cbn [snd add_face points faces]. rewrite Nf.
            rewrite nth_error_app2, La, Nat.sub_diag by lia. cbn [nth_error]. rewrite Hpa. split.
            -- intros (x & y & z & p & q & r & E1 & E2 & E3 & E4 & ->). injection E1 as <- <- <-.
               exists a, b, c, p, q, r. repeat split; congruence.
            -- intros (x & y & z & p & q & r & E1 & E2 & E3 & E4 & ->). injection E1 as <- <- <-.
               exists ia, ib, ic, p, q, r. repeat split; congruence.
          * rewrite <- (Ca fi t) by lia. unfold face_corners, acc'. cbn [snd add_face points faces].
            rewrite nth_error_app1 by lia. reflexivity. }
    destruct (G (faces m) [] new_m eq_refl eq_refl) as (m' & E & H1 & H2 & H3 & H4 & H5).
    - rewrite Hf. reflexivity.
    - exact Hd.
    - unfold valid_faces. rewrite Hf. constructor.
    - cbn. intros; lia.
    - exists m'. split; [ exact E | ]. rewrite H1, Hp. split; [ apply (pi_nodup _ _ Inv) | ]. split; [ exact Hin | ].
      split; [ exact H2 | ]. split; [ exact H3 | ]. split; [ exact H4 | ]. intros fi t.
      destruct (Nat.lt_ge_cases fi (num_faces m)) as [L | L]; [ apply H5; exact L | ].
      assert (X : forall s : soup P D, num_faces s = num_faces m -> ~ face_corners s fi t).
      { intros s Es (a & b & c & p & q & r & E1 & _). assert (fi < length (faces s)) by (apply nth_error_Some; congruence).
        unfold num_faces in *. lia. }
      split; intro C; exfalso; [ exact (X m' H2 C) | exact (X m eq_refl C) ].
  Qed.
End Merge.

Section Faces.
  Context {P D : Type}.
  Variable m : soup P D.
  Hypothesis V : valid_faces m.

  Lemma valid_in : forall e, In e (combine (seq 0 (num_faces m)) (faces m)) ->
    let '(a, b, c) := snd e in a < num_vertices m /\ b < num_vertices m /\ c < num_vertices m.
  Proof.
    intros [fi f] I. apply in_combine_r in I. unfold valid_faces in V. rewrite Forall_forall in V. exact (V f I).
  Qed.

  (** ** isolated_vertices *)
  Lemma set_used : forall u v w, v < length u -> nth_error (list_set u v true) w = Some true <-> w = v \/ nth_error u w = Some true.
  Proof. intros u v w H. exact (seen_set u v w H). Qed.

  Lemma isolated_ok : exists vis, isolated_vertices m = Ok vis /\ NoDup vis /\
    forall v, In v vis <-> v < num_vertices m /\ forall f, In f (faces m) -> ~ has_vertex f v.
  Proof.
    unfold isolated_vertices.
    rewrite (foldM_faces m (fun used (_ : nat) (f : face) =>
      let '(a, b, c) := f in
      let* used := vec_set used a true in
      let* used := vec_set used b true in
      vec_set used c true)).
    assert (G : forall l used, (forall e, In e l -> let '(a, b, c) := snd e in a < num_vertices m /\ b < num_vertices m /\ c < num_vertices m) ->
      length used = num_vertices m ->
      exists used', foldM (fun used (e : nat * face) => let '(a, b, c) := snd e in
          let* used := vec_set used a true in
          let* used := vec_set used b true in
          vec_set used c true) used l = Ok used' /\ length used' = num_vertices m /\
        forall v, nth_error used' v = Some true <-> nth_error used v = Some true \/ exists e, In e l /\ has_vertex (snd e) v).
    { induction l as [ | [fi f] l IH]; intros used Hl Lu; cbn [foldM].
      - exists used. split; [ reflexivity | ]. split; [ exact Lu | ]. intro v. split; [ auto | ]. intros [H | (e & [ ] & _)]. exact H.
      - assert (Hf := Hl _ (or_introl eq_refl)). cbn [snd] in *. destruct f as [ [a b] c]. destruct Hf as (Ha & Hb & Hc).
        unfold vec_set. rewrite Lu.
        apply Nat.ltb_lt in Ha as Ha'. apply Nat.ltb_lt in Hb as Hb'. apply Nat.ltb_lt in Hc as Hc'.
        rewrite Ha'. cbn [bind]. rewrite length_list_set, Lu, Hb'. cbn [bind]. rewrite !length_list_set, Lu, Hc'. cbn [bind].
        destruct (IH (list_set (list_set (list_set used a true) b true) c true)) as (u' & Eu & L' & Hu).
        + intros e He. apply Hl. right. exact He.
        + rewrite !length_list_set. exact Lu.
        + exists u'. split; [ exact Eu | ]. split; [ exact L' | ]. intro v. rewrite Hu.
          rewrite !set_used by (rewrite ?length_list_set; lia). split.
          * intros [ [-> | [-> | [-> | H] ] ] | (e & I & H)]; [ | | | auto | ].
            -- right. exists (fi, (a, b, c)). split; [ left; reflexivity | cbn; auto ].
            -- right. exists (fi, (a, b, c)). split; [ left; reflexivity | cbn; auto ].
            -- right. exists (fi, (a, b, c)). split; [ left; reflexivity | cbn; auto ].
            -- right. exists e. split; [ right; exact I | exact H ].
          * intros [H | (e & [<- | I] & H)]; [ auto | cbn in H; tauto | eauto ]. }
    destruct (G (combine (seq 0 (num_faces m)) (faces m)) (repeat false (num_vertices m)) valid_in (repeat_length _ _)) as (used & Eu & Lu & Hu).
    rewrite Eu. cbn [bind].
    set (h := fun v => match nth_error used v with Some true => false | _ => true end).
    rewrite (foldM_select _ h).
    - cbn [app]. eexists. split; [ reflexivity | ]. split; [ apply NoDup_filter; apply seq_NoDup | ].
      intro v. rewrite filter_In, in_seq. unfold h.
      assert (Hv : nth_error used v = Some true <-> exists f, In f (faces m) /\ has_vertex f v).
      { rewrite Hu. split.
        - intros [H | (e & I & H)].
          + apply nth_error_In in H. apply repeat_spec in H. discriminate.
          + exists (snd e). split; [ | exact H ]. destruct e as [fi f]. apply in_combine_r in I. exact I.
        - intros (f & I & H). right. apply In_nth_error in I. destruct I as [fi I].
          exists (fi, f). split; [ | exact H ]. assert (L : fi < num_faces m) by (apply nth_error_Some; congruence).
          apply nth_error_In with (n := fi). apply nth_error_combine; [ apply nth_error_seq; exact L | exact I ]. }
      split.
      + intros [L E]. split; [ lia | ]. intros f I N. assert (X : nth_error used v = Some true) by (apply Hv; eauto). rewrite X in E. discriminate.
      + intros [L N]. split; [ lia | ]. destruct (nth_error used v) as [ [ | ] | ] eqn:E; [ | reflexivity | reflexivity ].
        destruct (proj1 Hv eq_refl) as (f & I & H). exfalso. exact (N f I H).
    - intros v acc I. apply in_seq in I. unfold h, vec_at. destruct (nth_error used v) as [ [ | ] | ] eqn:E; cbn [bind negb]; [ reflexivity | reflexivity | ].
      apply nth_error_None in E. lia.
  Qed.

  (** ** trivial_degenerate_faces *)
  Lemma trivial_ok : exists fis, trivial_degenerate_faces m = Ok fis /\ NoDup fis /\
    forall fi, In fi fis <-> exists f, nth_error (faces m) fi = Some f /\ ~ proper f.
  Proof.
    unfold trivial_degenerate_faces.
    set (h := fun fi => match nth_error (faces m) fi with Some f => repeated f | None => false end).
    rewrite (foldM_select _ h).
    - cbn [app]. eexists. split; [ reflexivity | ]. split; [ apply NoDup_filter; apply seq_NoDup | ].
      intro fi. rewrite filter_In, in_seq. unfold h. split.
      + intros [_ H]. destruct (nth_error (faces m) fi) as [f | ]; [ | discriminate ]. exists f. split; [ reflexivity | ].
        rewrite repeated_properb, negb_true_iff, <- not_true_iff_false, properb_iff in H. exact H.
      + intros (f & E & N). assert (L : fi < num_faces m) by (apply nth_error_Some; congruence). rewrite E. split.
        * lia.
        * rewrite repeated_properb, negb_true_iff, <- not_true_iff_false, properb_iff. exact N.
    - intros fi acc I. apply in_seq in I. unfold h, soup_face, vec_at.
      destruct (nth_error (faces m) fi) as [f | ] eqn:E; cbn [bind]; [ destruct (repeated f); reflexivity | ].
      apply nth_error_None in E. unfold num_faces in I. lia.
  Qed.
End Faces.
