(** * Histories of triangle soups: lemmas *)
From Coq Require Import List Arith Bool Lia Permutation.
From Verif Require Import Model_base Proof_base Model_soup Model_aabb Spec_aabb Prop_aabb Model_candidates Spec_candidates Proof_pairs Model_cache Spec_cache.
Import ListNotations.

Section Cache.
  Context {P D : Type}.
  Variable d0 : D.
  Variable pbox : P -> box.
  Variable longest_axis : option box -> nat.
  Variable sort_by : nat -> list (box * nat) -> list (box * nat).
  Variable nth_element_by : nat -> nat -> list (box * nat) -> list (box * nat).
  Notation do_op := (@do_op P D d0 pbox longest_axis sort_by nth_element_by).
  Notation run := (@run P D d0 pbox longest_axis sort_by nth_element_by).
  Notation aabb := (aabb_tree pbox longest_axis sort_by nth_element_by).

  Lemma run_app : forall a b st st' rs, run st (a ++ b) st' rs ->
    exists st1 ra rb, run st a st1 ra /\ run st1 b st' rb /\ rs = ra ++ rb /\ length ra = length a.
  Proof.
    induction a as [ | o a IH]; intros b st st' rs H.
    - exists st, [], rs. split; [ constructor | ]. auto.
    - cbn [app] in H. inversion H as [ | ? ? st1 r ? ? rs' Ho Hr]; subst. destruct (IH _ _ _ _ Hr) as (st2 & ra & rb & A & B & -> & L).
      exists st2, (r :: ra), rb. split; [ econstructor; eauto | ]. cbn. auto.
  Qed.
  Lemma run_length : forall ops st st' rs, run st ops st' rs -> length rs = length ops.
  Proof. induction ops; intros st st' rs H; inversion H; subst; cbn; f_equal; eauto. Qed.

  Lemma length_step : forall st o st' r, do_op st o st' r -> length st' = length st + (if constructs o then 1 else 0).
  Proof. intros st o st' r H. destruct H; cbn [constructs]; rewrite ?app_length, ?length_list_set; cbn [length]; lia. Qed.
  Lemma at_lt : forall A (l : list A) i x, nth_error l i = Some x -> i < length l.
  Proof. intros A l i x H. apply nth_error_Some. congruence. Qed.

  (** One call, seen from an object that it does not replace. *)
  Lemma step_effect : forall st o st' r i x, do_op st o st' r -> nth_error st i = Some x -> ~ replaces i o ->
    exists x', nth_error st' i = Some x' /\
      points (o_soup x') = points (o_soup x) ++ vertices_added i [o] /\
      faces (o_soup x') = faces (o_soup x) ++ faces_added i [o] /\
      length (face_data (o_soup x')) = length (face_data (o_soup x)) + length (faces_added i [o]) /\
      (forall fi d, nth_error (face_data (o_soup x)) fi = Some d -> ~ assigns i fi o -> nth_error (face_data (o_soup x')) fi = Some d).
  Proof.
    intros st o st' r i x H Hx Nr.
    assert (Same : forall l, nth_error l i = Some x -> vertices_added i [o] = [] -> faces_added i [o] = [] ->
      exists x', nth_error l i = Some x' /\ points (o_soup x') = points (o_soup x) ++ vertices_added i [o] /\ faces (o_soup x') = faces (o_soup x) ++ faces_added i [o] /\
      length (face_data (o_soup x')) = length (face_data (o_soup x)) + length (faces_added i [o]) /\
      (forall fi d, nth_error (face_data (o_soup x)) fi = Some d -> ~ assigns i fi o -> nth_error (face_data (o_soup x')) fi = Some d)).
    { intros l Hl Ev Ef. exists x. rewrite Ev, Ef, !app_nil_r. cbn [length]. rewrite Nat.add_0_r. auto. }
    assert (Lt := at_lt _ _ _ _ Hx).
    destruct H; cbn [replaces] in Nr; try (apply Same; [ exact Hx | reflexivity | reflexivity ]); try (apply Same; [ rewrite nth_error_app1 by exact Lt; exact Hx | reflexivity | reflexivity ]).
    - apply Same; [ | reflexivity | reflexivity ]. rewrite nth_error_app1 by (rewrite length_list_set; exact Lt). rewrite nth_error_list_set_neq by auto. exact Hx.
    - apply Same; [ | reflexivity | reflexivity ]. destruct (Nat.eq_dec i0 i) as [-> | N]; [ tauto | ]. rewrite nth_error_list_set_neq by auto. exact Hx.
    - apply Same; [ | reflexivity | reflexivity ]. rewrite !nth_error_list_set_neq by (intro; subst; tauto). exact Hx.
    - destruct (Nat.eq_dec i0 i) as [-> | N].
      + rewrite Hx in H. injection H as <-. injection H0 as <- <-. exists (mk_object (mk_soup (points (o_soup x) ++ [p]) (faces (o_soup x)) (face_data (o_soup x))) (o_tree x)).
        cbn [vertices_added faces_added flat_map o_soup points faces face_data]. rewrite Nat.eqb_refl, !app_nil_r. split; [ apply nth_error_list_set_eq; exact Lt | ].
        split; [ reflexivity | ]. split; [ reflexivity | ]. split; [ cbn; lia | auto ].
      + apply Same; [ rewrite nth_error_list_set_neq by exact N; exact Hx | | reflexivity ]. cbn. apply Nat.neq_sym, Nat.eqb_neq in N. rewrite N. reflexivity.
    - destruct (Nat.eq_dec i0 i) as [-> | N].
      + rewrite Hx in H. injection H as <-. injection H0 as <- <-. exists (mk_object (mk_soup (points (o_soup x)) (faces (o_soup x) ++ [f]) (face_data (o_soup x) ++ [d0])) (o_tree x)).
        cbn [vertices_added faces_added flat_map o_soup points faces face_data]. rewrite Nat.eqb_refl, !app_nil_r. split; [ apply nth_error_list_set_eq; exact Lt | ].
        split; [ reflexivity | ]. split; [ reflexivity | ]. split; [ rewrite app_length; cbn; lia | ]. intros fi d Hd _. rewrite nth_error_app1 by (eapply at_lt; exact Hd). exact Hd.
      + apply Same; [ rewrite nth_error_list_set_neq by exact N; exact Hx | reflexivity | ]. cbn. apply Nat.neq_sym, Nat.eqb_neq in N. rewrite N. reflexivity.
    - destruct (Nat.eq_dec i0 i) as [-> | N].
      + rewrite Hx in H. injection H as <-. unfold set_data, vec_set in H0. destruct (fi <? length (face_data (o_soup x))) eqn:E; cbn [bind] in H0; [ | discriminate ]. injection H0 as <-.
        eexists. split; [ apply nth_error_list_set_eq; exact Lt | ]. cbn [vertices_added faces_added flat_map o_soup points faces face_data]. rewrite !app_nil_r, length_list_set. cbn [length].
        split; [ reflexivity | ]. split; [ reflexivity | ]. split; [ lia | ]. intros fj d1 Hd Na. cbn [assigns] in Na. rewrite nth_error_list_set_neq by (intro; subst; tauto). exact Hd.
      + apply Same; [ rewrite nth_error_list_set_neq by exact N; exact Hx | reflexivity | reflexivity ].
    - destruct (Nat.eq_dec i0 i) as [-> | N].
      + rewrite Hx in H. injection H as <-. eexists. split; [ apply nth_error_list_set_eq; exact Lt | ]. cbn. rewrite !app_nil_r, Nat.add_0_r. auto.
      + apply Same; [ rewrite nth_error_list_set_neq by exact N; exact Hx | reflexivity | reflexivity ].
  Qed.

  Lemma added_app : forall i a b, vertices_added i (a ++ b) = vertices_added i a ++ @vertices_added P D i b /\ faces_added i (a ++ b) = faces_added i a ++ @faces_added P D i b.
  Proof. intros i a b. unfold vertices_added, faces_added. rewrite !flat_map_app. auto. Qed.

  Lemma run_effect : forall ops st st' rs i x, run st ops st' rs -> nth_error st i = Some x -> Forall (fun o => ~ replaces i o) ops ->
    exists x', nth_error st' i = Some x' /\
      points (o_soup x') = points (o_soup x) ++ vertices_added i ops /\
      faces (o_soup x') = faces (o_soup x) ++ faces_added i ops /\
      length (face_data (o_soup x')) = length (face_data (o_soup x)) + length (faces_added i ops) /\
      (forall fi d, nth_error (face_data (o_soup x)) fi = Some d -> Forall (fun o => ~ assigns i fi o) ops -> nth_error (face_data (o_soup x')) fi = Some d).
  Proof.
    induction ops as [ | o ops IH]; intros st st' rs i x H Hx F; inversion H as [ | ? ? st1 r ? ? rs' Ho Hr]; subst.
    - exists x. cbn. rewrite !app_nil_r, Nat.add_0_r. auto.
    - inversion F as [ | ? ? N F']; subst. destruct (step_effect _ _ _ _ _ _ Ho Hx N) as (x1 & H1 & A & B & C & E).
      destruct (IH _ _ _ _ _ Hr H1 F') as (x2 & H2 & A' & B' & C' & E'). exists x2. split; [ exact H2 | ].
      change (o :: ops) with ([o] ++ ops). destruct (added_app i [o] ops) as [-> ->]. rewrite A', A, B', B, C', C, !app_assoc, app_length.
      split; [ reflexivity | ]. split; [ reflexivity | ]. split; [ lia | ]. intros fi d Hd Fa. inversion Fa; subst. auto.
  Qed.

  (** ** The cached tree *)
  Definition truncate (m : soup P D) (n : nat) : soup P D := mk_soup (points m) (firstn n (faces m)) (face_data m).

  Lemma bbox_grow : forall (m m' : soup P D) fi b, face_bbox pbox m fi = Ok b ->
    (exists ps, points m' = points m ++ ps) -> (exists fs, faces m' = faces m ++ fs) -> face_bbox pbox m' fi = Ok b.
  Proof.
    intros m m' fi b H (ps & Ep) (fs & Ef). unfold face_bbox, soup_triangle, soup_face, soup_point in *. rewrite Ep, Ef. clear Ep Ef.
    assert (K : forall A (l r : list A) k v, vec_at l k = Ok v -> vec_at (l ++ r) k = Ok v).
    { intros A l r k v E. apply vec_at_ok in E. apply vec_at_ok. rewrite nth_error_app1; [ exact E | eapply at_lt; exact E ]. }
    destruct (vec_at (faces m) fi) as [ [ [a b0] c] | | ] eqn:E1; cbn [bind] in H; try discriminate. rewrite (K _ _ _ _ _ E1). cbn [bind].
    destruct (vec_at (points m) a) as [pa | | ] eqn:E2; cbn [bind] in H; try discriminate. rewrite (K _ _ _ _ _ E2). cbn [bind].
    destruct (vec_at (points m) b0) as [pb | | ] eqn:E3; cbn [bind] in H; try discriminate. rewrite (K _ _ _ _ _ E3). cbn [bind].
    destruct (vec_at (points m) c) as [pc | | ] eqn:E4; cbn [bind] in H; try discriminate. rewrite (K _ _ _ _ _ E4). exact H.
  Qed.
  Lemma leaves_spec : forall (m : soup P D) l acc ls, foldM (fun ls fi => let* b := face_bbox pbox m fi in Ok (ls ++ [(b, fi)])) acc l = Ok ls ->
    exists r, ls = acc ++ r /\ Forall2 (fun fi e => face_bbox pbox m fi = Ok (fst e) /\ snd e = fi) l r.
  Proof.
    induction l as [ | fi l IH]; intros acc ls H; cbn [foldM] in H.
    - injection H as <-. exists []. rewrite app_nil_r. auto.
    - destruct (face_bbox pbox m fi) as [b | | ] eqn:E; cbn [bind] in H; try discriminate. apply IH in H. destruct H as (r & -> & F).
      exists ((b, fi) :: r). rewrite <- app_assoc. split; [ reflexivity | ]. constructor; auto.
  Qed.
  Lemma leaves_intro : forall (m : soup P D) l r acc, Forall2 (fun fi e => face_bbox pbox m fi = Ok (fst e) /\ snd e = fi) l r ->
    foldM (fun ls fi => let* b := face_bbox pbox m fi in Ok (ls ++ [(b, fi)])) acc l = Ok (acc ++ r).
  Proof.
    induction l as [ | fi l IH]; intros r acc F; inversion F as [ | ? e ? r' [H1 H2] F']; subst; cbn [foldM].
    - rewrite app_nil_r. reflexivity.
    - rewrite H1. cbn [bind]. rewrite (IH r') by exact F'. rewrite <- app_assoc. destruct e. reflexivity.
  Qed.
  Lemma Forall2_imp : forall A B (R S : A -> B -> Prop) l r, (forall a b, R a b -> S a b) -> Forall2 R l r -> Forall2 S l r.
  Proof. intros A B R S l r H F. induction F; constructor; auto. Qed.
  (** A tree remains the tree of the faces it was built of. *)
  Lemma tree_grow : forall (m m' : soup P D) t, aabb m t -> (exists ps, points m' = points m ++ ps) -> faces m' = faces m -> aabb m' t.
  Proof.
    intros m m' t H Ep Ef. destruct H as [limit ls t Hl Hs]. econstructor; [ | exact Hs ]. unfold soup_leaves in *.
    destruct (leaves_spec _ _ _ _ Hl) as (r & -> & F). unfold num_faces in *. rewrite Ef. apply leaves_intro. eapply Forall2_imp; [ | exact F ]. intros fi e [A B]. split; [ | exact B ].
    apply (bbox_grow _ _ _ _ A Ep). exists []. rewrite app_nil_r. exact Ef.
  Qed.
  Definition tree_inv (x : object) : Prop :=
    forall t, o_tree x = Some t -> exists n, n <= num_faces (o_soup x) /\ aabb (truncate (o_soup x) n) t.
  Lemma inv_grow : forall x x', tree_inv x -> o_tree x' = o_tree x -> (exists ps, points (o_soup x') = points (o_soup x) ++ ps) ->
    (exists fs, faces (o_soup x') = faces (o_soup x) ++ fs) -> tree_inv x'.
  Proof.
    intros x x' H Et Ep (fs & Ef) t Ht. rewrite Et in Ht. destruct (H t Ht) as (n & L & A). exists n. unfold num_faces in *. rewrite Ef, app_length. split; [ lia | ].
    apply (tree_grow _ _ _ A); [ exact Ep | ]. cbn [truncate faces]. rewrite Ef, firstn_app. replace (n - length (faces (o_soup x))) with 0 by lia. cbn [firstn]. apply app_nil_r.
  Qed.
  Lemma truncate_all : forall (m : soup P D) t, aabb m t -> aabb (truncate m (num_faces m)) t.
  Proof.
    intros m t H. apply (tree_grow m); [ exact H | exists []; rewrite app_nil_r; reflexivity | ]. unfold truncate, num_faces. cbn [faces]. apply firstn_all.
  Qed.

  Definition all_inv (st : list object) : Prop := forall i x, nth_error st i = Some x -> tree_inv x.
  Lemma none_inv : forall s, tree_inv (mk_object s None).
  Proof. intros s t H. discriminate. Qed.
  Lemma nth_set : forall A (l : list A) i a j x, nth_error (list_set l i a) j = Some x -> (i = j /\ x = a) \/ (i <> j /\ nth_error l j = Some x).
  Proof.
    intros A l i a j x H. destruct (Nat.eq_dec i j) as [-> | N]; [ left | right; split; [ exact N | rewrite nth_error_list_set_neq in H by exact N; exact H ] ].
    split; [ reflexivity | ]. rewrite nth_error_list_set_eq in H; [ congruence | ]. rewrite <- (length_list_set _ l j a). eapply at_lt. exact H.
  Qed.
  Lemma nth_app1 : forall A (l : list A) a j x, nth_error (l ++ [a]) j = Some x -> (j = length l /\ x = a) \/ (j < length l /\ nth_error l j = Some x).
  Proof.
    intros A l a j x H. destruct (Nat.lt_ge_cases j (length l)) as [L | L]; [ right; rewrite nth_error_app1 in H by exact L; auto | left ].
    rewrite nth_error_app2 in H by exact L. destruct (j - length l) as [ | k] eqn:E; [ | destruct k; discriminate ]. cbn in H. split; [ lia | congruence ].
  Qed.
  Lemma vertex_grow : forall m p n s, add_vertex m p = (n, s) -> points s = points m ++ [p] /\ faces s = faces m /\ @face_data P D s = face_data m /\ n = length (points m).
  Proof. intros m p n s H. injection H as <- <-. cbn. unfold num_vertices. cbn. rewrite app_length. cbn. repeat split; lia. Qed.
  Lemma face_grow : forall m f n s, add_face d0 m f = (n, s) -> @points P D s = points m /\ faces s = faces m ++ [f] /\ face_data s = face_data m ++ [d0] /\ n = length (faces m).
  Proof. intros m p n s H. injection H as <- <-. cbn. unfold num_faces. cbn. rewrite app_length. cbn. repeat split; lia. Qed.
  Lemma set_same : forall m fi d s, set_data m fi d = Ok s -> @points P D s = points m /\ faces s = faces m.
  Proof. intros m fi d s H. unfold set_data in H. apply bind_ok in H. destruct H as (fd & _ & H). injection H as <-. auto. Qed.

  Lemma step_inv : forall st o st' r, do_op st o st' r -> all_inv st -> all_inv st'.
  Proof.
    intros st o st' r H I. destruct H; intros k x Hk; try (eapply I; eassumption);
      repeat match goal with
      | H : nth_error (list_set _ _ _) _ = Some _ |- _ => apply nth_set in H; destruct H as [ [-> ->] | [? H] ]
      | H : nth_error (_ ++ [_]) _ = Some _ |- _ => apply nth_app1 in H; destruct H as [ [-> ->] | [? H] ]
      end; try apply none_inv; try (eapply I; eassumption).
    - apply vertex_grow in H0. destruct H0 as (A & B & _). eapply inv_grow; [ apply (I _ _ H) | reflexivity | exists [p]; exact A | exists []; rewrite app_nil_r; exact B ].
    - apply face_grow in H0. destruct H0 as (A & B & _). eapply inv_grow; [ apply (I _ _ H) | reflexivity | exists []; rewrite app_nil_r; exact A | exists [f]; exact B ].
    - apply set_same in H0. destruct H0 as (A & B). eapply inv_grow; [ apply (I _ _ H) | reflexivity | exists []; rewrite app_nil_r; exact A | exists []; rewrite app_nil_r; exact B ].
    - intros t0 E. cbn [o_tree] in E. injection E as <-. exists (num_faces (o_soup o)). split; [ apply le_n | ]. apply truncate_all. exact H1.
  Qed.
  Lemma run_inv : forall ops st st' rs, run st ops st' rs -> all_inv st -> all_inv st'.
  Proof. intros ops st st' rs H. induction H; intro I; [ exact I | ]. apply IHrun. eapply step_inv; eassumption. Qed.

  (** A careful history: the tree is the tree of all faces, and an object has a tree only
      if it was queried. *)
  Definition exact_inv (h : list (@op P D)) (st : list (@object P D)) : Prop :=
    length st = constructed h /\
    forall i x, nth_error st i = Some x -> forall t, o_tree x = Some t -> aabb (o_soup x) t /\ queried h i.
  Lemma exact_grow : forall (x : @object P D) (s : soup P D) t, aabb (o_soup x) t -> (exists ps, points s = points (o_soup x) ++ ps) -> faces s = faces (o_soup x) -> aabb s t.
  Proof. intros x s t A Ep Ef. exact (tree_grow _ _ _ A Ep Ef). Qed.
  Lemma step_exact : forall h st o st' r, do_op st o st' r -> exact_inv h st -> (forall i f, o = AddFace i f -> ~ queried h i) -> exact_inv (o :: h) st'.
  Proof.
    intros h st o st' r H [L I] C. split.
    - rewrite (length_step _ _ _ _ H), L. unfold constructed. cbn [filter]. destruct (constructs o); cbn; lia.
    - destruct H; intros k x Hk t' Ht'; try (destruct (I _ _ Hk t' Ht') as [A Q]; split; [ exact A | apply q_keep; [ exact Q | cbn; tauto ] ]; fail).
      + apply nth_app1 in Hk. destruct Hk as [ [-> ->] | [Lk Hk] ]; [ discriminate | ]. destruct (I _ _ Hk t' Ht') as [A Q]. split; [ exact A | apply q_keep; [ exact Q | cbn; tauto ] ].
      + apply nth_app1 in Hk. destruct Hk as [ [-> ->] | [Lk Hk] ]; [ discriminate | ]. destruct (I _ _ Hk t' Ht') as [A Q]. split; [ exact A | apply q_keep; [ exact Q | cbn; tauto ] ].
      + apply nth_app1 in Hk. destruct Hk as [ [-> ->] | [Lk Hk] ]; [ discriminate | ]. destruct (I _ _ Hk t' Ht') as [A Q]. split; [ exact A | apply q_keep; [ exact Q | cbn; tauto ] ].
      + apply nth_app1 in Hk. rewrite length_list_set in Hk. destruct Hk as [ [-> ->] | [Lk Hk] ].
        * destruct (I _ _ H t' Ht') as [A Q]. split; [ exact A | ]. rewrite L. apply q_move_new. exact Q.
        * apply nth_set in Hk. destruct Hk as [ [-> ->] | [N Hk] ]; [ discriminate | ]. destruct (I _ _ Hk t' Ht') as [A Q]. split; [ exact A | apply q_keep; [ exact Q | cbn; auto ] ].
      + apply nth_set in Hk. destruct Hk as [ [-> ->] | [N Hk] ]; [ discriminate | ]. destruct (I _ _ Hk t' Ht') as [A Q]. split; [ exact A | apply q_keep; [ exact Q | cbn; intros [X _]; auto ] ].
      + apply nth_set in Hk. destruct Hk as [ [-> ->] | [N Hk] ].
        * destruct (I _ _ H1 t' Ht') as [A Q]. split; [ exact A | apply q_move_assign; assumption ].
        * apply nth_set in Hk. destruct Hk as [ [-> ->] | [N' Hk] ]; [ discriminate | ]. destruct (I _ _ Hk t' Ht') as [A Q]. split; [ exact A | apply q_keep; [ exact Q | cbn; intros [X | X]; auto ] ].
      + apply nth_set in Hk. destruct Hk as [ [-> ->] | [N Hk] ].
        * apply vertex_grow in H0. destruct H0 as (E1 & E2 & _). destruct (I _ _ H t' Ht') as [A Q]. split; [ | apply q_keep; [ exact Q | cbn; tauto ] ].
          apply (exact_grow o); [ exact A | exists [p]; exact E1 | exact E2 ].
        * destruct (I _ _ Hk t' Ht') as [A Q]. split; [ exact A | apply q_keep; [ exact Q | cbn; tauto ] ].
      + apply nth_set in Hk. destruct Hk as [ [-> ->] | [N Hk] ].
        * destruct (I _ _ H t' Ht') as [A Q]. exfalso. exact (C _ _ eq_refl Q).
        * destruct (I _ _ Hk t' Ht') as [A Q]. split; [ exact A | apply q_keep; [ exact Q | cbn; tauto ] ].
      + apply nth_set in Hk. destruct Hk as [ [-> ->] | [N Hk] ].
        * apply set_same in H0. destruct H0 as (E1 & E2). destruct (I _ _ H t' Ht') as [A Q]. split; [ | apply q_keep; [ exact Q | cbn; tauto ] ].
          apply (exact_grow o); [ exact A | exists []; rewrite app_nil_r; exact E1 | exact E2 ].
        * destruct (I _ _ Hk t' Ht') as [A Q]. split; [ exact A | apply q_keep; [ exact Q | cbn; tauto ] ].
      + apply nth_set in Hk. destruct Hk as [ [-> ->] | [N Hk] ].
        * cbn [o_tree] in Ht'. injection Ht' as <-. split; [ exact H1 | apply q_tree ].
        * destruct (I _ _ Hk t' Ht') as [A Q]. split; [ exact A | apply q_keep; [ exact Q | cbn; tauto ] ].
  Qed.
  Lemma run_exact : forall ops st st' rs h, run st ops st' rs -> exact_inv h st ->
    (forall before i f after, ops = before ++ AddFace i f :: after -> ~ queried (rev before ++ h) i) -> exact_inv (rev ops ++ h) st'.
  Proof.
    induction ops as [ | o ops IH]; intros st st' rs h H I C; inversion H as [ | ? ? st1 r ? ? rs' Ho Hr]; subst; [ exact I | ].
    cbn [rev]. rewrite <- app_assoc. cbn [app]. apply (IH _ _ _ _ Hr).
    - apply (step_exact _ _ _ _ _ Ho I). intros i f ->. apply (C [] i f ops eq_refl).
    - intros before i f after ->. specialize (C (o :: before) i f after eq_refl). cbn [rev] in C. rewrite <- app_assoc in C. exact C.
  Qed.
End Cache.
