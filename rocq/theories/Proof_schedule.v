(** * Threads that write nothing but right tags *)
From Coq Require Import List Arith Bool Lia QArith.
From Verif Require Import Model_base Model_soup Model_mesh Model_geometry Model_classify Model_local Model_corefine Model_mix Model_schedule.
From Verif Require Import Spec_mesh Spec_classify Spec_radial Spec_local.
From Verif Require Import Proof_base Proof_mesh Proof_propagate Proof_classify.
Import ListNotations.
Local Open Scope nat_scope.

Section Rely.
  Context {D : Type}.
  Variable truth : nat -> face_tag.

  Definition good (ds : list (mixed_data D)) : Prop :=
    forall g d, nth_error ds g = Some d -> truth g <> UNKNOWN /\ (tag d = UNKNOWN \/ tag d = truth g).
  (** What other threads may do meanwhile. *)
  Definition ext (ds ds' : list (mixed_data D)) : Prop :=
    length ds' = length ds /\
    forall g d, nth_error ds g = Some d -> exists d', nth_error ds' g = Some d' /\ from_left d' = from_left d /\ data d' = data d /\
      (tag d <> UNKNOWN -> tag d' = tag d).
  Definition known (ds : list (mixed_data D)) (f : nat) : Prop := exists d, nth_error ds f = Some d /\ tag d <> UNKNOWN.
  Definition owned (mine : list nat) (ds : list (mixed_data D)) : Prop := forall f, In f mine -> known ds f.
  Definition stage (mine : list nat) (ds ds' : list (mixed_data D)) : Prop := ext ds ds' /\ good ds' /\ owned mine ds'.

  Lemma ext_refl : forall ds, ext ds ds.
  Proof. intro ds. split; [ reflexivity | ]. intros g d H. exists d. auto. Qed.
  Lemma ext_trans : forall a b c, ext a b -> ext b c -> ext a c.
  Proof.
    intros a b c (L1 & H1) (L2 & H2). split; [ congruence | ]. intros g d H.
    destruct (H1 g d H) as (d1 & E1 & F1 & G1 & T1). destruct (H2 g d1 E1) as (d2 & E2 & F2 & G2 & T2).
    exists d2. split; [ exact E2 | ]. split; [ congruence | ]. split; [ congruence | ].
    intro N. rewrite <- (T1 N). apply T2. rewrite (T1 N). exact N.
  Qed.
  Lemma known_ext : forall ds ds' f, ext ds ds' -> known ds f -> known ds' f.
  Proof.
    intros ds ds' f (_ & H) (d & E & N). destruct (H f d E) as (d' & E' & _ & _ & T). exists d'. split; [ exact E' | ].
    now rewrite (T N).
  Qed.
  Lemma owned_ext : forall mine ds ds', ext ds ds' -> owned mine ds -> owned mine ds'.
  Proof. intros mine ds ds' H O f Hf. apply (known_ext ds); auto. Qed.
  Lemma stage_trans : forall mine a b c, ext a b -> stage mine b c -> stage mine a c.
  Proof. intros mine a b c H (H1 & H2 & H3). split; [ exact (ext_trans _ _ _ H H1) | auto ]. Qed.
  Lemma stage_refl : forall mine ds, good ds -> owned mine ds -> stage mine ds ds.
  Proof. intros. split; [ apply ext_refl | auto ]. Qed.

  Lemma known_truth : forall ds f d, good ds -> nth_error ds f = Some d -> known ds f -> tag d = truth f.
  Proof.
    intros ds f d G E (d' & E' & N). assert (d' = d) by congruence. subst d'. destruct (G f d E) as (_ & [ Z | Z ]); congruence.
  Qed.

  Lemma write_ext : forall ds f d, good ds -> nth_error ds f = Some d ->
    good (list_set ds f (retag (truth f) d)) /\ ext ds (list_set ds f (retag (truth f) d)) /\ known (list_set ds f (retag (truth f) d)) f.
  Proof.
    intros ds f d G E. destruct (G f d E) as (N & T).
    assert (Hl : f < length ds) by (apply nth_error_Some; congruence).
    split; [ | split ].
    - intros g d' H. destruct (Nat.eq_dec f g) as [ <- | Ng ].
      + rewrite nth_error_list_set_eq in H by auto. injection H as <-. cbn [retag tag]. auto.
      + rewrite nth_error_list_set_neq in H by auto. exact (G g d' H).
    - split; [ apply length_list_set | ]. intros g d' H. destruct (Nat.eq_dec f g) as [ <- | Ng ].
      + rewrite nth_error_list_set_eq by auto. assert (d' = d) by congruence. subst d'.
        eexists. split; [ reflexivity | ]. cbn [retag tag from_left data]. do 2 (split; [ reflexivity | ]). intro Z. destruct T; congruence.
      + rewrite nth_error_list_set_neq by auto. exists d'. auto.
    - exists (retag (truth f) d). rewrite nth_error_list_set_eq by auto. auto.
  Qed.

  (** The program writes right tags only, whatever other threads write meanwhile if only
      that is right too; when it returns [Q] holds, and it throws only what [E] allows.
      [mine] are the faces it has written. *)
  Fixpoint safe {A} (E : exn -> Prop) (Q : A -> list nat -> list (mixed_data D) -> Prop) (p : prog D A)
      (mine : list nat) (ds : list (mixed_data D)) {struct p} : Prop :=
    match p with
    | Done (Ok a) => forall ds', stage mine ds ds' -> Q a mine ds'
    | Done (Throw e) => E e
    | Done UB => False
    | Read f k => forall ds', stage mine ds ds' -> exists d, nth_error ds' f = Some d /\ safe E Q (k d) mine ds'
    | Write f t k => forall ds', stage mine ds ds' -> f < length ds' /\ t = truth f /\
        forall d, nth_error ds' f = Some d -> safe E Q k (f :: mine) (list_set ds' f (retag t d))
    end.

  Lemma safe_ext : forall A E Q (p : prog D A) mine ds ds', ext ds ds' -> safe E Q p mine ds -> safe E Q p mine ds'.
  Proof.
    intros A E Q p mine ds ds' H S. destruct p as [ [ a | e | ] | f k | f t k ]; cbn [safe] in *; auto.
    - intros ds'' H'. apply S. exact (stage_trans _ _ _ _ H H').
    - intros ds'' H'. apply S. exact (stage_trans _ _ _ _ H H').
    - intros ds'' H'. apply S. exact (stage_trans _ _ _ _ H H').
  Qed.

  Lemma safe_conseq : forall A E (Q Q' : A -> list nat -> list (mixed_data D) -> Prop) (p : prog D A) mine ds,
    (forall a mine' ds', ext ds ds' -> good ds' -> owned mine' ds' -> incl mine mine' -> Q a mine' ds' -> Q' a mine' ds') ->
    safe E Q p mine ds -> safe E Q' p mine ds.
  Proof.
    intros A E Q Q'. induction p as [ [ a | e | ] | f k IH | f t k IH ]; intros mine ds H S; cbn [safe] in *; auto.
    - intros ds' (H1 & H2 & H3). apply H; auto; [ apply incl_refl | ]. apply S. split; auto.
    - intros ds' HS. destruct (S ds' HS) as (d & E1 & S1). exists d. split; [ exact E1 | ]. apply IH; [ | exact S1 ].
      intros a mine' ds'' X1. apply H. exact (ext_trans _ _ _ (proj1 HS) X1).
    - intros ds' HS. destruct (S ds' HS) as (E1 & E2 & S1). split; [ exact E1 | ]. split; [ exact E2 | ]. intros d Hd.
      specialize (S1 d Hd). apply IH; [ | exact S1 ]. subst t.
      intros a mine' ds'' X1 X2 X3 X4. apply H; auto.
      + apply (ext_trans _ _ _ (proj1 HS)). apply (ext_trans _ _ _ (proj1 (proj2 (write_ext ds' f d (proj1 (proj2 HS)) Hd))) X1).
      + intros x Hx. apply X4. now right.
  Qed.

  Lemma safe_bind : forall A B E Q' Q (p : prog D A) (k : A -> prog D B) mine ds,
    good ds -> owned mine ds ->
    safe E Q' p mine ds ->
    (forall a mine' ds', ext ds ds' -> good ds' -> owned mine' ds' -> incl mine mine' -> Q' a mine' ds' -> safe E Q (k a) mine' ds') ->
    safe E Q (pbind p k) mine ds.
  Proof.
    intros A B E Q' Q. induction p as [ [ a | e | ] | f k0 IH | f t p IH ]; intros k mine ds G O S H; cbn [safe pbind] in *; auto.
    - apply H; auto; [ apply ext_refl | apply incl_refl | ]. apply S. now apply stage_refl.
    - intros ds' HS. destruct (S ds' HS) as (d & E1 & S1). destruct HS as (X1 & X2 & X3). exists d. split; [ exact E1 | ]. apply IH; auto.
      intros a mine' ds'' Y1. apply H. exact (ext_trans _ _ _ X1 Y1).
    - intros ds' HS. destruct (S ds' HS) as (E1 & E2 & S1). destruct HS as (X1 & X2 & X3). split; [ exact E1 | ]. split; [ exact E2 | ]. intros d Hd.
      specialize (S1 d Hd). subst t. destruct (write_ext ds' f d X2 Hd) as (W1 & W2 & W3). apply IH; auto.
      + intros x [ <- | Hx ]; [ exact W3 | ]. exact (known_ext _ _ _ W2 (X3 x Hx)).
      + intros a mine' ds'' Y1 Y2 Y3 Y4. apply H; auto; [ exact (ext_trans _ _ _ X1 (ext_trans _ _ _ W2 Y1)) | ].
        intros x Hx. apply Y4. now right.
  Qed.

  Lemma safe_fold : forall A S E (I : list A -> S -> list nat -> list (mixed_data D) -> Prop) (f : S -> A -> prog D S) l s mine ds,
    good ds -> owned mine ds -> I [] s mine ds ->
    (forall pre s mine ds ds', stage mine ds ds' -> I pre s mine ds -> I pre s mine ds') ->
    (forall pre x post s mine' ds', l = pre ++ x :: post -> ext ds ds' -> good ds' -> owned mine' ds' -> I pre s mine' ds' ->
       safe E (I (pre ++ [x])) (f s x) mine' ds') ->
    safe E (I l) (pfold f s l) mine ds.
  Proof.
    intros A S E I f l s mine ds G O H0 Hst Hs.
    assert (X : forall post pre s mine' ds', l = pre ++ post -> ext ds ds' -> good ds' -> owned mine' ds' -> I pre s mine' ds' ->
      safe E (I l) (pfold f s post) mine' ds').
    { induction post as [ | x post IH ]; intros pre s1 mine1 ds1 El X1 X2 X3 X4; cbn [pfold].
      - rewrite app_nil_r in El. subst pre. cbn [safe]. intros ds' HS. exact (Hst _ _ _ _ _ HS X4).
      - apply (safe_bind _ _ E (I (pre ++ [x]))); auto. + now apply (Hs pre x post).
        + intros a mine2 ds2 Y1 Y2 Y3 Y4 Y5. apply (IH (pre ++ [x])); auto. * now rewrite <- app_assoc. * exact (ext_trans _ _ _ X1 Y1). }
    apply (X l []); auto. apply ext_refl.
  Qed.

  (** *** All the threads together *)
  Definition claimed (ds0 : list (mixed_data D)) (mss : list (list nat)) (ds : list (mixed_data D)) : Prop :=
    forall f, known ds f -> known ds0 f \/ exists i mine, nth_error mss i = Some mine /\ In f mine.
  Definition together {A} (E : exn -> Prop) (Q : nat -> A -> list nat -> list (mixed_data D) -> Prop) (ds0 : list (mixed_data D))
      (c : list (prog D A) * list (mixed_data D)) : Prop :=
    let '(ps, ds) := c in
    good ds /\ ext ds0 ds /\ exists mss, length mss = length ps /\ claimed ds0 mss ds /\
      forall i p mine, nth_error ps i = Some p -> nth_error mss i = Some mine -> safe E (Q i) p mine ds /\ owned mine ds.

  Lemma together_step : forall A E Q ds0 (c c' : list (prog D A) * list (mixed_data D)), step c c' -> together E Q ds0 c -> together E Q ds0 c'.
  Proof.
    intros A E Q ds0 c c' H. destruct H as [ ps ds i p p' ds' Hp Ha ]. cbn [together].
    intros (G & X & mss & El & Hc & Hi).
    assert (Hil : i < length ps) by (apply nth_error_Some; congruence).
    destruct (nth_error mss i) as [ mine | ] eqn:Em; [ | apply nth_error_None in Em; lia ].
    destruct (Hi i p mine Hp Em) as (S & O). destruct p as [ r | f k | f t k ]; cbn [access] in Ha; [ discriminate | | ].
    - cbn [safe] in S. destruct (S ds (stage_refl _ _ G O)) as (d & Ed & Sd). unfold vec_at in Ha. rewrite Ed in Ha. injection Ha as <- <-.
      split; [ exact G | ]. split; [ exact X | ]. exists mss. rewrite length_list_set. split; [ exact El | ]. split; [ exact Hc | ].
      intros j q mine' Hq Hm. destruct (Nat.eq_dec i j) as [ <- | Nj ].
      + rewrite nth_error_list_set_eq in Hq by auto. injection Hq as <-. assert (mine' = mine) by congruence. subst mine'. auto.
      + rewrite nth_error_list_set_neq in Hq by auto. now apply Hi.
    - cbn [safe] in S. destruct (S ds (stage_refl _ _ G O)) as (Hl & -> & Sd).
      destruct (nth_error ds f) as [ d | ] eqn:Ed; [ | apply nth_error_None in Ed; lia ]. specialize (Sd d eq_refl).
      unfold set_tag, vec_at, vec_set in Ha. rewrite Ed in Ha. cbn [bind] in Ha. destruct (Nat.ltb_spec f (length ds)); [ | lia ]. injection Ha as <- <-.
      destruct (write_ext ds f d G Ed) as (W1 & W2 & W3). split; [ exact W1 | ]. split; [ exact (ext_trans _ _ _ X W2) | ].
      exists (list_set mss i (f :: mine)). rewrite !length_list_set. split; [ exact El | ].
      assert (Him : i < length mss) by lia. split.
      + intros g (dg & Hg & Ng). destruct (Nat.eq_dec f g) as [ <- | Nf ].
        * right. exists i, (f :: mine). rewrite nth_error_list_set_eq by auto. split; [ reflexivity | now left ].
        * rewrite nth_error_list_set_neq in Hg by auto. destruct (Hc g (ex_intro _ dg (conj Hg Ng))) as [ K | (j & mj & K1 & K2) ]; [ now left | right ].
          destruct (Nat.eq_dec i j) as [ <- | Nj ].
          -- exists i, (f :: mine). rewrite nth_error_list_set_eq by auto. split; [ reflexivity | ]. right. congruence.
          -- exists j, mj. rewrite nth_error_list_set_neq by auto. auto.
      + intros j q mine' Hq Hm. destruct (Nat.eq_dec i j) as [ <- | Nj ].
        * rewrite nth_error_list_set_eq in Hq, Hm by auto. injection Hq as <-. injection Hm as <-. split; [ exact Sd | ].
          intros x [ <- | Hx ]; [ exact W3 | ]. exact (known_ext _ _ _ W2 (O x Hx)).
        * rewrite nth_error_list_set_neq in Hq, Hm by auto. destruct (Hi j q mine' Hq Hm) as (S' & O').
          split; [ exact (safe_ext _ _ _ _ _ _ _ W2 S') | exact (owned_ext _ _ _ W2 O') ].
  Qed.

  Lemma together_steps : forall A E Q ds0 (c c' : list (prog D A) * list (mixed_data D)), steps c c' -> together E Q ds0 c -> together E Q ds0 c'.
  Proof. intros A E Q ds0 c c' H. induction H; auto. intro T. apply IHsteps. exact (together_step _ _ _ _ _ _ H T). Qed.

  Lemma nth_error_repeat_nil : forall n i (mine : list nat), nth_error (repeat [] n) i = Some mine -> mine = [].
  Proof. intros n i mine H. apply nth_error_In, repeat_spec in H. exact H. Qed.

  Theorem parallel_safe : forall E (Q : nat -> warnings -> list nat -> list (mixed_data D) -> Prop) ps ds0 r,
    good ds0 -> (forall i p, nth_error ps i = Some p -> safe E (Q i) p [] ds0) -> parallel ps ds0 r ->
    (exists ds ws mss, r = Ok (ds, fold_left warn_or ws no_warnings) /\ good ds /\ ext ds0 ds /\ length ws = length ps /\ claimed ds0 mss ds /\
       length mss = length ps /\
       forall i w mine, nth_error ws i = Some w -> nth_error mss i = Some mine -> Q i w mine ds /\ owned mine ds) \/
    (exists e, r = Throw e /\ E e).
  Proof.
    intros E Q ps ds0 r G Hs Hp.
    assert (T0 : together E Q ds0 (ps, ds0)).
    { split; [ exact G | ]. split; [ apply ext_refl | ]. exists (repeat [] (length ps)). split; [ apply repeat_length | ].
      split; [ intros f Hf; now left | ]. intros i p mine Hi Hm. apply nth_error_repeat_nil in Hm. subst mine. split; [ now apply Hs | intros f [] ]. }
    destruct Hp as [ ps' ds' ws H -> | ps' ds' rr o H Hin Hf ].
    - left. assert (Hlen : length ws = length ps).
      { assert (K : forall c c' : list (prog D warnings) * list (mixed_data D), steps c c' -> length (fst c') = length (fst c)).
        { intros c c' X. induction X as [ | c c1 c2 X1 _ IH ]; [ reflexivity | ]. rewrite IH. destruct X1. cbn [fst]. apply length_list_set. }
        specialize (K _ _ H). cbn [fst] in K. now rewrite map_length in K. }
      pose proof (together_steps _ _ _ _ _ _ H T0) as (G' & X & mss & El & Hc & Hi).
      exists ds', ws, mss. split; [ reflexivity | ]. split; [ exact G' | ]. split; [ exact X | ]. split; [ exact Hlen | ]. split; [ exact Hc | ].
      rewrite map_length in El. split; [ congruence | ]. intros i w mine Hw Hm.
      destruct (Hi i (Done (Ok w)) mine) as (S & O); [ now rewrite nth_error_map, Hw | exact Hm | ]. split; [ | exact O ].
      apply S. now apply stage_refl.
    - right. pose proof (together_steps _ _ _ _ _ _ H T0) as (G' & X & mss & El & Hc & Hi).
      apply In_nth_error in Hin. destruct Hin as (i & Hin).
      destruct (nth_error mss i) as [ mine | ] eqn:Em; [ | apply nth_error_None in Em; assert (i < length ps') by (apply nth_error_Some; congruence); lia ].
      destruct (Hi i _ mine Hin Em) as (S & _). destruct rr as [ a | e | ]; cbn [fails] in Hf; [ contradiction | | contradiction ].
      exists e. split; [ exact Hf | exact S ].
  Qed.
End Rely.
