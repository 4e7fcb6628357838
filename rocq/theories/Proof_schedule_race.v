(** * The threads of global classification stay in their own components *)
From Coq Require Import List Arith Bool Lia.
From Verif Require Import Model_base Model_soup Model_mesh Model_classify Model_local Model_schedule.
From Verif Require Import Spec_mesh Spec_classify Spec_race.
From Verif Require Import Proof_base Proof_mesh Proof_propagate Proof_classify.
Import ListNotations.

Section Confined.
  Context {P D : Type}.
  Variable m : mesh P (mixed_data D).
  Variable border : list edge.
  Notation unk := (unk P D m).
  Notation reach := (reached m border).

  (** The program, started for [r], writes only to faces of the component of [r] that have
      no tag at the beginning, and reads no such faces of other components. *)
  Fixpoint confined {A} (Q : A -> Prop) (r : nat) (p : prog D A) : Prop :=
    match p with
    | Done (Ok a) => Q a
    | Done _ => True
    | Read f k => (unk f -> reach r f) /\ forall d, (tag d = UNKNOWN -> unk f) -> confined Q r (k d)
    | Write f t k => unk f /\ reach r f /\ confined Q r k
    end.

  Lemma confined_bind : forall A B (Q' : A -> Prop) (Q : B -> Prop) r (p : prog D A) k,
    confined Q' r p -> (forall a, Q' a -> confined Q r (k a)) -> confined Q r (pbind p k).
  Proof.
    intros A B Q' Q r. induction p as [ [ a | e | ] | f k0 IH | f t p IH ]; intros k H Hk; cbn [confined pbind] in *; auto.
    - destruct H as (H1 & H2). split; [ exact H1 | ]. intros d Hd. apply IH; auto.
    - destruct H as (H1 & H2 & H3). auto.
  Qed.
  Lemma confined_pure : forall A B (Q : B -> Prop) r (x : res A) k,
    (forall a, x = Ok a -> confined Q r (k a)) -> confined Q r (@pure D _ _ x k).
  Proof. intros A B Q r x k H. unfold pure. destruct x; cbn [pbind confined]; auto. Qed.
  Lemma confined_fold : forall A S (I : S -> Prop) r (f : S -> A -> prog D S) l s,
    I s -> (forall s x, In x l -> I s -> confined I r (f s x)) -> confined I r (pfold f s l).
  Proof.
    intros A S I r f l. induction l as [ | x l IH ]; intros s Hs Hf; cbn [pfold]; [ exact Hs | ].
    apply (confined_bind _ _ I).
    - apply Hf; [ now left | exact Hs ].
    - intros a Ha. apply IH; [ exact Ha | ]. intros. apply Hf; auto. now right.
  Qed.

  Hypothesis HF : finalized m.
  Hypothesis HW : wf_mixed_mesh m.

  Lemma loop_confined : forall r left t fuel q w, (forall f, In f q -> f < length (m_faces m) /\ reach r f) ->
    confined (fun _ => True) r (@p_loop D P fuel m border left t (q, w)).
  Proof.
    intros r left t fuel. induction fuel as [ | fuel IH ]; intros [ | fi q ] w Hq; cbn [p_loop confined]; auto.
    apply confined_pure. intros adj Ea. destruct (Hq fi (or_introl eq_refl)) as (Hl & Hr).
    destruct (faces_around_face_exact _ _ m fi border HF Hl) as (adj' & Ea' & HA & HB). rewrite Ea in Ea'. injection Ea' as <-.
    apply (confined_bind _ _ (fun st => forall f, In f (fst st) -> f < length (m_faces m) /\ reach r f)).
    - apply confined_fold; [ intros f Hf; apply Hq; now right | ].
      intros [q1 w1] x Hx I. cbn [fst] in I. cbn [p_visit confined].
      assert (Rx : unk x -> reach r x).
      { intro U. destruct (Nat.eq_dec x fi) as [ -> | Nx ]; [ exact Hr | ]. apply (reached_step _ _ m border r fi x Hr); [ now apply HA | exact U ]. }
      split; [ exact Rx | ]. intros d Hd. destruct (face_tag_eqb_spec (tag d) UNKNOWN) as [ U | U ].
      + cbn [confined]. split; [ now apply Hd | ]. split; [ apply Rx; now apply Hd | ]. cbn [fst]. intros f Hf. apply in_app_iff in Hf.
        destruct Hf as [ Hf | [ <- | [] ] ]; [ now apply I | ]. split; [ apply (unk_lt P D m HW); now apply Hd | apply Rx; now apply Hd ].
      + cbn [confined]. split; [ exact Rx | ]. intros d' _. destruct (negb _); cbn [confined fst]; exact I.
    - intros [q1 w1] I. apply IH. exact I.
  Qed.

  Lemma rep_confined : forall centroid sl sr r, unk r -> confined (fun _ => True) r (@p_rep D P centroid sl sr m border r).
  Proof.
    intros centroid sl sr r Ur. assert (Rr : reach r r) by constructor. unfold p_rep. cbn [confined].
    split; [ auto | ]. intros d _. apply confined_pure. intros [ [a b] c ] _. apply confined_pure. intros pa _. apply confined_pure. intros pb _.
    apply confined_pure. intros pc _. apply confined_pure. intros side _. destruct (oriented_side_eqb side ON_BOUNDARY); cbn [confined]; [ auto | ].
    split; [ exact Ur | ]. split; [ exact Rr | ]. unfold p_propagate. cbn [confined]. split; [ auto | ]. intros d' _.
    apply loop_confined. intros f [ <- | [] ]. split; [ apply (unk_lt P D m HW); exact Ur | exact Rr ].
  Qed.

  Definition all_confined (reps : list nat) (c : list (prog D warnings) * list (mixed_data D)) : Prop :=
    length (fst c) = length reps /\
    (forall i p r, nth_error (fst c) i = Some p -> nth_error reps i = Some r -> confined (fun _ => True) r p) /\
    forall f d, nth_error (snd c) f = Some d -> tag d = UNKNOWN -> unk f.

  Lemma confined_steps : forall reps c c', steps c c' -> all_confined reps c -> all_confined reps c'.
  Proof.
    intros reps c c' H. induction H as [ | c c1 c2 H _ IH ]; auto. intros (I0 & I1 & I2). apply IH. clear IH.
    destruct H as [ ps ds i p p' ds' Hp Ha ]. cbn [fst snd] in *. unfold all_confined. cbn [fst snd]. rewrite length_list_set. split; [ exact I0 | ].
    assert (Hi : i < length ps) by (apply nth_error_Some; congruence).
    destruct (nth_error reps i) as [ r | ] eqn:Er; [ | apply nth_error_None in Er; lia ].
    pose proof (I1 i p r Hp Er) as C.
    assert (K : confined (fun _ => True) r p' /\ forall f d, nth_error ds' f = Some d -> tag d = UNKNOWN -> unk f).
    { destruct p as [ x | f k | f t k ]; cbn [access confined] in *; [ discriminate | | ].
      - destruct C as (_ & C). unfold vec_at in Ha. destruct (nth_error ds f) as [ d | ] eqn:Ed; injection Ha as <- <-; cbn [confined]; [ | auto ].
        split; [ apply C; intro U; exact (I2 f d Ed U) | exact I2 ].
      - destruct C as (C1 & C2 & C3). unfold set_tag, vec_at, vec_set in Ha. destruct (nth_error ds f) as [ d | ] eqn:Ed; cbn [bind] in Ha.
        + destruct (f <? length ds) eqn:El; injection Ha as <- <-; cbn [confined]; [ | auto ]. split; [ exact C3 | ].
          intros g d' Hg U. destruct (Nat.eq_dec f g) as [ <- | Ng ]; [ exact C1 | ].
          rewrite nth_error_list_set_neq in Hg by auto. exact (I2 g d' Hg U).
        + injection Ha as <- <-. cbn [confined]. auto. }
    split; [ | exact (proj2 K) ]. intros j q rj Hq Hr. destruct (Nat.eq_dec i j) as [ <- | Nj ].
    - rewrite nth_error_list_set_eq in Hq by auto. injection Hq as <-. assert (rj = r) by congruence. subst rj. exact (proj1 K).
    - rewrite nth_error_list_set_neq in Hq by auto. exact (I1 j q rj Hq Hr).
  Qed.

  Theorem reps_race_free : forall centroid sl sr reps, find_unclassified m border = Ok reps -> forall ps' ds',
    steps (map (@p_rep D P centroid sl sr m border) reps, m_data m) (ps', ds') -> ~ race ps'.
  Proof.
    intros centroid sl sr reps E ps' ds' S (i & j & f & t & k & q & Nij & Hi & Hj & Hf).
    destruct (find_unclassified_spec P D m border HF HW) as (reps' & E' & (O1 & O2 & O3) & _). rewrite E in E'. injection E' as <-.
    destruct (confined_steps reps _ _ S) as (I0 & I1 & _).
    { split; [ apply map_length | ]. cbn [fst snd]. split.
      - intros a p r Ha Hr. rewrite nth_error_map, Hr in Ha. injection Ha as <-. apply rep_confined. exact (proj1 (O2 r (nth_error_In _ _ Hr))).
      - intros g d Hg U. exists d. auto. }
    cbn [fst] in *.
    destruct (nth_error reps i) as [ ri | ] eqn:Ei; [ | apply nth_error_None in Ei; assert (i < length ps') by (apply nth_error_Some; congruence); lia ].
    destruct (nth_error reps j) as [ rj | ] eqn:Ej; [ | apply nth_error_None in Ej; assert (j < length ps') by (apply nth_error_Some; congruence); lia ].
    destruct (I1 i _ ri Hi Ei) as (Uf & Rf & _).
    assert (Rj : reach rj f).
    { pose proof (I1 j q rj Hj Ej) as C. destruct q as [ x | g kk | g tt kk ]; cbn [next_face confined] in *; [ discriminate | | ]; injection Hf as ->; tauto. }
    assert (Ui : unk ri) by exact (proj1 (O2 ri (nth_error_In _ _ Ei))). assert (Uj : unk rj) by exact (proj1 (O2 rj (nth_error_In _ _ Ej))).
    assert (X : reach ri rj) by (apply (reach_trans P D m border _ f); [ exact Rf | apply reach_sym; auto ]).
    assert (ri = rj) by (apply O3; eauto using nth_error_In). subst rj.
    apply Nij. apply (proj1 (NoDup_nth_error reps) O1); [ apply nth_error_Some; congruence | congruence ].
  Qed.
End Confined.
