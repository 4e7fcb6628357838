(** * Lemmas on thread-local intersection objects *)
From Coq Require Import List Arith Bool Lia.
From Verif Require Import Model_reuse.
Import ListNotations.

Section Proofs.
  Variable comps : nat -> computation.

  Lemma history_app : forall a b s s', history comps s (a ++ b) s' ->
    exists s1, history comps s a s1 /\ history comps s1 b s'.
  Proof.
    induction a as [ | e a IH]; intros b s s' H; [ exists s; split; [ constructor | exact H ] | ].
    cbn [app] in H. inversion H as [ | ? ? s1 ? ? He Hh]; subst. destruct (IH _ _ _ Hh) as (s2 & A & B). exists s2. split; [ econstructor; eassumption | exact B ].
  Qed.
  Lemma history_snoc : forall a e s s', history comps s (a ++ [e]) s' -> exists s1, history comps s a s1 /\ step comps s1 e s'.
  Proof.
    intros a e s s' H. apply history_app in H. destruct H as (s1 & A & B). exists s1. split; [ exact A | ].
    inversion B as [ | ? ? ? ? ? He Hh]; subst. inversion Hh; subst. exact He.
  Qed.

  Lemma site_eqb_eq : forall a b, site_eqb a b = true <-> a = b.
  Proof. intros [ | ] [ | ]; cbn; split; intro; try reflexivity; discriminate. Qed.
  Lemma thread_eqb_eq : forall a b, thread_eqb a b = true <-> a = b.
  Proof.
    intros [t | c k] [u | d l]; cbn; try (split; intro; discriminate).
    - rewrite Nat.eqb_eq. split; congruence.
    - rewrite andb_true_iff, !Nat.eqb_eq. split; [ intros [-> ->]; reflexivity | intro E; injection E; auto ].
  Qed.

  (** Lists in progress were started, at distinct addresses. *)
  Definition inv (s : state) : Prop :=
    (forall c a, lists s c = Some a -> In c (started s)) /\
    (forall c c' a, lists s c = Some a -> lists s c' = Some a -> c = c') /\
    (forall si c k b, slots s si (Worker c k) = Some b -> In c (started s) /\ (lists s c = Some b \/ lists s c = None)).
  Lemma inv_initial : inv initial.
  Proof. repeat split; intros; discriminate. Qed.

  Lemma inv_step : forall s e s', inv s -> step comps s e s' -> inv s'.
  Proof.
    intros s e s' (I1 & I2 & I3) H. destruct H as [s c a Ns Fr _ | s c a th b used L R B U | s c a L]; unfold inv; cbn [started lists slots].
    - split; [ | split ].
      + intros x y. destruct (Nat.eqb_spec x c) as [-> | N]; [ left; reflexivity | right; eapply I1; eassumption ].
      + intros x y z. destruct (Nat.eqb_spec x c) as [-> | N], (Nat.eqb_spec y c) as [-> | N']; intros A B; try reflexivity.
        * injection A as <-. elim (Fr _ B).
        * injection B as <-. elim (Fr _ A).
        * eapply I2; eassumption.
      + intros si x k y Hs. destruct (I3 _ _ _ _ Hs) as [A B]. split; [ right; exact A | ]. destruct (Nat.eqb_spec x c) as [-> | N]; [ contradiction | exact B ].
    - split; [ exact I1 | split; [ exact I2 | ] ]. intros si x k y.
      destruct (site_eqb si (c_site (comps c)) && thread_eqb (Worker x k) th)%bool eqn:E; [ | apply I3 ].
      apply andb_true_iff in E. destruct E as [E1 E2]. apply site_eqb_eq in E1. apply thread_eqb_eq in E2. subst th si. intro Hy. injection Hy as <-.
      destruct R as [_ R]. destruct (workers comps c =? 1); [ discriminate | ]. destruct R as (k' & _ & R). injection R as -> ->.
      split; [ eapply I1; exact L | ]. subst b. destruct (slots s (c_site (comps c)) (Worker c k')) as [b | ] eqn:E; [ exact (proj2 (I3 _ _ _ _ E)) | left; exact L ].
    - split; [ | split ].
      + intros x y. destruct (Nat.eqb_spec x c); [ discriminate | apply I1 ].
      + intros x y z. destruct (Nat.eqb_spec x c), (Nat.eqb_spec y c); try discriminate. apply I2.
      + intros si x k y Hs. destruct (I3 _ _ _ _ Hs) as [A B]. split; [ exact A | ]. destruct (Nat.eqb_spec x c) as [-> | N]; [ right; reflexivity | exact B ].
  Qed.
  Lemma inv_history : forall es s s', history comps s es s' -> inv s -> inv s'.
  Proof. intros es s s' H. induction H as [ | s e s1 es s2 He Hh IH]; intro I; [ exact I | apply IH, (inv_step _ _ _ I He) ]. Qed.

  Lemma lives_fun : forall s a u v, inv s -> lives_at s a u -> lives_at s a v -> u = v.
  Proof.
    intros s a u v (_ & I2 & _) U V. destruct U as [c U | U], V as [d V | V]; try reflexivity.
    - f_equal. eapply I2; eassumption.
    - elim (V _ U).
    - elim (U _ V).
  Qed.

  (** A computation's list stays where it was constructed. *)
  Lemma begin_at : forall es s s' c, history comps s es s' -> forall a, lists s' c = Some a ->
    lists s c = Some a \/ In (Begin c a) es.
  Proof.
    intros es s s' c H. induction H as [ | s e s1 es s2 He Hh IH]; intros a L; [ left; exact L | ].
    destruct (IH _ L) as [L1 | I]; [ | right; right; exact I ]. destruct He as [s d x _ _ _ | s d x th b used _ _ _ _ | s d x _]; cbn [lists] in L1.
    - destruct (Nat.eqb_spec c d) as [-> | N]; [ right; left; injection L1 as ->; reflexivity | left; exact L1 ].
    - left; exact L1.
    - destruct (Nat.eqb_spec c d); [ discriminate | left; exact L1 ].
  Qed.
  Lemma started_once : forall es s s' c a, history comps s es s' -> In (Begin c a) es -> ~ In c (started s).
  Proof.
    intros es s s' c a H. induction H as [ | s e s1 es s2 He Hh IH]; [ intros [ ] | ]. intros [-> | I].
    - inversion He; subst; assumption.
    - specialize (IH I). intro X. apply IH. destruct He; cbn [started]; [ right | | ]; exact X.
  Qed.
  Lemma begin_unique : forall es s s' c a b, history comps s es s' -> In (Begin c a) es -> In (Begin c b) es -> a = b.
  Proof.
    intros es s s' c a b H. induction H as [ | s e s1 es s2 He Hh IH]; [ intros [ ] | ]. intros [-> | I] [E | J].
    - injection E as ->; reflexivity.
    - exfalso. apply (started_once _ _ _ _ _ Hh J). inversion He; subst. cbn. auto.
    - subst e. exfalso. apply (started_once _ _ _ _ _ Hh I). inversion He; subst. cbn. auto.
    - auto.
  Qed.

  (** A thread's object refers to the list of the first computation that used it. *)
  Definition uses (si : site) (th : thread) (e : event) : Prop :=
    match e with Body c th' _ => c_site (comps c) = si /\ th' = th | _ => False end.
  Lemma slot_kept : forall es s s' si th b, history comps s es s' -> slots s si th = Some b -> slots s' si th = Some b.
  Proof.
    intros es s s' si th b H. induction H as [ | s e s1 es s2 He Hh IH]; intro E; [ exact E | ]. apply IH.
    destruct He as [ | s c a th' b' used L R B U | ]; cbn [slots]; try exact E.
    destruct (site_eqb si (c_site (comps c)) && thread_eqb th th')%bool eqn:Eq; [ | exact E ].
    apply andb_true_iff in Eq. destruct Eq as [E1 E2]. apply site_eqb_eq in E1. apply thread_eqb_eq in E2. subst si th'. rewrite E in B. subst b'. reflexivity.
  Qed.
  Lemma slot_unset : forall es s s' si th, history comps s es s' -> Forall (fun e => ~ uses si th e) es -> slots s si th = None -> slots s' si th = None.
  Proof.
    intros es s s' si th H. induction H as [ | s e s1 es s2 He Hh IH]; intros F E; [ exact E | ]. inversion F as [ | ? ? F1 F2]; subst. apply IH; [ exact F2 | ].
    destruct He as [ | s c a th' b' used L R B U | ]; cbn [slots]; try exact E.
    destruct (site_eqb si (c_site (comps c)) && thread_eqb th th')%bool eqn:Eq; [ | exact E ].
    apply andb_true_iff in Eq. destruct Eq as [E1 E2]. apply site_eqb_eq in E1. apply thread_eqb_eq in E2. subst si th'. elim F1. cbn. auto.
  Qed.
End Proofs.
