(** * Membership in the result changes exactly across its faces *)
From Coq Require Import List Arith QArith Qabs Qminmax Lqa Lia Bool.
From Verif Require Import Model_base Model_soup Model_geometry Model_boolean Model_side.
From Verif Require Import Spec_candidates Spec_side Spec_solid Spec_boolean Spec_open Proof_affine Proof_clip Proof_small Proof_walk Proof_open.
Import ListNotations.
Local Open Scope Q_scope.

Lemma filter_shorter : forall A (f g : A -> bool) l x, (forall y, f y = true -> g y = true) ->
  In x l -> g x = true -> f x = false -> (length (filter f l) < length (filter g l))%nat.
Proof.
  intros A f g l x H. 
  assert (M : forall l, (length (filter f l) <= length (filter g l))%nat).
  { induction l0 as [ | y l0 IH]; cbn [filter]; [ lia | ].
    destruct (f y) eqn:E; [ rewrite (H y E); cbn [length]; lia | destruct (g y); cbn [length]; lia ]. }
  induction l as [ | y l IH]; [ intros [] | ]. intros [<- | Hin] Hg Hf; cbn [filter].
  - rewrite Hf, Hg. cbn [length]. specialize (M l). lia.
  - specialize (IH Hin Hg Hf). destruct (f y) eqn:E; [ rewrite (H y E); cbn [length]; lia | destruct (g y); cbn [length]; lia ].
Qed.

Section Walk.
  (** The two operands: their triangles and their points. *)
  Variable OT : bool -> list tri3.
  Variable X : bool -> vec3 -> Prop.
  Definition on (l : list tri3) (x : vec3) : Prop := exists T, In T l /\ on_tri x T.
  (** All of this happens in the convex set [Dom]. *)
  Variable Dom : vec3 -> Prop.
  Hypothesis HK : open_convex Dom.
  Hypothesis X_dec : forall s x, Dom x -> X s x \/ ~ X s x.
  Hypothesis OT_flat : forall s T, In T (OT s) -> ~ flat T.
  Hypothesis OT_apart : forall s T U x, In T (OT s) -> In U (OT s) -> in_tri x T -> on_tri x U -> U = T.
  Hypothesis X_walk : forall s x y, Dom x -> Dom y -> (forall z, in_segment z x y -> ~ on (OT s) z) -> (X s x <-> X s y).
  Hypothesis X_face : forall s T q v, In T (OT s) -> in_tri q T ->
    eventually (fun e => (vdot (tri_normal T) v < 0 -> X s (along q e v)) /\
                         (0 < vdot (tri_normal T) v -> ~ X s (along q e v))).

  Hypothesis OT_in : forall s T q, In T (OT s) -> in_tri q T -> Dom q.

  (** The pieces. *)
  Variable pieces : list (bool * face_tag * tri3).
  Hypothesis P_flat : forall s t T, In (s, t, T) pieces -> ~ flat T.
  Hypothesis P_part : forall s t T, In (s, t, T) pieces -> exists U, In U (OT s) /\ aligned T U /\
    forall x, (on_tri x T -> on_tri x U) /\ (in_tri x T -> in_tri x U).
  Hypothesis P_cover : forall s x, on (OT s) x -> exists t T, In (s, t, T) pieces /\ on_tri x T.
  Hypothesis P_tag : forall s t T, In (s, t, T) pieces ->
    match t with
    | UNKNOWN => False
    | EXTERIOR => forall x, in_tri x T -> ~ on (OT (negb s)) x /\ ~ X (negb s) x
    | INTERIOR => forall x, in_tri x T -> ~ on (OT (negb s)) x /\ X (negb s) x
    | COPLANAR => exists U, In (negb s, COPLANAR, U) pieces /\ same_triangle T U /\ aligned T U
    | OPPOSITE => exists U, In (negb s, OPPOSITE, U) pieces /\ same_triangle T U /\ against T U
    end.

  (** The result. *)
  Variables (op : boolean_operator) (pf : bool).
  Definition chosen (T : tri3) : Prop := exists s t U, In (s, t, U) pieces /\
    (required op pf t s = Keep /\ T = U \/ required op pf t s = Reverse /\ T = flip_tri U).
  Definition on_result (x : vec3) : Prop := exists T, chosen T /\ on_tri x T.
  Definition M (x : vec3) : Prop := set_of op (X true) (X false) x.
  Definition off (x : vec3) : Prop := forall s, ~ on (OT s) x.

  Lemma P_in : forall s t T q, In (s, t, T) pieces -> in_tri q T -> Dom q.
  Proof. intros s t T q H Hq. destruct (P_part s t T H) as (U & HU & _ & Hin). exact (OT_in s U q HU (proj2 (Hin q) Hq)). Qed.

  Lemma M_dec : forall x, Dom x -> M x \/ ~ M x.
  Proof.
    intros x Hx. unfold M. destruct (X_dec true x Hx) as [a | a]; destruct (X_dec false x Hx) as [b | b].
    - rewrite (set_of_member op _ _ x true true) by tauto. destruct (member op (true, true)); auto.
    - rewrite (set_of_member op _ _ x true false) by (split; congruence || tauto). destruct (member op (true, false)); auto.
    - rewrite (set_of_member op _ _ x false true) by (split; congruence || tauto). destruct (member op (false, true)); auto.
    - rewrite (set_of_member op _ _ x false false) by (split; congruence || tauto). destruct (member op (false, false)); auto.
  Qed.

  Lemma M_iff : forall x y, (forall s, X s x <-> X s y) -> (M x <-> M y).
  Proof.
    intros x y H. unfold M. pose proof (H true) as H1. pose proof (H false) as H2. clear H.
    destruct op; cbn [set_of]; tauto.
  Qed.

  Lemma on_dec : forall s x, on (OT s) x \/ ~ on (OT s) x.
  Proof.
    intros s x. assert (G : forall l, (forall T, In T l -> ~ flat T) -> on l x \/ ~ on l x).
    { induction l as [ | T l IH]; intro H.
      - right. intros (T & [] & _).
      - destruct (on_tri_dec T x (H T (or_introl eq_refl))) as [O | O].
        + left. exists T. split; [ left; reflexivity | exact O ].
        + destruct IH as [IH | IH]; [ intros; apply H; right; assumption | | ].
          * left. destruct IH as (U & HU & OU). exists U. split; [ right; exact HU | exact OU ].
          * right. intros (U & [<- | HU] & OU); [ contradiction | apply IH; exists U; auto ]. }
    apply G, OT_flat.
  Qed.

  (** A point of the result is a point of an operand. *)
  Lemma result_on : forall x, off x -> ~ on_result x.
  Proof.
    intros x H (T & (s & t & U & HU & HT) & Hx). destruct (P_part s t U HU) as (V & HV & _ & Hin).
    apply (H s). exists V. split; [ exact HV | ]. apply Hin.
    destruct HT as [ (_ & ->) | (_ & ->) ]; [ exact Hx | apply on_flip; exact Hx ].
  Qed.

  Lemma off_same : forall x y, same x y -> off x -> off y.
  Proof.
    intros x y E H s (T & HT & Hy). apply (H s). exists T. split; [ exact HT | ].
    apply (on_tri_same _ y); [ apply same_sym; exact E | exact Hy ].
  Qed.

  (** Near a point off a boundary. *)
  Lemma X_near : forall s q v, Dom q -> ~ on (OT s) q -> eventually (fun e => X s (along q e v) <-> X s q).
  Proof.
    intros s q v Hin H.
    assert (EV : eventually (fun e => forall T, In T (OT s) -> forall z, in_segment z q (along q e v) -> ~ on_tri z T)).
    { apply ev_list. intros T HT.
      assert (NT : ~ sat (let '(a, b, c) := T in tri_cons a b c) q).
      { intro K. apply H. exists T. split; [ exact HT | ]. apply on_tri_iff; [ apply (OT_flat s), HT | exact K ]. }
      generalize (ev_point _ q v NT). apply ev_mono. intros e He N z Hz Ho. apply (N z Hz).
      apply (proj1 (on_tri_iff T z (OT_flat s T HT))), Ho. }
    generalize (ev_and _ _ (ev_in Dom HK q v Hin) EV). apply ev_mono. intros e He (Ke & N). symmetry. apply X_walk; auto. intros z Hz (T & HT & Ho). exact (N T HT z Hz Ho).
  Qed.

  (** Membership on the two sides of a piece. *)
  Lemma X_own : forall s t T q v, In (s, t, T) pieces -> in_tri q T -> ~ vdot (tri_normal T) v == 0 ->
    eventually (fun e => X s (along q e v) <-> vdot (tri_normal T) v < 0).
  Proof.
    intros s t T q v HT Hq Hv. destruct (P_part s t T HT) as (U & HU & Hal & Hin).
    destruct (aligned_dot T U v Hal) as (k & Hk & E).
    generalize (X_face s U q v HU (proj2 (Hin q) Hq)). apply ev_mono. intros e He (F1 & F2).
    destruct (Qlt_le_dec (vdot (tri_normal U) v) 0) as [L | L].
    - split; [ intros _ | intros _; auto ]. rewrite E. nra.
    - assert (Hpos : 0 < vdot (tri_normal U) v).
      { destruct (Qlt_le_dec 0 (vdot (tri_normal U) v)) as [K | K]; auto. exfalso. apply Hv. rewrite E.
        assert (Z : vdot (tri_normal U) v == 0) by lra. rewrite Z. ring. }
      split; intro K; [ exfalso; apply F2; auto | exfalso; rewrite E in K; nra ].
  Qed.

  Definition behind (T : tri3) (v : vec3) : bool := if Qlt_le_dec (vdot (tri_normal T) v) 0 then true else false.
  Lemma behind_iff : forall T v, behind T v = true <-> vdot (tri_normal T) v < 0.
  Proof. intros T v. unfold behind. destruct (Qlt_le_dec _ _) as [L | L]; split; auto; try discriminate; intro; lra. Qed.

  Lemma sides_of_piece : forall s t T q v, In (s, t, T) pieces -> in_tri q T -> ~ vdot (tri_normal T) v == 0 ->
    exists a b, side s t (behind T v) = Some (a, b) /\
      eventually (fun e => (X true (along q e v) <-> a = true) /\ (X false (along q e v) <-> b = true)).
  Proof.
    intros s t T q v HT Hq Hv.
    assert (O := X_own s t T q v HT Hq Hv).
    assert (Oth : exists o, in_other t (behind T v) = Some o /\ eventually (fun e => X (negb s) (along q e v) <-> o = true)).
    { assert (G := P_tag s t T HT). destruct t.
      - contradiction.
      - destruct (G q Hq) as (G1 & G2). exists false. split; [ reflexivity | ].
        generalize (X_near (negb s) q v (P_in _ _ _ _ HT Hq) G1). apply ev_mono. intros e _ ->. split; [ contradiction | discriminate ].
      - destruct (G q Hq) as (G1 & G2). exists true. split; [ reflexivity | ].
        generalize (X_near (negb s) q v (P_in _ _ _ _ HT Hq) G1). apply ev_mono. intros e _ ->. tauto.
      - destruct G as (U & HU & HS & Hal). exists (behind T v). split; [ reflexivity | ].
        destruct (aligned_dot T U v Hal) as (k & Hk & E).
        assert (Hv' : ~ vdot (tri_normal U) v == 0) by (intro K; apply Hv; rewrite E, K; ring).
        generalize (X_own (negb s) COPLANAR U q v HU (proj1 (proj2 (HS q)) Hq) Hv'). apply ev_mono.
        intros e _ ->. rewrite behind_iff, E. split; intro; nra.
      - destruct G as (U & HU & HS & Hag). exists (negb (behind T v)). split; [ reflexivity | ].
        destruct (against_dot T U v Hag) as (k & Hk & E).
        assert (Hv' : ~ vdot (tri_normal U) v == 0) by (intro K; apply Hv; rewrite E, K; ring).
        generalize (X_own (negb s) OPPOSITE U q v HU (proj1 (proj2 (HS q)) Hq) Hv'). apply ev_mono.
        intros e _ ->. rewrite negb_true_iff, <- not_true_iff_false, behind_iff, E. split; intro K.
        + nra.
        + destruct (Qlt_le_dec (vdot (tri_normal U) v) 0) as [L | L]; auto. exfalso. apply K.
          assert (0 < vdot (tri_normal U) v) by (destruct (Qlt_le_dec 0 (vdot (tri_normal U) v)) as [J | J]; auto; exfalso; apply Hv'; lra).
          nra. }
    destruct Oth as (o & Ho & EVo).
    assert (O' : eventually (fun e => X s (along q e v) <-> behind T v = true)).
    { revert O. apply ev_mono. intros e _ ->. symmetry. apply behind_iff. }
    unfold side. rewrite Ho. unfold in_own.
    destruct s; cbn [negb] in *.
    - exists (behind T v), o. split; [ reflexivity | ]. apply ev_and; assumption.
    - exists o, (behind T v). split; [ reflexivity | ]. apply ev_and; assumption.
  Qed.

  Lemma M_side : forall s t T q v, In (s, t, T) pieces -> in_tri q T -> ~ vdot (tri_normal T) v == 0 ->
    exists ab, side s t (behind T v) = Some ab /\ eventually (fun e => M (along q e v) <-> member op ab = true).
  Proof.
    intros s t T q v HT Hq Hv. destruct (sides_of_piece s t T q v HT Hq Hv) as (a & b & Hs & EV).
    exists (a, b). split; [ exact Hs | ]. revert EV. apply ev_mono. intros e _ (H1 & H2). apply set_of_member; assumption.
  Qed.

  (** The piece that separates, or its partner, is part of the result. *)
  Lemma required_chosen : forall s t T n p, In (s, t, T) pieces -> side s t true = Some n -> side s t false = Some p ->
    member op n <> member op p -> exists U, chosen U /\ same_triangle T U.
  Proof.
    intros s t T n p HT Hn Hp Hne.
    assert (Self : same_triangle T T) by (intro x; tauto).
    assert (SF : same_triangle T (flip_tri T)) by (intro x; rewrite on_flip, in_flip; tauto).
    assert (Use : forall s' t' T' n' p', In (s', t', T') pieces -> side s' t' true = Some n' -> side s' t' false = Some p' ->
      member op n' <> member op p' -> (match t' with COPLANAR | OPPOSITE => eqb s' pf | _ => true end) = true ->
      exists U, chosen U /\ same_triangle T' U).
    { intros s' t' T' n' p' HT' Hn' Hp' Hne' Hu.
      assert (R : required op pf t' s' = if member op n' then Keep else Reverse).
      { unfold required. rewrite Hn', Hp', Hu. destruct (member op n'), (member op p'); congruence. }
      destruct (member op n').
      - exists T'. split; [ exists s', t', T'; auto | intro x; tauto ].
      - exists (flip_tri T'). split; [ exists s', t', T'; auto | intro x; rewrite on_flip, in_flip; tauto ]. }
    destruct (match t with COPLANAR | OPPOSITE => eqb s pf | _ => true end) eqn:Eu.
    - destruct (Use s t T n p HT Hn Hp Hne Eu) as (U & HU & HS). exists U. auto.
    - assert (G := P_tag s t T HT). destruct t; try discriminate Eu; destruct G as (U & HU & HS & _).
      + assert (Eu' : eqb (negb s) pf = true) by (destruct s, pf; auto).
        unfold side, in_other, in_own in Hn, Hp.
        destruct (Use (negb s) COPLANAR U (true, true) (false, false) HU) as (V & HV & HS').
        * destruct s; reflexivity.
        * destruct s; reflexivity.
        * destruct s; injection Hn as <-; injection Hp as <-; exact Hne.
        * exact Eu'.
        * exists V. split; [ exact HV | ]. intro x. destruct (HS x), (HS' x). tauto.
      + assert (Eu' : eqb (negb s) pf = true) by (destruct s, pf; auto).
        unfold side, in_other, in_own in Hn, Hp.
        destruct (Use (negb s) OPPOSITE U (if s then (false, true) else (true, false)) (if s then (true, false) else (false, true)) HU) as (V & HV & HS').
        * destruct s; reflexivity.
        * destruct s; reflexivity.
        * destruct s; injection Hn as <-; injection Hp as <-; cbn [negb] in *; congruence.
        * exact Eu'.
        * exists V. split; [ exact HV | ]. intro x. destruct (HS x), (HS' x). tauto.
  Qed.

  (** Crossing a piece that is not part of the result. *)
  Lemma M_across : forall s t T q d, In (s, t, T) pieces -> in_tri q T -> ~ vdot (tri_normal T) d == 0 -> ~ on_result q ->
    eventually (fun e => M (along q e d) <-> M (along q e (scaled (-1) d))).
  Proof.
    intros s t T q d HT Hq Hd Hr.
    set (d' := scaled (-1) d).
    assert (Ed : vdot (tri_normal T) d' == - vdot (tri_normal T) d) by (unfold d'; rewrite vdot_comm, vdot_scaled, vdot_comm; ring).
    destruct (M_side s t T q d HT Hq Hd) as (ab & Hab & E1).
    destruct (M_side s t T q d' HT Hq ltac:(intro K; apply Hd; lra)) as (ab' & Hab' & E2).
    assert (Eb : behind T d' = negb (behind T d)).
    { destruct (behind T d) eqn:B.
      - apply behind_iff in B. apply not_true_iff_false. rewrite behind_iff. cbn. lra.
      - apply not_true_iff_false in B. rewrite behind_iff in B. cbn. apply behind_iff.
        assert (~ vdot (tri_normal T) d == 0) by assumption. destruct (Qlt_le_dec (vdot (tri_normal T) d') 0); auto. exfalso. apply H. lra. }
    rewrite Eb in Hab'.
    assert (Hm : member op ab = member op ab').
    { destruct (bool_dec (member op ab) (member op ab')) as [E | E]; [ exact E | ]. exfalso.
      assert (C : exists U, chosen U /\ same_triangle T U).
      { destruct (behind T d); cbn [negb] in *.
        - exact (required_chosen s t T ab ab' HT Hab Hab' E).
        - exact (required_chosen s t T ab' ab HT Hab' Hab (fun K => E (eq_sym K))). }
      destruct C as (U & HU & HS). apply Hr. exists U. split; [ exact HU | ]. apply in_on_tri. apply HS, Hq. }
    generalize (ev_and _ _ E1 E2). apply ev_mono. intros e _ (H1 & H2). rewrite H1, Hm, H2. reflexivity.
  Qed.

  Lemma X_same : forall s x y, Dom x -> ~ on (OT s) x -> same x y -> (X s x <-> X s y).
  Proof.
    intros s x y Hx H E. apply X_walk; [ exact Hx | exact (oc_same _ HK _ _ E Hx) | ]. intros z (t & Ht & Ez) (T & HT & Ho). apply H. exists T. split; [ exact HT | ].
    apply (on_tri_same _ z); [ | exact Ho ]. destruct Ez as (E1 & E2 & E3). destruct E as (F1 & F2 & F3).
    unfold same, along, vsub in *. cbn [vx vy vz fst snd] in *. rewrite E1, E2, E3, F1, F2, F3. repeat split; ring.
  Qed.
  Lemma M_same : forall x y, Dom x -> off x -> same x y -> (M x <-> M y).
  Proof. intros x y Hx H E. apply M_iff. intro s. apply X_same; auto. Qed.

  (** ** Straight walks that avoid the sides of all pieces *)
  Section Line.
    Variables x y : vec3.
    Hypothesis x_in : Dom x.
    Hypothesis y_in : Dom y.
    Hypothesis x_off : off x.
    Hypothesis y_off : off y.
    Hypothesis line_sides : forall s t T sd z, In (s, t, T) pieces -> In sd (sides T) -> in_segment z x y ->
      ~ in_segment z (fst sd) (snd sd).
    Hypothesis line_result : forall z, in_segment z x y -> ~ on_result z.
    Let d := vsub y x.
    Let at_ (t : Q) : vec3 := along x t d.

    Lemma at_segment : forall t, 0 <= t -> t <= 1 -> in_segment (at_ t) x y.
    Proof. intros t H0 H1. exists t. split; [ lra | apply same_refl ]. Qed.

    Lemma at_in : forall t, 0 <= t -> t <= 1 -> Dom (at_ t).
    Proof. intros t H0 H1. exact (oc_convex _ HK x y _ x_in y_in (at_segment t H0 H1)). Qed.

    Lemma off_pieces : forall z s t T, off z -> In (s, t, T) pieces -> ~ on_tri z T.
    Proof.
      intros z s t T Hz HT Ho. destruct (P_part s t T HT) as (U & HU & _ & Hin). apply (Hz s). exists U.
      split; [ exact HU | ]. apply Hin, Ho.
    Qed.

    (** The parameters at which a piece is met. *)
    Lemma crossings : exists ts : list Q,
      (forall t, 0 <= t -> t <= 1 -> ~ off (at_ t) -> exists c, In c ts /\ t == c) /\
      (forall c, In c ts -> 0 <= c /\ c <= 1 /\ exists s t T, In (s, t, T) pieces /\ in_tri (at_ c) T /\ ~ vdot (tri_normal T) d == 0).
    Proof.
      assert (G : forall l, (forall p, In p l -> In p pieces) -> exists ts : list Q,
        (forall t s g T, 0 <= t -> t <= 1 -> In (s, g, T) l -> on_tri (at_ t) T -> exists c, In c ts /\ t == c) /\
        (forall c, In c ts -> 0 <= c /\ c <= 1 /\ exists s t T, In (s, t, T) pieces /\ in_tri (at_ c) T /\ ~ vdot (tri_normal T) d == 0)).
      { induction l as [ | [ [s g] T] l IH]; intro Hl.
        - exists []. split; [ intros t s g T _ _ [] | intros c [] ].
        - destruct IH as (ts & H1 & H2); [ intros; apply Hl; right; assumption | ].
          assert (HT := Hl _ (or_introl eq_refl)).
          destruct (crossing T x y (P_flat _ _ _ HT) (off_pieces y s g T y_off HT) (fun sd z => line_sides s g T sd z HT))
            as [N | (t & T0 & T1 & Hin & Hd & Hu)].
          + exists ts. split; [ | exact H2 ]. intros t s' g' T' T0 T1 [E | Hin] Ho; [ | eauto ].
            injection E as <- <- <-. exfalso. exact (N _ (at_segment t T0 T1) Ho).
          + exists (t :: ts). split.
            * intros t' s' g' T' T0' T1' [E | Hin'] Ho.
              -- injection E as <- <- <-. exists t. split; [ left; reflexivity | apply Hu, Ho ].
              -- destruct (H1 t' s' g' T' T0' T1' Hin' Ho) as (c & Hc & E). exists c. split; [ right; exact Hc | exact E ].
            * intros c [<- | Hc]; [ | exact (H2 c Hc) ]. split; [ exact T0 | ]. split; [ exact T1 | ]. exists s, g, T. auto. }
      destruct (G pieces (fun p H => H)) as (ts & H1 & H2). exists ts. split; [ | exact H2 ].
      intros t T0 T1 Hn.
      assert (O : exists s, on (OT s) (at_ t)).
      { destruct (on_dec true (at_ t)) as [O | O]; [ exists true; exact O | ].
        destruct (on_dec false (at_ t)) as [O' | O']; [ exists false; exact O' | ].
        exfalso. apply Hn. intros [ | ]; assumption. }
      destruct O as (s & O). destruct (P_cover s _ O) as (g & T & HT & Ho). exact (H1 t s g T T0 T1 HT Ho).
    Qed.

    Lemma walk_line : M x <-> M y.
    Proof.
      destruct crossings as (ts & H1 & H2).
      pose (bw := fun (s u c : Q) => if Qlt_le_dec s c then if Qlt_le_dec c u then true else false else false).
      assert (Bw : forall s u c, bw s u c = true <-> s < c /\ c < u).
      { intros s u c. unfold bw. destruct (Qlt_le_dec s c); destruct (Qlt_le_dec c u); split; auto; try discriminate; intros (? & ?); lra. }
      assert (G : forall n s u, (length (filter (bw s u) ts) <= n)%nat -> 0 <= s -> s <= u -> u <= 1 ->
        off (at_ s) -> off (at_ u) -> (M (at_ s) <-> M (at_ u))).
      { induction n as [ | n IH]; intros s u Hn S0 Hsu U1 Hs Hu.
        - apply M_iff. intro b. apply X_walk; [ apply at_in; lra | apply at_in; lra | ]. intros z Hz Ho.
          destruct (sub_segment x d s u z Hsu Hz) as (t & T0 & T1 & E).
          assert (Hno : ~ off (at_ t)).
          { intro N. apply (N b). destruct Ho as (T & HT & Ho). exists T. split; [ exact HT | exact (on_tri_same _ _ _ E Ho) ]. }
          destruct (H1 t ltac:(lra) ltac:(lra) Hno) as (c & Hc & Ec).
          assert (Nt : forall r, off (at_ r) -> ~ t == r).
          { intros r Hr Er. apply Hno. apply (off_same (at_ r)); [ | exact Hr ].
            unfold at_, same, along. cbn [vx vy vz fst snd]. rewrite Er. repeat split; reflexivity. }
          assert (s < t) by (destruct (Qlt_le_dec s t); auto; exfalso; apply (Nt s Hs); lra).
          assert (t < u) by (destruct (Qlt_le_dec t u); auto; exfalso; apply (Nt u Hu); lra).
          assert (In c (filter (bw s u) ts)) by (apply filter_In; split; [ exact Hc | apply Bw; lra ]).
          destruct (filter (bw s u) ts); [ contradiction | cbn in Hn; lia ].
        - destruct (filter (bw s u) ts) as [ | c l] eqn:Ef.
          + apply IH; auto. rewrite Ef. cbn. lia.
          + assert (Hc : In c (filter (bw s u) ts)) by (rewrite Ef; left; reflexivity).
            apply filter_In in Hc. destruct Hc as (Hc & Hb). apply Bw in Hb. destruct Hb as (B1 & B2).
            destruct (H2 c Hc) as (C0 & C1 & s' & g & T & HT & Hin & Hd).
            assert (Hr : ~ on_result (at_ c)) by (apply line_result, at_segment; assumption).
            assert (EV := M_across s' g T (at_ c) d HT Hin Hd Hr).
            assert (EV2 : eventually (fun e => forall c', In c' ts -> ~ (c - c') + e * 1 == 0 /\ ~ (c - c') + e * -1 == 0)).
            { apply ev_list. intros c' Hc'. apply ev_and; apply ev_nonzero; left; lra. }
            assert (EV3 : eventually (fun e => e < c - s /\ e < u - c /\ 0 < 1)).
            { apply ev_below; [ lra | ]. apply ev_below; [ lra | ]. apply ev_true. intros; lra. }
            destruct (ev_witness _ (ev_and _ _ EV (ev_and _ _ EV2 EV3))) as (e & He & HM & Hne & E1 & E2 & _).
            assert (Ea : same (along (at_ c) e d) (at_ (c + e))).
            { unfold at_, same, along. cbn [vx vy vz fst snd]. repeat split; ring. }
            assert (Eb : same (along (at_ c) e (scaled (-1) d)) (at_ (c - e))).
            { unfold at_, same, along, scaled. cbn [vx vy vz fst snd]. repeat split; ring. }
            assert (Oa : off (at_ (c + e))).
            { intros b Ho. destruct (H1 (c + e)) as (c' & Hc' & E'); [ lra | lra | intro K; exact (K b Ho) | ].
              apply (proj1 (Hne c' Hc')). lra. }
            assert (Ob : off (at_ (c - e))).
            { intros b Ho. destruct (H1 (c - e)) as (c' & Hc' & E'); [ lra | lra | intro K; exact (K b Ho) | ].
              apply (proj2 (Hne c' Hc')). lra. }
            assert (I1 : M (at_ s) <-> M (at_ (c - e))).
            { apply IH; auto; try lra. assert (K := filter_shorter _ (bw s (c - e)) (bw s u) ts c).
              rewrite Ef in K. cbn [length] in *. assert (K' := K ltac:(intros r Hr'; apply Bw in Hr'; apply Bw; lra) Hc).
              specialize (K' ltac:(apply Bw; lra) ltac:(apply not_true_iff_false; rewrite Bw; lra)). lia. }
            assert (I2 : M (at_ (c + e)) <-> M (at_ u)).
            { apply IH; auto; try lra. assert (K := filter_shorter _ (bw (c + e) u) (bw s u) ts c).
              rewrite Ef in K. cbn [length] in *. assert (K' := K ltac:(intros r Hr'; apply Bw in Hr'; apply Bw; lra) Hc).
              specialize (K' ltac:(apply Bw; lra) ltac:(apply not_true_iff_false; rewrite Bw; lra)). lia. }
            rewrite I1, <- I2. rewrite <- (M_same _ _ (oc_same _ HK _ _ (same_sym _ _ Ea) (at_in (c + e) ltac:(lra) ltac:(lra))) (off_same _ _ (same_sym _ _ Ea) Oa) Ea).
            rewrite <- (M_same _ _ (oc_same _ HK _ _ (same_sym _ _ Eb) (at_in (c - e) ltac:(lra) ltac:(lra))) (off_same _ _ (same_sym _ _ Eb) Ob) Eb). symmetry. exact HM. }
      assert (Ex : same x (at_ 0)) by (unfold at_, same, along; cbn [vx vy vz fst snd]; repeat split; ring).
      assert (Ey : same y (at_ 1)) by (unfold at_, d, same, along, vsub; cbn [vx vy vz fst snd]; repeat split; ring).
      rewrite (M_same x _ x_in x_off Ex), (M_same y _ y_in y_off Ey).
      apply (G (length (filter (bw 0 1) ts))); try lra; [ lia | | ]; eapply off_same; eassumption.
    Qed.
  End Line.

  (** ** Straight walks *)
  Definition all_sides : list (vec3 * vec3) := flat_map (fun p => sides (snd p)) pieces.

  Lemma result_finite : exists RT, (forall T, In T RT -> ~ flat T) /\ forall x, on_result x <-> on RT x.
  Proof.
    assert (G : forall l, (forall p, In p l -> In p pieces) -> exists RT, (forall T, In T RT -> ~ flat T) /\
      forall x, (exists T, (exists s t U, In (s, t, U) l /\ (required op pf t s = Keep /\ T = U \/ required op pf t s = Reverse /\ T = flip_tri U)) /\ on_tri x T) <-> on RT x).
    { induction l as [ | [ [s t] U] l IH]; intro Hl.
      - exists []. split; [ intros T [] | ]. intro x. split.
        + intros (T & (s & t & U & [] & _) & _).
        + intros (T & [] & _).
      - destruct IH as (RT & F & H); [ intros; apply Hl; right; assumption | ].
        assert (HU := P_flat _ _ _ (Hl _ (or_introl eq_refl))).
        destruct (required op pf t s) eqn:Er.
        + exists RT. split; [ exact F | ]. intro x. rewrite <- H. split.
          * intros (T & (s' & t' & U' & [E | Hin] & HT) & Ho).
            -- injection E as -> -> ->. rewrite Er in HT. destruct HT as [ (K & _) | (K & _) ]; discriminate K.
            -- exists T. split; [ exists s', t', U'; auto | exact Ho ].
          * intros (T & (s' & t' & U' & Hin & HT) & Ho). exists T. split; [ exists s', t', U'; split; [ right; exact Hin | exact HT ] | exact Ho ].
        + exists (U :: RT). split; [ intros T [<- | K]; auto | ]. intro x. split.
          * intros (T & (s' & t' & U' & [E | Hin] & HT) & Ho).
            -- injection E as -> -> ->. rewrite Er in HT. destruct HT as [ (_ & ->) | (K & _) ]; [ | discriminate K ].
               exists U'. split; [ left; reflexivity | exact Ho ].
            -- assert (K : on RT x) by (apply H; exists T; split; [ exists s', t', U'; auto | exact Ho ]).
               destruct K as (V & HV & HVx). exists V. split; [ right; exact HV | exact HVx ].
          * intros (V & [<- | HV] & Ho).
            -- exists U. split; [ exists s, t, U; split; [ left; reflexivity | auto ] | exact Ho ].
            -- assert (K : on RT x) by (exists V; auto). apply H in K. destruct K as (T & (s' & t' & U' & Hin & HT) & Ho').
               exists T. split; [ exists s', t', U'; split; [ right; exact Hin | exact HT ] | exact Ho' ].
        + exists (flip_tri U :: RT). split; [ intros T [<- | K]; auto; apply flat_flip; exact HU | ]. intro x. split.
          * intros (T & (s' & t' & U' & [E | Hin] & HT) & Ho).
            -- injection E as -> -> ->. rewrite Er in HT. destruct HT as [ (K & _) | (_ & ->) ]; [ discriminate K | ].
               exists (flip_tri U'). split; [ left; reflexivity | exact Ho ].
            -- assert (K : on RT x) by (apply H; exists T; split; [ exists s', t', U'; auto | exact Ho ]).
               destruct K as (V & HV & HVx). exists V. split; [ right; exact HV | exact HVx ].
          * intros (V & [<- | HV] & Ho).
            -- exists (flip_tri U). split; [ exists s, t, U; split; [ left; reflexivity | auto ] | exact Ho ].
            -- assert (K : on RT x) by (exists V; auto). apply H in K. destruct K as (T & (s' & t' & U' & Hin & HT) & Ho').
               exists T. split; [ exists s', t', U'; split; [ right; exact Hin | exact HT ] | exact Ho' ]. }
    destruct (G pieces (fun p H => H)) as (RT & F & H). exists RT. auto.
  Qed.

  Lemma ev_segment_result : forall x y w, (forall z, in_segment z x y -> ~ on_result z) ->
    eventually (fun e => forall z, in_segment z (along x e w) (along y e w) -> ~ on_result z).
  Proof.
    intros x y w H. destruct result_finite as (RT & F & HR).
    assert (EV : eventually (fun e => forall T, In T RT -> forall z, in_segment z (along x e w) (along y e w) -> ~ on_tri z T)).
    { apply ev_list. intros T HT.
      assert (K : forall z, in_segment z x y -> ~ sat (let '(a, b, c) := T in tri_cons a b c) z).
      { intros z Hz Hs. apply (H z Hz), HR. exists T. split; [ exact HT | ]. apply on_tri_iff; auto. }
      generalize (ev_segment _ x y w K). apply ev_mono. intros e _ N z Hz Ho. apply (N z Hz).
      apply (proj1 (on_tri_iff T z (F T HT))), Ho. }
    revert EV. apply ev_mono. intros e _ N z Hz Ho. apply HR in Ho. destruct Ho as (T & HT & Ho). exact (N T HT z Hz Ho).
  Qed.

  Lemma ev_point_result : forall x w, ~ on_result x ->
    eventually (fun e => forall z, in_segment z x (along x e w) -> ~ on_result z).
  Proof.
    intros x w H. destruct result_finite as (RT & F & HR).
    assert (EV : eventually (fun e => forall T, In T RT -> forall z, in_segment z x (along x e w) -> ~ on_tri z T)).
    { apply ev_list. intros T HT.
      assert (K : ~ sat (let '(a, b, c) := T in tri_cons a b c) x).
      { intros Hs. apply H, HR. exists T. split; [ exact HT | ]. apply on_tri_iff; auto. }
      generalize (ev_point _ x w K). apply ev_mono. intros e _ N z Hz Ho. apply (N z Hz).
      apply (proj1 (on_tri_iff T z (F T HT))), Ho. }
    revert EV. apply ev_mono. intros e _ N z Hz Ho. apply HR in Ho. destruct Ho as (T & HT & Ho). exact (N T HT z Hz Ho).
  Qed.

  Lemma ev_point_off : forall x w, off x ->
    eventually (fun e => forall z, in_segment z x (along x e w) -> off z).
  Proof.
    intros x w H.
    assert (EV : forall s, eventually (fun e => forall T, In T (OT s) -> forall z, in_segment z x (along x e w) -> ~ on_tri z T)).
    { intro s. apply ev_list. intros T HT.
      assert (K : ~ sat (let '(a, b, c) := T in tri_cons a b c) x).
      { intros Hs. apply (H s). exists T. split; [ exact HT | ]. apply on_tri_iff; [ apply (OT_flat s), HT | exact Hs ]. }
      generalize (ev_point _ x w K). apply ev_mono. intros e _ N z Hz Ho. apply (N z Hz).
      apply (proj1 (on_tri_iff T z (OT_flat s T HT))), Ho. }
    generalize (ev_and _ _ (EV true) (EV false)). apply ev_mono. intros e _ (N1 & N2) z Hz s (T & HT & Ho).
    destruct s; [ exact (N1 T HT z Hz Ho) | exact (N2 T HT z Hz Ho) ].
  Qed.

  Theorem walk : forall x y, Dom x -> Dom y -> off x -> off y -> (forall z, in_segment z x y -> ~ on_result z) -> (M x <-> M y).
  Proof.
    intros x y Kx Ky Hx Hy Hr. set (d := vsub y x).
    assert (Ds : same d zero3 \/ ~ same d zero3).
    { destruct (point_eqb d zero3) eqn:E; [ left | right ]; [ apply point_eqb_same | apply point_eqb_false ]; exact E. }
    destruct Ds as [Ds | Ds].
    { apply M_same; [ exact Kx | exact Hx | ]. destruct Ds as (E1 & E2 & E3). unfold d, vsub, zero3, same in *. cbn [vx vy vz fst snd] in *.
      repeat split; lra. }
    destruct (orthogonal d) as (m & Hm & Hmd).
    pose (ns := m :: filter (fun n => negb (point_eqb n zero3)) (map (fun e => vcross d (vsub (snd e) (fst e))) all_sides)).
    destruct (generic ns) as (w & Hw).
    { intros n [<- | Hn]; [ exact Hm | ]. apply filter_In in Hn. destruct Hn as (_ & Hn).
      apply point_eqb_false. destruct (point_eqb n zero3); [ discriminate | reflexivity ]. }
    assert (Hwd : ~ same (vcross w d) zero3).
    { intro Hz. assert (Hmw := Hw m (or_introl eq_refl)).
      (* w is not a multiple of d: m is orthogonal to d but not to w *)
      assert (Z : vdot m w * vdot d d == 0).
      { assert (I : vdot m w * vdot d d == vdot m d * vdot w d + vdot (vcross w d) (vcross m d)).
        { clear. crush. ring. }
        rewrite I, Hmd. rewrite (vdot_same_l _ _ (vcross m d) Hz). unfold zero3, vdot. cbn [vx vy vz fst snd]. ring. }
      apply Qmult_integral in Z. destruct Z as [Z | Z]; [ contradiction | ]. apply Ds, vdot_self_zero, Z. }
    assert (EVs : eventually (fun e => forall sd, In sd all_sides ->
      forall z, in_segment z (along x e w) (along y e w) -> ~ in_segment z (fst sd) (snd sd))).
    { apply ev_list. intros sd Hsd. apply ev_edge; [ | exact Hwd ]. fold d.
      set (n := vcross d (vsub (snd sd) (fst sd))). destruct (point_eqb n zero3) eqn:En; [ left; apply point_eqb_same, En | right ].
      apply Hw. right. apply filter_In. split; [ | rewrite En; reflexivity ].
      unfold n. exact (in_map (fun e => vcross d (vsub (snd e) (fst e))) all_sides sd Hsd). }
    assert (EVr := ev_segment_result x y w Hr).
    assert (EVx := ev_point_off x w Hx). assert (EVy := ev_point_off y w Hy).
    destruct (ev_witness _ (ev_and _ _ (ev_and _ _ (ev_in Dom HK x w Kx) (ev_in Dom HK y w Ky)) (ev_and _ _ EVs (ev_and _ _ EVr (ev_and _ _ EVx EVy))))) as (e & He & (Kxe & Kye) & K1 & K2 & K3 & K4).
    assert (W1 : M x <-> M (along x e w)).
    { apply M_iff. intro s. apply X_walk; auto. intros z Hz. exact (K3 z Hz s). }
    assert (W2 : M y <-> M (along y e w)).
    { apply M_iff. intro s. apply X_walk; auto. intros z Hz. exact (K4 z Hz s). }
    rewrite W1, W2. apply walk_line.
    - exact Kxe.
    - exact Kye.
    - apply K3, in_segment_end.
    - apply K4, in_segment_end.
    - intros s t T sd z HT Hsd. apply K1. unfold all_sides. apply in_flat_map. exists (s, t, T). auto.
    - exact K2.
  Qed.

  (** ** The set bounded by the result *)
  Definition combined (x : vec3) : Prop :=
    exists y, Dom y /\ off y /\ (forall z, in_segment z x y -> ~ on_result z) /\ M y.

  Lemma combined_off : forall x, Dom x -> off x -> (combined x <-> M x).
  Proof.
    intros x Kx Hx. split.
    - intros (y & Ky & Hy & Hs & HM). apply (walk x y Kx Ky Hx Hy Hs), HM.
    - intro HM. exists x. split; [ exact Kx | ]. split; [ exact Hx | ]. split; [ | exact HM ]. intros z (t & _ & E). apply result_on.
      apply (off_same x); [ | exact Hx ]. destruct E as (E1 & E2 & E3). unfold same, along, vsub in *. cbn [vx vy vz fst snd] in *.
      repeat split; lra.
  Qed.

  (** A direction in which every point leaves both boundaries. *)
  Lemma leaving : exists w, forall x, eventually (fun e => off (along x e w)).
  Proof.
    destruct (generic (map tri_normal (OT true) ++ map tri_normal (OT false))) as (w & Hw).
    { intros n Hn. apply in_app_iff in Hn. 
      assert (E : exists s T, In T (OT s) /\ n = tri_normal T).
      { destruct Hn as [Hn | Hn]; apply in_map_iff in Hn; destruct Hn as (T & <- & HT); eauto. }
      destruct E as (s & [ [a b] c] & HT & ->). intro Z. exact (OT_flat s _ HT Z). }
    exists w. intro x.
    assert (EV : forall s, eventually (fun e => forall T, In T (OT s) -> ~ on_tri (along x e w) T)).
    { intro s. apply ev_list. intros [ [a b] c] HT.
      assert (Hn : ~ vdot (normal a b c) w == 0).
      { apply (Hw (tri_normal (a, b, c))). apply in_app_iff. destruct s; [ left | right ]; apply in_map; exact HT. }
      generalize (ev_nonzero (aev (through (normal a b c) a) x) (vdot (normal a b c) w) (or_introl Hn)). apply ev_mono.
      intros e _ N Ho. apply N. apply in_plane in Ho. rewrite aev_along in Ho. exact Ho. }
    generalize (ev_and _ _ (EV true) (EV false)). apply ev_mono. intros e _ (N1 & N2) s (T & HT & Ho).
    destruct s; [ exact (N1 T HT Ho) | exact (N2 T HT Ho) ].
  Qed.

  Lemma combined_walk : forall x y, Dom x -> Dom y -> (forall z, in_segment z x y -> ~ on_result z) -> combined x -> combined y.
  Proof.
    intros x y Kx Ky Hs (p & Kp & Hp & Hps & HM). destruct leaving as (w & Hw).
    assert (Hry : ~ on_result y) by (apply Hs, in_segment_end).
    destruct (ev_witness _ (ev_and _ _ (ev_and _ _ (ev_in Dom HK x w Kx) (ev_and _ _ (ev_in Dom HK y w Ky) (ev_in Dom HK p w Kp))) (ev_and _ _ (Hw x) (ev_and _ _ (Hw y) (ev_and _ _ (ev_point_off p w Hp)
      (ev_and _ _ (ev_segment_result x p w Hps) (ev_and _ _ (ev_segment_result x y w Hs) (ev_point_result y w Hry))))))))
      as (e & He & (Kxe & Kye & Kpe) & K1 & K2 & K3 & K4 & K5 & K6).
    exists (along y e w). split; [ exact Kye | ]. split; [ exact K2 | ]. split; [ exact K6 | ].
    apply (walk _ _ Kxe Kye K1 K2 K5). apply (walk _ _ Kxe Kpe K1 (K3 _ (in_segment_end _ _)) K4).
    apply (walk p (along p e w)); [ exact Kp | exact Kpe | exact Hp | exact (K3 _ (in_segment_end _ _)) | | exact HM ].
    intros z Hz. apply result_on, K3, Hz.
  Qed.

  Lemma combined_dec : forall x, Dom x -> combined x \/ ~ combined x.
  Proof.
    intros x Kx. destruct result_finite as (RT & F & HR).
    assert (D : on_result x \/ ~ on_result x).
    { rewrite HR. clear HR. induction RT as [ | T RT IH].
      - right. intros (T & [] & _).
      - destruct IH as [IH | IH]; [ intros; apply F; right; assumption | | ].
        + left. destruct IH as (U & HU & OU). exists U. split; [ right; exact HU | exact OU ].
        + destruct (on_tri_dec T x (F T (or_introl eq_refl))) as [O | O].
          * left. exists T. split; [ left; reflexivity | exact O ].
          * right. intros (U & [<- | HU] & OU); [ contradiction | apply IH; exists U; auto ]. }
    destruct D as [D | D].
    - right. intros (y & _ & _ & Hs & _). exact (Hs x (in_segment_start x y) D).
    - destruct leaving as (w & Hw).
      destruct (ev_witness _ (ev_and _ _ (ev_in Dom HK x w Kx) (ev_and _ _ (Hw x) (ev_point_result x w D)))) as (e & He & Kxe & K1 & K2).
      destruct (M_dec (along x e w) Kxe) as [Y | N].
      + left. exists (along x e w). auto.
      + right. intro C. apply N. apply (combined_off _ Kxe K1). apply (combined_walk x); [ exact Kx | exact Kxe | exact K2 | exact C ].
  Qed.

  Lemma off_side : forall s t U q v, In (s, t, U) pieces -> in_tri q U -> ~ vdot (tri_normal U) v == 0 ->
    eventually (fun e => off (along q e v)).
  Proof.
    intros s t U q v HU HqU E.
    (* q is on faces whose planes are crossed, and off the others *)
      assert (G : forall s', eventually (fun e => forall V, In V (OT s') -> ~ on_tri (along q e v) V)).
      { intro s'. apply ev_list. intros V HV. destruct (on_tri_dec V q (OT_flat s' V HV)) as [O | O].
        - assert (NZ : ~ vdot (tri_normal V) v == 0).
          { assert (Own : forall s t U, In (s, t, U) pieces -> in_tri q U -> ~ vdot (tri_normal U) v == 0 ->
              In V (OT s) -> ~ vdot (tri_normal V) v == 0).
            { clear - P_part OT_apart O. intros s t U HU HqU E HV. destruct (P_part s t U HU) as (W & HW & Hal & Hin).
              assert (EV := OT_apart s W V q HW HV (proj2 (Hin q) HqU) O). subst V.
              destruct (aligned_dot U W v Hal) as (k & Hk & Ek). intro K. apply E. rewrite Ek, K. ring. }
            destruct (bool_dec s' s) as [-> | Hne]; [ exact (Own s t U HU HqU E HV) | ].
            assert (Es : s' = negb s) by (destruct s, s'; auto; congruence). subst s'.
            assert (G := P_tag s t U HU). destruct t.
            - contradiction.
            - exfalso. apply (proj1 (G q HqU)). exists V. auto.
            - exfalso. apply (proj1 (G q HqU)). exists V. auto.
            - destruct G as (U' & HU' & HS & Hal). apply (Own (negb s) COPLANAR U' HU' (proj1 (proj2 (HS q)) HqU)); [ | exact HV ].
              destruct (aligned_dot U U' v Hal) as (k & Hk & Ek). intro K. apply E. rewrite Ek, K. ring.
            - destruct G as (U' & HU' & HS & Hal). apply (Own (negb s) OPPOSITE U' HU' (proj1 (proj2 (HS q)) HqU)); [ | exact HV ].
              destruct (against_dot U U' v Hal) as (k & Hk & Ek). intro K. apply E. rewrite Ek, K. ring. }
          destruct V as [ [a b] c]. cbn [tri_normal] in NZ.
          generalize (ev_nonzero (aev (through (normal a b c) a) q) (vdot (normal a b c) v) (or_introl NZ)). apply ev_mono.
          intros e _ N Ho. apply N. apply in_plane in Ho. rewrite aev_along in Ho. exact Ho.
        - assert (K : ~ sat (let '(a, b, c) := V in tri_cons a b c) q).
          { intros Hs. apply O. apply on_tri_iff; [ apply (OT_flat s'), HV | exact Hs ]. }
          generalize (ev_point _ q v K). apply ev_mono. intros e _ N Ho. apply (N (along q e v)); [ apply in_segment_end | ].
          apply (proj1 (on_tri_iff V _ (OT_flat s' V HV))), Ho. }
      generalize (ev_and _ _ (G true) (G false)). apply ev_mono. intros e _ (N1 & N2) s' (V & HV & Ho).
      destruct s'; [ exact (N1 V HV Ho) | exact (N2 V HV Ho) ].
  Qed.

  Lemma combined_face : forall T q v, chosen T -> in_tri q T ->
    eventually (fun e => (vdot (tri_normal T) v < 0 -> combined (along q e v)) /\
                         (0 < vdot (tri_normal T) v -> ~ combined (along q e v))).
  Proof.
    intros T q v (s & t & U & HU & HT) Hq.
    assert (HqU : in_tri q U) by (destruct HT as [ (_ & ->) | (_ & ->) ]; [ exact Hq | apply in_flip, Hq ]).
    destruct (Qeq_dec (vdot (tri_normal U) v) 0) as [E | E].
    { assert (E' : vdot (tri_normal T) v == 0).
      { destruct HT as [ (_ & ->) | (_ & ->) ]; [ exact E | ]. rewrite (vdot_same_l _ _ v (normal_flip U)), vdot_scaled, E. ring. }
      apply ev_true. intros e _. split; intro; lra. }
    destruct (M_side s t U q v HU HqU E) as (ab & Hab & EV).
    assert (Off := off_side s t U q v HU HqU E).
    generalize (ev_and _ _ (ev_in Dom HK q v (P_in _ _ _ _ HU HqU)) (ev_and _ _ EV Off)). apply ev_mono. intros e _ (Ke & HM & Ho). rewrite (combined_off _ Ke Ho), HM.
    assert (Er : (required op pf t s = Keep -> member op ab = behind U v) /\ (required op pf t s = Reverse -> member op ab = negb (behind U v))).
    { clear - Hab. unfold required. destruct (side s t true) as [n | ] eqn:En; [ | split; discriminate ].
      destruct (side s t false) as [p | ] eqn:Ep; [ | split; discriminate ].
      destruct (behind U v); [ rewrite En in Hab | rewrite Ep in Hab ]; injection Hab as ->;
        destruct (match t with COPLANAR | OPPOSITE => eqb s pf | _ => true end); try (split; discriminate);
        [ destruct (member op ab), (member op p) | destruct (member op n), (member op ab) ]; split; try discriminate; reflexivity. }
    destruct HT as [ (Q & ->) | (Q & ->) ].
    - rewrite (proj1 Er Q), behind_iff. split; intro; lra.
    - rewrite (proj2 Er Q), negb_true_iff, <- not_true_iff_false, behind_iff.
      rewrite (vdot_same_l _ _ v (normal_flip U)), vdot_scaled. split; intro; lra.
  Qed.

  Lemma inner_point : forall T : tri3, exists q, in_tri q T.
  Proof.
    intros [ [ [ [ax ay] az] [ [bx by_] bz] ] [ [cx cy] cz] ].
    exists ((1 # 3) * ax + (1 # 3) * bx + (1 # 3) * cx, (1 # 3) * ay + (1 # 3) * by_ + (1 # 3) * cy,
            (1 # 3) * az + (1 # 3) * bz + (1 # 3) * cz).
    exists (1 # 3), (1 # 3), (1 # 3). cbn [vx vy vz fst snd]. repeat split; try reflexivity.
  Qed.

  (** Without a face in the result, all points off the boundaries are in the result or none. *)
  Lemma both_sides : (forall T, ~ chosen T) -> forall s t T, In (s, t, T) pieces ->
    forall b, exists ab, side s t b = Some ab /\ forall x, Dom x -> off x -> (M x <-> member op ab = true).
  Proof.
    intros NC s t T HT b. destruct (inner_point T) as (q & Hq).
    assert (NN : ~ vdot (tri_normal T) (tri_normal T) == 0).
    { intro Z. apply (P_flat s t T HT). destruct T as [ [a b'] c]. cbn [tri_normal flat] in *. unfold degenerate, same.
      destruct (normal a b' c) as [ [nx ny] nz]. unfold vdot in Z. cbn [vx vy vz fst snd] in *. clear - Z. nra. }
    set (k := if b then -1 else 1 : Q).
    assert (NV : vdot (tri_normal T) (scaled k (tri_normal T)) == k * vdot (tri_normal T) (tri_normal T)).
    { destruct (tri_normal T) as [ [nx ny] nz]. unfold vdot, scaled. cbn [vx vy vz fst snd]. ring. }
    assert (NP : 0 < vdot (tri_normal T) (tri_normal T)).
    { clear - NN. destruct (tri_normal T) as [ [nx ny] nz]. unfold vdot in *. cbn [vx vy vz fst snd] in *. nra. }
    assert (NZ : ~ vdot (tri_normal T) (scaled k (tri_normal T)) == 0).
    { rewrite NV. clear - NP. unfold k. destruct b; lra. }
    assert (Eb : behind T (scaled k (tri_normal T)) = b).
    { destruct b.
      - apply behind_iff. rewrite NV. clear - NP. unfold k. lra.
      - apply not_true_iff_false. rewrite behind_iff, NV. clear - NP. unfold k. lra. }
    destruct (M_side s t T q (scaled k (tri_normal T)) HT Hq NZ) as (ab & Hab & EV). rewrite Eb in Hab.
    exists ab. split; [ exact Hab | ]. intros x Kx Hx.
    destruct (ev_witness _ (ev_and _ _ (ev_in Dom HK q (scaled k (tri_normal T)) (P_in _ _ _ _ HT Hq)) (ev_and _ _ EV (off_side s t T q _ HT Hq NZ)))) as (e & _ & Ke & HM & Ho).
    rewrite <- HM. apply walk; auto. intros z _ (U & HU & _). exact (NC U HU).
  Qed.
End Walk.
