(** * Propagation of tags by one of several threads *)
From Coq Require Import List Arith Bool Lia QArith.
From Verif Require Import Model_base Model_soup Model_mesh Model_geometry Model_classify Model_local Model_corefine Model_mix Model_schedule.
From Verif Require Import Spec_mesh Spec_classify Spec_radial Spec_local.
From Verif Require Import Proof_base Proof_mesh Proof_propagate Proof_classify Proof_schedule.
Import ListNotations.
Local Open Scope nat_scope.

Lemma count_unknown_mono : forall D (a b : list (mixed_data D)), ext a b -> count_unknown b <= count_unknown a /\
  forall f d, nth_error a f = Some d -> tag d = UNKNOWN -> known b f -> S (count_unknown b) <= count_unknown a.
Proof.
  intros D. induction a as [ | x a IH ]; intros [ | y b ] (L & H); try discriminate.
  - split; [ auto | ]. intros [ | f ] d K; discriminate.
  - assert (H' : ext a b).
    { split; [ cbn in L; lia | ]. intros g d Hg. exact (H (S g) d Hg). }
    destruct (IH b H') as (I1 & I2). destruct (H 0 x eq_refl) as (d' & E & _ & _ & T). cbn in E. injection E as <-.
    unfold count_unknown in *. cbn [filter].
    destruct (face_tag_eqb_spec (tag x) UNKNOWN) as [ Ex | Nx ], (face_tag_eqb_spec (tag y) UNKNOWN) as [ Ey | Ny ]; cbn [length].
    + split; [ lia | ]. intros [ | f ] d Hd Hu (d1 & K1 & K2); cbn in Hd, K1.
      * congruence.
      * specialize (I2 f d Hd Hu (ex_intro _ d1 (conj K1 K2))). lia.
    + split; [ lia | ]. intros [ | f ] d Hd Hu (d1 & K1 & K2); cbn in Hd, K1; [ lia | ].
      specialize (I2 f d Hd Hu (ex_intro _ d1 (conj K1 K2))). lia.
    + exfalso. apply Nx. rewrite <- (T Nx). exact Ey.
    + split; [ lia | ]. intros [ | f ] d Hd Hu (d1 & K1 & K2); cbn in Hd, K1; [ congruence | ].
      exact (I2 f d Hd Hu (ex_intro _ d1 (conj K1 K2))).
Qed.

Section Prop_.
  Context {P D : Type}.
  Variable m : mesh P (mixed_data D).
  Variable border : list edge.
  Variable truth : nat -> face_tag.
  Hypothesis HF : finalized m.
  Hypothesis Hconst : forall f g, neighbour (m_faces m) border f g -> truth f = truth g.
  Notation N := (length (m_faces m)).
  Notation nb := (neighbour (m_faces m) border).

  Definition closed_at (ds : list (mixed_data D)) (f : nat) : Prop := forall g, nb f g -> known ds g.
  Lemma closed_ext : forall ds ds' f, ext ds ds' -> closed_at ds f -> closed_at ds' f.
  Proof. intros ds ds' f H C g Hg. apply (known_ext ds); auto. Qed.

  Variable E : exn -> Prop.

  Section Flood.
    Variables (seed : nat) (T : nat -> Prop) (left : bool).
    Notation t := (truth seed).

    (** The queue [q], with [B] an upper bound of the steps still to do. *)
    Record flood (B : nat) (cur : nat -> Prop) (q : list nat) (mine : list nat) (ds : list (mixed_data D)) : Prop := {
      fl_len : length ds = N;
      fl_bound : length q + count_unknown ds <= B;
      fl_queue : forall g, In g q -> truth g = t /\ g < N /\ known ds g;
      fl_mine : forall f, In f mine -> closed_at ds f \/ In f q \/ T f \/ cur f;
      fl_seed : closed_at ds seed \/ In seed q \/ cur seed
    }.

    Lemma flood_ext : forall B cur q mine ds ds', ext ds ds' -> flood B cur q mine ds -> flood B cur q mine ds'.
    Proof.
      intros B cur q mine ds ds' H [F1 F2 F3 F4 F5]. split.
      - rewrite (proj1 H). exact F1.
      - pose proof (proj1 (count_unknown_mono _ _ _ H)). lia.
      - intros g Hg. destruct (F3 g Hg) as (K1 & K2 & K3). split; [ exact K1 | ]. split; [ exact K2 | exact (known_ext _ _ _ H K3) ].
      - intros f Hf. destruct (F4 f Hf) as [ K | K ]; [ left; exact (closed_ext _ _ _ H K) | auto ].
      - destruct F5 as [ K | K ]; [ left; exact (closed_ext _ _ _ H K) | auto ].
    Qed.

    Lemma visit_safe : forall B cur q mine ds x, good truth ds -> owned mine ds -> flood B cur q mine ds -> x < N -> truth x = t ->
      safe truth E (fun st mine' ds' => snd st = no_warnings /\ flood B cur (fst st) mine' ds' /\ known ds' x)
        (p_visit left t (q, no_warnings) x) mine ds.
    Proof.
      intros B cur q mine ds x G O F Hx Ht. unfold p_visit. cbn [safe]. intros ds1 (X1 & G1 & O1).
      pose proof (flood_ext _ _ _ _ _ _ X1 F) as F1.
      assert (Hl : forall ds', ext ds1 ds' -> exists d, nth_error ds' x = Some d).
      { intros ds' X. destruct (nth_error ds' x) eqn:Z; [ eauto | ]. apply nth_error_None in Z. rewrite (proj1 X), (fl_len _ _ _ _ _ F1) in Z. lia. }
      destruct (Hl ds1 (ext_refl _)) as (d & Hd). exists d. split; [ exact Hd | ].
      destruct (face_tag_eqb_spec (tag d) UNKNOWN) as [ Hu | Hu ]; cbn [safe].
      - intros ds2 (X2 & G2 & O2). destruct (Hl ds2 X2) as (d2 & Hd2). split; [ apply nth_error_Some; congruence | ]. split; [ auto | ].
        intros d' Hd'. rewrite <- Ht. destruct (write_ext truth ds2 x d' G2 Hd') as (W1 & W2 & W3).
        set (ds3 := list_set ds2 x (retag (truth x) d')) in *. intros ds4 (X4 & G4 & O4). cbn [fst snd].
        split; [ reflexivity | ]. split; [ | exact (known_ext _ _ _ X4 W3) ].
        pose proof (ext_trans _ _ _ X2 (ext_trans _ _ _ W2 X4)) as X14.
        pose proof (flood_ext _ _ _ _ _ _ X14 F1) as [K1 K2 K3 K4 K5]. split; auto.
        + rewrite app_length. cbn [length]. pose proof (fl_bound _ _ _ _ _ F1) as Hb.
          pose proof (proj2 (count_unknown_mono _ _ _ X14) x d Hd Hu (known_ext _ _ _ X4 W3)). lia.
        + intros g Hg. apply in_app_iff in Hg. destruct Hg as [ Hg | [ <- | [] ] ]; [ auto | ].
          split; [ exact Ht | ]. split; [ exact Hx | ]. exact (known_ext _ _ _ X4 W3).
        + intros f [ <- | Hf ]; [ right; left; apply in_app_iff; right; now left | ].
          destruct (K4 f Hf) as [ Z | [ Z | Z ] ]; [ auto | right; left; apply in_app_iff; auto | auto ].
        + destruct K5 as [ Z | [ Z | Z ] ]; [ auto | right; left; apply in_app_iff; auto | auto ].
      - intros ds2 (X2 & G2 & O2). destruct (Hl ds2 X2) as (d2 & Hd2). exists d2. split; [ exact Hd2 | ].
        assert (Kx : known ds2 x) by (apply (known_ext _ _ _ X2); exists d; auto).
        rewrite (known_truth truth ds2 x d2 G2 Hd2 Kx), Ht. destruct (face_tag_eqb_spec t t) as [ _ | Z ]; [ | now elim Z ]. cbn [negb safe fst snd].
        intros ds3 (X3 & _). split; [ reflexivity | ]. split; [ exact (flood_ext _ _ _ _ _ _ (ext_trans _ _ _ X2 X3) F1) | exact (known_ext _ _ _ X3 Kx) ].
    Qed.

    Lemma loop_safe : forall fuel q mine ds, good truth ds -> owned mine ds -> flood fuel (fun _ => False) q mine ds ->
      safe truth E (fun w mine' ds' => w = no_warnings /\ (forall f, In f mine' -> closed_at ds' f \/ T f) /\ closed_at ds' seed)
        (p_loop fuel m border left t (q, no_warnings)) mine ds.
    Proof.
      induction fuel as [ | fuel IH ]; intros q mine ds G O F; destruct q as [ | fi q ]; cbn [p_loop].
      1, 3: cbn [safe]; intros ds' (X & _); destruct (flood_ext _ _ _ _ _ _ X F) as [_ _ _ K4 K5]; split; [ reflexivity | ]; split;
        [ intros f Hf; destruct (K4 f Hf) as [ Z | [ [] | [ Z | [] ] ] ]; auto | destruct K5 as [ Z | [ [] | [] ] ]; exact Z ].
      { pose proof (fl_bound _ _ _ _ _ F) as Z. cbn [length] in Z. lia. }
      destruct (fl_queue _ _ _ _ _ F fi (or_introl eq_refl)) as (Q1 & Q2 & Q3).
      destruct (faces_around_face_exact _ _ m fi border HF Q2) as (adj & Ea & HA & HB). rewrite Ea. unfold pure. cbn [pbind].
      assert (F0 : flood fuel (fun f => f = fi) q mine ds).
      { destruct F as [K1 K2 K3 K4 K5]. split; auto.
        - cbn [length] in K2. lia.
        - intros g Hg. apply K3. now right.
        - intros f Hf. destruct (K4 f Hf) as [ Z | [ [ <- | Z ] | [ Z | [] ] ] ]; auto.
        - destruct K5 as [ Z | [ [ Z | Z ] | [] ] ]; auto. }
      apply (safe_bind truth _ _ E (fun st mine' ds' => snd st = no_warnings /\ flood fuel (fun f => f = fi) (fst st) mine' ds' /\ forall g, In g adj -> known ds' g)); auto.
      - apply (safe_fold truth _ _ E (fun pre st mine' ds' => snd st = no_warnings /\ flood fuel (fun f => f = fi) (fst st) mine' ds' /\ forall g, In g pre -> known ds' g)); auto.
        + cbn [fst snd]. split; [ reflexivity | ]. split; [ exact F0 | intros g [] ].
        + intros pre st mine1 ds1 ds2 (X & _) (K1 & K2 & K3). split; [ exact K1 | ]. split; [ exact (flood_ext _ _ _ _ _ _ X K2) | ].
          intros g Hg. exact (known_ext _ _ _ X (K3 g Hg)).
        + intros pre x post [q1 w1] mine1 ds1 El X1 G1 O1 (K1 & K2 & K3). cbn [fst snd] in *. subst w1.
          assert (Hx : In x adj) by (rewrite El; apply in_app_iff; right; now left).
          assert (Htx : truth x = t).
          { rewrite <- Q1. destruct (Nat.eq_dec x fi) as [ -> | Nx ]; [ reflexivity | ]. symmetry. apply Hconst. now apply HA. }
          apply (safe_conseq truth _ E (fun st mine' ds' => snd st = no_warnings /\ flood fuel (fun f => f = fi) (fst st) mine' ds' /\ known ds' x)).
          2: { apply visit_safe; auto. }
          intros a mine2 ds2 X2 G2 O2 _ (Z1 & Z2 & Z3). split; [ exact Z1 | ]. split; [ exact Z2 | ].
          intros g Hg. apply in_app_iff in Hg. destruct Hg as [ Hg | [ <- | [] ] ]; [ exact (known_ext _ _ _ X2 (K3 g Hg)) | exact Z3 ].
      - intros [q1 w1] mine1 ds1 X1 G1 O1 _ (K1 & K2 & K3). cbn [fst snd] in *. subst w1. apply IH; auto.
        assert (Cf : closed_at ds1 fi).
        { intros g Hg. destruct (Nat.eq_dec g fi) as [ -> | Ng ]; [ exact (known_ext _ _ _ X1 Q3) | ]. apply K3. now apply HA. }
        destruct K2 as [L1 L2 L3 L4 L5]. split; auto.
        + intros f Hf. destruct (L4 f Hf) as [ Z | [ Z | [ Z | -> ] ] ]; auto.
        + destruct L5 as [ Z | [ Z | Z ] ]; auto. rewrite Z. left. exact Cf.
    Qed.
  End Flood.

  Lemma propagate_safe : forall T seed mine ds, good truth ds -> owned mine ds -> length ds = N -> known ds seed ->
    (forall f, In f mine -> closed_at ds f \/ T f \/ f = seed) ->
    safe truth E (fun w mine' ds' => w = no_warnings /\ (forall f, In f mine' -> closed_at ds' f \/ T f) /\ closed_at ds' seed)
      (p_propagate m border seed) mine ds.
  Proof.
    intros T seed mine ds G O L K Hm. unfold p_propagate. cbn [safe]. intros ds1 (X1 & G1 & O1).
    pose proof (known_ext _ _ _ X1 K) as K1. pose proof K1 as (d & Hd & Nu). exists d. split; [ exact Hd | ].
    rewrite (known_truth truth ds1 seed d G1 Hd K1).
    assert (L1 : length ds1 = N) by (rewrite (proj1 X1); exact L).
    apply (loop_safe seed T (from_left d)); auto. split; auto.
    - pose proof (count_unknown_le _ ds1). cbn [length]. lia.
    - intros g [ <- | [] ]. split; [ reflexivity | ]. split; [ rewrite <- L1; apply nth_error_Some; congruence | exact K1 ].
    - intros f Hf. destruct (Hm f Hf) as [ Z | [ Z | -> ] ]; [ left; exact (closed_ext _ _ _ X1 Z) | auto | right; left; now left ].
    - right. left. now left.
  Qed.
End Prop_.
