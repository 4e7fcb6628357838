(** * The sectors between the faces around an edge *)
From Coq Require Import List Arith Bool Lia QArith Lqa.
From Verif Require Import Model_base Model_soup Model_mesh Model_classify Model_geometry Model_local.
From Verif Require Import Spec_mesh Spec_classify Spec_radial Spec_local.
From Verif Require Import Proof_radial Proof_small Proof_turn.
Import ListNotations.
Local Open Scope nat_scope.

Lemma choice_bool : forall (P : nat -> bool -> Prop) n, (forall i, i < n -> exists b, P i b) ->
  exists f : nat -> bool, forall i, i < n -> P i (f i).
Proof.
  intros P n. induction n as [ | n IH ]; intros H.
  - exists (fun _ => true). intros i Hi. lia.
  - destruct IH as (f & Hf); [ intros i Hi; apply H; lia | ]. destruct (H n ltac:(lia)) as (b & Hb).
    exists (fun i => if i =? n then b else f i). intros i Hi. destruct (Nat.eqb_spec i n) as [ -> | N ]; [ exact Hb | ].
    apply Hf. lia.
Qed.

Section Sectors.
  Variable fs : list around.
  Variable left : nat -> bool.
  Hypothesis HE : same_edge (fun f => In f fs).
  Hypothesis HN : forall i j f g, nth_error fs i = Some f -> nth_error fs j = Some g -> fi f = fi g -> i = j.
  Hypothesis HS : radially_sorted fs.
  Hypothesis Hdup : no_duplicates left fs.
  Hypothesis Hpart : no_partial_overlap fs.

  Variable rays : bool -> list (vec2 * bool).
  Variable chi : bool -> vec2 -> Prop.
  Hypothesis Hrays : forall b r c, In (r, c) (rays b) <->
    exists f, In f fs /\ left (fi f) = b /\ r_uv f = r /\ ccw (orient f) = c.
  Hypothesis Hwalk : forall b p q, free (rays b) p q -> (chi b p <-> chi b q).
  Hypothesis Hbeside : forall b d c, In (d, c) (rays b) ->
    eventually (fun e => (chi b (aft d e) <-> c = false) /\ (chi b (bef d e) <-> c = true)).
  Hypothesis Hdec : forall b f, In f fs -> (forall r c, In (r, c) (rays b) -> ~ eq2 r (r_uv f)) ->
    chi b (r_uv f) \/ ~ chi b (r_uv f).

  Lemma uv_bin : forall f, In f fs -> bin (r_uv f) = radial_bin f.
  Proof. intros f Hf. unfold bin. rewrite (proj1 HE f Hf). reflexivity. Qed.
  Lemma uv_nonzero : forall f, In f fs -> nonzero (r_uv f).
  Proof.
    intros f Hf. apply (in_bin_nonzero (radial_bin f)). apply radial_bin_region. exact (proj1 HE f Hf).
  Qed.
  Lemma rays_nz : forall b r c, In (r, c) (rays b) -> nonzero r.
  Proof. intros b r c H. apply Hrays in H. destruct H as (f & Hf & _ & <- & _). now apply uv_nonzero. Qed.

  Lemma lt2_less : forall f g, In f fs -> In g fs -> lt2 (r_uv f) (r_uv g) -> radial_less f g = true.
  Proof.
    intros f g Hf Hg H. unfold radial_less. destruct (Nat.eqb_spec (vi_r f) (vi_r g)) as [ E | E ].
    - rewrite (proj2 HE f g Hf Hg E) in H. elim (lt2_irrefl _ H).
    - unfold lt2 in H. rewrite !uv_bin in H by assumption. destruct H as [ H | (H & K) ].
      + destruct (Nat.eqb_spec (radial_bin f) (radial_bin g)); [ lia | ]. cbn [negb]. now apply Nat.ltb_lt.
      + rewrite H, Nat.eqb_refl. cbn [negb]. apply sign_Gt in K. now rewrite K.
  Qed.

  Lemma ordered : forall i j f g, i < j -> nth_error fs i = Some f -> nth_error fs j = Some g -> ~ lt2 (r_uv g) (r_uv f).
  Proof.
    intros i j f g Hij Hf Hg K. apply lt2_less in K; eauto using nth_error_In.
    rewrite (HS i j f g Hij Hf Hg) in K. discriminate.
  Qed.

  Lemma eq2_third : forall f g, In f fs -> In g fs -> eq2 (r_uv f) (r_uv g) -> vi_r f = vi_r g.
  Proof.
    intros f g Hf Hg E. apply Hpart; auto.
    destruct (eq2_multiple _ _ (uv_nonzero f Hf) (uv_nonzero g Hg) E) as (k & Hk & E1 & E2). exists k. auto.
  Qed.

  Lemma adjacent : forall i k f h, i < k -> nth_error fs i = Some f -> nth_error fs k = Some h -> vi_r f = vi_r h -> k = S i.
  Proof.
    intros i k f h Hik Hf Hh E. destruct (Nat.eq_dec k (S i)) as [ ? | N ]; auto. exfalso.
    destruct (nth_error fs (S i)) as [ x | ] eqn:Hx.
    2:{ apply nth_error_None in Hx. assert (k < length fs) by (apply nth_error_Some; congruence). lia. }
    pose proof (nth_error_In _ _ Hf) as If. pose proof (nth_error_In _ _ Hh) as Ih. pose proof (nth_error_In _ _ Hx) as Ix.
    pose proof (ordered i (S i) f x ltac:(lia) Hf Hx) as O1. pose proof (ordered (S i) k x h ltac:(lia) Hx Hh) as O2.
    rewrite <- (proj2 HE f h If Ih E) in O2.
    destruct (lt2_total (r_uv f) (r_uv x)) as [ L | [ L | L ] ]; [ contradiction | contradiction | ].
    apply eq2_third in L; auto.
    pose proof (Hdup i (S i) f x ltac:(lia) Hf Hx L) as D1.
    pose proof (Hdup (S i) k x h ltac:(lia) Hx Hh ltac:(congruence)) as D2.
    pose proof (Hdup i k f h ltac:(lia) Hf Hh E) as D3.
    destruct (left (fi f)), (left (fi x)), (left (fi h)); congruence.
  Qed.

  (** Just after and just before a direction. *)
  Definition after_is (b : bool) (d : vec2) (k : bool) : Prop := eventually (fun e => chi b (aft d e) <-> k = true).
  Definition before_is (b : bool) (d : vec2) (k : bool) : Prop := eventually (fun e => chi b (bef d e) <-> k = true).

  Lemma iff_bool : forall (P : Prop) (k k' : bool), (P <-> k = true) -> (P <-> k' = true) -> k = k'.
  Proof. intros P [ | ] [ | ] H H'; auto; exfalso; [ assert (false = true) by tauto | assert (false = true) by tauto ]; discriminate. Qed.

  Lemma after_fun : forall b d k k', after_is b d k -> after_is b d k' -> k = k'.
  Proof.
    intros b d k k' H H'. destruct (ev_witness _ (ev_and _ _ H H')) as (e & _ & A & B). exact (iff_bool _ _ _ A B).
  Qed.
  Lemma before_fun : forall b d k k', before_is b d k -> before_is b d k' -> k = k'.
  Proof.
    intros b d k k' H H'. destruct (ev_witness _ (ev_and _ _ H H')) as (e & _ & A & B). exact (iff_bool _ _ _ A B).
  Qed.

  Lemma beside_cases : forall b i f, nth_error fs i = Some f ->
    exists ka kb, after_is b (r_uv f) ka /\ before_is b (r_uv f) kb /\
      ((exists j g, nth_error fs j = Some g /\ left (fi g) = b /\ vi_r g = vi_r f /\ ka = negb (ccw (orient g)) /\ kb = ccw (orient g)) \/
       ((forall g, In g fs -> left (fi g) = b -> vi_r g <> vi_r f) /\ ka = kb /\ (chi b (r_uv f) <-> ka = true))).
  Proof.
    intros b i f Hf. pose proof (nth_error_In _ _ Hf) as If.
    destruct (existsb (fun g => Bool.eqb (left (fi g)) b && (vi_r g =? vi_r f)) fs) eqn:Ex.
    - apply existsb_exists in Ex. destruct Ex as (g & Ig & E). apply andb_true_iff in E. destruct E as (E1 & E2).
      apply Bool.eqb_prop in E1. apply Nat.eqb_eq in E2.
      assert (HR : In (r_uv f, ccw (orient g)) (rays b)).
      { apply Hrays. exists g. rewrite (proj2 HE g f Ig If E2). auto. }
      pose proof (Hbeside b _ _ HR) as HB.
      exists (negb (ccw (orient g))), (ccw (orient g)). split; [ | split; [ | left ] ].
      + revert HB. apply ev_mono. intros e _ (H1 & _). rewrite H1. now rewrite negb_true_iff.
      + revert HB. apply ev_mono. intros e _ (_ & H1). exact H1.
      + apply In_nth_error in Ig. destruct Ig as (j & Hj). exists j, g. auto.
    - assert (N : forall g, In g fs -> left (fi g) = b -> vi_r g <> vi_r f).
      { intros g Ig E1 E2. assert (K : existsb (fun g => Bool.eqb (left (fi g)) b && (vi_r g =? vi_r f)) fs = true).
        { apply existsb_exists. exists g. split; auto. rewrite E1, E2, Nat.eqb_refl, Bool.eqb_reflx. reflexivity. }
        congruence. }
      assert (NR : forall r c, In (r, c) (rays b) -> ~ eq2 r (r_uv f)).
      { intros r c Hr K. apply Hrays in Hr. destruct Hr as (g & Ig & El & <- & _). apply (N g Ig El). now apply eq2_third. }
      pose proof (turn_off (rays b) (chi b) (rays_nz b) (Hwalk b) (r_uv f) (uv_nonzero f If) NR) as HT.
      assert (Hk : exists k : bool, chi b (r_uv f) <-> k = true).
      { destruct (Hdec b f If NR) as [ K | K ]; [ exists true | exists false ]; split; auto; try discriminate; try contradiction. }
      destruct Hk as (k & Hk). exists k, k. split; [ | split; [ | right ] ]; auto.
      + revert HT. apply ev_mono. intros e _ (H1 & _). now rewrite H1.
      + revert HT. apply ev_mono. intros e _ (_ & H1). now rewrite H1.
  Qed.

  Lemma sector_eq : forall b d d' k k', after_is b d k -> before_is b d' k' ->
    eventually (fun e => eventually (fun e' => chi b (aft d e) <-> chi b (bef d' e'))) -> k = k'.
  Proof.
    intros b d d' k k' HA HB HE'. destruct (ev_witness _ (ev_and _ _ HA HE')) as (e & _ & A & E).
    destruct (ev_witness _ (ev_and _ _ HB E)) as (e' & _ & B & I). rewrite I in A. exact (iff_bool _ _ _ A B).
  Qed.

  Theorem sectors : exists inside, solid_wedges left fs inside /\
    forall i f, nth_error fs i = Some f -> ~ overlapping fs i ->
      (inside (negb (left (fi f))) i = true <-> chi (negb (left (fi f))) (r_uv f)).
  Proof.
    assert (C : forall b, exists av bv, forall i, i < length fs -> forall f, nth_error fs i = Some f ->
      after_is b (r_uv f) (av i) /\ before_is b (r_uv f) (bv i) /\
      ((exists j g, nth_error fs j = Some g /\ left (fi g) = b /\ vi_r g = vi_r f /\ av i = negb (ccw (orient g)) /\ bv i = ccw (orient g)) \/
       ((forall g, In g fs -> left (fi g) = b -> vi_r g <> vi_r f) /\ av i = bv i /\ (chi b (r_uv f) <-> av i = true)))).
    { intro b.
      destruct (choice_bool (fun i k => forall f, nth_error fs i = Some f -> after_is b (r_uv f) k) (length fs)) as (av & Hav).
      { intros i Hi. destruct (nth_error fs i) as [ f | ] eqn:Hf; [ | apply nth_error_None in Hf; lia ].
        destruct (beside_cases b i f Hf) as (ka & kb & HA & _). exists ka. intros f' E. injection E as <-. exact HA. }
      destruct (choice_bool (fun i k => forall f, nth_error fs i = Some f -> before_is b (r_uv f) k) (length fs)) as (bv & Hbv).
      { intros i Hi. destruct (nth_error fs i) as [ f | ] eqn:Hf; [ | apply nth_error_None in Hf; lia ].
        destruct (beside_cases b i f Hf) as (ka & kb & _ & HA & _). exists kb. intros f' E. injection E as <-. exact HA. }
      exists av, bv. intros i Hi f Hf. specialize (Hav i Hi f Hf). specialize (Hbv i Hi f Hf).
      split; [ exact Hav | ]. split; [ exact Hbv | ].
      destruct (beside_cases b i f Hf) as (ka & kb & HA & HB & HC).
      rewrite (after_fun _ _ _ _ Hav HA), (before_fun _ _ _ _ Hbv HB). exact HC. }
    destruct (C true) as (avt & bvt & Ct). destruct (C false) as (avf & bvf & Cf). clear C.
    set (av := fun b : bool => if b then avt else avf). set (bv := fun b : bool => if b then bvt else bvf).
    assert (C : forall b i f, nth_error fs i = Some f ->
      after_is b (r_uv f) (av b i) /\ before_is b (r_uv f) (bv b i) /\
      ((exists j g, nth_error fs j = Some g /\ left (fi g) = b /\ vi_r g = vi_r f /\ av b i = negb (ccw (orient g)) /\ bv b i = ccw (orient g)) \/
       ((forall g, In g fs -> left (fi g) = b -> vi_r g <> vi_r f) /\ av b i = bv b i /\ (chi b (r_uv f) <-> av b i = true)))).
    { intros [ | ] i f Hf; cbn [av bv]; [ apply Ct | apply Cf ]; auto; apply nth_error_Some; congruence. }
    clearbody av bv. clear Ct Cf.
    set (paired := fun i => match nth_error fs i, nth_error fs (S i) with Some f, Some g => vi_r f =? vi_r g | _, _ => false end).
    set (own := fun i => match nth_error fs i with Some f => left (fi f) | None => false end).
    exists (fun b i => if paired i && negb (Bool.eqb (own i) b) then bv b i else av b i).
    (* a face's own operand *)
    assert (Own : forall i f, nth_error fs i = Some f ->
      av (left (fi f)) i = negb (ccw (orient f)) /\ bv (left (fi f)) i = ccw (orient f)).
    { intros i f Hf. destruct (C (left (fi f)) i f Hf) as (_ & _ & [ (j & g & Hg & E1 & E2 & E3 & E4) | (N & _) ]).
      - destruct (Nat.eq_dec j i) as [ -> | Nj ]; [ assert (g = f) by congruence; subst g; auto | ].
        elim (Hdup j i g f Nj Hg Hf E2 E1).
      - elim (N f (nth_error_In _ _ Hf)); reflexivity. }
    (* the sector before a face that does not coincide with its predecessor *)
    assert (Step : forall b i j f g, nth_error fs i = Some f -> nth_error fs j = Some g -> i = S j -> vi_r g <> vi_r f -> av b j = bv b i).
    { intros b i j f g Hf Hg E Nv. destruct (C b i f Hf) as (_ & HB & _). destruct (C b j g Hg) as (HA & _ & _).
      pose proof (nth_error_In _ _ Hf) as If. pose proof (nth_error_In _ _ Hg) as Ig.
      apply (sector_eq b _ _ _ _ HA HB).
      apply (turn_between (rays b) (chi b) (rays_nz b) (Hwalk b)); auto using uv_nonzero.
      - destruct (lt2_total (r_uv g) (r_uv f)) as [ L | [ L | L ] ]; auto.
        + elim (ordered j i g f ltac:(lia) Hg Hf L).
        + elim Nv. now apply eq2_third.
      - intros r c Hr. apply Hrays in Hr. destruct Hr as (x & Ix & _ & <- & _).
        apply In_nth_error in Ix. destruct Ix as (k & Hx). destruct (le_lt_dec k j) as [ L | L ].
        + left. destruct (Nat.eq_dec k j) as [ -> | Nk ].
          * assert (x = g) by congruence. subst x. apply lt2_irrefl.
          * apply (ordered k j); auto. lia.
        + right. destruct (Nat.eq_dec k i) as [ -> | Nk ].
          * assert (x = f) by congruence. subst x. apply lt2_irrefl.
          * apply (ordered i k); auto. lia. }
    assert (Wrap : forall b f g, nth_error fs 0 = Some f -> nth_error fs (length fs - 1) = Some g -> av b (length fs - 1) = bv b 0).
    { intros b f g Hf Hg. destruct (C b 0 f Hf) as (_ & HB & _). destruct (C b _ g Hg) as (HA & _ & _).
      pose proof (nth_error_In _ _ Hf) as If. pose proof (nth_error_In _ _ Hg) as Ig.
      apply (sector_eq b _ _ _ _ HA HB).
      apply (turn_around (rays b) (chi b) (rays_nz b) (Hwalk b)); auto using uv_nonzero.
      - intros r c Hr. apply Hrays in Hr. destruct Hr as (x & Ix & _ & <- & _).
        apply In_nth_error in Ix. destruct Ix as (k & Hx). assert (k < length fs) by (apply nth_error_Some; congruence).
        destruct (Nat.eq_dec k (length fs - 1)) as [ -> | Nk ].
        + assert (x = g) by congruence. subst x. apply lt2_irrefl.
        + apply (ordered k (length fs - 1)); auto. lia.
      - intros r c Hr. apply Hrays in Hr. destruct Hr as (x & Ix & _ & <- & _).
        apply In_nth_error in Ix. destruct Ix as (k & Hx).
        destruct (Nat.eq_dec k 0) as [ -> | Nk ].
        + assert (x = f) by congruence. subst x. apply lt2_irrefl.
        + apply (ordered 0 k); auto. lia. }
    split.
    - intros i f Hf. assert (Hi : i < length fs) by (apply nth_error_Some; congruence).
      set (b0 := left (fi f)). set (j := prev_pos (length fs) i).
      assert (Hj : (0 < i /\ j = i - 1) \/ (i = 0 /\ j = length fs - 1)).
      { unfold j, prev_pos. destruct (Nat.eq_dec i 0) as [ -> | Ni ].
        - right. split; auto. rewrite Nat.mod_small; lia.
        - left. split; [ lia | ]. replace (i + (length fs - 1)) with (i - 1 + 1 * length fs) by lia.
          rewrite Nat.mod_add by lia. rewrite Nat.mod_small; lia. }
      assert (Hjl : j < length fs) by lia.
      destruct (nth_error fs j) as [ g | ] eqn:Hg; [ | apply nth_error_None in Hg; lia ].
      assert (Oi : own i = b0) by (unfold own; rewrite Hf; reflexivity).
      assert (Oj : own j = left (fi g)) by (unfold own; rewrite Hg; reflexivity).
      destruct (Own i f Hf) as (W1 & W2). fold b0 in W1, W2.
      destruct (Nat.eq_dec i 0) as [ I0 | I0 ]; [ | destruct (Nat.eq_dec (vi_r g) (vi_r f)) as [ V | V ] ].
      + (* the first face *)
        assert (Pj : paired j = false).
        { unfold paired. rewrite Hg. replace (nth_error fs (S j)) with (@None around); auto. symmetry. apply nth_error_None. lia. }
        assert (EW : forall b, av b j = bv b i).
        { intro b. destruct Hj as [ (Hj & _) | (_ & Ej) ]; [ lia | ]. rewrite Ej. rewrite I0. rewrite I0 in Hf. rewrite Ej in Hg. eauto. }
        rewrite Pj. cbn [andb]. rewrite !EW. rewrite Oi. rewrite Bool.eqb_reflx. cbn [negb]. rewrite andb_false_r.
        split; [ exact W2 | ]. split; [ exact W1 | ].
        destruct (paired i) eqn:Pi; cbn [andb].
        * replace (Bool.eqb b0 (negb b0)) with false by (destruct b0; reflexivity). reflexivity.
        * destruct (C (negb b0) i f Hf) as (_ & _ & [ (k & h & Hh & E1 & E2 & E3 & E4) | (_ & E & _) ]); [ exfalso | exact E ].
          assert (Nk : k <> i). { intros ->. assert (h = f) by congruence. subst h. unfold b0 in E1. destruct (left (fi f)); discriminate. }
          assert (Ek : k = S i) by (apply (adjacent i k f h); auto; lia).
          subst k. unfold paired in Pi. rewrite Hf, Hh, E2, Nat.eqb_refl in Pi. discriminate.
      + (* coinciding with its predecessor *)
        destruct Hj as [ (_ & Ej) | (K & _) ]; [ | lia ].
        assert (Dg : left (fi g) = negb b0).
        { pose proof (Hdup j i g f ltac:(lia) Hg Hf V). unfold b0 in *. destruct (left (fi g)), (left (fi f)); cbn [negb] in *; congruence. }
        assert (Pj : paired j = true).
        { unfold paired. replace (S j) with i by lia. rewrite Hg, Hf, V. apply Nat.eqb_refl. }
        assert (Pi : paired i = false).
        { unfold paired. rewrite Hf. destruct (nth_error fs (S i)) as [ x | ] eqn:Hx; auto. apply Nat.eqb_neq. intro K.
          assert (Lj : j < S i) by lia. assert (Vx : vi_r g = vi_r x) by (rewrite V; exact K). pose proof (adjacent j (S i) g x Lj Hg Hx Vx). lia. }
        assert (Dir : r_uv g = r_uv f) by (apply (proj2 HE); eauto using nth_error_In).
        rewrite Pj, Pi, Oj, Dg. cbn [andb]. rewrite Bool.eqb_reflx.
        replace (Bool.eqb (negb b0) b0) with false by (destruct b0; reflexivity). cbn [negb].
        destruct (C b0 i f Hf) as (A1 & B1 & _). destruct (C b0 j g Hg) as (A2 & B2 & _). rewrite Dir in A2, B2.
        destruct (C (negb b0) i f Hf) as (A3 & _). destruct (C (negb b0) j g Hg) as (A4 & _). rewrite Dir in A4.
        split; [ rewrite (before_fun _ _ _ _ B2 B1); exact W2 | ]. split; [ exact W1 | ].
        exact (after_fun _ _ _ _ A3 A4).
      + (* not coinciding *)
        destruct Hj as [ (_ & Ej) | (K & _) ]; [ | lia ].
        assert (Pj : paired j = false).
        { unfold paired. replace (S j) with i by lia. rewrite Hg, Hf. now apply Nat.eqb_neq. }
        assert (EW : forall b, av b j = bv b i) by (intro b; apply (Step b i j f g); auto; lia).
        rewrite Pj. cbn [andb]. rewrite !EW. rewrite Oi. rewrite Bool.eqb_reflx. cbn [negb]. rewrite andb_false_r.
        split; [ exact W2 | ]. split; [ exact W1 | ].
        destruct (paired i) eqn:Pi; cbn [andb].
        * replace (Bool.eqb b0 (negb b0)) with false by (destruct b0; reflexivity). reflexivity.
        * destruct (C (negb b0) i f Hf) as (_ & _ & [ (k & h & Hh & E1 & E2 & E3 & E4) | (_ & E & _) ]); [ exfalso | exact E ].
          assert (Nk : k <> i). { intros ->. assert (h = f) by congruence. subst h. unfold b0 in E1. destruct (left (fi f)); discriminate. }
          destruct (lt_eq_lt_dec k i) as [ [ L | L ] | L ]; [ | contradiction | ].
          -- assert (i = S k) by (apply (adjacent k i h f); auto). assert (k = j) by lia. subst k. congruence.
          -- assert (Ek : k = S i) by (apply (adjacent i k f h); auto).
             subst k. unfold paired in Pi. rewrite Hf, Hh, E2, Nat.eqb_refl in Pi. discriminate.
    - intros i f Hf No.
      assert (Pi : paired i = false).
      { unfold paired. rewrite Hf. destruct (nth_error fs (S i)) as [ x | ] eqn:Hx; auto. apply Nat.eqb_neq. intro K.
        apply No. exists f, (S i), x. repeat split; auto. }
      rewrite Pi. cbn [andb].
      destruct (C (negb (left (fi f))) i f Hf) as (_ & _ & [ (k & h & Hh & E1 & E2 & E3 & E4) | (_ & _ & E) ]); [ exfalso | symmetry; exact E ].
      apply No. exists f, k, h. split; auto. split; auto. intros ->. assert (h = f) by congruence. subst h.
      destruct (left (fi f)); discriminate.
  Qed.
End Sectors.
