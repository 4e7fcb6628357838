(** * Tagging the faces around an edge by one of several threads *)
From Coq Require Import List Arith Bool Lia QArith.
From Verif Require Import Model_base Model_soup Model_mesh Model_geometry Model_classify Model_local Model_corefine Model_mix Model_schedule.
From Verif Require Import Spec_mesh Spec_classify Spec_radial Spec_local.
From Verif Require Import Proof_base Proof_mesh Proof_propagate Proof_classify Proof_local Proof_around Proof_schedule.
Import ListNotations.
Local Open Scope nat_scope.

Section Edge.
  Context {D : Type}.
  Variable fs : list Model_local.around.
  Notation n := (length fs).
  Variables (left : nat -> bool) (truth : nat -> face_tag) (inside : bool -> nat -> bool).
  Hypothesis HS : same_edge (fun f => In f fs).
  Hypothesis HSort : radially_sorted fs.
  Hypothesis HE : solid_edge left truth fs inside.
  Notation F := (F fs).
  Notation nx := (nx fs).
  Notation tr i := (truth (fi (F i))).

  Let HW : solid_wedges left fs inside := proj1 HE.
  Let HDup : no_duplicates left fs := proj1 (proj2 HE).
  Let HPar : no_partial_overlap fs := proj1 (proj2 (proj2 HE)).

  Lemma is_truth : forall i t, i < n -> true_tag left fs inside i t -> t = tr i.
  Proof. intros i t Hi Ht. apply (proj2 (proj2 (proj2 HE)) i (F i) t); [ now apply F_nth | exact Ht ]. Qed.

  Lemma overlap_truth : forall i j, i < n -> j < n -> ov fs j = true -> i = j \/ i = nx j -> otag fs j = tr i /\ overlapping fs i.
  Proof.
    intros i j Hi Hj Ho Hc. destruct (covered_overlapping fs left inside HW i j Hi Hj Ho Hc) as (H1 & H2).
    split; [ now apply is_truth | exact H2 ].
  Qed.

  Lemma overlapping_tag : forall i, i < n -> overlapping fs i -> tr i = COPLANAR \/ tr i = OPPOSITE.
  Proof.
    intros i Hi Ho. destruct (overlapping_covered fs left HS HSort HDup HPar i Hi Ho) as (j & Hj & Hov & Hc).
    destruct (overlap_truth i j Hi Hj Hov Hc) as (<- & _). unfold otag. destruct (orientation_eqb _ _); auto.
  Qed.

  Lemma side_truth_of : forall i, i < n -> ~ overlapping fs i -> side_tag (tr i) /\ true_tag left fs inside i (tr i).
  Proof.
    intros i Hi No.
    assert (Z : true_tag left fs inside i (if inside (negb (left (fi (F i)))) i then INTERIOR else EXTERIOR)).
    { right. exists (F i). split; [ now apply F_nth | ]. split; [ exact No | ]. destruct (inside _ i); split; intro; auto; discriminate. }
    pose proof (is_truth i _ Hi Z) as <-. split; [ | exact Z ]. unfold side_tag. destruct (inside _ i); auto.
  Qed.

  Lemma overlapping_dec : forall i, i < n -> overlapping fs i \/ ~ overlapping fs i.
  Proof.
    intros i Hi. destruct (existsb (fun j => ov fs j && ((i =? j) || (i =? nx j))) (seq 0 n)) eqn:Ex.
    - left. apply existsb_exists in Ex. destruct Ex as (j & Hj & Hb). apply in_seq in Hj.
      apply andb_true_iff in Hb. destruct Hb as (Hb1 & Hb2). apply orb_true_iff in Hb2. rewrite !Nat.eqb_eq in Hb2.
      exact (proj2 (overlap_truth i j Hi ltac:(lia) Hb1 Hb2)).
    - right. intro Ho. destruct (overlapping_covered fs left HS HSort HDup HPar i Hi Ho) as (j & Hj & Hov & Hc).
      assert (Z : existsb (fun j => ov fs j && ((i =? j) || (i =? nx j))) (seq 0 n) = true).
      { apply existsb_exists. exists j. split; [ apply in_seq; lia | ]. rewrite Hov. apply orb_true_iff. rewrite !Nat.eqb_eq. exact Hc. }
      congruence.
  Qed.

  Lemma pair_truth : forall i, i < n -> ~ overlapping fs i -> ~ overlapping fs (nx i) -> orient (F i) = orient (F (nx i)) ->
    tag1 fs i = tr i /\ tag2 fs i = tr (nx i).
  Proof.
    intros i Hi M1 M2 Eo'. pose proof (nx_lt fs i Hi) as Hj.
    destruct (W fs left inside HW i Hi) as (A & B & _). destruct (W fs left inside HW (nx i) Hj) as (A' & B' & C').
    rewrite prev_nx in A', C' by auto. unfold tag1, tag2. rewrite <- Eo' in *.
    assert (Hdiff : left (fi (F (nx i))) = negb (left (fi (F i)))).
    { destruct (left (fi (F i))), (left (fi (F (nx i)))); auto; exfalso; rewrite A' in B; destruct (ccw _); discriminate. }
    rewrite Hdiff in *. rewrite negb_involutive in C'.
    split; apply is_truth; auto; right.
    - exists (F i). split; [ now apply F_nth | ]. split; [ exact M1 | ]. rewrite A'.
      destruct (orient (F i)); simpl; split; intros; auto; discriminate.
    - exists (F (nx i)). split; [ now apply F_nth | ]. split; [ exact M2 | ]. rewrite Hdiff, negb_involutive, C', B.
      destruct (orient (F i)); simpl; split; intros; auto; discriminate.
  Qed.

  Lemma carried_truth : forall k mm, k < n -> ~ overlapping fs k -> ~ overlapping fs (at_pos fs k mm) ->
    cr fs k mm (tr k) = tr (at_pos fs k mm).
  Proof.
    intros k mm Hk No Nm. destruct (side_truth_of k Hk No) as (S1 & T1). pose proof (at_pos_lt fs k mm Hk) as Hp.
    apply is_truth; auto. apply (truth_parity fs left inside HW); auto; [ now apply cr_side | ].
    apply (cr_parity fs left inside HW); auto. now apply (truth_parity fs left inside HW).
  Qed.

  (** *** The programs *)
  Variable E : exn -> Prop.
  Variable len : nat.
  Hypothesis Hlen : forall i, i < n -> fi (F i) < len.
  Notation safe := (safe truth E).
  Notation good := (@good D truth).

  Definition overlaps_known (ds : list (mixed_data D)) : Prop := forall i, i < n -> overlapping fs i -> known ds (fi (F i)).
  Definition within (mine : list nat) : Prop := forall f, In f mine -> In f (map fi fs).

  Lemma within_F : forall i mine, i < n -> within mine -> within (fi (F i) :: mine).
  Proof. intros i mine Hi H f [ <- | Hf ]; [ apply in_map; now apply nth_In | auto ]. Qed.
  Lemma found : forall (ds : list (mixed_data D)) i, length ds = len -> i < n -> exists d, nth_error ds (fi (F i)) = Some d.
  Proof. intros ds i El Hi. destruct (nth_error ds (fi (F i))) eqn:Z; [ eauto | ]. apply nth_error_None in Z. specialize (Hlen i Hi). lia. Qed.
  Lemma overlaps_known_ext : forall ds ds', ext ds ds' -> overlaps_known ds -> overlaps_known ds'.
  Proof. intros ds ds' X H i Hi Ho. exact (known_ext _ _ _ X (H i Hi Ho)). Qed.

  Lemma overlaps_safe : forall ds, good ds -> length ds = len ->
    safe (fun _ mine ds' => length ds' = len /\ within mine /\ overlaps_known ds') (@p_overlaps D fs) [] ds.
  Proof.
    intros ds G El. unfold p_overlaps.
    apply (safe_conseq truth _ E (fun _ mine ds' => length ds' = len /\ within mine /\
      forall j, In j (seq 0 n) -> ov fs j = true -> known ds' (fi (F j)) /\ known ds' (fi (F (nx j))))).
    { intros _ mine ds' X G' O' _ (K1 & K2 & K3). split; [ exact K1 | ]. split; [ exact K2 | ]. intros i Hi Ho.
      destruct (overlapping_covered fs left HS HSort HDup HPar i Hi Ho) as (j & Hj & Hov & Hc).
      destruct (K3 j) as (Z1 & Z2); [ apply in_seq; lia | exact Hov | ]. destruct Hc as [ -> | -> ]; auto. }
    apply (safe_fold truth _ _ E (fun pre _ mine ds' => length ds' = len /\ within mine /\
      forall j, In j pre -> ov fs j = true -> known ds' (fi (F j)) /\ known ds' (fi (F (nx j))))); auto.
    - intros f [].
    - split; [ exact El | ]. split; [ intros f [] | intros j [] ].
    - intros pre _ mine ds1 ds2 (X & _) (K1 & K2 & K3). split; [ rewrite (proj1 X); exact K1 | ]. split; [ exact K2 | ].
      intros j Hj Ho. destruct (K3 j Hj Ho). split; eapply known_ext; eassumption.
    - intros pre i post [] mine1 ds1 Es X1 G1 O1 (K1 & K2 & K3).
      pose proof (in_seq_split fs 0 n n pre post i Es eq_refl) as (_ & Hi). pose proof (nx_lt fs i Hi) as Hj.
      unfold p_overlap, pure. change ((i + 1) mod n) with (nx i). rewrite (at_F fs i Hi), (at_F fs _ Hj). cbn [pbind].
      change (vi_r (F i) =? vi_r (F (nx i))) with (ov fs i). destruct (ov fs i) eqn:Eo.
      + destruct (overlap_truth i i Hi Hi Eo (or_introl eq_refl)) as (T1 & _). destruct (overlap_truth (nx i) i Hj Hi Eo (or_intror eq_refl)) as (T2 & _).
        change (if orientation_eqb (orient (F i)) (orient (F (nx i))) then COPLANAR else OPPOSITE) with (otag fs i).
        cbn [Proof_schedule.safe]. intros ds2 (X2 & G2 & O2). assert (L2 : length ds2 = len) by (rewrite (proj1 X2); exact K1).
        split; [ rewrite L2; auto | ]. split; [ exact T1 | ]. intros d Hd. rewrite T1.
        destruct (write_ext truth ds2 _ d G2 Hd) as (W1 & W2 & W3). intros ds3 (X3 & G3 & O3).
        assert (L3 : length ds3 = len) by (rewrite (proj1 X3), (proj1 W2); exact L2).
        split; [ rewrite L3; auto | ]. split; [ congruence | ]. intros d' Hd'. rewrite <- T1, T2.
        destruct (write_ext truth ds3 _ d' G3 Hd') as (V1 & V2 & V3). intros ds4 (X4 & G4 & O4).
        split; [ rewrite (proj1 X4), (proj1 V2); exact L3 | ]. split; [ apply within_F; auto; apply within_F; auto | ].
        assert (X34 : ext ds1 ds4) by (repeat (eapply ext_trans; [ eassumption | ]); apply ext_refl).
        intros j Hin Ho. apply in_app_iff in Hin. destruct Hin as [ Hin | [ <- | [] ] ].
        * destruct (K3 j Hin Ho). split; eapply known_ext; eassumption.
        * split; [ | exact (known_ext _ _ _ X4 V3) ]. apply (known_ext _ _ _ X4), (known_ext _ _ _ V2), (known_ext _ _ _ X3). exact W3.
      + cbn [Proof_schedule.safe]. intros ds2 (X2 & _). split; [ rewrite (proj1 X2); exact K1 | ]. split; [ exact K2 | ].
        intros j Hin Ho. apply in_app_iff in Hin. destruct Hin as [ Hin | [ <- | [] ] ]; [ | congruence ].
        destruct (K3 j Hin Ho). split; eapply known_ext; eassumption.
  Qed.

  Lemma is_overlap_safe : forall A Q (yes no : prog D A) i mine ds, i < n -> length ds = len -> overlaps_known ds ->
    (overlapping fs i -> forall ds', stage truth mine ds ds' -> safe Q yes mine ds') ->
    (~ overlapping fs i -> forall ds', stage truth mine ds ds' -> safe Q no mine ds') ->
    safe Q (p_is_overlap (fi (F i)) yes no) mine ds.
  Proof.
    intros A Q yes no i mine ds Hi El Ok_ Hy Hn. unfold p_is_overlap. cbn [Proof_schedule.safe]. intros ds1 S1. pose proof S1 as (X1 & G1 & O1).
    assert (L1 : length ds1 = len) by (rewrite (proj1 X1); exact El).
    destruct (found ds1 i L1 Hi) as (d & Hd). exists d. split; [ exact Hd | ].
    destruct (overlapping_dec i Hi) as [ Ho | Ho ].
    - pose proof (known_ext _ _ _ X1 (Ok_ i Hi Ho)) as Kn. rewrite (known_truth truth ds1 _ d G1 Hd Kn).
      destruct (overlapping_tag i Hi Ho) as [ Et | Et ]; rewrite Et; cbn [face_tag_eqb].
      + apply Hy; auto.
      + cbn [Proof_schedule.safe]. intros ds2 (X2 & G2 & O2). pose proof (known_ext _ _ _ X2 Kn) as Kn2.
        destruct (found ds2 i) as (d2 & Hd2); [ rewrite (proj1 X2); exact L1 | exact Hi | ]. exists d2. split; [ exact Hd2 | ].
        rewrite (known_truth truth ds2 _ d2 G2 Hd2 Kn2), Et. cbn [face_tag_eqb]. apply Hy; auto. split; [ exact (ext_trans _ _ _ X1 X2) | auto ].
    - destruct (side_truth_of i Hi Ho) as (Sd & _).
      assert (Nov : forall ds' d', good ds' -> nth_error ds' (fi (F i)) = Some d' -> tag d' <> COPLANAR /\ tag d' <> OPPOSITE).
      { intros ds' d' G' Hd'. destruct (G' _ d' Hd') as (_ & [ Z | Z ]); rewrite Z; [ split; discriminate | ]. destruct Sd as [ Y | Y ]; rewrite Y; split; discriminate. }
      destruct (Nov ds1 d G1 Hd) as (N1 & _). destruct (face_tag_eqb_spec (tag d) COPLANAR) as [ Z | _ ]; [ contradiction | ].
      cbn [Proof_schedule.safe]. intros ds2 (X2 & G2 & O2).
      destruct (found ds2 i) as (d2 & Hd2); [ rewrite (proj1 X2); exact L1 | exact Hi | ]. exists d2. split; [ exact Hd2 | ].
      destruct (Nov ds2 d2 G2 Hd2) as (_ & N2). destruct (face_tag_eqb_spec (tag d2) OPPOSITE) as [ Z | _ ]; [ contradiction | ].
      apply Hn; auto. split; [ exact (ext_trans _ _ _ X1 X2) | auto ].
  Qed.

  Definition k_fine (k : option nat) (ds : list (mixed_data D)) : Prop :=
    match k with None => True | Some k => k < n /\ ~ overlapping fs k /\ known ds (fi (F k)) end.
  Definition paired (k : option nat) (mine : list nat) (ds : list (mixed_data D)) : Prop :=
    length ds = len /\ within mine /\ overlaps_known ds /\ k_fine k ds.
  Lemma paired_ext : forall k mine ds ds', ext ds ds' -> paired k mine ds -> paired k mine ds'.
  Proof.
    intros k mine ds ds' X (K1 & K2 & K3 & K4). split; [ rewrite (proj1 X); exact K1 | ]. split; [ exact K2 | ].
    split; [ exact (overlaps_known_ext _ _ X K3) | ]. destruct k as [ k | ]; [ | exact I ]. destruct K4 as (Z1 & Z2 & Z3).
    split; [ exact Z1 | ]. split; [ exact Z2 | exact (known_ext _ _ _ X Z3) ].
  Qed.

  Lemma pairs_safe : forall mine ds, good ds -> owned mine ds -> paired None mine ds -> safe paired (@p_pairs D fs) mine ds.
  Proof.
    intros mine ds G O H. unfold p_pairs. apply (safe_fold truth _ _ E (fun _ => paired)); auto.
    - intros pre k mine1 ds1 ds2 (X & _). now apply paired_ext.
    - intros pre i post k mine1 ds1 Es X1 G1 O1 Hp.
      pose proof (in_seq_split fs 0 n n pre post i Es eq_refl) as (_ & Hi). pose proof (nx_lt fs i Hi) as Hj.
      unfold p_pair, pure. change ((i + 1) mod n) with (nx i). rewrite (at_F fs i Hi), (at_F fs _ Hj). cbn [pbind].
      assert (Same : forall ds2, ext ds1 ds2 -> safe paired (Done (Ok k)) mine1 ds2).
      { intros ds2 X2. cbn [Proof_schedule.safe]. intros ds3 (X3 & _). exact (paired_ext _ _ _ _ (ext_trans _ _ _ X2 X3) Hp). }
      apply is_overlap_safe; auto; [ apply Hp | apply Hp | intros _ ds2 (X2 & _); now apply Same | ].
      intros N1 ds2 (X2 & G2 & O2). pose proof (paired_ext _ _ _ _ X2 Hp) as Hp2.
      apply is_overlap_safe; auto; [ apply Hp2 | apply Hp2 | intros _ ds3 (X3 & _); apply Same; exact (ext_trans _ _ _ X2 X3) | ].
      intros N2 ds3 (X3 & G3 & O3). pose proof (paired_ext _ _ _ _ X3 Hp2) as Hp3.
      destruct (orientation_eqb_spec (orient (F i)) (orient (F (nx i)))) as [ Eo | Eo ].
      2: { apply Same. exact (ext_trans _ _ _ X2 X3). }
      destruct (pair_truth i Hi N1 N2 Eo) as (T1 & T2).
      replace (match orient (F i) with CLOCKWISE => (EXTERIOR, INTERIOR) | COUNTERCLOCKWISE => (INTERIOR, EXTERIOR) end)
        with (tag1 fs i, tag2 fs i) by (unfold tag1, tag2; destruct (orient (F i)); reflexivity).
      cbn [Proof_schedule.safe]. intros ds4 (X4 & G4 & O4). pose proof (paired_ext _ _ _ _ X4 Hp3) as Hp4.
      split; [ rewrite (proj1 Hp4); auto | ]. split; [ exact T1 | ]. intros d Hd. rewrite T1.
      destruct (write_ext truth ds4 _ d G4 Hd) as (W1 & W2 & W3). intros ds5 (X5 & G5 & O5).
      pose proof (paired_ext _ _ _ _ X5 (paired_ext _ _ _ _ W2 Hp4)) as Hp5.
      split; [ rewrite (proj1 Hp5); auto | ]. split; [ exact T2 | ]. intros d' Hd'. rewrite T2.
      destruct (write_ext truth ds5 _ d' G5 Hd') as (V1 & V2 & V3). intros ds6 (X6 & G6 & O6).
      pose proof (paired_ext _ _ _ _ X6 (paired_ext _ _ _ _ V2 Hp5)) as (Y1 & Y2 & Y3 & _).
      split; [ exact Y1 | ]. split; [ apply within_F; auto; apply within_F; auto | ]. split; [ exact Y3 | ].
      split; [ exact Hj | ]. split; [ exact N2 | exact (known_ext _ _ _ X6 V3) ].
  Qed.

  Definition walking (k : nat) (mine : list nat) (ds : list (mixed_data D)) : Prop := paired (Some k) mine ds.

  Lemma walk_step_safe : forall k dry j mine ds, good ds -> owned mine ds -> walking k mine ds ->
    safe (fun st mine' ds' => walking k mine' ds' /\
           st = (cr fs k (S j) (tr k), orient (F (at_pos fs k (S j))), true))
      (@p_walk_step D fs dry (cr fs k j (tr k), orient (F (at_pos fs k j)), true) (k + 1 + j)) mine ds.
  Proof.
    intros k dry j mine ds G O Hw. pose proof Hw as (_ & _ & _ & Hk & No & _).
    unfold p_walk_step. cbn [negb]. assert (Hp : (k + 1 + j) mod n = at_pos fs k (S j)) by (unfold at_pos; f_equal; lia).
    rewrite Hp. pose proof (at_pos_lt fs k (S j) Hk) as Hp'. unfold pure. rewrite (at_F fs _ Hp'). cbn [pbind].
    replace (if orientation_eqb (orient (F (at_pos fs k (S j)))) (orient (F (at_pos fs k j))) then flip_tag (cr fs k j (tr k)) else cr fs k j (tr k))
      with (cr fs k (S j) (tr k)) by reflexivity.
    set (pos := at_pos fs k (S j)) in *. set (t' := cr fs k (S j) (tr k)) in *.
    assert (Ht : ~ overlapping fs pos -> t' = tr pos) by (intro N; now apply carried_truth).
    set (Q := fun st mine' ds' => walking k mine' ds' /\ st = (t', orient (F pos), true)).
    assert (Fine : forall ds', ext ds ds' -> safe Q (Done (Ok (t', orient (F pos), true))) mine ds').
    { intros ds' X. cbn [Proof_schedule.safe]. intros ds2 (X2 & _). split; [ exact (paired_ext _ _ _ _ (ext_trans _ _ _ X X2) Hw) | reflexivity ]. }
    cbn [Proof_schedule.safe]. intros ds1 (X1 & G1 & O1). pose proof (paired_ext _ _ _ _ X1 Hw) as Hw1.
    assert (Fd : forall ds', ext ds1 ds' -> exists d, nth_error ds' (fi (F pos)) = Some d).
    { intros ds' X. apply found; [ rewrite (proj1 X); apply Hw1 | exact Hp' ]. }
    destruct (Fd ds1 (ext_refl _)) as (d & Hd). exists d. split; [ exact Hd | ].
    destruct (face_tag_eqb_spec (tag d) UNKNOWN) as [ Hu | Hu ].
    - destruct dry; [ now apply Fine | ].
      assert (Np : ~ overlapping fs pos).
      { intro Z. destruct Hw1 as (_ & _ & Kn & _). destruct (Kn pos Hp' Z) as (d' & Y1 & Y2). congruence. }
      cbn [Proof_schedule.safe]. intros ds2 (X2 & G2 & O2). destruct (Fd ds2 X2) as (d2 & Hd2). split; [ apply nth_error_Some; congruence | ].
      split; [ now apply Ht | ]. intros d' Hd'. rewrite (Ht Np). destruct (write_ext truth ds2 _ d' G2 Hd') as (W1 & W2 & W3).
      intros ds3 (X3 & _). split; [ | now rewrite <- (Ht Np) ].
      destruct (paired_ext _ _ _ _ (ext_trans _ _ _ X2 (ext_trans _ _ _ W2 X3)) Hw1) as (Y1 & Y2 & Y3 & Y4).
      split; [ exact Y1 | ]. split; [ now apply within_F | auto ].
    - assert (Kn : known ds1 (fi (F pos))) by (exists d; auto).
      assert (Rd : forall ds' d', ext ds1 ds' -> good ds' -> nth_error ds' (fi (F pos)) = Some d' -> tag d' = tr pos).
      { intros ds' d' X' G' H'. apply (known_truth truth ds'); auto. exact (known_ext _ _ _ X' Kn). }
      assert (Cmp : forall ds', ext ds1 ds' -> (tr pos = EXTERIOR \/ tr pos = INTERIOR) ->
        safe Q (Read (fi (F pos)) (fun d0 => if negb (face_tag_eqb (tag d0) t') then Done (Ok (t', orient (F pos), false)) else Done (Ok (t', orient (F pos), true)))) mine ds').
      { intros ds' X' Hs. cbn [Proof_schedule.safe]. intros ds2 (X2 & G2 & O2). pose proof (ext_trans _ _ _ X' X2) as X12.
        assert (Et : t' = tr pos).
        { apply Ht. intro Z. destruct (overlapping_tag pos Hp' Z) as [ Y | Y ]; rewrite Y in Hs; destruct Hs; discriminate. }
        destruct (Fd ds2 X12) as (d2 & Hd2). exists d2. split; [ exact Hd2 | ]. rewrite (Rd ds2 d2 X12 G2 Hd2), <- Et.
        destruct (face_tag_eqb_spec t' t') as [ _ | Z ]; [ | now elim Z ]. cbn [negb Proof_schedule.safe].
        intros ds3 (X3 & _). split; [ | reflexivity ]. exact (paired_ext _ _ _ _ (ext_trans _ _ _ X12 X3) Hw1). }
      cbn [Proof_schedule.safe]. intros ds2 (X2 & G2 & O2). destruct (Fd ds2 X2) as (d2 & Hd2). exists d2. split; [ exact Hd2 | ].
      rewrite (Rd ds2 d2 X2 G2 Hd2). destruct (face_tag_eqb_spec (tr pos) EXTERIOR) as [ Z | N1 ]; [ apply Cmp; auto | ].
      cbn [Proof_schedule.safe]. intros ds3 (X3 & G3 & O3). pose proof (ext_trans _ _ _ X2 X3) as X13.
      destruct (Fd ds3 X13) as (d3 & Hd3). exists d3. split; [ exact Hd3 | ].
      rewrite (Rd ds3 d3 X13 G3 Hd3). destruct (face_tag_eqb_spec (tr pos) INTERIOR) as [ Z | N2 ]; [ apply Cmp; auto | ].
      apply Fine. exact (ext_trans _ _ _ X1 X13).
  Qed.

  Lemma walk_safe : forall k dry mine ds, good ds -> owned mine ds -> walking k mine ds ->
    safe (fun c mine' ds' => c = true /\ walking k mine' ds') (@p_walk D fs k dry) mine ds.
  Proof.
    intros k dry mine ds G O Hw. pose proof Hw as (_ & _ & _ & Hk & No & Kn). unfold p_walk, pure. rewrite (at_F fs k Hk). cbn [pbind Proof_schedule.safe].
    intros ds1 (X1 & G1 & O1). pose proof (paired_ext _ _ _ _ X1 Hw) as Hw1.
    destruct (found ds1 k (proj1 Hw1) Hk) as (d & Hd). exists d. split; [ exact Hd | ].
    rewrite (known_truth truth ds1 _ d G1 Hd (known_ext _ _ _ X1 Kn)).
    apply (safe_bind truth _ _ E (fun st mine' ds' => walking k mine' ds' /\ st = (cr fs k n (tr k), orient (F (at_pos fs k n)), true))); auto.
    - apply (safe_conseq truth _ E (fun st mine' ds' => walking k mine' ds' /\
        st = (cr fs k (length (seq (k + 1) n)) (tr k), orient (F (at_pos fs k (length (seq (k + 1) n)))), true))).
      { intros st mine' ds' _ _ _ _. now rewrite seq_length. }
      apply (safe_fold truth _ _ E (fun pre st mine' ds' => walking k mine' ds' /\
        st = (cr fs k (length pre) (tr k), orient (F (at_pos fs k (length pre))), true))); auto.
      + split; [ exact Hw1 | ]. cbn [length]. rewrite at_pos_0 by exact Hk. reflexivity.
      + intros pre st mine2 ds2 ds3 (X & _) (K1 & K2). split; [ exact (paired_ext _ _ _ _ X K1) | exact K2 ].
      + intros pre i post st mine2 ds2 Es X2 G2 O2 (K1 & ->).
        destruct (in_seq_split fs (k + 1) n (k + 1 + n) pre post i Es eq_refl) as (Ei & _). rewrite Ei.
        rewrite app_length. cbn [length]. rewrite Nat.add_1_r. now apply walk_step_safe.
    - intros st mine' ds' X' G' O' _ (K1 & ->). cbn [snd Proof_schedule.safe]. intros ds2 (X2 & _). split; [ reflexivity | exact (paired_ext _ _ _ _ X2 K1) ].
  Qed.

  Lemma around_safe : forall ds, good ds -> length ds = len ->
    safe (fun _ mine ds' => length ds' = len /\ within mine /\ overlaps_known ds') (@p_around D fs) [] ds.
  Proof.
    intros ds G El. unfold p_around.
    assert (O : @owned D [] ds) by (intros f []).
    eapply safe_bind; [ exact G | exact O | exact (overlaps_safe ds G El) | ]. cbn beta. intros [] mine1 ds1 X1 G1 O1 _ (K1 & K2 & K3).
    eapply safe_bind; [ exact G1 | exact O1 | apply pairs_safe; auto; split; [ exact K1 | split; [ exact K2 | split; [ exact K3 | exact I ] ] ] | ].
    intros k mine2 ds2 X2 G2 O2 _ Hp. destruct k as [ k | ]; cbn [p_rest].
    2: { cbn [Proof_schedule.safe]. intros ds3 (X3 & _). destruct (paired_ext _ _ _ _ X3 Hp) as (Z1 & Z2 & Z3 & _). auto. }
    eapply safe_bind; [ exact G2 | exact O2 | apply walk_safe; auto; exact Hp | ]. cbn beta. intros c mine3 ds3 X3 G3 O3 _ (-> & Hw).
    eapply safe_bind; [ exact G3 | exact O3 | apply walk_safe; auto; exact Hw | ]. cbn beta. intros c mine4 ds4 X4 G4 O4 _ (_ & Hw4).
    cbn [Proof_schedule.safe]. intros ds5 (X5 & _). destruct (paired_ext _ _ _ _ X5 Hw4) as (Z1 & Z2 & Z3 & _). auto.
  Qed.
End Edge.
