(** * One edge against one face *)
From Coq Require Import List Arith Bool NArith QArith Lqa Lia Setoid.
From Verif Require Import Model_base Proof_base Model_geometry Model_region Model_points Model_ffi.
From Verif Require Import Spec_defects Spec_ffi Proof_extreme Proof_hull Proof_ffi_orient.
Import ListNotations.
Local Open Scope nat_scope.

(** ** Regions as sets of vertices *)
Definition mask : Type := bool * bool * bool.
Definition low (m : mask) : region :=
  let '(m0, m1, m2) := m in N.lor (N.lor (if m0 then 1 else 0) (if m1 then 2 else 0)) (if m2 then 4 else 0).
Definition side (left : bool) (m : mask) : region := if left then low m else N.shiftl (low m) 3.
(** The edges and where they start. *)
Inductive edge_of : mask -> mask -> Prop :=
| edge_01 : edge_of (true, true, false) (true, false, false)
| edge_12 : edge_of (false, true, true) (false, true, false)
| edge_20 : edge_of (true, false, true) (false, false, true).
Lemma side_left : forall left m, bits m <> 0 -> is_left_region (side left m) = left.
Proof. intros [ | ] [ [ [ | ] [ | ] ] [ | ] ] H; try reflexivity. exfalso. apply H. reflexivity. Qed.
Lemma side_dim : forall left m, bits m <> 0 -> dimension (side left m) = Ok (bits m - 1).
Proof. intros [ | ] [ [ [ | ] [ | ] ] [ | ] ] H; try reflexivity; exfalso; apply H; reflexivity. Qed.
Lemma side_edge : forall left mE mV, edge_of mE mV -> exists w, edge_vertices (side left mE) = Ok (side left mV, w) /\ bits mE = 2 /\ bits mV = 1.
Proof. intros [ | ] mE mV [ | | ]; eexists; repeat split; reflexivity. Qed.

(** What a test reports: the start vertex ([true]) or the edge, and the other feature. *)
Definition put (left : bool) (mE mV : mask) (e : bool * mask) : region * region :=
  let m := if fst e then mV else mE in
  if left then (side true m, side false (snd e)) else (side true (snd e), side false m).
Definition grow (left : bool) (mE mV : mask) (st : ffi_state) (cache : list (list nat * comparison)) (out : list (bool * mask)) : ffi_state :=
  mk_ffi (ffi_inters st ++ map (put left mE mV) out) cache.
Lemma insert_ok : forall (left : bool) mE mV st (o : bool) k, edge_of mE mV -> bits k <> 0 ->
  insert_inter st (side left (if o then mV else mE)) (side (negb left) k) = grow left mE mV st (ffi_cache st) [(o, k)].
Proof.
  intros left mE mV st o k He Hk. unfold insert_inter. destruct (side_edge left mE mV He) as (_ & _ & B1 & B2).
  rewrite side_left by (destruct o; lia). unfold grow, put. cbn [map fst snd]. destruct left; reflexivity.
Qed.
Lemma grow_nil : forall left mE mV st, grow left mE mV st (ffi_cache st) [] = st.
Proof. intros. unfold grow. cbn [map]. rewrite app_nil_r. destruct st; reflexivity. Qed.

(** ** Signs without the common factor *)
Lemma smul_assoc_s : forall s x y, s <> Eq -> smul (smul s x) (smul s y) = smul x y.
Proof. intros [ | | ] [ | | ] [ | | ] H; try reflexivity; congruence. Qed.
Lemma zero_s : forall s x, s <> Eq -> is_zero (smul s x) = is_zero x.
Proof. intros [ | | ] [ | | ] H; try reflexivity; congruence. Qed.

(** ** Two edges in a plane *)
Definition ee_spec (left : bool) (kE kV : mask) (a0 a1 a2 b0 b1 b2 : Q) (o : bool) (k : mask) : Prop :=
  (o = true /\ k = kV /\ left = true /\ a1 == 0 /\ a2 == 0)%Q \/
  (o = true /\ k = kE /\ a2 == 0 /\ 0 < a0 /\ 0 < a1)%Q \/
  (o = false /\ k = kE /\ left = true /\ ~ a2 == b2 /\
   exists t, 0 < t /\ t < 1 /\ (1 - t) * a2 + t * b2 == 0 /\ 0 < (1 - t) * a0 + t * b0 /\ 0 < (1 - t) * a1 + t * b1)%Q.

Lemma is_pos_mul : forall x y, is_pos (smul (sign x) (sign y)) = true <-> (0 < x * y)%Q.
Proof. intros x y. rewrite <- sign_mul, <- sign_pos. destruct (sign (x * y)); cbn; split; congruence. Qed.
Lemma is_neg_mul : forall x y, is_neg (smul (sign x) (sign y)) = true <-> (x * y < 0)%Q.
Proof. intros x y. rewrite <- sign_mul, <- sign_neg. destruct (sign (x * y)); cbn; split; congruence. Qed.
Lemma is_zero_sign : forall x, is_zero (sign x) = true <-> (x == 0)%Q.
Proof. intro x. rewrite <- sign_zero. destruct (sign x); cbn; split; congruence. Qed.
Lemma is_zero_nsign : forall x, is_zero (sign x) = false <-> ~ (x == 0)%Q.
Proof. intro x. rewrite <- sign_zero. destruct (sign x); cbn; split; congruence. Qed.

Section Edges.
  Local Open Scope Q_scope.
  Variables a0 a1 a2 b0 b1 b2 : Q.
  Hypothesis Sa : a0 + a1 + a2 == 1.
  Hypothesis Sb : b0 + b1 + b2 == 1.
  Let Pv : Q := a1 * b2 - a2 * b1.
  Let Qv : Q := a2 * b0 - a0 * b2.

  Lemma weights_at : forall t, (1 - t) * a2 + t * b2 == 0 ->
    ((1 - t) * a0 + t * b0) * (a2 - b2) == Qv /\ ((1 - t) * a1 + t * b1) * (a2 - b2) == - Pv.
  Proof.
    intros t H. assert (E : t * (a2 - b2) == a2) by lra. split; unfold Qv, Pv.
    - transitivity ((a2 - b2) * a0 + (t * (a2 - b2)) * (b0 - a0)); [ ring | ]. rewrite E. ring.
    - transitivity ((a2 - b2) * a1 + (t * (a2 - b2)) * (b1 - a1)); [ ring | ]. rewrite E. ring.
  Qed.
  Lemma diff_PQ : Qv - Pv == a2 - b2.
  Proof.
    unfold Qv, Pv. assert (E0 : a0 == 1 - a1 - a2) by lra. assert (E1 : b0 == 1 - b1 - b2) by lra. rewrite E0, E1. ring.
  Qed.
  (** No report when the end points are on the same side. *)
  Lemma ee_none1 : forall left kE kV o k, 0 < Pv * Qv \/ 0 < a2 * b2 -> ~ ee_spec left kE kV a0 a1 a2 b0 b1 b2 o k.
  Proof.
    intros left kE kV o k H [ (_ & _ & _ & E1 & E2) | [ (_ & _ & E2 & P0 & P1) | (_ & _ & _ & N & t & T0 & T1 & X2 & X0 & X1) ] ].
    - unfold Pv in H. rewrite E1, E2 in H. lra.
    - unfold Pv, Qv in H. rewrite E2 in H. destruct H as [H | H]; [ | lra ].
      assert (E : (a1 * b2 - 0 * b1) * (0 * b0 - a0 * b2) == - (a0 * a1) * (b2 * b2)) by ring. rewrite E in H.
      assert (0 < a0 * a1) by nra. nra.
    - destruct H as [H | H].
      + destruct (weights_at t X2) as [W0 W1]. set (x0 := (1 - t) * a0 + t * b0) in *. set (x1 := (1 - t) * a1 + t * b1) in *.
        assert (E : Pv * Qv == - (x0 * x1) * ((a2 - b2) * (a2 - b2))) by (assert (E' : Pv == - (x1 * (a2 - b2))) by lra; rewrite E', <- W0; ring).
        assert (0 < x0 * x1) by nra. assert (0 <= (a2 - b2) * (a2 - b2)) by nra. nra.
      + assert (E : t * t * (b2 * b2) == - (t * (1 - t)) * (a2 * b2)) by (assert (E' : (1 - t) * a2 == - (t * b2)) by lra;
          transitivity (t * (t * b2) * b2); [ ring | ]; transitivity (- (t * ((1 - t) * a2) * b2)); [ rewrite E'; ring | ring ]).
        assert (0 < t * (1 - t)) by nra. assert (0 < (t * (1 - t)) * (a2 * b2)) by nra. assert (0 <= (t * b2) * (t * b2)) by nra. nra.
  Qed.
  (** The two lines are the same. *)
  Lemma ee_line : Pv == 0 -> Qv == 0 -> ~ (a0 == b0 /\ a1 == b1 /\ a2 == b2) -> a2 == 0 /\ b2 == 0.
  Proof.
    intros HP HQ N. pose proof diff_PQ as D. rewrite HP, HQ in D. assert (E : a2 == b2) by lra.
    destruct (Qeq_dec a2 0) as [Z | NZ]; [ lra | ]. exfalso. apply N. unfold Qv in HQ. unfold Pv in HP. rewrite E in *.
    assert (E0 : b0 - a0 == 0) by (apply (mult_zero b2 _ NZ); rewrite <- HQ; ring).
    assert (E1 : b1 - a1 == 0) by (apply (mult_zero b2 _ NZ); lra). repeat split; lra.
  Qed.
  (** Different lines that are not separated. *)
  Lemma ee_cross : Pv * Qv <= 0 -> ~ (Pv == 0 /\ Qv == 0) -> ~ a2 - b2 == 0.
  Proof. intros H N E. apply N. pose proof diff_PQ as D. assert (Qv == Pv) by lra. rewrite H0 in *. assert (Pv == 0) by nra. auto. Qed.
End Edges.

Lemma ee_ok : forall {P} (coords : P -> vec3) points st left mE mV kE kV ia ib ip iq s s' a0 a1 a2 b0 b1 b2,
  edge_of mE mV -> edge_of kE kV -> s <> Eq -> s' <> Eq ->
  (a0 + a1 + a2 == 1)%Q -> (b0 + b1 + b2 == 1)%Q -> ~ (a0 == b0 /\ a1 == b1 /\ a2 == b2)%Q ->
  ((a2 == 0)%Q -> orientation2 coords points ia ip = Ok (smul s' (sign a1)) /\ orientation2 coords points ia iq = Ok (CompOpp (smul s' (sign a0)))) ->
  exists out, edge_edge_2d coords points st (side left mE) ia ib (side (negb left) kE) ip iq
      (smul s (sign (a1 * b2 - a2 * b1)%Q)) (smul s (sign (a2 * b0 - a0 * b2)%Q)) (smul s (sign a2)) (smul s (sign b2)) =
      Ok (grow left mE mV st (ffi_cache st) out) /\ NoDup out /\
    forall o k, In (o, k) out <-> ee_spec left kE kV a0 a1 a2 b0 b1 b2 o k.
Proof.
  intros P coords points st left mE mV kE kV ia ib ip iq s s' a0 a1 a2 b0 b1 b2 He Hk Hs Hs' Sa Sb Nab Lex.
  destruct (side_edge left mE mV He) as (wE & EV & BE & BV). destruct (side_edge (negb left) kE kV Hk) as (wK & KV & CE & CV).
  set (Pv := (a1 * b2 - a2 * b1)%Q). set (Qv := (a2 * b0 - a0 * b2)%Q).
  assert (NkE : kE <> kV) by (intro X; rewrite X in CE; lia).
  assert (Nil : (forall o k, ~ ee_spec left kE kV a0 a1 a2 b0 b1 b2 o k) -> forall r, r = Ok st -> exists out, r = Ok (grow left mE mV st (ffi_cache st) out) /\ NoDup out /\
    forall o k, In (o, k) out <-> ee_spec left kE kV a0 a1 a2 b0 b1 b2 o k).
  { intros H r ->. exists []. rewrite grow_nil. split; [ reflexivity | ]. split; [ constructor | ]. intros o k. split; [ intros [ ] | intro X; exfalso; exact (H o k X) ]. }
  assert (Single : forall (o : bool) k r, bits k <> 0 -> r = Ok (insert_inter st (side left (if o then mV else mE)) (side (negb left) k)) ->
    (forall o' k', ee_spec left kE kV a0 a1 a2 b0 b1 b2 o' k' <-> o' = o /\ k' = k) -> exists out, r = Ok (grow left mE mV st (ffi_cache st) out) /\ NoDup out /\
    forall o k, In (o, k) out <-> ee_spec left kE kV a0 a1 a2 b0 b1 b2 o k).
  { intros o k r Bk -> H. exists [(o, k)]. rewrite insert_ok by assumption. split; [ reflexivity | ]. split; [ repeat constructor; intros [ ] | ].
    intros o' k'. rewrite H. cbn. split; [ intros [X | [ ] ]; injection X as <- <-; auto | intros [-> ->]; auto ]. }
  unfold edge_edge_2d. rewrite !smul_assoc_s, !zero_s by exact Hs.
  destruct (is_pos (smul (sign Pv) (sign Qv)) || is_pos (smul (sign a2) (sign b2))) eqn:B1.
  { apply Nil; [ | reflexivity ]. intros o k. apply ee_none1; try assumption. rewrite orb_true_iff, !is_pos_mul in B1. exact B1. }
  apply orb_false_iff in B1. destruct B1 as [B1 B2]. rewrite <- not_true_iff_false, is_pos_mul in B1, B2.
  destruct (is_zero (sign Pv) && is_zero (sign Qv)) eqn:B3.
  { (* one line *)
    apply andb_true_iff in B3. rewrite !is_zero_sign in B3. destruct B3 as [Z1 Z2].
    destruct (ee_line a0 a1 a2 b0 b1 b2 Sa Sb Z1 Z2 Nab) as [E2 F2]. destruct (Lex E2) as [L1 L2].
    unfold edge_edge_1d. rewrite EV, KV. cbn [bind fst]. rewrite L1. cbn [bind]. rewrite L2. cbn [bind].
    assert (M : smul (smul s' (sign a1)) (CompOpp (smul s' (sign a0))) = CompOpp (sign (a1 * a0)%Q)).
    { rewrite sign_mul. destruct s', (sign a1), (sign a0); try reflexivity; congruence. }
    rewrite M.
    assert (NoE : forall k, ~ ee_spec left kE kV a0 a1 a2 b0 b1 b2 false k).
    { intros k [ (X & _) | [ (X & _) | (_ & _ & _ & N & _) ] ]; [ discriminate | discriminate | apply N; lra ]. }
    destruct (sign (a1 * a0)) eqn:S10; cbn [CompOpp is_pos is_neg].
    - rewrite zero_s by exact Hs'. destruct (is_zero (sign a1)) eqn:Za1; cbn [andb].
      + apply is_zero_sign in Za1. rewrite side_left by lia. destruct left.
        * apply (Single true kV); [ lia | reflexivity | ]. intros o' k'. split.
          -- intros [ (-> & -> & _) | [ (_ & _ & _ & _ & X) | (_ & _ & _ & N & _) ] ]; [ auto | lra | exfalso; apply N; lra ].
          -- intros [-> ->]. left. auto.
        * apply Nil; [ | reflexivity ]. intros o' k' [ (_ & _ & X & _) | [ (_ & _ & _ & _ & X) | (_ & _ & X & _) ] ]; [ discriminate | lra | discriminate ].
      + apply is_zero_nsign in Za1. rewrite sign_zero in S10. apply Nil; [ | reflexivity ].
        intros o' k' [ (_ & _ & _ & X & _) | [ (_ & _ & _ & X0 & X1) | (_ & _ & _ & N & _) ] ]; [ tauto | nra | apply N; lra ].
    - (* product of weights negative: outside *)
      rewrite sign_neg in S10. apply Nil; [ | reflexivity ].
      intros o' k' [ (_ & _ & _ & X & _) | [ (_ & _ & _ & X0 & X1) | (_ & _ & _ & N & _) ] ]; [ assert (Y : (a1 * a0 == 0)%Q) by (rewrite X; ring); lra | nra | apply N; lra ].
    - rewrite sign_pos in S10. assert (Q0 : (0 < a0)%Q) by nra. assert (Q1 : (0 < a1)%Q) by nra.
      apply (Single true kE); [ lia | reflexivity | ]. intros o' k'. split.
      + intros [ (_ & _ & _ & X & _) | [ (-> & -> & _) | (_ & _ & _ & N & _) ] ]; [ lra | auto | exfalso; apply N; lra ].
      + intros [-> ->]. right. left. auto. }
  (* two lines *)
  assert (NZ : ~ (Pv == 0 /\ Qv == 0)%Q).
  { intros [X Y]. apply is_zero_sign in X. apply is_zero_sign in Y. rewrite X, Y in B3. discriminate. }
  assert (D : ~ (a2 - b2 == 0)%Q) by (apply (ee_cross a0 a1 a2 b0 b1 b2 Sa Sb); [ apply Qnot_lt_le; exact B1 | exact NZ ]).
  rewrite EV, KV. cbn [bind fst].
  pose proof (weights_at a0 a1 a2 b0 b1 b2) as WA. fold Pv Qv in WA.
  destruct (is_zero (sign a2)) eqn:Z2; cbn [negb andb].
  - (* the start vertex is on the other line *)
    apply is_zero_sign in Z2. assert (Nb : ~ (b2 == 0)%Q) by lra.
    assert (EP : (Pv == a1 * b2)%Q) by (unfold Pv; rewrite Z2; ring). assert (EQ : (Qv == - (a0 * b2))%Q) by (unfold Qv; rewrite Z2; ring).
    assert (NoE : forall k, ~ ee_spec left kE kV a0 a1 a2 b0 b1 b2 false k).
    { intros k [ (X & _) | [ (X & _) | (_ & _ & _ & _ & t & T0 & T1 & X2 & _) ] ]; [ discriminate | discriminate | ].
      rewrite Z2 in X2. assert (X : (t * b2 == 0)%Q) by lra. apply mult_zero in X; [ tauto | lra ]. }
    destruct (is_zero (sign Pv)) eqn:ZP; cbn [negb andb].
    + apply is_zero_sign in ZP. assert (E1 : (a1 == 0)%Q) by (apply (mult_zero b2); [ exact Nb | rewrite Qmult_comm, <- EP; exact ZP ]).
      rewrite !side_dim, side_left by lia. rewrite BV, CV. cbn [bind Nat.sub Nat.eqb andb]. destruct left; cbn [negb].
      * apply (Single true kV); [ lia | reflexivity | ]. intros o' k'. split.
        -- intros [ (-> & -> & _) | [ (_ & _ & _ & _ & X) | X ] ]; [ auto | lra | exfalso ]. destruct X as (-> & X).
           apply (NoE k'). right. right. auto.
        -- intros [-> ->]. left. auto.
      * apply Nil; [ | reflexivity ]. intros o' k' [ (_ & _ & X & _) | [ (_ & _ & _ & _ & X) | (_ & _ & X & _) ] ]; [ discriminate | lra | discriminate ].
    + apply is_zero_nsign in ZP. destruct (is_zero (sign Qv)) eqn:ZQ.
      * apply is_zero_sign in ZQ. assert (E0 : (a0 == 0)%Q) by (apply (mult_zero b2); [ exact Nb | rewrite Qmult_comm; lra ]).
        apply Nil; [ | reflexivity ]. intros o' k' [ (_ & _ & _ & X & _) | [ (_ & _ & _ & X & _) | X ] ]; [ | lra | ].
        -- apply ZP. rewrite EP, X. ring.
        -- destruct X as (-> & X). apply (NoE k'). right. right. auto.
      * apply is_zero_nsign in ZQ. rewrite !side_dim by lia. rewrite BV, CE. cbn [bind Nat.sub Nat.eqb andb].
        assert (Q01 : (0 < a0 * a1)%Q).
        { assert (X : (Pv * Qv == - (a0 * a1) * (b2 * b2))%Q) by (rewrite EP, EQ; ring).
          assert (Y : ~ (Pv * Qv == 0)%Q) by (apply mult_nonzero; assumption).
          assert (P2 : (0 < b2 * b2)%Q) by nra. destruct (Qlt_le_dec 0 (a0 * a1)) as [L | L]; [ exact L | exfalso ].
          assert (Z : (0 <= Pv * Qv)%Q) by nra. apply Y. lra. }
        assert (Q0 : (0 < a0)%Q) by nra. assert (Q1 : (0 < a1)%Q) by nra.
        apply (Single true kE); [ lia | reflexivity | ]. intros o' k'. split.
        -- intros [ (_ & _ & _ & X & _) | [ (-> & -> & _) | X ] ]; [ lra | auto | exfalso ]. destruct X as (-> & X).
           apply (NoE k'). right. right. auto.
        -- intros [-> ->]. right. left. auto.
  - apply is_zero_nsign in Z2. destruct (is_zero (sign b2)) eqn:Zb2.
    { apply is_zero_sign in Zb2. apply Nil; [ | reflexivity ].
      intros o' k' [ (_ & _ & _ & _ & X) | [ (_ & _ & X & _) | (_ & _ & _ & _ & t & T0 & T1 & X2 & _) ] ]; [ tauto | tauto | ].
      rewrite Zb2 in X2. assert (X : ((1 - t) * a2 == 0)%Q) by lra. apply mult_zero in X; [ tauto | lra ]. }
    apply is_zero_nsign in Zb2.
    assert (NoV : forall k, ~ ee_spec left kE kV a0 a1 a2 b0 b1 b2 true k).
    { intros k [ (_ & _ & _ & _ & X) | [ (_ & _ & X & _) | (X & _) ] ]; [ tauto | tauto | discriminate ]. }
    (* the crossing *)
    assert (N2 : (a2 * b2 < 0)%Q).
    { assert (X : ~ (a2 * b2 == 0)%Q) by (apply mult_nonzero; assumption). lra. }
    set (t0 := (a2 / (a2 - b2))%Q). assert (Et : (t0 * (a2 - b2) == a2)%Q) by (unfold t0; field; exact D).
    assert (T01 : (0 < t0 /\ t0 < 1)%Q) by (destruct (Qlt_le_dec 0 a2); nra).
    assert (X2 : ((1 - t0) * a2 + t0 * b2 == 0)%Q) by lra.
    destruct (WA t0 X2) as [W0 W1]. set (x0 := ((1 - t0) * a0 + t0 * b0)%Q) in *. set (x1 := ((1 - t0) * a1 + t0 * b1)%Q) in *.
    assert (Sx : (x0 + x1 == 1)%Q).
    { transitivity ((1 - t0) * (a0 + a1 + a2) + t0 * (b0 + b1 + b2) - ((1 - t0) * a2 + t0 * b2))%Q; [ unfold x0, x1; ring | ]. rewrite Sa, Sb, X2. ring. }
    assert (Uniq : forall t, ((1 - t) * a2 + t * b2 == 0)%Q -> (t == t0)%Q).
    { intros t Ht. assert (X : ((a2 - b2) * (t - t0) == 0)%Q) by lra. apply mult_zero in X; [ lra | exact D ]. }
    assert (Spec : forall k, ee_spec left kE kV a0 a1 a2 b0 b1 b2 false k <-> k = kE /\ left = true /\ (0 < x0 /\ 0 < x1)%Q).
    { intro k. split.
      - intros [ (X & _) | [ (X & _) | (_ & -> & -> & _ & t & T0 & T1 & Y2 & Y0 & Y1) ] ]; [ discriminate | discriminate | ].
        apply Uniq in Y2. rewrite Y2 in Y0, Y1. auto.
      - intros (-> & -> & A & B). right. right. split; [ reflexivity | ]. split; [ reflexivity | ]. split; [ reflexivity | ]. split; [ lra | ].
        exists t0. tauto. }
    assert (All : forall o k, ee_spec left kE kV a0 a1 a2 b0 b1 b2 o k <-> o = false /\ k = kE /\ left = true /\ (0 < x0 /\ 0 < x1)%Q).
    { intros [ | ] k; [ split; [ intro X; exfalso; exact (NoV k X) | intros [X _]; discriminate ] | ]. rewrite Spec. tauto. }
    destruct (is_zero (sign Pv)) eqn:ZP; cbn [negb andb].
    + apply is_zero_sign in ZP. rewrite !side_dim by lia. rewrite BE, CV. cbn [bind Nat.sub Nat.eqb andb].
      apply Nil; [ | reflexivity ]. intros o k X. apply All in X. destruct X as (_ & _ & _ & _ & X).
      assert (Y : (x1 * (a2 - b2) == 0)%Q) by lra. rewrite Qmult_comm in Y. apply mult_zero in Y; [ lra | exact D ].
    + apply is_zero_nsign in ZP. destruct (is_zero (sign Qv)) eqn:ZQ.
      * apply is_zero_sign in ZQ. apply Nil; [ | reflexivity ]. intros o k X. apply All in X. destruct X as (_ & _ & _ & X & _).
        assert (Y : (x0 * (a2 - b2) == 0)%Q) by lra. rewrite Qmult_comm in Y. apply mult_zero in Y; [ lra | exact D ].
      * apply is_zero_nsign in ZQ. rewrite !side_dim, side_left by lia. rewrite BE, CE. cbn [bind Nat.sub Nat.eqb andb].
        assert (X01 : (0 < x0 * x1)%Q).
        { assert (X : (Pv * Qv == - (x0 * x1) * ((a2 - b2) * (a2 - b2)))%Q) by (assert (E' : (Pv == - (x1 * (a2 - b2)))%Q) by lra; rewrite E', <- W0; ring).
          assert (Y : ~ (Pv * Qv == 0)%Q) by (apply mult_nonzero; assumption).
          assert (P2 : (0 < (a2 - b2) * (a2 - b2))%Q) by nra. destruct (Qlt_le_dec 0 (x0 * x1)) as [L | L]; [ exact L | exfalso ].
          assert (Z : (0 <= Pv * Qv)%Q) by nra. apply Y. lra. }
        assert (P0 : (0 < x0)%Q) by nra. assert (P1 : (0 < x1)%Q) by nra.
        destruct left; cbn [negb].
        -- apply (Single false kE); [ lia | reflexivity | ]. intros o k. rewrite All. tauto.
        -- apply Nil; [ | reflexivity ]. intros o k X. apply All in X. destruct X as (_ & _ & X & _). discriminate.
Qed.
