From Coq Require Import QArith Reals Qreals Lia Lqa.
From Verif Require Import Model_base Model_geometry Model_local Spec_radial.
Local Open Scope Q_scope.

Lemma sign_Gt : forall x : Q, sign x = Gt <-> 0 < x.
Proof. intros x. unfold sign. symmetry. apply Qgt_alt. Qed.
Lemma sign_Lt : forall x : Q, sign x = Lt <-> x < 0.
Proof. intros x. unfold sign. symmetry. apply Qlt_alt. Qed.
Lemma sign_Eq : forall x : Q, sign x = Eq <-> x == 0.
Proof. intros x. unfold sign. symmetry. apply Qeq_alt. Qed.

Lemma sign_cases : forall x : Q, (sign x = Gt /\ 0 < x) \/ (sign x = Lt /\ x < 0) \/ (sign x = Eq /\ x == 0).
Proof.
  intros x. destruct (sign x) eqn:E.
  - apply sign_Eq in E. auto.
  - apply sign_Lt in E. auto.
  - apply sign_Gt in E. auto.
Qed.

(** What the bin says about the coordinates. *)
Definition bin_region (b : nat) (x y : Q) : Prop :=
  match b with
  | 0%nat => 0 < x /\ y == 0
  | 1%nat => 0 < x /\ 0 < y
  | 2%nat => x == 0 /\ 0 < y
  | 3%nat => x < 0 /\ 0 < y
  | 4%nat => x < 0 /\ y == 0
  | 5%nat => x < 0 /\ y < 0
  | 6%nat => x == 0 /\ y < 0
  | 7%nat => 0 < x /\ y < 0
  | _ => False
  end.

Lemma radial_bin_region : forall r b, radial_bin_of r = Ok b <-> bin_region b (fst r) (snd r).
Proof.
  intros [x y] b. unfold radial_bin_of. simpl.
  destruct (sign_cases x) as [(-> & Hx)|[(-> & Hx)|(-> & Hx)]];
  destruct (sign_cases y) as [(-> & Hy)|[(-> & Hy)|(-> & Hy)]];
  (split; intros H;
   [ try discriminate H; injection H as <-; simpl; auto
   | do 8 (destruct b as [|b]; simpl in H; [try reflexivity; exfalso; destruct H; lra|]);
     contradiction H ]).
Qed.

Lemma bin_total : forall r, (exists b, radial_bin_of r = Ok b /\ (b <= 7)%nat) \/
  (radial_bin_of r = Throw RuntimeError /\ fst r == 0 /\ snd r == 0).
Proof.
  intros [x y]. unfold radial_bin_of. simpl.
  destruct (sign_cases x) as [(-> & Hx)|[(-> & Hx)|(-> & Hx)]];
  destruct (sign_cases y) as [(-> & Hy)|[(-> & Hy)|(-> & Hy)]]; auto;
  left; eexists; (split; [reflexivity|lia]).
Qed.

(** *** Strict weak order *)
Definition in_bin (n : nat) (r : vec2) : Prop := bin_region n (fst r) (snd r).

Lemma bin_same_x : forall n a b, in_bin n a -> in_bin n b ->
  (0 < fst a /\ 0 < fst b) \/ (fst a < 0 /\ fst b < 0) \/ (fst a == 0 /\ fst b == 0).
Proof.
  unfold in_bin. intros n [x1 y1] [x2 y2]. simpl.
  do 8 (destruct n as [|n]; [simpl; tauto|]). contradiction.
Qed.

Lemma bin_same_y : forall n a b, in_bin n a -> in_bin n b ->
  (0 < snd a /\ 0 < snd b) \/ (snd a < 0 /\ snd b < 0) \/ (snd a == 0 /\ snd b == 0).
Proof.
  unfold in_bin. intros n [x1 y1] [x2 y2]. simpl.
  do 8 (destruct n as [|n]; [simpl; tauto|]). contradiction.
Qed.

Lemma in_bin_axis : forall n a, in_bin n a -> ~ (fst a == 0 /\ snd a == 0).
Proof.
  unfold in_bin. intros n [x1 y1]. simpl.
  do 8 (destruct n as [|n]; [simpl; lra|]). contradiction.
Qed.

Lemma det_zero_x : forall a b : vec2, fst a == 0 -> fst b == 0 -> det2 a b == 0.
Proof. intros [x1 y1] [x2 y2]. unfold det2. simpl. intros H1 H2. rewrite H1, H2. ring. Qed.

Lemma det2_chain : forall a b c : vec2,
  fst b * det2 a c == det2 a b * fst c + det2 b c * fst a.
Proof. intros [x1 y1] [x2 y2] [x3 y3]. unfold det2. simpl. ring. Qed.

Lemma Qpos_mul : forall a b : Q, 0 < a -> 0 < b -> 0 < a * b.
Proof. intros. apply Qmult_lt_0_compat; auto. Qed.

Lemma det2_pos_trans : forall n a b c, in_bin n a -> in_bin n b -> in_bin n c ->
  0 < det2 a b -> 0 < det2 b c -> 0 < det2 a c.
Proof.
  intros n a b c Ha Hb Hc H1 H2.
  pose proof (det2_chain a b c) as E.
  destruct (bin_same_x n a b Ha Hb) as [(Xa & Xb)|[(Xa & Xb)|(Xa & Xb)]].
  - destruct (bin_same_x n b c Hb Hc) as [(_ & Xc)|[(Q1 & _)|(Q1 & _)]]; [|lra|lra].
    pose proof (Qpos_mul _ _ H1 Xc). pose proof (Qpos_mul _ _ H2 Xa). nra.
  - destruct (bin_same_x n b c Hb Hc) as [(Q1 & _)|[(_ & Xc)|(Q1 & _)]]; [lra| |lra].
    assert (0 < - fst c) by lra. assert (0 < - fst a) by lra.
    pose proof (Qpos_mul _ _ H1 H). pose proof (Qpos_mul _ _ H2 H0). nra.
  - rewrite (det_zero_x a b Xa Xb) in H1. lra.
Qed.

Lemma det2_zero_trans : forall n a b c, in_bin n a -> in_bin n b -> in_bin n c ->
  det2 a b == 0 -> det2 b c == 0 -> det2 a c == 0.
Proof.
  intros n a b c Ha Hb Hc H1 H2.
  pose proof (det2_chain a b c) as E. rewrite H1, H2 in E.
  assert (E' : fst b * det2 a c == 0) by (rewrite E; ring).
  destruct (bin_same_x n a b Ha Hb) as [(Xa & Xb)|[(Xa & Xb)|(Xa & Xb)]].
  - apply Qmult_integral in E'. destruct E'; auto. lra.
  - apply Qmult_integral in E'. destruct E'; auto. lra.
  - destruct (bin_same_x n b c Hb Hc) as [(Q1 & _)|[(Q1 & _)|(Q1 & Xc)]]; [lra|lra|].
    now apply det_zero_x.
Qed.

Lemma det2_anti : forall a b, det2 a b == - det2 b a.
Proof. intros [x1 y1] [x2 y2]. unfold det2. simpl. ring. Qed.

Section Order.
  Variable S : around -> Prop.
  Hypothesis HS : same_edge S.

  Lemma S_bin : forall f, S f -> in_bin (radial_bin f) (r_uv f).
  Proof. intros f Hf. apply radial_bin_region. now apply HS. Qed.

  Lemma S_same_vertex : forall f g, S f -> S g -> vi_r f = vi_r g -> radial_bin f = radial_bin g.
  Proof.
    intros f g Hf Hg E. destruct HS as (H1 & H2). pose proof (H1 f Hf) as B1. pose proof (H1 g Hg) as B2.
    rewrite (H2 f g Hf Hg E) in B1. congruence.
  Qed.

  (** The comparison, without the shortcut for equal vertices. *)
  Definition angle_less (f g : around) : Prop :=
    (radial_bin f < radial_bin g)%nat \/ (radial_bin f = radial_bin g /\ 0 < det2 (r_uv f) (r_uv g)).

  Lemma det2_self : forall a, det2 a a == 0.
  Proof. intros [x y]. unfold det2. simpl. ring. Qed.

  Lemma radial_less_iff : forall f g, S f -> S g -> (radial_less f g = true <-> angle_less f g).
  Proof.
    intros f g Hf Hg. unfold radial_less, angle_less.
    destruct (Nat.eqb_spec (vi_r f) (vi_r g)) as [E|E].
    - pose proof (S_same_vertex f g Hf Hg E) as Eb. destruct HS as (_ & H2).
      rewrite (H2 f g Hf Hg E), det2_self. split; [discriminate|].
      intros [K|(_ & K)]; [lia|lra].
    - destruct (Nat.eqb_spec (radial_bin f) (radial_bin g)) as [Eb|Eb]; cbn [negb].
      + destruct (sign (det2 (r_uv f) (r_uv g))) eqn:Es.
        * apply sign_Eq in Es. split; [discriminate|]. intros [K|(_ & K)]; [lia|lra].
        * apply sign_Lt in Es. split; [discriminate|]. intros [K|(_ & K)]; [lia|]. exfalso. exact (Qlt_irrefl _ (Qlt_trans _ _ _ Es K)).
        * apply sign_Gt in Es. split; auto.
      + rewrite Nat.ltb_lt. split; auto. intros [K|(K & _)]; auto. contradiction.
  Qed.

  Lemma radial_irrefl : forall f, S f -> radial_less f f = false.
  Proof. intros. unfold radial_less. now rewrite Nat.eqb_refl. Qed.

  Lemma radial_trans : forall f g h, S f -> S g -> S h ->
    radial_less f g = true -> radial_less g h = true -> radial_less f h = true.
  Proof.
    intros f g h Hf Hg Hh. rewrite !radial_less_iff by auto. unfold angle_less.
    intros [H1|(H1 & D1)] [H2|(H2 & D2)]; try (left; lia).
    right. split; [congruence|].
    apply (det2_pos_trans (radial_bin f) _ (r_uv g)); auto.
    - now apply S_bin. - rewrite H1. now apply S_bin. - rewrite H1, H2. now apply S_bin.
  Qed.

  Definition incomparable (f g : around) : Prop := radial_less f g = false /\ radial_less g f = false.

  Lemma incomparable_iff : forall f g, S f -> S g ->
    (incomparable f g <-> radial_bin f = radial_bin g /\ det2 (r_uv f) (r_uv g) == 0).
  Proof.
    intros f g Hf Hg. unfold incomparable. rewrite <- !Bool.not_true_iff_false, !radial_less_iff by auto.
    unfold angle_less. pose proof (det2_anti (r_uv f) (r_uv g)) as E. split.
    - intros (H1 & H2). assert (radial_bin f = radial_bin g) by lia. split; auto.
      destruct (Qlt_le_dec 0 (det2 (r_uv f) (r_uv g))) as [K|Q]; [exfalso; auto|].
      destruct (Qlt_le_dec 0 (det2 (r_uv g) (r_uv f))) as [Q'|Q']; [exfalso; auto|]. lra.
    - intros (H1 & H2). split; intros [K|(_ & K)]; try lia; lra.
  Qed.

  Lemma incomparable_trans : forall f g h, S f -> S g -> S h ->
    incomparable f g -> incomparable g h -> incomparable f h.
  Proof.
    intros f g h Hf Hg Hh. rewrite !incomparable_iff by auto. intros (H1 & D1) (H2 & D2).
    split; [congruence|]. apply (det2_zero_trans (radial_bin f) _ (r_uv g)); auto.
    - now apply S_bin. - rewrite H1. now apply S_bin. - rewrite H1, H2. now apply S_bin.
  Qed.

  Lemma ratio_pos : forall x y : Q, (0 < x /\ 0 < y) \/ (x < 0 /\ y < 0) -> 0 < x / y.
  Proof.
    intros x y [(H1 & H2)|(H1 & H2)].
    - apply Qlt_shift_div_l; auto. lra.
    - setoid_replace (x / y) with ((- x) / (- y)) by (field; lra).
      apply Qlt_shift_div_l; lra.
  Qed.

  Lemma incomparable_direction : forall f g, S f -> S g -> incomparable f g -> same_direction f g.
  Proof.
    intros f g Hf Hg H. apply incomparable_iff in H; auto. destruct H as (Hb & Hd).
    pose proof (S_bin f Hf) as Bf. pose proof (S_bin g Hg) as Bg. rewrite Hb in Bf.
    unfold same_direction.
    destruct (r_uv f) as [x1 y1], (r_uv g) as [x2 y2]. unfold det2 in Hd.
    pose proof (bin_same_x _ _ _ Bf Bg) as HX. pose proof (bin_same_y _ _ _ Bf Bg) as HY.
    pose proof (in_bin_axis _ _ Bg) as HA. simpl in *.
    destruct HX as [HX|[HX|(X1 & X2)]].
    - exists (x1 / x2). split; [apply ratio_pos; auto|]. split; [field; lra|].
      setoid_replace (x1 / x2 * y2) with ((x1 * y2) / x2) by (field; lra).
      setoid_replace (x1 * y2) with (y1 * x2) by lra. field. lra.
    - exists (x1 / x2). split; [apply ratio_pos; auto|]. split; [field; lra|].
      setoid_replace (x1 / x2 * y2) with ((x1 * y2) / x2) by (field; lra).
      setoid_replace (x1 * y2) with (y1 * x2) by lra. field. lra.
    - exists (y1 / y2). split; [apply ratio_pos; lra|]. split; [rewrite X1, X2; field; lra|field; lra].
  Qed.

  Lemma direction_incomparable : forall f g, S f -> S g -> same_direction f g -> incomparable f g.
  Proof.
    intros f g Hf Hg (l & Hl & Hx & Hy). apply incomparable_iff; auto.
    pose proof (S_bin f Hf) as Bf. pose proof (S_bin g Hg) as Bg.
    assert (Hd : det2 (r_uv f) (r_uv g) == 0).
    { unfold det2. rewrite Hx, Hy. ring. }
    split; auto.
    apply radial_bin_region in Bf. apply radial_bin_region in Bg.
    assert (Bf' : radial_bin_of (r_uv g) = Ok (radial_bin f)).
    { apply radial_bin_region. apply radial_bin_region in Bf.
      destruct (r_uv f) as [x1 y1], (r_uv g) as [x2 y2]. simpl in *.
      assert (PX : forall z, (0 < l * z -> 0 < z) /\ (l * z < 0 -> z < 0) /\ (l * z == 0 -> z == 0)).
      { intros z. destruct (Q_dec z 0) as [[Hz|Hz]|Hz].
        - assert (l * z < 0) by nra. split; [|split]; intros; lra.
        - assert (0 < l * z) by nra. split; [|split]; intros; lra.
        - assert (l * z == 0) by (rewrite Hz; ring). split; [|split]; intros; lra. }
      destruct (PX x2) as (PX1 & PX2 & PX3). destruct (PX y2) as (PY1 & PY2 & PY3).
      destruct (radial_bin f) as [|[|[|[|[|[|[|[|k]]]]]]]]; simpl in *; rewrite ?Hx, ?Hy in Bf; tauto. }
    congruence.
  Qed.
End Order.
