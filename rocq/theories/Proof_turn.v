(** * Turning around a point of the plane

    A set of directions that changes at finitely many rays only. *)
From Coq Require Import List Arith Bool Lia QArith Lqa.
From Verif Require Import Model_base Model_geometry Model_local Proof_radial Proof_small.
Import ListNotations.
Local Open Scope Q_scope.

Definition nonzero (p : vec2) : Prop := ~ (fst p == 0 /\ snd p == 0).
Definition bin (p : vec2) : nat := match radial_bin_of p with Ok b => b | _ => 0%nat end.

(** The order of the directions, by angle. *)
Definition lt2 (p q : vec2) : Prop := (bin p < bin q)%nat \/ (bin p = bin q /\ 0 < det2 p q).
Definition eq2 (p q : vec2) : Prop := bin p = bin q /\ det2 p q == 0.

Lemma bin_in : forall p, nonzero p -> in_bin (bin p) p.
Proof.
  intros p Hp. unfold bin. destruct (bin_total p) as [ (b & E & _) | (_ & H) ].
  - rewrite E. now apply radial_bin_region.
  - now elim Hp.
Qed.

Lemma bin_max : forall p, (bin p <= 7)%nat.
Proof.
  intros p. unfold bin. destruct (bin_total p) as [ (b & E & H) | (E & _) ]; rewrite E; lia.
Qed.

Lemma bin_of : forall n p, in_bin n p -> bin p = n.
Proof. intros n p H. apply radial_bin_region in H. unfold bin. now rewrite H. Qed.

Lemma in_bin_nonzero : forall n p, in_bin n p -> nonzero p.
Proof. intros n p H. exact (in_bin_axis n p H). Qed.

Lemma lt2_trans : forall p q r, nonzero p -> nonzero q -> nonzero r -> lt2 p q -> lt2 q r -> lt2 p r.
Proof.
  intros p q r Hp Hq Hr [ H1 | (E1 & H1) ] [ H2 | (E2 & H2) ].
  - left. lia.
  - left. lia.
  - left. lia.
  - right. split; [ congruence | ]. apply bin_in in Hp, Hq, Hr. rewrite E1 in Hp. rewrite <- E2 in Hr.
    exact (det2_pos_trans _ _ _ _ Hp Hq Hr H1 H2).
Qed.

Lemma lt2_irrefl : forall p, ~ lt2 p p.
Proof. intros p [ H | (_ & H) ]; [ lia | ]. pose proof (det2_self p). lra. Qed.

Lemma lt2_total : forall p q, lt2 p q \/ lt2 q p \/ eq2 p q.
Proof.
  intros p q. unfold lt2, eq2. destruct (lt_eq_lt_dec (bin p) (bin q)) as [ [H | H] | H ]; auto.
  pose proof (det2_anti p q). destruct (Q_dec 0 (det2 p q)) as [ [K | K] | K ]; auto.
  - right. left. right. split; auto. lra.
  - right. right. split; auto. lra.
Qed.

Lemma lt2_dec : forall p q, lt2 p q \/ ~ lt2 p q.
Proof.
  intros p q. unfold lt2. destruct (lt_eq_lt_dec (bin p) (bin q)) as [ [H | H] | H ].
  - auto.
  - destruct (Qlt_le_dec 0 (det2 p q)); [ auto | ]. right. intros [K | (_ & K)]; [ lia | lra ].
  - right. intros [K | (K & _)]; lia.
Qed.

Lemma eq2_sym : forall p q, eq2 p q -> eq2 q p.
Proof. intros p q (H1 & H2). split; auto. rewrite det2_anti, H2. reflexivity. Qed.

Lemma eq2_multiple : forall p q, nonzero p -> nonzero q -> eq2 p q ->
  exists k, 0 < k /\ fst p == k * fst q /\ snd p == k * snd q.
Proof.
  intros p q Hp Hq (E & H). apply bin_in in Hp. apply bin_in in Hq. rewrite E in Hp.
  destruct (Qeq_dec (fst q) 0) as [ Z | Z ].
  - assert (Zp : fst p == 0) by (destruct (bin_same_x _ _ _ Hp Hq) as [ ? | [ ? | ? ] ]; lra).
    pose proof (in_bin_axis _ _ Hq). assert (Nq : ~ snd q == 0) by tauto.
    exists (snd p / snd q). assert (0 < snd p / snd q).
    { apply ratio_pos. destruct (bin_same_y _ _ _ Hp Hq) as [ ? | [ ? | ? ] ]; auto. lra. }
    split; auto. split; [ rewrite Z, Zp; ring | field; auto ].
  - exists (fst p / fst q). assert (0 < fst p / fst q).
    { apply ratio_pos. destruct (bin_same_x _ _ _ Hp Hq) as [ ? | [ ? | ? ] ]; auto. lra. }
    split; auto. split; [ field; auto | ]. unfold det2 in H. field_simplify_eq; auto. lra.
Qed.

Lemma multiple_in_bin : forall n p q k, 0 < k -> fst p == k * fst q -> snd p == k * snd q -> in_bin n q -> in_bin n p.
Proof.
  unfold in_bin. intros n [x y] [x' y'] k Hk E1 E2. cbn [fst snd] in *.
  do 8 (destruct n as [ | n ]; [ simpl; intros (H1 & H2); split; nra | ]). auto.
Qed.

Lemma multiple_eq2 : forall p q k, nonzero q -> 0 < k -> fst p == k * fst q -> snd p == k * snd q -> eq2 p q.
Proof.
  intros p q k Hq Hk E1 E2. split.
  - apply bin_of. apply (multiple_in_bin _ p q k Hk E1 E2). now apply bin_in.
  - unfold det2. rewrite E1, E2. ring.
Qed.

Lemma eq_lt2 : forall p q r, nonzero p -> nonzero q -> nonzero r -> eq2 p q -> lt2 q r -> lt2 p r.
Proof.
  intros p q r Hp Hq Hr E H. destruct (eq2_multiple p q Hp Hq E) as (k & Hk & E1 & E2). destruct E as (E & _).
  destruct H as [ H | (H1 & H2) ]; [ left; lia | right ]. split; [ congruence | ].
  assert (X : det2 p r == k * det2 q r) by (unfold det2; rewrite E1, E2; ring). rewrite X. nra.
Qed.

Lemma lt_eq2 : forall p q r, nonzero p -> nonzero q -> nonzero r -> lt2 p q -> eq2 q r -> lt2 p r.
Proof.
  intros p q r Hp Hq Hr H E. apply eq2_sym in E.
  destruct (eq2_multiple r q Hr Hq E) as (k & Hk & E1 & E2). destruct E as (E & _).
  destruct H as [ H | (H1 & H2) ]; [ left; lia | right ]. split; [ congruence | ].
  assert (X : det2 p r == k * det2 p q) by (unfold det2; rewrite E1, E2; ring). rewrite X. nra.
Qed.

Lemma le_lt2 : forall p q r, nonzero p -> nonzero q -> nonzero r -> ~ lt2 q p -> lt2 q r -> lt2 p r.
Proof.
  intros p q r Hp Hq Hr H K. destruct (lt2_total p q) as [ L | [ L | L ] ].
  - exact (lt2_trans p q r Hp Hq Hr L K).
  - contradiction.
  - exact (eq_lt2 p q r Hp Hq Hr L K).
Qed.

Lemma lt_le2 : forall p q r, nonzero p -> nonzero q -> nonzero r -> lt2 p q -> ~ lt2 r q -> lt2 p r.
Proof.
  intros p q r Hp Hq Hr K H. destruct (lt2_total q r) as [ L | [ L | L ] ].
  - exact (lt2_trans p q r Hp Hq Hr K L).
  - contradiction.
  - exact (lt_eq2 p q r Hp Hq Hr K L).
Qed.

(** One direction in every bin. *)
Definition axis (n : nat) : vec2 :=
  match n with
  | 0%nat => (1, 0) | 1%nat => (1, 1) | 2%nat => (0, 1) | 3%nat => (-1, 1)
  | 4%nat => (-1, 0) | 5%nat => (-1, -1) | 6%nat => (0, -1) | _ => (1, -1)
  end.

Lemma axis_in : forall n, (n <= 7)%nat -> in_bin n (axis n).
Proof.
  intros n H. unfold in_bin. do 8 (destruct n as [ | n ]; [ cbn; lra | ]). lia.
Qed.

(** Neighbouring bins are less than half a turn apart. *)
Lemma near : forall p q, nonzero p -> nonzero q -> lt2 p q -> (bin q <= bin p + 1)%nat -> 0 < det2 p q.
Proof.
  intros p q Hp Hq [ H | (_ & H) ] K; [ | exact H ].
  assert (E : bin q = S (bin p)) by lia. apply bin_in in Hp, Hq. rewrite E in Hq.
  revert Hp Hq. generalize (bin p). clear. destruct p as [x y], q as [x' y'].
  unfold in_bin, det2. cbn [fst snd]. intros n.
  do 7 (destruct n as [ | n ]; [ simpl; intros; nra | ]). destruct n; simpl; contradiction.
Qed.

(** A combination of two such directions lies between them. *)
Lemma cone : forall p q r a b, nonzero p -> nonzero q -> nonzero r -> lt2 p q -> (bin q <= bin p + 1)%nat ->
  0 <= a -> 0 <= b -> fst r == a * fst p + b * fst q -> snd r == a * snd p + b * snd q ->
  ~ lt2 r p /\ ~ lt2 q r.
Proof.
  intros p q r a b Hp Hq Hr H K Ha Hb E1 E2.
  pose proof (near p q Hp Hq H K) as Hd.
  assert (D1 : det2 r p == - (b * det2 p q)) by (unfold det2; rewrite E1, E2; ring).
  assert (D2 : det2 q r == - (a * det2 p q)) by (unfold det2; rewrite E1, E2; ring).
  assert (B : (bin p <= bin r <= bin q)%nat).
  { pose proof (bin_in p Hp) as Bp. pose proof (bin_in q Hq) as Bq.
    assert (N : bin q = bin p \/ bin q = S (bin p)) by (destruct H as [ H | (H & _) ]; lia).
    assert (G : in_bin (bin p) r \/ in_bin (bin q) r).
    { unfold nonzero in Hr. rewrite E1, E2 in Hr. unfold in_bin in *.
      clear H K D1 D2. revert Bp Bq N Hr. generalize (bin q). generalize (bin p). intros n m Bp Bq N Hr.
      assert (Z : (a == 0 /\ 0 < b) \/ (0 < a /\ b == 0) \/ (0 < a /\ 0 < b)).
      { destruct (Qlt_le_dec 0 a), (Qlt_le_dec 0 b); auto; try (left; split; lra); try (right; left; split; lra).
        exfalso. apply Hr. assert (X : a == 0) by lra. assert (Y : b == 0) by lra. rewrite X, Y. split; ring. }
      destruct p as [x y], q as [x' y'], r as [x'' y'']. cbn [fst snd] in *.
      destruct Z as [ (Za & Zb) | [ (Za & Zb) | (Za & Zb) ] ].
      - right. assert (F1 : x'' == b * x') by (rewrite E1, Za; ring). assert (F2 : y'' == b * y') by (rewrite E2, Za; ring).
        exact (multiple_in_bin m (x'', y'') (x', y') b Zb F1 F2 Bq).
      - left. assert (F1 : x'' == a * x) by (rewrite E1, Zb; ring). assert (F2 : y'' == a * y) by (rewrite E2, Zb; ring).
        exact (multiple_in_bin n (x'', y'') (x, y) a Za F1 F2 Bp).
      - clear Hr Hd. assert (C : forall s t, 0 <= s -> 0 < t -> 0 < a * s + b * t) by (clear -Za Zb; intros; nra).
        assert (C' : forall s t, 0 < s -> 0 <= t -> 0 < a * s + b * t) by (clear -Za Zb; intros; nra).
        assert (M : forall s t, s <= 0 -> t < 0 -> a * s + b * t < 0) by (clear -Za Zb; intros; nra).
        assert (M' : forall s t, s < 0 -> t <= 0 -> a * s + b * t < 0) by (clear -Za Zb; intros; nra).
        assert (Z0 : forall s t, s == 0 -> t == 0 -> a * s + b * t == 0) by (clear; intros s t -> ->; ring).
        specialize (C x x') as Cx. specialize (C y y') as Cy. specialize (C' x x') as Cx'. specialize (C' y y') as Cy'.
        specialize (M x x') as Mx. specialize (M y y') as My. specialize (M' x x') as Mx'. specialize (M' y y') as My'.
        specialize (Z0 x x') as Zx. specialize (Z0 y y') as Zy. clear C C' M M' Z0 Ha Hb Za Zb.
        rewrite <- E1 in Cx, Cx', Mx, Mx', Zx. rewrite <- E2 in Cy, Cy', My, My', Zy. clear E1 E2.
        destruct N as [ -> | -> ].
        + left. do 8 (destruct n as [ | n ]; [ simpl in *; split; lra | ]). destruct Bp.
        + do 8 (destruct n as [ | n ]; [ simpl in *; try contradiction; try (left; split; lra); right; split; lra | ]). destruct Bp. }
    assert (Eq : (bin p <= bin q)%nat) by lia.
    destruct G as [ G | G ]; apply bin_of in G; lia. }
  split.
  - intros [ L | (_ & L) ]; [ lia | ]. nra.
  - intros [ L | (_ & L) ]; [ lia | ]. nra.
Qed.

(** ** Just after and just before a direction *)
Definition aft (d : vec2) (e : Q) : vec2 := (fst d + e * - snd d, snd d + e * fst d).
Definition bef (d : vec2) (e : Q) : vec2 := (fst d + e * snd d, snd d + e * - fst d).

Lemma square_pos : forall d, nonzero d -> 0 < fst d * fst d + snd d * snd d.
Proof.
  intros [x y] H. cbn [fst snd]. unfold nonzero in H. cbn [fst snd] in H.
  destruct (Qeq_dec x 0) as [ E | E ].
  - assert (~ y == 0) by tauto. destruct (Q_dec y 0) as [ [K | K] | K ]; [ | | contradiction ]; nra.
  - destruct (Q_dec x 0) as [ [K | K] | K ]; [ | | contradiction ]; nra.
Qed.

Lemma aft_bin : forall d, nonzero d -> eventually (fun e => nonzero (aft d e) /\ lt2 d (aft d e) /\ (bin (aft d e) <= bin d + 1)%nat).
Proof.
  intros d Hd. pose proof (bin_in d Hd) as B. pose proof (square_pos d Hd) as Sq.
  assert (G : eventually (fun e => in_bin (bin d) (aft d e) \/ in_bin (S (bin d)) (aft d e))).
  { revert B. generalize (bin d). intro n. clear Hd Sq. destruct d as [x y]. unfold aft, in_bin. cbn [fst snd].
    assert (Px : 0 < x -> eventually (fun e => 0 < x + e * - y)) by apply ev_pos.
    assert (Py : 0 < y -> eventually (fun e => 0 < y + e * x)) by apply ev_pos.
    assert (Nx : x < 0 -> eventually (fun e => x + e * - y < 0)) by apply ev_neg.
    assert (Ny : y < 0 -> eventually (fun e => y + e * x < 0)) by apply ev_neg.
    assert (T : forall e z, 0 < e -> 0 < z -> 0 < e * z) by (intros; nra).
    do 8 (destruct n as [ | n ]; [
      simpl; intros (H1 & H2);
      try (assert (Kx := Px H1)); try (assert (Kx := Nx H1));
      try (assert (Ky := Py H2)); try (assert (Ky := Ny H2));
      try (generalize (ev_and _ _ Kx Ky); apply ev_mono; intros e He (A1 & A2); left; split; assumption);
      try (revert Kx; apply ev_mono; intros e He A1; right; split; [ assumption | nra ]);
      try (revert Ky; apply ev_mono; intros e He A1; right; split; [ nra | assumption ]) | ]).
    simpl. contradiction. }
  revert G. apply ev_mono. intros e He G.
  assert (X : det2 d (aft d e) == e * (fst d * fst d + snd d * snd d)) by (unfold det2, aft; cbn [fst snd]; ring).
  destruct G as [ G | G ]; pose proof (in_bin_nonzero _ _ G); apply bin_of in G; (split; [ assumption | split; [ | lia ] ]).
  - right. split; [ congruence | rewrite X; nra ].
  - left. lia.
Qed.

Lemma aft_spec : forall l d, nonzero d -> (forall r, In r l -> nonzero r) ->
  eventually (fun e => nonzero (aft d e) /\ lt2 d (aft d e) /\ forall r, In r l -> lt2 d r -> lt2 (aft d e) r).
Proof.
  intros l d Hd Hl.
  assert (G : eventually (fun e => forall r, In r l -> ((bin r <= bin d + 1)%nat /\ lt2 d r -> 0 < det2 (aft d e) r))).
  { apply ev_list. intros r Hr. destruct (le_lt_dec (bin r) (bin d + 1)) as [ L | L ].
    - destruct (lt2_dec d r) as [ K | K ].
      + pose proof (near d r Hd (Hl r Hr) K L) as Hn.
        generalize (ev_pos (det2 d r) (det2 (- snd d, fst d) r) Hn). apply ev_mono. intros e _ X _.
        assert (E : det2 (aft d e) r == det2 d r + e * det2 (- snd d, fst d) r) by (unfold det2, aft; cbn [fst snd]; ring).
        rewrite E. exact X.
      + apply ev_true. tauto.
    - apply ev_true. intros t _ (X & _). lia. }
  generalize (ev_and _ _ (aft_bin d Hd) G). apply ev_mono. intros e _ ((H1 & H2 & H3) & H4).
  split; [ exact H1 | split; [ exact H2 | ] ]. intros r Hr K.
  destruct (le_lt_dec (bin r) (bin d + 1)) as [ L | L ]; [ | left; lia ].
  pose proof (H4 r Hr (conj L K)) as X. destruct (lt_eq_lt_dec (bin (aft d e)) (bin r)) as [ [M | M] | M ].
  - now left.
  - right. auto.
  - exfalso. destruct K as [ K | (K & K') ]; [ lia | ].
    assert (Hr' := Hl r Hr). assert (lt2 r (aft d e)) by (left; exact M).
    pose proof (near r (aft d e) Hr' H1 H ltac:(lia)) as Y. rewrite det2_anti in Y. lra.
Qed.

Lemma bef_bin : forall d, nonzero d -> bin d <> 0%nat ->
  eventually (fun e => nonzero (bef d e) /\ lt2 (bef d e) d /\ (bin d <= bin (bef d e) + 1)%nat).
Proof.
  intros d Hd B0. pose proof (bin_in d Hd) as B. pose proof (square_pos d Hd) as Sq.
  assert (G : eventually (fun e => in_bin (bin d) (bef d e) \/ in_bin (bin d - 1) (bef d e))).
  { revert B B0. generalize (bin d). intro n. clear Hd Sq. destruct d as [x y]. unfold bef, in_bin. cbn [fst snd].
    assert (Px : 0 < x -> eventually (fun e => 0 < x + e * y)) by apply ev_pos.
    assert (Py : 0 < y -> eventually (fun e => 0 < y + e * - x)) by apply ev_pos.
    assert (Nx : x < 0 -> eventually (fun e => x + e * y < 0)) by apply ev_neg.
    assert (Ny : y < 0 -> eventually (fun e => y + e * - x < 0)) by apply ev_neg.
    destruct n as [ | n ]; [ congruence | ].
    do 7 (destruct n as [ | n ]; [
      simpl; intros (H1 & H2) _;
      try (assert (Kx := Px H1)); try (assert (Kx := Nx H1));
      try (assert (Ky := Py H2)); try (assert (Ky := Ny H2));
      try (generalize (ev_and _ _ Kx Ky); apply ev_mono; intros e He (A1 & A2); left; split; assumption);
      try (revert Kx; apply ev_mono; intros e He A1; right; split; [ assumption | nra ]);
      try (revert Ky; apply ev_mono; intros e He A1; right; split; [ nra | assumption ]) | ]).
    simpl. contradiction. }
  revert G. apply ev_mono. intros e He G.
  assert (X : det2 (bef d e) d == e * (fst d * fst d + snd d * snd d)) by (unfold det2, bef; cbn [fst snd]; ring).
  destruct G as [ G | G ]; pose proof (in_bin_nonzero _ _ G); apply bin_of in G; (split; [ assumption | split; [ | lia ] ]).
  - right. split; [ congruence | rewrite X; nra ].
  - left. lia.
Qed.

Lemma bef_spec : forall l d, nonzero d -> bin d <> 0%nat -> (forall r, In r l -> nonzero r) ->
  eventually (fun e => nonzero (bef d e) /\ lt2 (bef d e) d /\ forall r, In r l -> lt2 r d -> lt2 r (bef d e)).
Proof.
  intros l d Hd B0 Hl.
  assert (G : eventually (fun e => forall r, In r l -> ((bin d <= bin r + 1)%nat /\ lt2 r d -> 0 < det2 r (bef d e)))).
  { apply ev_list. intros r Hr. destruct (le_lt_dec (bin d) (bin r + 1)) as [ L | L ].
    - destruct (lt2_dec r d) as [ K | K ].
      + pose proof (near r d (Hl r Hr) Hd K L) as Hn.
        generalize (ev_pos (det2 r d) (det2 r (snd d, - fst d)) Hn). apply ev_mono. intros e _ X _.
        assert (E : det2 r (bef d e) == det2 r d + e * det2 r (snd d, - fst d)) by (unfold det2, bef; cbn [fst snd]; ring).
        rewrite E. exact X.
      + apply ev_true. tauto.
    - apply ev_true. intros t _ (X & _). lia. }
  generalize (ev_and _ _ (bef_bin d Hd B0) G). apply ev_mono. intros e _ ((H1 & H2 & H3) & H4).
  split; [ exact H1 | split; [ exact H2 | ] ]. intros r Hr K.
  destruct (le_lt_dec (bin d) (bin r + 1)) as [ L | L ]; [ | left; lia ].
  pose proof (H4 r Hr (conj L K)) as X. destruct (lt_eq_lt_dec (bin r) (bin (bef d e))) as [ [M | M] | M ].
  - now left.
  - right. auto.
  - exfalso. destruct K as [ K | (K & K') ]; [ lia | ].
    assert (Hr' := Hl r Hr). assert (lt2 (bef d e) r) by (left; exact M).
    pose proof (near (bef d e) r H1 Hr' H ltac:(lia)) as Y. rewrite det2_anti in Y. lra.
Qed.

(** Just before the first axis comes the end of the last bin. *)
Lemma bef_last : forall l d, nonzero d -> bin d = 0%nat -> (forall r, In r l -> nonzero r) ->
  eventually (fun e => nonzero (bef d e) /\ bin (bef d e) = 7%nat /\ forall r, In r l -> lt2 r (bef d e)).
Proof.
  intros l d Hd B0 Hl. pose proof (bin_in d Hd) as B. rewrite B0 in B. destruct B as (B1 & B2).
  assert (G : eventually (fun e => forall r, In r l -> bin r = 7%nat -> 0 < det2 r (bef d e))).
  { apply ev_list. intros r Hr. destruct (Nat.eq_dec (bin r) 7) as [ E | E ]; [ | apply ev_true; congruence ].
    pose proof (bin_in r (Hl r Hr)) as Br. rewrite E in Br. destruct Br as (R1 & R2).
    assert (X : 0 < - (snd r * fst d)) by nra.
    generalize (ev_pos (- (snd r * fst d)) (- (fst r * fst d)) X). apply ev_mono. intros e _ Y _.
    unfold det2, bef. cbn [fst snd].
    setoid_replace (fst r * (snd d + e * - fst d) - snd r * (fst d + e * snd d))
      with (- (snd r * fst d) + e * - (fst r * fst d)) by (rewrite B2; ring). exact Y. }
  revert G. apply ev_mono. intros e He G.
  assert (Y : in_bin 7 (bef d e)).
  { unfold in_bin, bef. cbn [fst snd]. simpl. split; [ rewrite B2; lra | rewrite B2; nra ]. }
  split; [ exact (in_bin_nonzero _ _ Y) | ]. apply bin_of in Y. split; [ exact Y | ].
  intros r Hr. pose proof (bin_max r). destruct (Nat.eq_dec (bin r) 7) as [ E | E ]; [ | left; lia ].
  right. split; [ congruence | auto ].
Qed.

(** ** A set of directions *)
Section Turn.
  Variable rays : list (vec2 * bool).
  Variable chi : vec2 -> Prop.
  Hypothesis Hrays : forall r c, In (r, c) rays -> nonzero r.

  (** No ray meets the segment. *)
  Definition free (p q : vec2) : Prop := forall r c s l, In (r, c) rays -> 0 <= s -> s <= 1 -> 0 <= l ->
    ~ ((1 - s) * fst p + s * fst q == l * fst r /\ (1 - s) * snd p + s * snd q == l * snd r).

  Hypothesis Hwalk : forall p q, free p q -> (chi p <-> chi q).

  Lemma zero_or_nonzero : forall p, nonzero p \/ (fst p == 0 /\ snd p == 0).
  Proof.
    intros p. unfold nonzero. destruct (Qeq_dec (fst p) 0), (Qeq_dec (snd p) 0); tauto.
  Qed.

  Lemma step : forall p q, nonzero p -> nonzero q -> lt2 p q -> (bin q <= bin p + 1)%nat ->
    (forall r c, In (r, c) rays -> lt2 r p \/ lt2 q r) -> (chi p <-> chi q).
  Proof.
    intros p q Hp Hq H K Hf. apply Hwalk. intros r c s l Hr S0 S1 L0 (E1 & E2).
    pose proof (near p q Hp Hq H K) as Hd.
    destruct (Qlt_le_dec 0 l) as [ L | L ].
    - assert (X : ~ lt2 r p /\ ~ lt2 q r).
      { apply (cone p q r ((1 - s) / l) (s / l)); auto; [ exact (Hrays r c Hr) | | | | ].
        - apply Qle_shift_div_l; lra.
        - apply Qle_shift_div_l; lra.
        - field_simplify_eq; [ lra | lra ].
        - field_simplify_eq; [ lra | lra ]. }
      destruct (Hf r c Hr); tauto.
    - assert (Z : l == 0) by lra. rewrite Z in E1, E2.
      assert (Y : (1 - s) * det2 p q == 0).
      { unfold det2. setoid_replace ((1 - s) * (fst p * snd q - snd p * fst q)) with
          (((1 - s) * fst p + s * fst q) * snd q - ((1 - s) * snd p + s * snd q) * fst q) by ring.
        rewrite E1, E2. ring. }
      assert (S : s == 1) by nra. rewrite S in E1, E2. apply Hq. split; lra.
  Qed.

  Lemma turn : forall p q, nonzero p -> nonzero q -> lt2 p q ->
    (forall r c, In (r, c) rays -> lt2 r p \/ lt2 q r) -> (chi p <-> chi q).
  Proof.
    intros p q Hp Hq H. remember (bin q - bin p)%nat as n eqn:En. revert p Hp H En.
    induction n as [ n IH ] using lt_wf_ind. intros p Hp H En Hf.
    destruct (le_lt_dec (bin q) (bin p + 1)) as [ L | L ]; [ now apply step | ].
    pose proof (bin_max q) as M.
    assert (A : in_bin (bin p + 1) (axis (bin p + 1))) by (apply axis_in; lia).
    pose proof (in_bin_nonzero _ _ A) as An. pose proof (bin_of _ _ A) as Ab.
    assert (L1 : lt2 p (axis (bin p + 1))) by (left; lia).
    assert (L2 : lt2 (axis (bin p + 1)) q) by (left; lia).
    transitivity (chi (axis (bin p + 1))).
    - apply step; auto; [ lia | ]. intros r c Hr. destruct (Hf r c Hr) as [ X | X ]; auto.
      right. exact (lt2_trans _ _ _ An Hq (Hrays r c Hr) L2 X).
    - apply (IH (bin q - bin (axis (bin p + 1)))%nat); auto; [ lia | ].
      intros r c Hr. destruct (Hf r c Hr) as [ X | X ]; auto.
      left. exact (lt2_trans _ _ _ (Hrays r c Hr) Hp An X L1).
  Qed.

  Lemma turn_eq : forall p q, nonzero p -> nonzero q -> eq2 p q ->
    (forall r c, In (r, c) rays -> ~ eq2 r p) -> (chi p <-> chi q).
  Proof.
    intros p q Hp Hq E Hf. apply Hwalk. intros r c s l Hr S0 S1 L0 (E1 & E2).
    destruct (eq2_multiple q p Hq Hp (eq2_sym _ _ E)) as (k & Hk & K1 & K2).
    assert (P : 0 < 1 - s + s * k).
    { destruct (Qlt_le_dec 0 s); [ | assert (s == 0) by lra; nra ]. assert (0 < s * k) by nra. lra. }
    rewrite K1 in E1. rewrite K2 in E2.
    destruct (Qlt_le_dec 0 l) as [ L | L ].
    - apply (Hf r c Hr). apply (multiple_eq2 r p ((1 - s + s * k) / l)); auto.
      + apply Qlt_shift_div_l; lra.
      + field_simplify_eq; [ lra | lra ].
      + field_simplify_eq; [ lra | lra ].
    - assert (Z : l == 0) by lra. rewrite Z in E1, E2. apply Hp.
      split.
      + assert (X : (1 - s + s * k) * fst p == 0) by lra. apply Qmult_integral in X. destruct X; [ lra | assumption ].
      + assert (X : (1 - s + s * k) * snd p == 0) by lra. apply Qmult_integral in X. destruct X; [ lra | assumption ].
  Qed.

  (** From the end of the turn to the first axis. *)
  Lemma turn_last : forall p, nonzero p -> (forall r c, In (r, c) rays -> lt2 r p) ->
    (forall r c, In (r, c) rays -> bin r <> 0%nat) -> (chi p <-> chi (1, 0)).
  Proof.
    assert (G : forall p, nonzero p -> bin p = 7%nat -> (forall r c, In (r, c) rays -> lt2 r p) ->
      (forall r c, In (r, c) rays -> bin r <> 0%nat) -> (chi p <-> chi (1, 0))).
    { intros p Hp B H H0. pose proof (bin_in p Hp) as Bp. rewrite B in Bp. destruct Bp as (B1 & B2).
      apply Hwalk. intros r c s l Hr S0 S1 L0 (E1 & E2). cbn [fst snd] in E1, E2.
      pose proof (Hrays r c Hr) as Nr. pose proof (bin_in r Nr) as Br.
      assert (P : 0 < (1 - s) * fst p + s * 1).
      { destruct (Qlt_le_dec 0 s); [ | assert (s == 0) by lra; nra ]. assert (0 <= (1 - s) * fst p) by nra. lra. }
      assert (L : 0 < l). { destruct (Qlt_le_dec 0 l); auto. assert (Z : l == 0) by lra. exfalso. rewrite Z in E1. rewrite Qmult_0_l in E1. clear -E1 P. lra. }
      assert (R1 : 0 < fst r). { rewrite E1 in P. clear -P L. nra. }
      assert (N : l * snd r == (1 - s) * snd p) by lra.
      destruct (Qlt_le_dec s 1) as [ S | S ].
      - assert (R2 : snd r < 0). { assert ((1 - s) * snd p < 0) by nra. rewrite <- N in H1. clear -H1 L. nra. }
        assert (X : in_bin 7 r) by (split; assumption). apply bin_of in X.
        destruct (H r c Hr) as [ K | (K & K') ]; [ lia | ].
        assert (Y : l * det2 r p == s * snd p).
        { unfold det2. setoid_replace (l * (fst r * snd p - snd r * fst p)) with (l * fst r * snd p - l * snd r * fst p) by ring.
          rewrite <- E1, <- E2. ring. }
        assert (V1 : 0 < l * det2 r p) by (apply Qmult_lt_0_compat; assumption). assert (V2 : s * snd p <= 0) by (clear -S0 B2; nra). lra.
      - assert (Z : s == 1) by lra. rewrite Z in N. assert (R2 : snd r == 0) by nra.
        apply (H0 r c Hr). apply bin_of. split; auto. }
    intros p Hp H H0. destruct (Nat.eq_dec (bin p) 7) as [ E | E ]; [ now apply G | ].
    pose proof (bin_max p). assert (A : in_bin 7 (axis 7)) by (apply axis_in; lia).
    pose proof (in_bin_nonzero _ _ A) as An. pose proof (bin_of _ _ A) as Ab.
    assert (L : lt2 p (axis 7)) by (left; lia).
    transitivity (chi (axis 7)).
    - apply turn; auto. intros r c Hr. left. eauto.
    - apply G; auto. intros r c Hr. exact (lt2_trans _ _ _ (Hrays r c Hr) Hp An (H r c Hr) L).
  Qed.

  Lemma first_nonzero : nonzero (1, 0).
  Proof. unfold nonzero. cbn [fst snd]. lra. Qed.
  Lemma first_bin : bin (1, 0) = 0%nat.
  Proof. reflexivity. Qed.

  (** From the first axis onwards. *)
  Lemma turn_first : forall p, nonzero p -> (forall r c, In (r, c) rays -> lt2 p r) ->
    (chi (1, 0) <-> chi p).
  Proof.
    intros p Hp H. destruct (lt2_total (1, 0) p) as [ L | [ L | L ] ].
    - apply turn; auto using first_nonzero. intros r c Hr. right. eauto.
    - exfalso. destruct L as [ L | (L & L') ]; [ rewrite first_bin in L; lia | ].
      pose proof (bin_in p Hp) as B. rewrite L, first_bin in B. destruct B as (B1 & B2).
      unfold det2 in L'. cbn [fst snd] in L'. lra.
    - apply turn_eq; auto using first_nonzero. intros r c Hr K.
      assert (E : eq2 r p).
      { destruct K as (K & K'). destruct L as (L & L'). split; [ congruence | ].
        assert (Nr := Hrays r c Hr). pose proof (bin_in p Hp) as Bp. rewrite <- L, first_bin in Bp. destruct Bp as (_ & B2).
        pose proof (bin_in r Nr) as Br. rewrite K, first_bin in Br. destruct Br as (_ & B2').
        unfold det2. rewrite B2, B2'. ring. }
      apply eq2_sym in E. pose proof (H r c Hr) as X.
      exact (lt2_irrefl p (lt_eq2 p r p Hp (Hrays r c Hr) Hp X (eq2_sym _ _ E))).
  Qed.

  Definition dirs : list vec2 := map fst rays.
  Lemma dirs_nonzero : forall r, In r dirs -> nonzero r.
  Proof. intros r H. apply in_map_iff in H. destruct H as ((r', c) & <- & H). exact (Hrays _ _ H). Qed.
  Lemma in_dirs : forall r c, In (r, c) rays -> In r dirs.
  Proof. intros r c H. apply in_map_iff. exists (r, c). auto. Qed.

  (** Where there is no ray nothing changes. *)
  Lemma turn_off : forall d, nonzero d -> (forall r c, In (r, c) rays -> ~ eq2 r d) ->
    eventually (fun e => (chi (aft d e) <-> chi d) /\ (chi (bef d e) <-> chi d)).
  Proof.
    intros d Hd Hf. apply ev_and.
    - generalize (aft_spec dirs d Hd dirs_nonzero). apply ev_mono. intros e _ (H1 & H2 & H3).
      symmetry. apply turn; auto. intros r c Hr.
      destruct (lt2_total r d) as [ L | [ L | L ] ]; [ auto | right; apply H3; eauto using in_dirs | elim (Hf r c Hr L) ].
    - destruct (Nat.eq_dec (bin d) 0) as [ B | B ].
      + generalize (bef_last dirs d Hd B dirs_nonzero). apply ev_mono. intros e _ (H1 & H2 & H3).
        pose proof (bin_in d Hd) as Bd. rewrite B in Bd. destruct Bd as (B1 & B2).
        assert (F0 : forall r c, In (r, c) rays -> bin r <> 0%nat).
        { intros r c Hr K. apply (Hf r c Hr). split; [ congruence | ].
          pose proof (bin_in r (Hrays r c Hr)) as Br. rewrite K in Br. destruct Br as (R1 & R2).
          unfold det2. rewrite B2, R2. ring. }
        rewrite (turn_last (bef d e)); eauto using in_dirs. apply turn_first; auto.
        intros r c Hr. destruct (lt2_total r d) as [ L | [ L | L ] ]; auto.
        * exfalso. destruct L as [ L | (L & _) ]; [ lia | ]. apply (F0 r c Hr). congruence.
        * elim (Hf r c Hr L).
      + generalize (bef_spec dirs d Hd B dirs_nonzero). apply ev_mono. intros e _ (H1 & H2 & H3).
        apply turn; auto. intros r c Hr.
        destruct (lt2_total r d) as [ L | [ L | L ] ]; [ left; apply H3; eauto using in_dirs | auto | elim (Hf r c Hr L) ].
  Qed.

  (** Between two directions without a ray between them nothing changes. *)
  Lemma turn_between : forall d d', nonzero d -> nonzero d' -> lt2 d d' ->
    (forall r c, In (r, c) rays -> ~ lt2 d r \/ ~ lt2 r d') ->
    eventually (fun e => eventually (fun e' => chi (aft d e) <-> chi (bef d' e'))).
  Proof.
    intros d d' Hd Hd' H Hf.
    assert (B : bin d' <> 0%nat).
    { intro B. destruct H as [ H | (H & K) ]; [ lia | ].
      pose proof (bin_in d Hd) as B1. pose proof (bin_in d' Hd') as B2. rewrite H, B in B1. rewrite B in B2.
      destruct B1 as (_ & B1). destruct B2 as (_ & B2). unfold det2 in K. rewrite B1, B2 in K. lra. }
    assert (N0 : forall r, In r (d' :: dirs) -> nonzero r) by (intros r [ <- | Hr ]; auto using dirs_nonzero).
    generalize (aft_spec (d' :: dirs) d Hd N0). apply ev_mono. intros e _ (H1 & H2 & H3).
    assert (N1 : forall r, In r (aft d e :: dirs) -> nonzero r) by (intros r [ <- | Hr ]; auto using dirs_nonzero).
    generalize (bef_spec (aft d e :: dirs) d' Hd' B N1). apply ev_mono. intros e' _ (K1 & K2 & K3).
    assert (P : lt2 (aft d e) d') by (apply H3; [ now left | exact H ]).
    assert (Q : lt2 (aft d e) (bef d' e')) by (apply K3; [ now left | exact P ]).
    apply turn; auto. intros r c Hr. pose proof (Hrays r c Hr) as Nr. destruct (Hf r c Hr) as [ X | X ].
    - left. exact (le_lt2 r d _ Nr Hd H1 X H2).
    - right. exact (lt_le2 _ d' r K1 Hd' Nr K2 X).
  Qed.

  (** Nor across the first axis. *)
  Lemma turn_around : forall d d', nonzero d -> nonzero d' ->
    (forall r c, In (r, c) rays -> ~ lt2 d r) -> (forall r c, In (r, c) rays -> ~ lt2 r d') ->
    eventually (fun e => eventually (fun e' => chi (aft d e) <-> chi (bef d' e'))).
  Proof.
    intros d d' Hd Hd' Hlast Hfirst.
    generalize (aft_spec dirs d Hd dirs_nonzero). apply ev_mono. intros e _ (H1 & H2 & _).
    assert (A : forall r c, In (r, c) rays -> lt2 r (aft d e)).
    { intros r c Hr. exact (le_lt2 r d _ (Hrays r c Hr) Hd H1 (Hlast r c Hr) H2). }
    destruct (Nat.eq_dec (bin d') 0) as [ B | B ].
    - generalize (bef_last dirs d' Hd' B dirs_nonzero). apply ev_mono. intros e' _ (K1 & K2 & K3).
      destruct (lt2_total (aft d e) (bef d' e')) as [ L | [ L | L ] ].
      + apply turn; auto. intros r c Hr. left. eauto.
      + symmetry. apply turn; auto. intros r c Hr. left. eauto using in_dirs.
      + apply turn_eq; auto. intros r c Hr X.
        exact (lt2_irrefl r (lt_eq2 _ _ _ (Hrays r c Hr) H1 (Hrays r c Hr) (A r c Hr) (eq2_sym _ _ X))).
    - generalize (bef_spec dirs d' Hd' B dirs_nonzero). apply ev_mono. intros e' _ (K1 & K2 & _).
      assert (F : forall r c, In (r, c) rays -> lt2 (bef d' e') r).
      { intros r c Hr. exact (lt_le2 _ d' r K1 Hd' (Hrays r c Hr) K2 (Hfirst r c Hr)). }
      rewrite (turn_last (aft d e)); auto.
      + apply turn_first; auto.
      + intros r c Hr X. destruct (F r c Hr) as [ Y | (Y & Y') ]; [ lia | ].
        pose proof (Hfirst r c Hr) as Z. apply Z. left. lia.
  Qed.
End Turn.
