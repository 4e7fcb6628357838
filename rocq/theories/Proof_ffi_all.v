(** * The six tests together *)
From Coq Require Import List Arith Bool NArith QArith Lqa Lia Setoid.
From Verif Require Import Model_base Proof_base Model_geometry Model_region Model_points Model_ffi.
From Verif Require Import Spec_defects Spec_ffi Proof_extreme Proof_hull Proof_ffi_orient Proof_ffi_calls Proof_ffi_plane Proof_ffi_edge Proof_pairs.
Import ListNotations.
Local Open Scope nat_scope.

(** Two features that meet in a vertex of the intersection. *)
Definition meet (l r : triangle) (m k : mask) : Prop :=
  (exists x, in_feature l m x /\ in_feature r k x) /\ transversal l r m k.

(** The edges of a triangle, as the code goes around it. *)
Inductive ends : triangle -> mask -> mask -> vec3 -> vec3 -> Prop :=
| ends_01 : forall a b c, ends (a, b, c) (true, true, false) (true, false, false) a b
| ends_12 : forall a b c, ends (a, b, c) (false, true, true) (false, true, false) b c
| ends_20 : forall a b c, ends (a, b, c) (true, false, true) (false, false, true) c a.

Lemma in_feature_bits : forall t m x, in_feature t m x -> bits m <> 0.
Proof. intros t [ [ [ | ] [ | ] ] [ | ] ] x (u & v & w & (W0 & W1 & W2 & S) & _); cbn in *; try lia. lra. Qed.
Lemma in_feature_same : forall t m x y, same_point x y -> in_feature t m x -> in_feature t m y.
Proof. intros t [ [m0 m1] m2] x y E (u & v & w & H & X). exists u, v, w. split; [ exact H | eapply same_trans; [ apply same_sym; exact E | exact X ] ]. Qed.

Ltac feat := unfold same_point, comb, mix, scale, vsub, vx, vy, vz in *; cbn [fst snd] in *.
Lemma feature_start : forall t mE mV a b x, ends t mE mV a b -> (in_feature t mV x <-> same_point x a).
Proof.
  intros t mE mV a b x H. destruct H as [a b c | a b c | a b c].
  all: split; [ intros (u & v & w & (W0 & W1 & W2 & S) & X) | intro X ].
  all: cbn in W0, W1, W2 || idtac.
  - assert (Eu : (u == 1)%Q) by lra. eapply same_trans; [ exact X | ]. destruct a as [ [? ?] ?], b as [ [? ?] ?], c as [ [? ?] ?]. feat. rewrite Eu, W1, W2. repeat split; ring.
  - exists 1%Q, 0%Q, 0%Q. split; [ cbn; repeat split; lra | ]. eapply same_trans; [ exact X | ]. destruct a as [ [? ?] ?], b as [ [? ?] ?], c as [ [? ?] ?]. feat. repeat split; ring.
  - assert (Eu : (v == 1)%Q) by lra. eapply same_trans; [ exact X | ]. destruct a as [ [? ?] ?], b as [ [? ?] ?], c as [ [? ?] ?]. feat. rewrite Eu, W0, W2. repeat split; ring.
  - exists 0%Q, 1%Q, 0%Q. split; [ cbn; repeat split; lra | ]. eapply same_trans; [ exact X | ]. destruct a as [ [? ?] ?], b as [ [? ?] ?], c as [ [? ?] ?]. feat. repeat split; ring.
  - assert (Eu : (w == 1)%Q) by lra. eapply same_trans; [ exact X | ]. destruct a as [ [? ?] ?], b as [ [? ?] ?], c as [ [? ?] ?]. feat. rewrite Eu, W0, W1. repeat split; ring.
  - exists 0%Q, 0%Q, 1%Q. split; [ cbn; repeat split; lra | ]. eapply same_trans; [ exact X | ]. destruct a as [ [? ?] ?], b as [ [? ?] ?], c as [ [? ?] ?]. feat. repeat split; ring.
Qed.
Lemma feature_edge : forall t mE mV a b x, ends t mE mV a b -> (in_feature t mE x <-> exists s, (0 < s /\ s < 1)%Q /\ same_point x (mix a b s)).
Proof.
  intros t mE mV a b x H. destruct H as [a b c | a b c | a b c].
  all: split; [ intros (u & v & w & (W0 & W1 & W2 & S) & X) | intros (s & S & X) ].
  all: cbn in W0, W1, W2 || idtac.
  - exists v. split; [ lra | ]. eapply same_trans; [ exact X | ]. assert (E : (u == 1 - v)%Q) by lra. destruct a as [ [? ?] ?], b as [ [? ?] ?], c as [ [? ?] ?]. feat. rewrite E, W2. repeat split; ring.
  - exists (1 - s)%Q, s, 0%Q. split; [ cbn; repeat split; lra | ]. eapply same_trans; [ exact X | ]. destruct a as [ [? ?] ?], b as [ [? ?] ?], c as [ [? ?] ?]. feat. repeat split; ring.
  - exists w. split; [ lra | ]. eapply same_trans; [ exact X | ]. assert (E : (v == 1 - w)%Q) by lra. destruct a as [ [? ?] ?], b as [ [? ?] ?], c as [ [? ?] ?]. feat. rewrite E, W0. repeat split; ring.
  - exists 0%Q, (1 - s)%Q, s. split; [ cbn; repeat split; lra | ]. eapply same_trans; [ exact X | ]. destruct a as [ [? ?] ?], b as [ [? ?] ?], c as [ [? ?] ?]. feat. repeat split; ring.
  - exists u. split; [ lra | ]. eapply same_trans; [ exact X | ]. assert (E : (w == 1 - u)%Q) by lra. destruct a as [ [? ?] ?], b as [ [? ?] ?], c as [ [? ?] ?]. feat. rewrite E, W1. repeat split; ring.
  - exists s, 0%Q, (1 - s)%Q. split; [ cbn; repeat split; lra | ]. eapply same_trans; [ exact X | ]. destruct a as [ [? ?] ?], b as [ [? ?] ?], c as [ [? ?] ?]. feat. repeat split; ring.
Qed.
Lemma dir_same : forall t m d e, same_point d e -> dir t m d -> dir t m e.
Proof. intros t [ [m0 m1] m2] x y E (u & v & w & H & X). exists u, v, w. split; [ exact H | eapply same_trans; [ apply same_sym; exact E | exact X ] ]. Qed.
Lemma dir_start : forall t mE mV a b d, ends t mE mV a b -> dir t mV d -> zero3 d.
Proof.
  intros t mE mV a b d H. destruct H as [a b c | a b c | a b c]; intros (u & v & w & (W0 & W1 & W2 & S) & X); cbn in W0, W1, W2;
    destruct d as [ [? ?] ?], a as [ [? ?] ?], b as [ [? ?] ?], c as [ [? ?] ?]; unfold zero3; feat; destruct X as (X & Y & Z); rewrite X, Y, Z.
  - assert (E : (u == 0)%Q) by lra. rewrite E, W1, W2. repeat split; ring.
  - assert (E : (v == 0)%Q) by lra. rewrite E, W0, W2. repeat split; ring.
  - assert (E : (w == 0)%Q) by lra. rewrite E, W0, W1. repeat split; ring.
Qed.
Lemma dir_edge : forall t mE mV a b d, ends t mE mV a b -> (dir t mE d <-> exists c, same_point d (scale c (vsub b a))).
Proof.
  intros t mE mV a b d H. destruct H as [a b c | a b c | a b c].
  all: split; [ intros (u & v & w & (W0 & W1 & W2 & S) & X) | intros (s & X) ].
  all: cbn in W0, W1, W2 || idtac.
  - exists v. eapply same_trans; [ exact X | ]. assert (E : (u == - v)%Q) by lra. destruct a as [ [? ?] ?], b as [ [? ?] ?], c as [ [? ?] ?]. feat. rewrite E, W2. repeat split; ring.
  - exists (- s)%Q, s, 0%Q. split; [ cbn; repeat split; try exact I; lra | ]. eapply same_trans; [ exact X | ]. destruct a as [ [? ?] ?], b as [ [? ?] ?], c as [ [? ?] ?]. feat. repeat split; ring.
  - exists w. eapply same_trans; [ exact X | ]. assert (E : (v == - w)%Q) by lra. destruct a as [ [? ?] ?], b as [ [? ?] ?], c as [ [? ?] ?]. feat. rewrite E, W0. repeat split; ring.
  - exists 0%Q, (- s)%Q, s. split; [ cbn; repeat split; try exact I; lra | ]. eapply same_trans; [ exact X | ]. destruct a as [ [? ?] ?], b as [ [? ?] ?], c as [ [? ?] ?]. feat. repeat split; ring.
  - exists u. eapply same_trans; [ exact X | ]. assert (E : (w == - u)%Q) by lra. destruct a as [ [? ?] ?], b as [ [? ?] ?], c as [ [? ?] ?]. feat. rewrite E, W1. repeat split; ring.
  - exists s, 0%Q, (- s)%Q. split; [ cbn; repeat split; try exact I; lra | ]. eapply same_trans; [ exact X | ]. destruct a as [ [? ?] ?], b as [ [? ?] ?], c as [ [? ?] ?]. feat. repeat split; ring.
Qed.
Lemma ends_edge : forall t mE mV a b, ends t mE mV a b -> edge_of mE mV.
Proof. intros t mE mV a b [ | | ]; constructor. Qed.
Lemma ends_distinct : forall t mE mV a b, nondegenerate t -> ends t mE mV a b -> ~ same_point a b.
Proof. intros t mE mV a b N H. destruct H as [a b c | a b c | a b c]; pose proof (distinct_corners _ _ _ N); tauto. Qed.

(** What each test reports. *)
Definition part (left : bool) (own other : nat) : Prop :=
  if left then own = 1 \/ (own = 2 /\ other <> 1) else (own = 1 /\ other <> 1) \/ (own = 2 /\ other = 3).
Lemma crossing_meet : forall left l r mE mV a b (o : bool) k, nondegenerate l -> ends l mE mV a b ->
  (crossing left a b r o k <-> meet l r (if o then mV else mE) k /\ part left (bits (if o then mV else mE)) (bits k)).
Proof.
  intros left l r mE mV a b o k N H. destruct (side_edge true mE mV (ends_edge _ _ _ _ _ H)) as (_ & _ & BE & BV). unfold crossing, meet. split.
  - intros [ (-> & F & C) | (-> & C1 & C2 & (t & T0 & T1 & F) & D) ].
    + rewrite BV. split; [ split | ].
      * exists a. split; [ apply (feature_start _ _ _ _ _ _ H), same_refl | exact F ].
      * intros d D1 _. exact (dir_start _ _ _ _ _ _ H D1).
      * pose proof (in_feature_bits _ _ _ F). unfold part. destruct left; [ left; reflexivity | left; split; [ reflexivity | ] ]. intro E. specialize (C E). discriminate.
    + rewrite BE. split; [ split | ].
      * exists (mix a b t). split; [ apply (feature_edge _ _ _ _ _ _ H); exists t; split; [ auto | apply same_refl ] | exact F ].
      * intros d D1 D2. apply (dir_edge _ _ _ _ _ _ H) in D1. destruct D1 as (c & X). apply (dir_same _ _ _ _ X) in D2. apply D in D2.
        destruct X as (X & Y & Z). destruct d as [ [? ?] ?], a as [ [? ?] ?], b as [ [? ?] ?]. unfold zero3. feat. rewrite X, Y, Z, D2. repeat split; ring.
      * assert (B3 : bits k <= 3) by (destruct k as [ [ [ | ] [ | ] ] [ | ] ]; cbn; lia). unfold part. destruct left; [ right; split; [ reflexivity | lia ] | right; split; [ reflexivity | ] ].
        destruct (Nat.eq_dec (bits k) 2) as [E | E]; [ specialize (C2 E); discriminate | lia ].
  - intros (((x & F1 & F2) & Tr) & C). destruct o.
    + left. split; [ reflexivity | ]. rewrite BV in C. apply (feature_start _ _ _ _ _ _ H) in F1. split; [ exact (in_feature_same _ _ _ _ F1 F2) | ].
      intro E. unfold part in C. destruct left; [ reflexivity | ]. lia.
    + right. split; [ reflexivity | ]. rewrite BE in C. pose proof (in_feature_bits _ _ _ F2) as B0.
      split; [ unfold part in C; destruct left; lia | ]. split; [ intro E; unfold part in C; destruct left; [ reflexivity | lia ] | ]. split.
      * apply (feature_edge _ _ _ _ _ _ H) in F1. destruct F1 as (t & (T0 & T1) & X). exists t. split; [ exact T0 | ]. split; [ exact T1 | exact (in_feature_same _ _ _ _ X F2) ].
      * intros c D. assert (Z : zero3 (scale c (vsub b a))) by (apply Tr; [ apply (dir_edge _ _ _ _ _ _ H); exists c; apply same_refl | exact D ]).
        destruct (Qeq_dec c 0) as [E | E]; [ exact E | exfalso ]. apply (ends_distinct _ _ _ _ _ N H). destruct Z as (Z0 & Z1 & Z2).
        destruct a as [ [? ?] ?], b as [ [? ?] ?]. feat. apply mult_zero in Z0; [ | exact E ]. apply mult_zero in Z1; [ | exact E ]. apply mult_zero in Z2; [ | exact E ]. repeat split; lra.
Qed.

(** Two faces never meet transversally. *)
Lemma dir_face : forall t d, nondegenerate t -> (vdot d (normal t) == 0)%Q -> dir t (true, true, true) d.
Proof.
  intros [ [p q] r] d N H.
  destruct (plane_coords p q r (vx p + vx d, vy p + vy d, vz p + vz d)%Q N) as (u & v & w & S & X).
  - unfold normal in H. destruct p as [ [p0 p1] p2], q as [ [q0 q1] q2], r as [ [r0 r1] r2], d as [ [d0 d1] d2]. pts.
    match type of H with (?e == 0)%Q => transitivity (- e)%Q; [ ring | rewrite H; ring ] end.
  - exists (u - 1)%Q, v, w. split; [ cbn; repeat split; try exact I; lra | ].
    destruct p as [ [p0 p1] p2], q as [ [q0 q1] q2], r as [ [r0 r1] r2], d as [ [d0 d1] d2]. pts. destruct X as (X & Y & Z). repeat split; lra.
Qed.
Lemma faces_not_transversal : forall l r, nondegenerate l -> nondegenerate r -> ~ transversal l r (true, true, true) (true, true, true).
Proof.
  intros l r Nl Nr Tr. pose proof (nondegenerate_normal _ Nl) as Zl. pose proof (nondegenerate_normal _ Nr) as Zr.
  destruct (zero3_dec (vcross (normal l) (normal r))) as [Z | Z].
  - (* parallel: a side of l *)
    assert (D : forall d, (vdot d (normal l) == 0)%Q -> (vdot d (normal r) == 0)%Q).
    { intros d H. set (n := normal l) in *. set (n' := normal r) in *. clearbody n n'. clear Tr Nl Nr.
      destruct (nonzero3 _ Zl) as [E | [E | E] ]; apply (mult_zero _ _ E); destruct Z as (Z0 & Z1 & Z2);
        destruct n as [ [x y] z], n' as [ [x' y'] z'], d as [ [d0 d1] d2]; unfold vcross in *; feat; unfold vdot, vx, vy, vz in *; cbn [fst snd] in *.
      - assert (Y : (x * (d0 * x' + d1 * y' + d2 * z') == x' * (d0 * x + d1 * y + d2 * z) + d1 * (x * y' - y * x') - d2 * (z * x' - x * z'))%Q) by ring. rewrite Y, H, Z1, Z2. ring.
      - assert (Y : (y * (d0 * x' + d1 * y' + d2 * z') == y' * (d0 * x + d1 * y + d2 * z) - d0 * (x * y' - y * x') + d2 * (y * z' - z * y'))%Q) by ring. rewrite Y, H, Z0, Z2. ring.
      - assert (Y : (z * (d0 * x' + d1 * y' + d2 * z') == z' * (d0 * x + d1 * y + d2 * z) + d0 * (z * x' - x * z') - d1 * (y * z' - z * y'))%Q) by ring. rewrite Y, H, Z0, Z1. ring. }
    destruct l as [ [a b] c].
    assert (E : (vdot (vsub b a) (normal (a, b, c)) == 0)%Q) by (unfold normal; destruct a as [ [? ?] ?], b as [ [? ?] ?], c as [ [? ?] ?]; pts; ring).
    assert (X : zero3 (vsub b a)) by (apply Tr; apply dir_face; auto).
    apply (proj1 (distinct_corners _ _ _ Nl)). destruct X as (X & Y & W). destruct a as [ [? ?] ?], b as [ [? ?] ?]. pts. repeat split; lra.
  - apply Z. apply Tr; apply dir_face; try assumption; destruct (normal l) as [ [? ?] ?], (normal r) as [ [? ?] ?]; unfold vdot, vcross, vx, vy, vz; cbn [fst snd]; ring.
Qed.

(** ** One step of the sequence *)
Definition enc (e : mask * mask) : region * region := (side true (fst e), side false (snd e)).
Definition ori (left : bool) (mE mV : mask) (e : bool * mask) : mask * mask :=
  let m := if fst e then mV else mE in if left then (m, snd e) else (snd e, m).
Lemma put_enc : forall left mE mV e, put left mE mV e = enc (ori left mE mV e).
Proof. intros [ | ] mE mV [o k]; reflexivity. Qed.
Lemma ori_inj : forall left mE mV e e', mE <> mV -> ori left mE mV e = ori left mE mV e' -> e = e'.
Proof. intros [ | ] mE mV [ [ | ] k] [ [ | ] k'] N H; unfold ori in H; cbn in H; injection H; intros; subst; congruence. Qed.

Definition reported (left : bool) (l r : triangle) (mE mV : mask) (e : mask * mask) : Prop :=
  let '(m, k) := e in
  if left then (m = mE \/ m = mV) /\ meet l r m k /\ part true (bits m) (bits k)
  else (k = mE \/ k = mV) /\ meet r l k m /\ part false (bits k) (bits m).

Section Steps.
  Context {P : Type}.
  Variable coords : P -> vec3.
  Variable points : list P.
  Notation pt := (at_ coords points).
  Lemma step_ok : forall (left : bool) mE mV ia ib ip iq ir (own : triangle) st lst,
    ia < length points -> ib < length points -> ip < length points -> iq < length points -> ir < length points ->
    nondegenerate own -> nondegenerate (pt ip, pt iq, pt ir) -> ends own mE mV (pt ia) (pt ib) ->
    ffi_inters st = map enc lst -> cache_ok coords points (ffi_cache st) -> NoDup lst ->
    (forall e, In e lst -> if left then ~ reported true own (pt ip, pt iq, pt ir) mE mV e else ~ reported false (pt ip, pt iq, pt ir) own mE mV e) ->
    exists st' out, edge_face coords points st (side left mE) ia ib (side (negb left) (true, true, true)) ip iq ir
        (O4 coords points ia ip iq ir) (O4 coords points ib ip iq ir) = Ok st' /\
      ffi_inters st' = map enc (lst ++ out) /\ cache_ok coords points (ffi_cache st') /\ NoDup (lst ++ out) /\
      forall e, In e out <-> if left then reported true own (pt ip, pt iq, pt ir) mE mV e else reported false (pt ip, pt iq, pt ir) own mE mV e.
  Proof.
    intros left mE mV ia ib ip iq ir own st lst La Lb Lp Lq Lr No Nt He Hi Hc D Hd.
    destruct (edge_face_ok coords points left mE mV ia ib ip iq ir (ends_edge _ _ _ _ _ He) La Lb Lp Lq Lr Nt (ends_distinct _ _ _ _ _ No He) st Hc)
      as (out & cache & E & K & Do & I).
    assert (NE : mE <> mV) by (destruct He; discriminate).
    assert (RI : forall e, In e (map (ori left mE mV) out) <-> if left then reported true own (pt ip, pt iq, pt ir) mE mV e else reported false (pt ip, pt iq, pt ir) own mE mV e).
    { intros [m k]. rewrite in_map_iff. split.
      - intros ([o k'] & X & J). apply I in J. rewrite (crossing_meet left own _ mE mV _ _ o k' No He) in J. unfold ori, reported in *. cbn [fst snd] in X.
        destruct left; injection X as <- <-; destruct J as (J1 & J2); (split; [ destruct o; auto | auto ]).
      - intro H. unfold reported in H. destruct left; destruct H as ([-> | ->] & J1 & J2).
        + exists (false, k). split; [ reflexivity | ]. apply I. rewrite (crossing_meet true own _ mE mV _ _ false k No He). auto.
        + exists (true, k). split; [ reflexivity | ]. apply I. rewrite (crossing_meet true own _ mE mV _ _ true k No He). auto.
        + exists (false, m). split; [ reflexivity | ]. apply I. rewrite (crossing_meet false own _ mE mV _ _ false m No He). auto.
        + exists (true, m). split; [ reflexivity | ]. apply I. rewrite (crossing_meet false own _ mE mV _ _ true m No He). auto. }
    exists (grow left mE mV st cache out), (map (ori left mE mV) out). split; [ exact E | ]. split; [ | split; [ | split ] ].
    - unfold grow. cbn [ffi_inters]. rewrite Hi, map_app, map_map. f_equal. apply map_ext. intro e. apply put_enc.
    - exact K.
    - apply NoDup_app_disjoint; [ exact D | | ].
      + apply FinFun.Injective_map_NoDup; [ | exact Do ]. intros e e' H. exact (ori_inj _ _ _ _ _ NE H).
      + intros e J1 J2. apply RI in J2. specialize (Hd e J1). destruct left; tauto.
    - exact RI.
  Qed.

  Lemma all_ok : forall a b c p q r, a < length points -> b < length points -> c < length points ->
    p < length points -> q < length points -> r < length points ->
    nondegenerate (pt a, pt b, pt c) -> nondegenerate (pt p, pt q, pt r) ->
    exists st lst, all_edges_faces coords points a b c p q r = Ok st /\ ffi_inters st = map enc lst /\ NoDup lst /\
      forall m k, In (m, k) lst <-> meet (pt a, pt b, pt c) (pt p, pt q, pt r) m k.
  Proof.
    intros a b c p q r La Lb Lc Lp Lq Lr Nl Nr. unfold all_edges_faces.
    change (face_edges LEFT_FACE) with (Ok (side true (true, true, false), side true (false, true, true), side true (true, false, true))).
    change (face_edges RIGHT_FACE) with (Ok (side false (true, true, false), side false (false, true, true), side false (true, false, true))). cbn [bind].
    change LEFT_FACE with (side true (true, true, true)). change RIGHT_FACE with (side false (true, true, true)).
    assert (C0 : cache_ok coords points []) by (intros key o [ ]).
    destruct (orientation4_ok coords points (mk_ffi [] []) a p q r C0 La Lp Lq Lr) as (c1 & -> & C1). cbn [bind ffi_inters].
    destruct (orientation4_ok coords points (mk_ffi [] c1) b p q r C1 Lb Lp Lq Lr) as (c2 & -> & C2). cbn [bind ffi_inters].
    destruct (orientation4_ok coords points (mk_ffi [] c2) c p q r C2 Lc Lp Lq Lr) as (c3 & -> & C3). cbn [bind ffi_inters].
    destruct (orientation4_ok coords points (mk_ffi [] c3) p a b c C3 Lp La Lb Lc) as (c4 & -> & C4). cbn [bind ffi_inters].
    destruct (orientation4_ok coords points (mk_ffi [] c4) q a b c C4 Lq La Lb Lc) as (c5 & -> & C5). cbn [bind ffi_inters].
    destruct (orientation4_ok coords points (mk_ffi [] c5) r a b c C5 Lr La Lb Lc) as (c6 & -> & C6). cbn [bind ffi_inters].
    set (L := (pt a, pt b, pt c)) in *. set (R := (pt p, pt q, pt r)) in *.
    destruct (step_ok true _ _ a b p q r L (mk_ffi [] c6) [] La Lb Lp Lq Lr Nl Nr (ends_01 _ _ _) eq_refl C6 (NoDup_nil _) ltac:(intros e [ ])) as (s1 & o1 & E1 & I1 & K1 & D1 & R1).
    cbn [negb] in E1. rewrite E1. cbn [bind app] in *.
    destruct (step_ok true _ _ b c p q r L s1 o1 Lb Lc Lp Lq Lr Nl Nr (ends_12 _ _ _) I1 K1 D1) as (s2 & o2 & E2 & I2 & K2 & D2 & R2).
    { intros e J X. apply R1 in J. destruct e as [m k]. destruct J as ([-> | ->] & _), X as ([X | X] & _); discriminate. }
    cbn [negb] in E2. rewrite E2. cbn [bind].
    destruct (step_ok true _ _ c a p q r L s2 _ Lc La Lp Lq Lr Nl Nr (ends_20 _ _ _) I2 K2 D2) as (s3 & o3 & E3 & I3 & K3 & D3 & R3).
    { intros e J X. apply in_app_iff in J. rewrite R1, R2 in J. destruct e as [m k]. destruct J as [J | J]; destruct J as ([-> | ->] & _), X as ([X | X] & _); discriminate. }
    cbn [negb] in E3. rewrite E3. cbn [bind].
    assert (LR : forall mE mV mE' mV' e, reported true L R mE mV e -> reported false L R mE' mV' e -> False).
    { intros mE mV mE' mV' [m k] (_ & _ & X) (_ & _ & Y). unfold part in X, Y. lia. }
    destruct (step_ok false _ _ p q a b c R s3 _ Lp Lq La Lb Lc Nr Nl (ends_01 _ _ _) I3 K3 D3) as (s4 & o4 & E4 & I4 & K4 & D4 & R4).
    { intros e J X. rewrite !in_app_iff, R1, R2, R3 in J. fold L in X. destruct J as [ [J | J] | J]; eapply LR; eassumption. }
    cbn [negb] in E4. rewrite E4. cbn [bind].
    destruct (step_ok false _ _ q r a b c R s4 _ Lq Lr La Lb Lc Nr Nl (ends_12 _ _ _) I4 K4 D4) as (s5 & o5 & E5 & I5 & K5 & D5 & R5).
    { intros e J X. rewrite !in_app_iff, R1, R2, R3, R4 in J. fold L in X. destruct J as [ [ [J | J] | J] | J]; [ eapply LR; eassumption .. | ].
      destruct e as [m k]. destruct J as ([-> | ->] & _), X as ([X | X] & _); discriminate. }
    cbn [negb] in E5. rewrite E5. cbn [bind].
    destruct (step_ok false _ _ r p a b c R s5 _ Lr Lp La Lb Lc Nr Nl (ends_20 _ _ _) I5 K5 D5) as (s6 & o6 & E6 & I6 & K6 & D6 & R6).
    { intros e J X. rewrite !in_app_iff, R1, R2, R3, R4, R5 in J. fold L in X. destruct J as [ [ [ [J | J] | J] | J] | J]; [ eapply LR; eassumption .. | | ];
      destruct e as [m k]; destruct J as ([-> | ->] & _), X as ([X | X] & _); discriminate. }
    cbn [negb] in E6. rewrite E6. eexists. eexists. split; [ reflexivity | ]. split; [ exact I6 | ]. split; [ exact D6 | ].
    intros m k. rewrite !in_app_iff, R1, R2, R3, R4, R5, R6. fold L R. cbn [reported].
    assert (Sym : meet L R m k <-> meet R L k m).
    { unfold meet, transversal. split; intros ((x & X & Y) & Tr); (split; [ exists x; auto | intros d U V; auto ]). }
    split.
    - rewrite Sym. tauto.
    - intro H. pose proof H as ((x & X & Y) & Tr). apply in_feature_bits in X. apply in_feature_bits in Y.
      assert (H' : meet R L k m) by (apply Sym; exact H). unfold part.
      destruct m as [ [ [ | ] [ | ] ] [ | ] ], k as [ [ [ | ] [ | ] ] [ | ] ]; cbn in X, Y; try lia; cbn [bits Nat.b2n Nat.add].
      all: try (exfalso; exact (faces_not_transversal L R Nl Nr Tr)).
      all: repeat (first [ left; split; [ solve [ auto ] | split; [ assumption | lia ] ] | right; split; [ solve [ auto ] | split; [ assumption | lia ] ] | left ]).
  Qed.
End Steps.
