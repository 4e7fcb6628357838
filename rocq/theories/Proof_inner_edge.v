(** * Two pieces of a triangle that share a side share no side of the triangle *)
From Coq Require Import List Arith QArith Qabs Lqa.
From Verif Require Import Model_base Model_geometry Model_soup Model_boolean.
From Verif Require Import Spec_candidates Spec_side Spec_solid Spec_conform.
Import ListNotations.
Local Open Scope Q_scope.

(** Triangles of one plane with a common side, on one side of it, overlap. *)
Lemma same_half_plane : forall p q r1 r2 n l : vec3, ~ degenerate p q r1 -> ~ same n (0, 0, 0) ->
  vdot n (vsub q p) == 0 -> vdot n (vsub r1 p) == 0 -> vdot n (vsub r2 p) == 0 ->
  vdot l (vsub q p) == 0 -> 0 < vdot l (vsub r1 p) -> 0 < vdot l (vsub r2 p) ->
  exists x, in_open_triangle x p q r1 /\ in_open_triangle x p q r2.
Proof.
  intros p q r1 r2 n l ND Nn H1 H2 H3 L1 L2 L3. unfold degenerate, normal in ND.
  set (u := vsub q p) in *. set (v := vsub r1 p) in *. set (w := vsub r2 p) in *.
  assert (Nk : ~ vdot (vcross u v) (vcross u v) == 0).
  { intro Z. apply ND. revert Z. generalize (vcross u v). intros [ [x y] z]. unfold vdot, same, vx, vy, vz. cbn [fst snd].
    intro Z. assert (x * x == 0 /\ y * y == 0 /\ z * z == 0) as (Z1 & Z2 & Z3) by (repeat split; nra).
    repeat split; apply Qmult_integral in Z1, Z2, Z3; tauto. }
  assert (Det : vdot w (vcross u v) == 0).
  { assert (E : forall c, c * vdot w (vcross u v) == 0 -> c == 0 \/ vdot w (vcross u v) == 0) by (intros c E; apply Qmult_integral, E).
    assert (E1 : vx n * vdot w (vcross u v) == 0).
    { transitivity (vdot n w * vx (vcross u v) + vdot n u * vx (vcross v w) + vdot n v * vx (vcross w u)); [ | rewrite H1, H2, H3; ring ].
      clear. revert n u v w. intros [ [n1 n2] n3] [ [u1 u2] u3] [ [v1 v2] v3] [ [w1 w2] w3]. unfold vdot, vcross, vx, vy, vz. cbn [fst snd]. ring. }
    assert (E2 : vy n * vdot w (vcross u v) == 0).
    { transitivity (vdot n w * vy (vcross u v) + vdot n u * vy (vcross v w) + vdot n v * vy (vcross w u)); [ | rewrite H1, H2, H3; ring ].
      clear. revert n u v w. intros [ [n1 n2] n3] [ [u1 u2] u3] [ [v1 v2] v3] [ [w1 w2] w3]. unfold vdot, vcross, vx, vy, vz. cbn [fst snd]. ring. }
    assert (E3 : vz n * vdot w (vcross u v) == 0).
    { transitivity (vdot n w * vz (vcross u v) + vdot n u * vz (vcross v w) + vdot n v * vz (vcross w u)); [ | rewrite H1, H2, H3; ring ].
      clear. revert n u v w. intros [ [n1 n2] n3] [ [u1 u2] u3] [ [v1 v2] v3] [ [w1 w2] w3]. unfold vdot, vcross, vx, vy, vz. cbn [fst snd]. ring. }
    apply E in E1, E2, E3. destruct E1 as [ E1 | E1 ]; [ | exact E1 ]. destruct E2 as [ E2 | E2 ]; [ | exact E2 ]. destruct E3 as [ E3 | E3 ]; [ | exact E3 ].
    destruct Nn. unfold same. cbn [vx vy vz fst snd]. auto. }
  set (k := vdot (vcross u v) (vcross u v)) in *.
  set (al := vdot (vcross w v) (vcross u v) / k). set (be := vdot (vcross u w) (vcross u v) / k).
  assert (W : same w (vx u * al + vx v * be, vy u * al + vy v * be, vz u * al + vz v * be)).
  { unfold same. cbn [vx vy vz fst snd].
    assert (X : forall c (f : vec3 -> Q), c * k == f w * k -> c == f w) by (intros c f Z; apply (Qmult_inj_r _ _ k); assumption).
    split; [ | split ]; symmetry.
    - apply (X _ vx). transitivity (vx u * vdot (vcross w v) (vcross u v) + vx v * vdot (vcross u w) (vcross u v) + vx (vcross u v) * vdot w (vcross u v)).
      + rewrite Det. unfold al, be. field. exact Nk.
      + unfold k. clear. revert u v w. intros [ [u1 u2] u3] [ [v1 v2] v3] [ [w1 w2] w3]. unfold vdot, vcross, vx, vy, vz. cbn [fst snd]. ring.
    - apply (X _ vy). transitivity (vy u * vdot (vcross w v) (vcross u v) + vy v * vdot (vcross u w) (vcross u v) + vy (vcross u v) * vdot w (vcross u v)).
      + rewrite Det. unfold al, be. field. exact Nk.
      + unfold k. clear. revert u v w. intros [ [u1 u2] u3] [ [v1 v2] v3] [ [w1 w2] w3]. unfold vdot, vcross, vx, vy, vz. cbn [fst snd]. ring.
    - apply (X _ vz). transitivity (vz u * vdot (vcross w v) (vcross u v) + vz v * vdot (vcross u w) (vcross u v) + vz (vcross u v) * vdot w (vcross u v)).
      + rewrite Det. unfold al, be. field. exact Nk.
      + unfold k. clear. revert u v w. intros [ [u1 u2] u3] [ [v1 v2] v3] [ [w1 w2] w3]. unfold vdot, vcross, vx, vy, vz. cbn [fst snd]. ring. }
  clearbody al be. destruct W as (W1 & W2 & W3). cbn [vx vy vz fst snd] in W1, W2, W3.
  assert (Be : 0 < be).
  { assert (E : vdot l w == be * vdot l v).
    { transitivity (al * vdot l u + be * vdot l v); [ | rewrite L1; ring ].
      unfold vdot. rewrite W1, W2, W3. unfold vx, vy, vz. ring. }
    rewrite E in L3. clear - L2 L3. destruct (Qlt_le_dec 0 be) as [ H | H ]; [ exact H | ]. exfalso. revert H L2 L3. generalize (vdot l v). intros t H L2 L3. nra. }
  set (d := 4 * (2 + al * al + be)). assert (D0 : 0 < d) by (unfold d; nra).
  set (e := / d). assert (E1 : e * d == 1) by (unfold e; field; lra). assert (E0 : 0 < e) by (apply Qinv_lt_0_compat, D0).
  assert (E2 : e * (2 + al * al + be) == 1 # 4) by (unfold d in E1; lra). clearbody e. clear d D0 E1.
  assert (P0 : 0 <= e * (al * al)) by (apply Qmult_le_0_compat; [ lra | nra ]).
  assert (P1 : 0 < e * be) by nra.
  assert (P2 : e * al <= e * (1 + al * al)) by (apply Qmult_le_l; [ exact E0 | nra ]).
  assert (P3 : - (e * al) <= e * (1 + al * al)) by (setoid_replace (- (e * al)) with (e * - al) by ring; apply Qmult_le_l; [ exact E0 | nra ]).
  assert (P4 : e * 2 + e * (al * al) + e * be == 1 # 4) by lra.
  assert (P5 : e * (1 + al * al) == e + e * (al * al)) by ring.
  unfold vsub, vx, vy, vz in *. cbn [fst snd] in *.
  exists (along p 1 ((1 # 2) * fst (fst u) + e * fst (fst w), (1 # 2) * snd (fst u) + e * snd (fst w), (1 # 2) * snd u + e * snd w)). split.
  - exists ((1 # 2) - e * al - e * be), ((1 # 2) + e * al), (e * be). unfold along, vx, vy, vz. cbn [fst snd].
    repeat split; try lra.
    + rewrite W1. unfold u, v. cbn [fst snd]. ring.
    + rewrite W2. unfold u, v. cbn [fst snd]. ring.
    + rewrite W3. unfold u, v. cbn [fst snd]. ring.
  - exists ((1 # 2) - e), (1 # 2), e. unfold along, vx, vy, vz, u, w. cbn [fst snd]. repeat split; try lra; ring.
Qed.

(** Two pieces of [F] with a common side: its middle is an inner point of [F]. *)
Lemma inner_side : forall F p q r1 r2, ~ flat F -> ~ degenerate p q r1 ->
  (forall x, in_triangle x p q r1 -> on_tri x F) -> (forall x, in_open_triangle x p q r1 -> in_tri x F) ->
  (forall x, in_triangle x p q r2 -> on_tri x F) -> (forall x, in_open_triangle x p q r2 -> in_tri x F) ->
  (forall x, in_open_triangle x p q r1 -> ~ in_open_triangle x p q r2) ->
  in_tri (along p (1 # 2) (vsub q p)) F.
Proof.
  intros [ [f0 f1] f2] p q r1 r2 NF ND O1 I1 O2 I2 Ap. cbn [on_tri in_tri flat] in *.
  set (n := normal f0 f1 f2). set (k := vdot n n).
  assert (Nn : ~ same n (0, 0, 0)) by exact NF.
  assert (K0 : 0 < k).
  { unfold k. revert Nn. generalize n. intros [ [x y] z] Nn. unfold vdot, same, vx, vy, vz in *. cbn [fst snd] in *.
    destruct (Qlt_le_dec 0 (x * x + y * y + z * z)) as [ Z | Z ]; [ exact Z | ]. exfalso. apply Nn.
    assert (x * x == 0 /\ y * y == 0 /\ z * z == 0) as (Z1 & Z2 & Z3) by (repeat split; nra).
    repeat split; [ apply Qmult_integral in Z1 | apply Qmult_integral in Z2 | apply Qmult_integral in Z3 ]; tauto. }
  (* the weights as linear forms *)
  set (l0 := vcross n (vsub f2 f1)). set (l1 := vcross n (vsub f0 f2)). set (l2 := vcross n (vsub f1 f0)).
  assert (Wt : forall x a b c, a + b + c == 1 -> vx x == a * vx f0 + b * vx f1 + c * vx f2 -> vy x == a * vy f0 + b * vy f1 + c * vy f2 ->
    vz x == a * vz f0 + b * vz f1 + c * vz f2 ->
    vdot l0 (vsub x f1) == a * k /\ vdot l1 (vsub x f2) == b * k /\ vdot l2 (vsub x f0) == c * k /\ vdot n (vsub x f0) == 0).
  { intros x a b c S X Y Z. assert (Ea : a == 1 - b - c) by lra. unfold l0, l1, l2, k, n, normal.
    destruct f0 as [ [a1 a2] a3], f1 as [ [b1 b2] b3], f2 as [ [c1 c2] c3], x as [ [x1 x2] x3]. unfold vdot, vcross, vsub, vx, vy, vz in *. cbn [fst snd] in *.
    rewrite X, Y, Z, Ea. repeat split; ring. }
  assert (At : forall x, in_triangle x f0 f1 f2 -> 0 <= vdot l0 (vsub x f1) /\ 0 <= vdot l1 (vsub x f2) /\ 0 <= vdot l2 (vsub x f0) /\ vdot n (vsub x f0) == 0).
  { intros x (a & b & c & A0 & B0 & C0 & S & X & Y & Z). destruct (Wt x a b c S X Y Z) as (W1 & W2 & W3 & W4). rewrite W1, W2, W3. repeat split; try exact W4; apply Qmult_le_0_compat; lra. }
  assert (In_ : forall x, in_open_triangle x f0 f1 f2 -> 0 < vdot l0 (vsub x f1) /\ 0 < vdot l1 (vsub x f2) /\ 0 < vdot l2 (vsub x f0)).
  { intros x (a & b & c & A0 & B0 & C0 & S & X & Y & Z). destruct (Wt x a b c S X Y Z) as (W1 & W2 & W3 & W4). rewrite W1, W2, W3. repeat split; apply Qmult_lt_0_compat; lra. }
  assert (Cp : forall r, in_triangle p p q r) by (intro r; exists 1, 0, 0; repeat split; try lra; ring).
  assert (Cq : forall r, in_triangle q p q r) by (intro r; exists 0, 1, 0; repeat split; try lra; ring).
  assert (Cr : forall r, in_triangle r p q r) by (intro r; exists 0, 0, 1; repeat split; try lra; ring).
  set (g := fun r : vec3 => ((1 # 3) * (vx p + vx q + vx r), (1 # 3) * (vy p + vy q + vy r), (1 # 3) * (vz p + vz q + vz r)) : vec3).
  assert (Cg : forall r, in_open_triangle (g r) p q r) by (intro r; exists (1 # 3), (1 # 3), (1 # 3); unfold g, vx, vy, vz; cbn [fst snd]; repeat split; try lra; ring).
  set (mid := along p (1 # 2) (vsub q p)).
  assert (Cm : in_triangle mid p q r1).
  { exists (1 # 2), (1 # 2), 0. unfold mid, along, vsub, vx, vy, vz. cbn [fst snd]. repeat split; try lra; ring. }
  pose proof (At _ (O1 _ (Cp r1))) as (P0 & P1 & P2 & P3). pose proof (At _ (O1 _ (Cq r1))) as (Q0 & Q1 & Q2 & Q3).
  pose proof (At _ (O1 _ (Cr r1))) as (_ & _ & _ & R3). pose proof (At _ (O2 _ (Cr r2))) as (_ & _ & _ & S3).
  pose proof (In_ _ (I1 _ (Cg r1))) as (G0 & G1 & G2). pose proof (In_ _ (I2 _ (Cg r2))) as (H0 & H1 & H2).
  assert (Off : forall l o : vec3, 0 <= vdot l (vsub p o) -> 0 <= vdot l (vsub q o) -> 0 < vdot l (vsub (g r1) o) -> 0 < vdot l (vsub (g r2) o) -> 0 < vdot l (vsub mid o)).
  { intros l o Hp Hq Hg Hh. destruct (Qlt_le_dec 0 (vdot l (vsub mid o))) as [ Z | Z ]; [ exact Z | exfalso ].
    assert (Em : vdot l (vsub mid o) == (1 # 2) * (vdot l (vsub p o) + vdot l (vsub q o))) by (unfold mid, along, vdot, vsub, vx, vy, vz; cbn [fst snd]; ring).
    assert (Eg : forall r, vdot l (vsub (g r) o) == (1 # 3) * (vdot l (vsub p o) + vdot l (vsub q o) + vdot l (vsub r o))) by (intro r; unfold g, vdot, vsub, vx, vy, vz; cbn [fst snd]; ring).
    rewrite Eg in Hg, Hh. rewrite Em in Z.
    assert (D : forall x, vdot l (vsub x p) == vdot l (vsub x o) - vdot l (vsub p o)) by (intro x; unfold vdot, vsub, vx, vy, vz; cbn [fst snd]; ring).
    assert (Dn : forall x, vdot n (vsub x p) == vdot n (vsub x f0) - vdot n (vsub p f0)) by (intro x; unfold vdot, vsub, vx, vy, vz; cbn [fst snd]; ring).
    destruct (same_half_plane p q r1 r2 n l ND Nn) as (x & X1 & X2).
    - rewrite Dn, Q3, P3. ring.
    - rewrite Dn, R3, P3. ring.
    - rewrite Dn, S3, P3. ring.
    - rewrite D. lra.
    - rewrite D. lra.
    - rewrite D. lra.
    - exact (Ap x X1 X2). }
  pose proof (Off l0 f1 P0 Q0 G0 H0) as M0. pose proof (Off l1 f2 P1 Q1 G1 H1) as M1. pose proof (Off l2 f0 P2 Q2 G2 H2) as M2.
  destruct (O1 _ Cm) as (a & b & c & A0 & B0 & C0 & S & X & Y & Z). destruct (Wt mid a b c S X Y Z) as (W1 & W2 & W3 & _).
  rewrite W1 in M0. rewrite W2 in M1. rewrite W3 in M2. exists a, b, c. repeat split; try assumption.
  - clear - M0 K0 A0. nra.
  - clear - M1 K0 B0. nra.
  - clear - M2 K0 C0. nra.
Qed.
