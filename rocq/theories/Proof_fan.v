(** * A triangulation that satisfies what is assumed of CGAL's: the points are inserted one
    after the other, each time dividing the triangles that contain the point *)
From Coq Require Import List Arith Bool QArith Lia Lqa.
From Verif Require Import Model_base Model_geometry Model_corefine.
From Verif Require Import Spec_defects Spec_ffi Spec_corefine Spec_mix Proof_extreme Proof_exact Proof_mix_faces.
Import ListNotations.
Local Open Scope Q_scope.

Ltac vs := unfold same_point, comb, face_normal, vcross, vsub, vdot, zero3 in *; unfold vx, vy, vz in *; cbn [fst snd] in *.

Definition det (u1 v1 w1 u2 v2 w2 u3 v3 w3 : Q) : Q :=
  u1 * (v2 * w3 - v3 * w2) - v1 * (u2 * w3 - u3 * w2) + w1 * (u2 * v3 - u3 * v2).
Lemma cross2 : forall u1 v1 u2 v2 u3 v3 a a' b b' c c' : Q,
  (u2 * a + v2 * b + (1 - u2 - v2) * c - (u1 * a + v1 * b + (1 - u1 - v1) * c)) * (u3 * a' + v3 * b' + (1 - u3 - v3) * c' - (u1 * a' + v1 * b' + (1 - u1 - v1) * c')) -
  (u2 * a' + v2 * b' + (1 - u2 - v2) * c' - (u1 * a' + v1 * b' + (1 - u1 - v1) * c')) * (u3 * a + v3 * b + (1 - u3 - v3) * c - (u1 * a + v1 * b + (1 - u1 - v1) * c)) ==
  det u1 v1 (1 - u1 - v1) u2 v2 (1 - u2 - v2) u3 v3 (1 - u3 - v3) * ((b - a) * (c' - a') - (b' - a') * (c - a)).
Proof. intros. unfold det. ring. Qed.
Lemma cross2' : forall u1 v1 w1 u2 v2 w2 u3 v3 w3 a a' b b' c c' p p' q q' r r' : Q,
  u1 + v1 + w1 == 1 -> u2 + v2 + w2 == 1 -> u3 + v3 + w3 == 1 ->
  p == u1 * a + v1 * b + w1 * c -> p' == u1 * a' + v1 * b' + w1 * c' ->
  q == u2 * a + v2 * b + w2 * c -> q' == u2 * a' + v2 * b' + w2 * c' ->
  r == u3 * a + v3 * b + w3 * c -> r' == u3 * a' + v3 * b' + w3 * c' ->
  (q - p) * (r' - p') - (q' - p') * (r - p) == det u1 v1 w1 u2 v2 w2 u3 v3 w3 * ((b - a) * (c' - a') - (b' - a') * (c - a)).
Proof.
  intros u1 v1 w1 u2 v2 w2 u3 v3 w3 a a' b b' c c' p p' q q' r r' E1 E2 E3 P P' Q Q' R R'.
  assert (W1 : w1 == 1 - u1 - v1) by lra. assert (W2 : w2 == 1 - u2 - v2) by lra. assert (W3 : w3 == 1 - u3 - v3) by lra. clear E1 E2 E3.
  pose proof (cross2 u1 v1 u2 v2 u3 v3 a a' b b' c c') as G. unfold det in *. rewrite P, P', Q, Q', R, R', W1, W2, W3. exact G.
Qed.
Lemma normal_comb : forall T u1 v1 w1 u2 v2 w2 u3 v3 w3, u1 + v1 + w1 == 1 -> u2 + v2 + w2 == 1 -> u3 + v3 + w3 == 1 ->
  forall p q r, same_point p (comb T u1 v1 w1) -> same_point q (comb T u2 v2 w2) -> same_point r (comb T u3 v3 w3) ->
  forall s, vdot (face_normal (p, q, r)) s == det u1 v1 w1 u2 v2 w2 u3 v3 w3 * vdot (face_normal T) s.
Proof.
  intros T u1 v1 w1 u2 v2 w2 u3 v3 w3 E1 E2 E3 p q r P1 P2 P3 s. destruct T as [ [ [ [a1 a2] a3] [ [b1 b2] b3] ] [ [c1 c2] c3] ], p as [ [p1 p2] p3], q as [ [q1 q2] q3], r as [ [r1 r2] r3], s as [ [s1 s2] s3].
  vs. destruct P1 as (A1 & A2 & A3). destruct P2 as (B1 & B2 & B3). destruct P3 as (C1 & C2 & C3).
  rewrite (cross2' _ _ _ _ _ _ _ _ _ a2 a3 b2 b3 c2 c3 _ _ _ _ _ _ E1 E2 E3 A2 A3 B2 B3 C2 C3).
  rewrite (cross2' _ _ _ _ _ _ _ _ _ a3 a1 b3 b1 c3 c1 _ _ _ _ _ _ E1 E2 E3 A3 A1 B3 B1 C3 C1).
  rewrite (cross2' _ _ _ _ _ _ _ _ _ a1 a2 b1 b2 c1 c2 _ _ _ _ _ _ E1 E2 E3 A1 A2 B1 B2 C1 C2).
  generalize (det u1 v1 w1 u2 v2 w2 u3 v3 w3). intro k. ring.
Qed.

Lemma turn_positive : forall T U, nondegenerate T -> (forall x, inside U x -> inside T x) -> 0 < vdot (face_normal U) (face_normal T) ->
  exists k, 0 < k /\ forall s, vdot (face_normal U) s == k * vdot (face_normal T) s.
Proof.
  intros T [ [p q] r] ND Hin Ht. destruct (corners_self p q r) as (Kp & Kq & Kr).
  destruct (Hin _ Kp) as (u1 & v1 & w1 & (_ & _ & _ & E1) & P1). destruct (Hin _ Kq) as (u2 & v2 & w2 & (_ & _ & _ & E2) & P2). destruct (Hin _ Kr) as (u3 & v3 & w3 & (_ & _ & _ & E3) & P3).
  pose proof (normal_comb T _ _ _ _ _ _ _ _ _ E1 E2 E3 p q r P1 P2 P3) as G. exists (det u1 v1 w1 u2 v2 w2 u3 v3 w3). split; [ | exact G ].
  rewrite G in Ht. pose proof (normal_square T ND). destruct (Qlt_le_dec 0 (det u1 v1 w1 u2 v2 w2 u3 v3 w3)) as [X | X]; [ exact X | exfalso ]. nra.
Qed.
Lemma turned_nondegenerate : forall T U, 0 < vdot (face_normal U) (face_normal T) -> nondegenerate U.
Proof.
  intros T U H. apply normal_nondegenerate. change (normal U) with (face_normal U). intros (X & Y & Z). unfold vdot in H. rewrite X, Y, Z in H. lra.
Qed.

Lemma weights_unique : forall T u v w u' v' w' x, nondegenerate T -> u + v + w == 1 -> u' + v' + w' == 1 -> same_point x (comb T u v w) -> same_point x (comb T u' v' w') ->
  u == u' /\ v == v' /\ w == w'.
Proof.
  intros T u v w u' v' w' x ND E E' X X'. destruct (comb_zero T (u - u') (v - v') (w - w') ND) as (A & B & C); [ lra | | lra ].
  destruct T as [ [ [ [a1 a2] a3] [ [b1 b2] b3] ] [ [c1 c2] c3] ], x as [ [x1 x2] x3]. vs. destruct X as (X1 & X2 & X3). destruct X' as (Y1 & Y2 & Y3). repeat split; lra.
Qed.

(** The interior of a part lies in the interior. *)
Lemma interior_part : forall T U x, nondegenerate U -> (forall y, inside U y -> inside T y) ->
  in_feature U (true, true, true) x -> in_feature T (true, true, true) x.
Proof.
  intros T [ [p q] r] x NU Hin (k1 & k2 & k3 & (K1 & K2 & K3 & Ek) & X). cbn [weight] in K1, K2, K3. destruct (corners_self p q r) as (Kp & Kq & Kr).
  destruct (Hin _ Kp) as (u1 & v1 & w1 & (A1 & B1 & C1 & E1) & P1). destruct (Hin _ Kq) as (u2 & v2 & w2 & (A2 & B2 & C2 & E2) & P2). destruct (Hin _ Kr) as (u3 & v3 & w3 & (A3 & B3 & C3 & E3) & P3).
  pose proof (normal_comb T _ _ _ _ _ _ _ _ _ E1 E2 E3 p q r P1 P2 P3) as G.
  assert (D : ~ det u1 v1 w1 u2 v2 w2 u3 v3 w3 == 0).
  { intro Z. pose proof (normal_square _ NU) as S. rewrite G, Z in S. lra. }
  assert (Pos : forall a b c, 0 <= a -> 0 <= b -> 0 <= c -> ~ (a == 0 /\ b == 0 /\ c == 0) -> 0 < k1 * a + k2 * b + k3 * c).
  { clear - K1 K2 K3. intros a b c Ha Hb Hc N. destruct (Qeq_dec a 0) as [Za | Za]; [ destruct (Qeq_dec b 0) as [Zb | Zb]; [ destruct (Qeq_dec c 0) as [Zc | Zc]; [ exfalso; tauto | ] | ] | ].
    - assert (0 < c) by (destruct (Qlt_le_dec 0 c); [ assumption | exfalso; apply Zc; lra ]). nra.
    - assert (0 < b) by (destruct (Qlt_le_dec 0 b); [ assumption | exfalso; apply Zb; lra ]). nra.
    - assert (0 < a) by (destruct (Qlt_le_dec 0 a); [ assumption | exfalso; apply Za; lra ]). nra. }
  exists (k1 * u1 + k2 * u2 + k3 * u3), (k1 * v1 + k2 * v2 + k3 * v3), (k1 * w1 + k2 * w2 + k3 * w3). split.
  - cbn [weight]. split; [ | split; [ | split ] ].
    + apply Pos; auto. intros (Z1 & Z2 & Z3). apply D. unfold det. rewrite Z1, Z2, Z3. ring.
    + apply Pos; auto. intros (Z1 & Z2 & Z3). apply D. unfold det. rewrite Z1, Z2, Z3. ring.
    + apply Pos; auto. intros (Z1 & Z2 & Z3). apply D. unfold det. rewrite Z1, Z2, Z3. ring.
    + setoid_replace (k1 * u1 + k2 * u2 + k3 * u3 + (k1 * v1 + k2 * v2 + k3 * v3) + (k1 * w1 + k2 * w2 + k3 * w3)) with (k1 * (u1 + v1 + w1) + k2 * (u2 + v2 + w2) + k3 * (u3 + v3 + w3)) by ring.
      rewrite E1, E2, E3. lra.
  - clear - X P1 P2 P3. destruct T as [ [ [ [a1 a2] a3] [ [b1 b2] b3] ] [ [c1 c2] c3] ], p as [ [p1 p2] p3], q as [ [q1 q2] q3], r as [ [r1 r2] r3], x as [ [x1 x2] x3]. vs.
    destruct X as (-> & -> & ->). destruct P1 as (-> & -> & ->). destruct P2 as (-> & -> & ->). destruct P3 as (-> & -> & ->). repeat split; ring.
Qed.

(** Tilings of the parts of a tiling. *)
Lemma nth_concat : forall {A} (ls : list (list A)) n x, nth_error (concat ls) n = Some x ->
  exists i k l, nth_error ls i = Some l /\ nth_error l k = Some x /\ n = (length (concat (firstn i ls)) + k)%nat.
Proof.
  intros A ls. induction ls as [ | l ls IH]; intros n x H; cbn in H; [ destruct n; discriminate | ].
  destruct (Nat.lt_ge_cases n (length l)) as [Hn | Hn].
  - rewrite nth_error_app1 in H by exact Hn. exists 0%nat, n, l. auto.
  - rewrite nth_error_app2 in H by exact Hn. destruct (IH _ _ H) as (i & k & l' & E1 & E2 & E3). exists (S i), k, l'. split; [ exact E1 | ]. split; [ exact E2 | ]. cbn. rewrite app_length. lia.
Qed.
Lemma tiles_refine : forall S parts subs, nondegenerate S -> tiles S parts -> Forall2 tiles parts subs -> tiles S (concat subs).
Proof.
  intros S parts subs ND HT HF.
  assert (Hsub : forall i l, nth_error subs i = Some l -> exists T, nth_error parts i = Some T /\ tiles T l).
  { clear - HF. induction HF as [ | T l parts subs H _ IH]; intros [ | i] l' E; cbn in *; try discriminate; [ injection E as <-; eauto | auto ]. }
  assert (Hpart : forall T, In T parts -> exists l, In l subs /\ tiles T l).
  { clear - HF. induction HF as [ | T l parts subs H _ IH]; intros U J; [ destruct J | ]. destruct J as [<- | J]; [ exists l; cbn; auto | ]. destruct (IH _ J) as (l' & X & Y). exists l'. cbn. auto. }
  assert (Nd : forall T, In T parts -> nondegenerate T) by (intros T J; eapply turned_nondegenerate; apply (tl_turn _ _ HT _ J)).
  split.
  - intros U J. apply in_concat in J. destruct J as (l & Jl & JU). apply In_nth_error in Jl. destruct Jl as (i & El). destruct (Hsub _ _ El) as (T & ET & HTl). pose proof (nth_error_In _ _ ET) as JT.
    destruct (turn_positive T U (Nd _ JT) (fun x => tl_inside _ _ HTl _ x JU) (tl_turn _ _ HTl _ JU)) as (k & Hk & Ek). rewrite Ek. pose proof (tl_turn _ _ HT _ JT). nra.
  - intros U x J X. apply in_concat in J. destruct J as (l & Jl & JU). apply In_nth_error in Jl. destruct Jl as (i & El). destruct (Hsub _ _ El) as (T & ET & HTl).
    apply (tl_inside _ _ HT T); [ eapply nth_error_In; exact ET | ]. exact (tl_inside _ _ HTl _ _ JU X).
  - intros x X. destruct (tl_cover _ _ HT _ X) as (T & JT & XT). destruct (Hpart _ JT) as (l & Jl & HTl). destruct (tl_cover _ _ HTl _ XT) as (U & JU & XU). exists U. split; [ | exact XU ]. apply in_concat. eauto.
  - intros i j U V x Ei Ej XU XV. apply nth_concat in Ei, Ej. destruct Ei as (i1 & k1 & l1 & A1 & B1 & ->), Ej as (i2 & k2 & l2 & A2 & B2 & ->).
    destruct (Hsub _ _ A1) as (T1 & C1 & D1). destruct (Hsub _ _ A2) as (T2 & C2 & D2).
    assert (i1 = i2).
    { apply (tl_apart _ _ HT i1 i2 T1 T2 x C1 C2).
      - apply (interior_part T1 U); [ exact (turned_nondegenerate _ _ (tl_turn _ _ D1 _ (nth_error_In _ _ B1))) | intros y Y; exact (tl_inside _ _ D1 _ _ (nth_error_In _ _ B1) Y) | exact XU ].
      - apply (interior_part T2 V); [ exact (turned_nondegenerate _ _ (tl_turn _ _ D2 _ (nth_error_In _ _ B2))) | intros y Y; exact (tl_inside _ _ D2 _ _ (nth_error_In _ _ B2) Y) | exact XV ]. }
    subst i2. assert (l1 = l2) by congruence. subst l2. f_equal. exact (tl_apart _ _ D1 _ _ _ _ _ B1 B2 XU XV).
Qed.

(** Dividing a triangle at a point of it. *)
Lemma least_ratio : forall u v w x y z : Q, 0 <= u -> 0 <= v -> 0 <= w -> u + v + w == 1 -> 0 <= x -> 0 <= y -> 0 <= z ->
  (0 < u /\ x * v <= y * u /\ x * w <= z * u) \/ (0 < v /\ y * u <= x * v /\ y * w <= z * v) \/ (0 < w /\ z * u <= x * w /\ z * v <= y * w).
Proof.
  intros u v w x y z Hu Hv Hw E Hx Hy Hz.
  destruct (Qlt_le_dec 0 u) as [Pu | Pu]; destruct (Qlt_le_dec 0 v) as [Pv | Pv]; destruct (Qlt_le_dec 0 w) as [Pw | Pw].
  - destruct (Qlt_le_dec (y * u) (x * v)) as [A | A]; destruct (Qlt_le_dec (z * u) (x * w)) as [B | B]; destruct (Qlt_le_dec (z * v) (y * w)) as [C | C];
      first [ left; split; [ assumption | split; lra ] | right; left; split; [ assumption | split; lra ] | right; right; split; [ assumption | split; lra ] | idtac ].
    + exfalso. assert (x * w * v <= z * u * v) by nra. assert (y * u * w < x * v * w) by nra. assert (z * v * u < y * w * u) by nra. lra.
    + exfalso. assert (x * v * w <= y * u * w) by nra. assert (y * w * u <= z * v * u) by nra. assert (z * u * v < x * w * v) by nra. lra.
  - assert (w == 0) by lra. destruct (Qlt_le_dec (y * u) (x * v)) as [A | A]; [ right; left | left ]; (split; [ assumption | split; [ lra | nra ] ]).
  - assert (v == 0) by lra. destruct (Qlt_le_dec (z * u) (x * w)) as [A | A]; [ right; right | left ]; (split; [ assumption | split; nra ]).
  - left. split; [ assumption | ]. split; nra.
  - assert (u == 0) by lra. destruct (Qlt_le_dec (z * v) (y * w)) as [A | A]; [ right; right | right; left ]; (split; [ assumption | split; nra ]).
  - right; left. split; [ assumption | ]. split; nra.
  - right; right. split; [ assumption | ]. split; nra.
  - exfalso. lra.
Qed.

Section Split.
  Variables (a b c p : vec3) (u v w : Q).
  Hypothesis ND : nondegenerate (a, b, c).
  Hypothesis Hu : 0 <= u.
  Hypothesis Hv : 0 <= v.
  Hypothesis Hw : 0 <= w.
  Hypothesis E : u + v + w == 1.
  Hypothesis Hp : same_point p (comb (a, b, c) u v w).

  Lemma comb_ab : forall x k1 k2 k3, same_point x (comb (a, b, p) k1 k2 k3) <-> same_point x (comb (a, b, c) (k1 + k3 * u) (k2 + k3 * v) (k3 * w)).
  Proof.
    intros x k1 k2 k3. destruct a as [ [a1 a2] a3], b as [ [b1 b2] b3], c as [ [c1 c2] c3], p as [ [p1 p2] p3], x as [ [x1 x2] x3]. vs. destruct Hp as (P1 & P2 & P3).
    split; intros (X1 & X2 & X3); rewrite X1, X2, X3, P1, P2, P3; repeat split; ring.
  Qed.
  Lemma comb_bc : forall x k1 k2 k3, same_point x (comb (b, c, p) k1 k2 k3) <-> same_point x (comb (a, b, c) (k3 * u) (k1 + k3 * v) (k2 + k3 * w)).
  Proof.
    intros x k1 k2 k3. destruct a as [ [a1 a2] a3], b as [ [b1 b2] b3], c as [ [c1 c2] c3], p as [ [p1 p2] p3], x as [ [x1 x2] x3]. vs. destruct Hp as (P1 & P2 & P3).
    split; intros (X1 & X2 & X3); rewrite X1, X2, X3, P1, P2, P3; repeat split; ring.
  Qed.
  Lemma comb_ca : forall x k1 k2 k3, same_point x (comb (c, a, p) k1 k2 k3) <-> same_point x (comb (a, b, c) (k2 + k3 * u) (k3 * v) (k1 + k3 * w)).
  Proof.
    intros x k1 k2 k3. destruct a as [ [a1 a2] a3], b as [ [b1 b2] b3], c as [ [c1 c2] c3], p as [ [p1 p2] p3], x as [ [x1 x2] x3]. vs. destruct Hp as (P1 & P2 & P3).
    split; intros (X1 & X2 & X3); rewrite X1, X2, X3, P1, P2, P3; repeat split; ring.
  Qed.

  Definition split_parts : list triangle :=
    (if Qle_bool w 0 then [] else [(a, b, p)]) ++ (if Qle_bool u 0 then [] else [(b, c, p)]) ++ (if Qle_bool v 0 then [] else [(c, a, p)]).

  (** Which of the three a point is in. *)
  Lemma sum1 : forall k1 k2 k3, k1 + k2 + k3 == 1 -> k1 + k3 * u + (k2 + k3 * v) + k3 * w == 1.
  Proof. intros k1 k2 k3 H. setoid_replace (k1 + k3 * u + (k2 + k3 * v) + k3 * w) with (k1 + k2 + k3 * (u + v + w)) by ring. rewrite E. lra. Qed.

  Lemma split_in : forall T, In T split_parts <-> (0 < w /\ T = (a, b, p)) \/ (0 < u /\ T = (b, c, p)) \/ (0 < v /\ T = (c, a, p)).
  Proof.
    intro T. unfold split_parts. rewrite !in_app_iff.
    assert (G : forall t U, In T (if Qle_bool t 0 then [] else [U]) <-> 0 < t /\ T = U).
    { intros t U. destruct (Qle_bool t 0) eqn:X.
      - apply Qle_bool_iff in X. split; [ intros [ ] | intros [Y _]; lra ].
      - cbn. split; [ intros [<- | [ ] ] | intros [_ ->]; auto ]. split; [ | reflexivity ]. destruct (Qlt_le_dec 0 t) as [Y | Y]; [ exact Y | ]. apply Qle_bool_iff in Y. congruence. }
    rewrite !G. tauto.
  Qed.

  Lemma split_turn : forall T, In T split_parts -> 0 < vdot (face_normal T) (face_normal (a, b, c)).
  Proof.
    pose proof (normal_square _ ND) as N.
    assert (Ca : same_point a (comb (a, b, c) 1 0 0)) by (clear; destruct a as [ [? ?] ?], b as [ [? ?] ?], c as [ [? ?] ?]; vs; repeat split; ring).
    assert (Cb : same_point b (comb (a, b, c) 0 1 0)) by (clear; destruct a as [ [? ?] ?], b as [ [? ?] ?], c as [ [? ?] ?]; vs; repeat split; ring).
    assert (Cc : same_point c (comb (a, b, c) 0 0 1)) by (clear; destruct a as [ [? ?] ?], b as [ [? ?] ?], c as [ [? ?] ?]; vs; repeat split; ring).
    intros T J. apply split_in in J. destruct J as [ [P ->] | [ [P ->] | [P ->] ] ].
    - rewrite (normal_comb (a, b, c) 1 0 0 0 1 0 u v w ltac:(lra) ltac:(lra) E a b p Ca Cb Hp). unfold det. nra.
    - rewrite (normal_comb (a, b, c) 0 1 0 0 0 1 u v w ltac:(lra) ltac:(lra) E b c p Cb Cc Hp). unfold det. nra.
    - rewrite (normal_comb (a, b, c) 0 0 1 1 0 0 u v w ltac:(lra) ltac:(lra) E c a p Cc Ca Hp). unfold det. nra.
  Qed.

  Lemma split_inside : forall T x, In T split_parts -> inside T x -> inside (a, b, c) x.
  Proof.
    intros T x J X. apply split_in in J. destruct J as [ [P ->] | [ [P ->] | [P ->] ] ]; destruct X as (k1 & k2 & k3 & (K1 & K2 & K3 & Ek) & X).
    - apply (proj1 (comb_ab _ _ _ _)) in X. do 3 eexists. split; [ | exact X ]. pose proof (sum1 _ _ _ Ek). repeat split; try nra.
    - apply (proj1 (comb_bc _ _ _ _)) in X. do 3 eexists. split; [ | exact X ]. pose proof (sum1 _ _ _ Ek). repeat split; try nra.
    - apply (proj1 (comb_ca _ _ _ _)) in X. do 3 eexists. split; [ | exact X ]. pose proof (sum1 _ _ _ Ek). repeat split; try nra.
  Qed.

  Lemma split_cover : forall x, inside (a, b, c) x -> exists T, In T split_parts /\ inside T x.
  Proof.
    intros x (x1 & x2 & x3 & (X1 & X2 & X3 & Ex) & X). 
    assert (D : forall t s r, 0 < t -> s * r <= s * 0 + r * 0 + s * r -> True) by auto.
    assert (Dv : forall t r, 0 < t -> t * (r / t) == r) by (intros t r Ht; field; lra).
    assert (Dp : forall t r, 0 < t -> 0 <= r -> 0 <= r / t) by (intros t r Ht Hr; apply Qle_shift_div_l; lra).
    assert (Dm : forall t r s y, 0 < t -> r * s <= y * t -> r / t * s <= y).
    { intros t r s y Ht H. setoid_replace (r / t * s) with (r * s / t) by (field; lra). apply Qle_shift_div_r; lra. }
    destruct (least_ratio u v w x1 x2 x3 Hu Hv Hw E X1 X2 X3) as [(P & A & B) | [(P & A & B) | (P & A & B)] ].
    - exists (b, c, p). split; [ apply split_in; auto | ]. exists (x2 - x1 / u * v), (x3 - x1 / u * w), (x1 / u). split.
      + pose proof (Dm _ _ _ _ P A). pose proof (Dm _ _ _ _ P B). split; [ lra | ]. split; [ lra | ]. split; [ apply Dp; auto | ].
        setoid_replace (x2 - x1 / u * v + (x3 - x1 / u * w) + x1 / u) with (x1 + x2 + x3 + (x1 / u) * (1 - (u + v + w)) + (u * (x1 / u) - x1)) by ring. rewrite E, (Dv u x1 P). lra.
      + apply (proj2 (comb_bc _ _ _ _)). destruct a as [ [a1 a2] a3], b as [ [b1 b2] b3], c as [ [c1 c2] c3], x as [ [y1 y2] y3]. vs. clear - X P. destruct X as (-> & -> & ->). repeat split; field; lra.
    - exists (c, a, p). split; [ apply split_in; auto | ]. exists (x3 - x2 / v * w), (x1 - x2 / v * u), (x2 / v). split.
      + pose proof (Dm _ _ _ _ P A). pose proof (Dm _ _ _ _ P B). split; [ lra | ]. split; [ lra | ]. split; [ apply Dp; auto | ].
        setoid_replace (x3 - x2 / v * w + (x1 - x2 / v * u) + x2 / v) with (x1 + x2 + x3 + (x2 / v) * (1 - (u + v + w)) + (v * (x2 / v) - x2)) by ring. rewrite E, (Dv v x2 P). lra.
      + apply (proj2 (comb_ca _ _ _ _)). destruct a as [ [a1 a2] a3], b as [ [b1 b2] b3], c as [ [c1 c2] c3], x as [ [y1 y2] y3]. vs. clear - X P. destruct X as (-> & -> & ->). repeat split; field; lra.
    - exists (a, b, p). split; [ apply split_in; auto | ]. exists (x1 - x3 / w * u), (x2 - x3 / w * v), (x3 / w). split.
      + pose proof (Dm _ _ _ _ P A). pose proof (Dm _ _ _ _ P B). split; [ lra | ]. split; [ lra | ]. split; [ apply Dp; auto | ].
        setoid_replace (x1 - x3 / w * u + (x2 - x3 / w * v) + x3 / w) with (x1 + x2 + x3 + (x3 / w) * (1 - (u + v + w)) + (w * (x3 / w) - x3)) by ring. rewrite E, (Dv w x3 P). lra.
      + apply (proj2 (comb_ab _ _ _ _)). destruct a as [ [a1 a2] a3], b as [ [b1 b2] b3], c as [ [c1 c2] c3], x as [ [y1 y2] y3]. vs. clear - X P. destruct X as (-> & -> & ->). repeat split; field; lra.
  Qed.

  (** The ratios of the weights tell the three apart. *)
  Lemma ratios_ab : forall x x1 x2 x3, 0 < w -> x1 + x2 + x3 == 1 -> same_point x (comb (a, b, c) x1 x2 x3) -> in_feature (a, b, p) (true, true, true) x -> x3 * u < x1 * w /\ x3 * v < x2 * w.
  Proof.
    intros x x1 x2 x3 P Ex X (k1 & k2 & k3 & (K1 & K2 & K3 & Ek) & Y). cbn [weight] in *. apply (proj1 (comb_ab _ _ _ _)) in Y. destruct (weights_unique _ _ _ _ _ _ _ _ ND Ex (sum1 _ _ _ Ek) X Y) as (W1 & W2 & W3). clear - W1 W2 W3 P K1 K2 K3.
    assert (0 < k1 * w) by nra. assert (0 < k2 * w) by nra. rewrite W1, W2, W3. split; lra.
  Qed.
  Lemma ratios_bc : forall x x1 x2 x3, 0 < u -> x1 + x2 + x3 == 1 -> same_point x (comb (a, b, c) x1 x2 x3) -> in_feature (b, c, p) (true, true, true) x -> x1 * v < x2 * u /\ x1 * w < x3 * u.
  Proof.
    intros x x1 x2 x3 P Ex X (k1 & k2 & k3 & (K1 & K2 & K3 & Ek) & Y). cbn [weight] in *. apply (proj1 (comb_bc _ _ _ _)) in Y.
    assert (Es : k3 * u + (k1 + k3 * v) + (k2 + k3 * w) == 1) by (pose proof (sum1 _ _ _ Ek); lra).
    destruct (weights_unique _ _ _ _ _ _ _ _ ND Ex Es X Y) as (W1 & W2 & W3). clear - W1 W2 W3 P K1 K2 K3.
    assert (0 < k1 * u) by nra. assert (0 < k2 * u) by nra. rewrite W1, W2, W3. split; lra.
  Qed.
  Lemma ratios_ca : forall x x1 x2 x3, 0 < v -> x1 + x2 + x3 == 1 -> same_point x (comb (a, b, c) x1 x2 x3) -> in_feature (c, a, p) (true, true, true) x -> x2 * u < x1 * v /\ x2 * w < x3 * v.
  Proof.
    intros x x1 x2 x3 P Ex X (k1 & k2 & k3 & (K1 & K2 & K3 & Ek) & Y). cbn [weight] in *. apply (proj1 (comb_ca _ _ _ _)) in Y.
    assert (Es : k2 + k3 * u + k3 * v + (k1 + k3 * w) == 1) by (pose proof (sum1 _ _ _ Ek); lra).
    destruct (weights_unique _ _ _ _ _ _ _ _ ND Ex Es X Y) as (W1 & W2 & W3). clear - W1 W2 W3 P K1 K2 K3.
    assert (0 < k1 * v) by nra. assert (0 < k2 * v) by nra. rewrite W1, W2, W3. split; lra.
  Qed.

  Lemma feature_inside : forall T x, in_feature T (true, true, true) x -> inside T x.
  Proof. intros T x (k1 & k2 & k3 & (K1 & K2 & K3 & Ek) & Y). cbn [weight] in *. exists k1, k2, k3. split; [ repeat split; lra | exact Y ]. Qed.

  Lemma split_tiles : tiles (a, b, c) split_parts.
  Proof.
    split; [ exact split_turn | exact split_inside | exact split_cover | ].
    intros i j T U x Ei Ej XT XU.
    destruct (split_inside T x (nth_error_In _ _ Ei) (feature_inside _ _ XT)) as (x1 & x2 & x3 & (_ & _ & _ & Ex) & X).
    pose proof (nth_error_In _ _ Ei) as Ji. pose proof (nth_error_In _ _ Ej) as Jj. apply split_in in Ji, Jj.
    assert (R1 := ratios_ab x x1 x2 x3). assert (R2 := ratios_bc x x1 x2 x3). assert (R3 := ratios_ca x x1 x2 x3).
    assert (C12 : forall P Q, 0 < w -> 0 < u -> P = (a, b, p) -> Q = (b, c, p) -> in_feature P (true, true, true) x -> in_feature Q (true, true, true) x -> False).
    { intros P Q Pw Pu -> -> F1 F2. destruct (R1 Pw Ex X F1). destruct (R2 Pu Ex X F2). lra. }
    assert (C13 : forall P Q, 0 < w -> 0 < v -> P = (a, b, p) -> Q = (c, a, p) -> in_feature P (true, true, true) x -> in_feature Q (true, true, true) x -> False).
    { intros P Q Pw Pu -> -> F1 F2. destruct (R1 Pw Ex X F1). destruct (R3 Pu Ex X F2). lra. }
    assert (C23 : forall P Q, 0 < u -> 0 < v -> P = (b, c, p) -> Q = (c, a, p) -> in_feature P (true, true, true) x -> in_feature Q (true, true, true) x -> False).
    { intros P Q Pw Pu -> -> F1 F2. destruct (R2 Pw Ex X F1). destruct (R3 Pu Ex X F2). lra. }
    clear R1 R2 R3 Ji Jj. unfold split_parts in Ei, Ej.
    assert (Pos : forall t, Qle_bool t 0 = false -> 0 < t) by (intros t Ht; destruct (Qlt_le_dec 0 t) as [Y | Y]; [ exact Y | apply Qle_bool_iff in Y; congruence ]).
    destruct (Qle_bool w 0) eqn:Bw, (Qle_bool u 0) eqn:Bu, (Qle_bool v 0) eqn:Bv; cbn [app] in Ei, Ej;
      repeat match goal with H : Qle_bool _ 0 = false |- _ => apply Pos in H end;
      destruct i as [ | [ | [ | i] ] ]; cbn in Ei; try (destruct i; discriminate Ei); try discriminate Ei; injection Ei as <-;
      destruct j as [ | [ | [ | j] ] ]; cbn in Ej; try (destruct j; discriminate Ej); try discriminate Ej; injection Ej as <-; try reflexivity; exfalso; eauto 2 using eq_refl.
  Qed.
End Split.

(** The algorithm. *)
Definition weights (a b c p : vec3) : Q * Q * Q :=
  let n := face_normal (a, b, c) in let d := vdot n n in
  (vdot (face_normal (b, c, p)) n / d, vdot (face_normal (c, a, p)) n / d, vdot (face_normal (a, b, p)) n / d).
Definition contains (a b c p : vec3) : bool :=
  let '(u, v, w) := weights a b c p in let '(x, y, z) := comb (a, b, c) u v w in
  Qle_bool 0 u && Qle_bool 0 v && Qle_bool 0 w && Qeq_bool (u + v + w) 1 &&
  Qeq_bool (vx p) x && Qeq_bool (vy p) y && Qeq_bool (vz p) z.
Definition divide (vs : list vec3) (n : nat) (h : nat * nat * nat) : list (nat * nat * nat) :=
  let '(i, j, k) := h in
  match nth_error vs i, nth_error vs j, nth_error vs k, nth_error vs n with
  | Some a, Some b, Some c, Some p =>
      if contains a b c p then
        let '(u, v, w) := weights a b c p in
        (if Qle_bool w 0 then [] else [(i, j, n)]) ++ (if Qle_bool u 0 then [] else [(j, k, n)]) ++ (if Qle_bool v 0 then [] else [(k, i, n)])
      else [h]
  | _, _, _, _ => [h]
  end.
Definition fan (vs : list vec3) : list (nat * nat * nat) :=
  fold_left (fun hs n => flat_map (divide vs n) hs) (seq 3 (length vs - 3)) [(0%nat, 1%nat, 2%nat)].
Definition fan_faces {P} (coords : P -> vec3) (t : triangulation P) : list (nat * nat * nat) :=
  fan (map (fun v => coords (fst v)) (t_vertices t)).

Lemma divide_ok : forall vs n h T, (n < length vs)%nat -> has_corners vs h T -> nondegenerate T ->
  exists parts, Forall2 (has_corners vs) (divide vs n h) parts /\ tiles T parts.
Proof.
  intros vs n [ [i j] k] [ [a b] c] Hn (Ea & Eb & Ec) ND. unfold divide. rewrite Ea, Eb, Ec.
  assert (Self : exists parts, Forall2 (has_corners vs) [(i, j, k)] parts /\ tiles (a, b, c) parts).
  { exists [(a, b, c)]. split; [ constructor; [ repeat split; assumption | constructor ] | apply tiles_self, ND ]. }
  destruct (nth_error vs n) as [p | ] eqn:En; [ | exact Self ].
  unfold contains. destruct (weights a b c p) as [ [u v] w]. destruct (comb (a, b, c) u v w) as [ [x y] z] eqn:Ecomb.
  destruct (Qle_bool 0 u && _ && _ && _ && _ && _ && _) eqn:B; [ | exact Self ]. rewrite !andb_true_iff in B. destruct B as ( ( ( ( ( (B1 & B2) & B3) & B4) & B5) & B6) & B7).
  apply Qle_bool_iff in B1, B2, B3. apply Qeq_bool_iff in B4, B5, B6, B7.
  assert (Hp : same_point p (comb (a, b, c) u v w)) by (rewrite Ecomb; repeat split; assumption).
  exists (split_parts a b c p u v w). split; [ | exact (split_tiles a b c p u v w ND B1 B2 B3 B4 Hp) ].
  unfold split_parts. apply Forall2_app; [ destruct (Qle_bool w 0); repeat constructor; assumption | ]. apply Forall2_app; [ destruct (Qle_bool u 0) | destruct (Qle_bool v 0) ]; repeat constructor; assumption.
Qed.

Lemma fan_ok : forall vs a b c rest, vs = a :: b :: c :: rest -> nondegenerate (a, b, c) ->
  exists parts, Forall2 (has_corners vs) (fan vs) parts /\ tiles (a, b, c) parts.
Proof.
  intros vs a b c rest Ev ND. unfold fan.
  assert (G : forall ns hs, (forall n, In n ns -> (n < length vs)%nat) -> (exists parts, Forall2 (has_corners vs) hs parts /\ tiles (a, b, c) parts) ->
    exists parts, Forall2 (has_corners vs) (fold_left (fun hs n => flat_map (divide vs n) hs) ns hs) parts /\ tiles (a, b, c) parts).
  { induction ns as [ | n ns IH]; intros hs Hns H; [ exact H | ]. cbn [fold_left]. apply IH; [ intros m J; apply Hns; cbn; auto | ].
    destruct H as (parts & F & T).
    assert (S : exists subs, Forall2 (Forall2 (has_corners vs)) (map (divide vs n) hs) subs /\ Forall2 tiles parts subs).
    { assert (N : forall T, In T parts -> nondegenerate T) by (intros U J; eapply turned_nondegenerate; apply (tl_turn _ _ T _ J)). clear T IH.
      induction F as [ | h U hs parts X _ IH]; [ exists []; split; constructor | ].
      destruct (divide_ok vs n h U (Hns n (or_introl eq_refl)) X (N _ (or_introl eq_refl))) as (l & A & B).
      destruct IH as (subs & C & D); [ intros V J; apply N; cbn; auto | ]. exists (l :: subs). cbn [map]. split; constructor; assumption. }
    destruct S as (subs & A & B). exists (concat subs). split; [ | exact (tiles_refine _ _ _ ND T B) ].
    rewrite flat_map_concat_map. clear - A. induction A as [ | l l' ls ls' H _ IH]; cbn; [ constructor | apply Forall2_app; assumption ]. }
  apply G.
  - intros n J. apply in_seq in J. lia.
  - exists [(a, b, c)]. split; [ constructor; [ subst vs; repeat split | constructor ] | apply tiles_self, ND ].
Qed.
Lemma fan_correct : forall {P} (coords : P -> vec3), cdt_correct coords (fan_faces coords).
Proof. intros P coords t a b c rest vs Ev ND _ _. exact (fan_ok vs a b c rest Ev ND). Qed.
