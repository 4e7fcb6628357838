(** * Coordinates in the plane of a triangle *)
From Coq Require Import List Arith Bool NArith QArith Lqa Lia Setoid.
From Verif Require Import Model_base Proof_base Model_geometry Model_region Model_points Model_ffi.
From Verif Require Import Spec_defects Spec_ffi Proof_extreme Proof_hull Proof_ffi_orient Proof_ffi_calls.
Import ListNotations.
Local Open Scope Q_scope.

Ltac pts := unfold det3, det_xy, det_yz, det_xz, det2, vdot, vcross, vsub, same_point, comb, mix, scale, vx, vy, vz in *; cbn [fst snd] in *.

Lemma plane_coords : forall p q r a, nondegenerate (p, q, r) -> det3 a p q r == 0 ->
  exists a0 a1 a2, a0 + a1 + a2 == 1 /\ same_point a (comb (p, q, r) a0 a1 a2).
Proof.
  intros p q r a N H. pose proof (nondegenerate_normal _ N) as Z. set (n := normal (p, q, r)) in *.
  assert (NN : ~ vdot n n == 0).
  { intro E. apply Z. clearbody n. destruct n as [ [x y] z]. unfold vdot, zero3, vx, vy, vz in *. cbn [fst snd] in *.
    assert (x * x == 0) by nra. assert (y * y == 0) by nra. assert (z * z == 0) by nra.
    repeat split; match goal with |- ?t == 0 => destruct (Qeq_dec t 0) as [X | X]; [ exact X | exfalso; apply (mult_nonzero t t X X); assumption ] end. }
  exists (vdot n (vcross (vsub q a) (vsub r a)) / vdot n n), (vdot n (vcross (vsub r a) (vsub p a)) / vdot n n), (vdot n (vcross (vsub p a) (vsub q a)) / vdot n n).
  split.
  - assert (E : vdot n (vcross (vsub q a) (vsub r a)) + vdot n (vcross (vsub r a) (vsub p a)) + vdot n (vcross (vsub p a) (vsub q a)) == vdot n n).
    { unfold n, normal. destruct p as [ [p0 p1] p2], q as [ [q0 q1] q2], r as [ [r0 r1] r2], a as [ [a0 a1] a2]. pts. ring. }
    setoid_replace (vdot n (vcross (vsub q a) (vsub r a)) / vdot n n + vdot n (vcross (vsub r a) (vsub p a)) / vdot n n + vdot n (vcross (vsub p a) (vsub q a)) / vdot n n)
      with ((vdot n (vcross (vsub q a) (vsub r a)) + vdot n (vcross (vsub r a) (vsub p a)) + vdot n (vcross (vsub p a) (vsub q a))) / vdot n n) by (field; exact NN).
    rewrite E. field. exact NN.
  - assert (E : forall f : vec3 -> Q, (f = vx \/ f = vy \/ f = vz) ->
      vdot n (vcross (vsub q a) (vsub r a)) * f p + vdot n (vcross (vsub r a) (vsub p a)) * f q + vdot n (vcross (vsub p a) (vsub q a)) * f r
       == vdot n n * f a + det3 a p q r * f n).
    { intros f F. unfold n, normal. destruct p as [ [p0 p1] p2], q as [ [q0 q1] q2], r as [ [r0 r1] r2], a as [ [a0 a1] a2].
      destruct F as [-> | [-> | ->] ]; pts; ring. }
    assert (K : forall x y z w fp fq fr fa, ~ w == 0 -> x * fp + y * fq + z * fr == w * fa -> fa == x / w * fp + y / w * fq + z / w * fr).
    { intros x y z w fp fq fr fa Nw Hw. setoid_replace (x / w * fp + y / w * fq + z / w * fr) with ((x * fp + y * fq + z * fr) / w) by (field; exact Nw).
      rewrite Hw. field. exact Nw. }
    unfold same_point, comb. cbn [vx vy vz fst snd].
    repeat split; (apply K; [ exact NN | ]).
    + rewrite (E vx) by auto. rewrite H. ring.
    + rewrite (E vy) by auto. rewrite H. ring.
    + rewrite (E vz) by auto. rewrite H. ring.
Qed.

(** ** The orientation of coordinates *)
Definition tri : Type := Q * Q * Q.
Definition one (u : tri) : Prop := let '(u0, u1, u2) := u in u0 + u1 + u2 == 1.
Definition cmb (T : triangle) (u : tri) : vec3 := let '(u0, u1, u2) := u in comb T u0 u1 u2.
Definition bdet (u v w : tri) : Q :=
  let '(u0, u1, u2) := u in let '(v0, v1, v2) := v in let '(w0, w1, w2) := w in
  u0 * (v1 * w2 - v2 * w1) - u1 * (v0 * w2 - v2 * w0) + u2 * (v0 * w1 - v1 * w0).

Lemma coplanar_bary : forall p q r x y z u v w, one u -> one v -> one w ->
  same_point x (cmb (p, q, r) u) -> same_point y (cmb (p, q, r) v) -> same_point z (cmb (p, q, r) w) ->
  coplanar_orientation x y z = smul (coplanar_orientation p q r) (sign (bdet u v w)).
Proof.
  intros p q r x y z [ [u0 u1] u2] [ [v0 v1] v2] [ [w0 w1] w2] Su Sv Sw X Y Z. unfold one, cmb in *.
  assert (Eu : u0 == 1 - u1 - u2) by lra. assert (Ev : v0 == 1 - v1 - v2) by lra. assert (Ew : w0 == 1 - w1 - w2) by lra. clear Su Sv Sw.
  set (D := bdet (u0, u1, u2) (v0, v1, v2) (w0, w1, w2)).
  assert (E1 : det_xy x y z == det_xy p q r * D /\ det_yz x y z == det_yz p q r * D /\ det_xz x y z == det_xz p q r * D).
  { unfold D, bdet. destruct p as [ [p0 p1] p2], q as [ [q0 q1] q2], r as [ [r0 r1] r2], x as [ [x0 x1] x2], y as [ [y0 y1] y2], z as [ [z0 z1] z2].
    pts. destruct X as (X0 & X1 & X2), Y as (Y0 & Y1 & Y2), Z as (Z0 & Z1 & Z2).
    repeat split; rewrite ?X0, ?X1, ?X2, ?Y0, ?Y1, ?Y2, ?Z0, ?Z1, ?Z2, Eu, Ev, Ew; ring. }
  destruct E1 as (E1 & E2 & E3). unfold coplanar_orientation. rewrite (sign_ext _ _ E1), (sign_ext _ _ E2), (sign_ext _ _ E3), !sign_mul.
  destruct (sign (det_xy p q r)), (sign (det_yz p q r)), (sign (det_xz p q r)), (sign D); reflexivity.
Qed.
Lemma coplanar_orientation_nonzero : forall p q r, nondegenerate (p, q, r) -> coplanar_orientation p q r <> Eq.
Proof.
  intros p q r N E. apply (nondegenerate_normal _ N). unfold normal, zero3. unfold coplanar_orientation in E.
  destruct (sign (det_xy p q r)) eqn:E1; try discriminate. destruct (sign (det_yz p q r)) eqn:E2; try discriminate.
  rewrite sign_zero in *. destruct p as [ [p0 p1] p2], q as [ [q0 q1] q2], r as [ [r0 r1] r2]. pts. repeat split; lra.
Qed.

(** ** Lexicographic order on a line *)
Lemma compare_sub : forall x y, (x ?= y) = sign (x - y).
Proof.
  intros x y. destruct (Qcompare_spec x y) as [H | H | H]; symmetry; [ apply sign_zero | rewrite sign_neg | rewrite sign_pos ]; lra.
Qed.
Lemma lex_line : forall p q a b k, vx a - vx b == k * (vx p - vx q) -> vy a - vy b == k * (vy p - vy q) -> vz a - vz b == k * (vz p - vz q) ->
  compare_lexicographically a b = smul (sign k) (compare_lexicographically p q).
Proof.
  intros p q a b k X Y Z. unfold compare_lexicographically. rewrite !compare_sub, (sign_ext _ _ X), (sign_ext _ _ Y), (sign_ext _ _ Z), !sign_mul.
  destruct (sign k), (sign (vx p - vx q)), (sign (vy p - vy q)), (sign (vz p - vz q)); reflexivity.
Qed.
Lemma lex_nonzero : forall p q, compare_lexicographically p q = Eq -> same_point p q.
Proof.
  intros p q. unfold compare_lexicographically, same_point. destruct (vx p ?= vx q) eqn:X; try discriminate. destruct (vy p ?= vy q) eqn:Y; try discriminate.
  intro Z. rewrite <- Qeq_alt in *. auto.
Qed.
(** [a] on the line [pq]. *)
Lemma lex_edge : forall p q a a0 a1, a0 + a1 == 1 ->
  vx a == a0 * vx p + a1 * vx q -> vy a == a0 * vy p + a1 * vy q -> vz a == a0 * vz p + a1 * vz q -> ~ same_point p q ->
  exists s, s <> Eq /\ compare_lexicographically a p = smul s (sign a1) /\ compare_lexicographically a q = CompOpp (smul s (sign a0)).
Proof.
  intros p q a a0 a1 S X Y Z N. exists (compare_lexicographically q p). assert (E : a0 == 1 - a1) by lra.
  assert (C : forall s t, smul s t = smul t s) by (intros [ | | ] [ | | ]; reflexivity). split; [ | split ].
  - intro H. apply N. apply same_sym. apply lex_nonzero. exact H.
  - rewrite (lex_line q p a p a1), C; [ reflexivity | rewrite X | rewrite Y | rewrite Z ]; rewrite E; ring.
  - rewrite (lex_line q p a q (- a0)), sign_opp; [ | rewrite X | rewrite Y | rewrite Z ]; [ | | | ].
    + destruct (sign a0), (compare_lexicographically q p); reflexivity.
    + rewrite E; ring.
    + rewrite E; ring.
    + rewrite E; ring.
Qed.

(** ** Features in coordinates *)
Definition weights (k : mask) (u : tri) : Prop := let '(k0, k1, k2) := k in let '(u0, u1, u2) := u in weight k0 u0 /\ weight k1 u1 /\ weight k2 u2.
Definition frees (k : mask) (u : tri) : Prop := let '(k0, k1, k2) := k in let '(u0, u1, u2) := u in free k0 u0 /\ free k1 u1 /\ free k2 u2.
Lemma weight_ext : forall m u v, u == v -> weight m u -> weight m v.
Proof. intros [ | ] u v E H; unfold weight in *; rewrite <- E; exact H. Qed.
Lemma feature_coords : forall T k x u, nondegenerate T -> one u -> same_point x (cmb T u) -> (in_feature T k x <-> weights k u).
Proof.
  intros T [ [k0 k1] k2] x [ [u0 u1] u2] N S X. unfold one, cmb in *. split.
  - intros (v0 & v1 & v2 & (W0 & W1 & W2 & Sv) & Y).
    destruct (comb_inj T v0 v1 v2 u0 u1 u2 N) as (E0 & E1 & E2); [ lra | eapply same_trans; [ apply same_sym; exact Y | exact X ] | ].
    cbn. repeat split; eapply weight_ext; eassumption.
  - intros (W0 & W1 & W2). exists u0, u1, u2. auto.
Qed.
Lemma dir_coords : forall T k d u0 u1 u2, nondegenerate T -> u0 + u1 + u2 == 0 -> same_point d (comb T u0 u1 u2) -> (dir T k d <-> frees k (u0, u1, u2)).
Proof.
  intros T [ [k0 k1] k2] d u0 u1 u2 N S X. split.
  - intros (v0 & v1 & v2 & (W0 & W1 & W2 & Sv) & Y).
    destruct (comb_inj T v0 v1 v2 u0 u1 u2 N) as (E0 & E1 & E2); [ lra | eapply same_trans; [ apply same_sym; exact Y | exact X ] | ].
    assert (K : forall m u v, u == v -> free m u -> free m v) by (intros [ | ] u v E H; unfold free in *; [ exact I | rewrite <- E; exact H ]).
    cbn. repeat split; eapply K; eassumption.
  - intros (W0 & W1 & W2). exists u0, u1, u2. auto.
Qed.

(** ** The points an edge test should report *)
Definition crossing (left : bool) (a b : vec3) (T : triangle) (o : bool) (k : mask) : Prop :=
  (o = true /\ in_feature T k a /\ (bits k = 1%nat -> left = true)) \/
  (o = false /\ (2 <= bits k)%nat /\ (bits k = 2%nat -> left = true) /\
   (exists t, 0 < t /\ t < 1 /\ in_feature T k (mix a b t)) /\
   (forall c, dir T k (scale c (vsub b a)) -> c == 0)).

(** In the plane. *)
Definition blend (a b : tri) (t : Q) : tri :=
  let '(a0, a1, a2) := a in let '(b0, b1, b2) := b in ((1 - t) * a0 + t * b0, (1 - t) * a1 + t * b1, (1 - t) * a2 + t * b2).
Definition crossing_2d (left : bool) (a b : tri) (o : bool) (k : mask) : Prop :=
  (o = true /\ weights k a /\ (bits k = 1%nat -> left = true)) \/
  (o = false /\ (2 <= bits k)%nat /\ (bits k = 2%nat -> left = true) /\
   (exists t, 0 < t /\ t < 1 /\ weights k (blend a b t)) /\
   (forall c, let '(a0, a1, a2) := a in let '(b0, b1, b2) := b in frees k (c * (b0 - a0), c * (b1 - a1), c * (b2 - a2)) -> c == 0)).
Lemma crossing_coords : forall left T a b u v o k, nondegenerate T -> one u -> one v -> same_point a (cmb T u) -> same_point b (cmb T v) ->
  (crossing left a b T o k <-> crossing_2d left u v o k).
Proof.
  intros left T a b [ [a0 a1] a2] [ [b0 b1] b2] o k N Su Sv A B. unfold crossing, crossing_2d.
  assert (M : forall t, in_feature T k (mix a b t) <-> weights k (blend (a0, a1, a2) (b0, b1, b2) t)).
  { intro t. apply feature_coords; [ exact N | | ].
    - unfold one, blend in *. transitivity ((1 - t) * (a0 + a1 + a2) + t * (b0 + b1 + b2)); [ ring | ]. rewrite Su, Sv. ring.
    - unfold cmb, blend in *. destruct T as [ [p q] r]. destruct A as (A0 & A1 & A2), B as (B0 & B1 & B2). pts.
      repeat split; rewrite ?A0, ?A1, ?A2, ?B0, ?B1, ?B2; ring. }
  assert (F : forall c, dir T k (scale c (vsub b a)) <-> frees k (c * (b0 - a0), c * (b1 - a1), c * (b2 - a2))).
  { intro c. apply dir_coords; [ exact N | | ].
    - unfold one in *. transitivity (c * ((b0 + b1 + b2) - (a0 + a1 + a2))); [ ring | ]. rewrite Su, Sv. ring.
    - unfold cmb in *. destruct T as [ [p q] r]. destruct A as (A0 & A1 & A2), B as (B0 & B1 & B2). pts.
      repeat split; rewrite ?A0, ?A1, ?A2, ?B0, ?B1, ?B2; ring. }
  rewrite (feature_coords T k a (a0, a1, a2) N Su A). split.
  - intros [H | (H1 & H2 & H3 & (t & H4 & H5 & H6) & H7)]; [ left; exact H | right ]. repeat split; try assumption.
    + exists t. rewrite <- M. auto.
    + intros c X. apply H7, F, X.
  - intros [H | (H1 & H2 & H3 & (t & H4 & H5 & H6) & H7)]; [ left; exact H | right ]. repeat split; try assumption.
    + exists t. rewrite M. auto.
    + intros c X. apply H7, F, X.
Qed.

(** The four tests of the plane case cover it. *)
Definition face_spec (a : tri) (o : bool) (k : mask) : Prop :=
  let '(a0, a1, a2) := a in o = true /\ k = (true, true, true) /\ 0 < a0 /\ 0 < a1 /\ 0 < a2.
Lemma cover_2d : forall left a0 a1 a2 b0 b1 b2 o k, a0 + a1 + a2 == 1 -> b0 + b1 + b2 == 1 -> ~ (a0 == b0 /\ a1 == b1 /\ a2 == b2) ->
  (crossing_2d left (a0, a1, a2) (b0, b1, b2) o k <->
   face_spec (a0, a1, a2) o k \/
   ee_spec left (true, true, false) (true, false, false) a0 a1 a2 b0 b1 b2 o k \/
   ee_spec left (false, true, true) (false, true, false) a1 a2 a0 b1 b2 b0 o k \/
   ee_spec left (true, false, true) (false, false, true) a2 a0 a1 b2 b0 b1 o k).
Proof.
  intros left a0 a1 a2 b0 b1 b2 o k Sa Sb N. unfold crossing_2d. split.
  - intros [ (-> & W & L) | (-> & L2 & L & (t & T0 & T1 & W) & F) ].
    + destruct k as [ [ [ | ] [ | ] ] [ | ] ]; cbn in W; unfold weight in W; destruct W as (W0 & W1 & W2).
      * left. cbn. auto.
      * right. left. right. left. auto.
      * right. right. right. right. left. auto.
      * right. left. left. auto 6.
      * right. right. left. right. left. auto.
      * right. right. left. left. auto 6.
      * right. right. right. left. auto 6.
      * exfalso. lra.
    + destruct k as [ [ [ | ] [ | ] ] [ | ] ]; cbn in W, L2, L; unfold weight in W; destruct W as (W0 & W1 & W2); try lia.
      * exfalso. assert (X : 1 == 0) by (apply F; cbn; auto). lra.
      * right. left. right. right. split; [ reflexivity | ]. split; [ reflexivity | ]. split; [ auto | ].
        split; [ | exists t; auto ]. intro E. assert (X : 1 == 0) by (apply F; cbn; repeat split; lra). lra.
      * right. right. right. right. right. split; [ reflexivity | ]. split; [ reflexivity | ]. split; [ auto | ].
        split; [ | exists t; auto ]. intro E. assert (X : 1 == 0) by (apply F; cbn; repeat split; lra). lra.
      * right. right. left. right. right. split; [ reflexivity | ]. split; [ reflexivity | ]. split; [ auto | ].
        split; [ | exists t; auto ]. intro E. assert (X : 1 == 0) by (apply F; cbn; repeat split; lra). lra.
  - assert (Z : forall c x y, ~ x == y -> c * (y - x) == 0 -> c == 0).
    { intros c x y Nx E. rewrite Qmult_comm in E. apply mult_zero in E; [ exact E | lra ]. }
    intros [H | [H | [H | H] ] ].
    + cbn in H. destruct H as (-> & -> & H). left. split; [ reflexivity | ]. split; [ cbn; exact H | cbn; discriminate ].
    + destruct H as [ (-> & -> & -> & E1 & E2) | [ (-> & -> & E2 & P0 & P1) | (-> & -> & -> & Nx & t & T0 & T1 & X2 & X0 & X1) ] ].
      * left. split; [ reflexivity | ]. split; [ cbn; repeat split; lra | auto ].
      * left. split; [ reflexivity | ]. split; [ cbn; repeat split; lra | cbn; discriminate ].
      * right. split; [ reflexivity | ]. split; [ cbn; lia | ]. split; [ auto | ]. split; [ exists t; cbn; auto | ].
        intros c (_ & _ & F). exact (Z _ _ _ Nx F).
    + destruct H as [ (-> & -> & -> & E1 & E2) | [ (-> & -> & E2 & P0 & P1) | (-> & -> & -> & Nx & t & T0 & T1 & X2 & X0 & X1) ] ].
      * left. split; [ reflexivity | ]. split; [ cbn; repeat split; lra | auto ].
      * left. split; [ reflexivity | ]. split; [ cbn; repeat split; lra | cbn; discriminate ].
      * right. split; [ reflexivity | ]. split; [ cbn; lia | ]. split; [ auto | ]. split; [ exists t; cbn; auto | ].
        intros c (F & _). exact (Z _ _ _ Nx F).
    + destruct H as [ (-> & -> & -> & E1 & E2) | [ (-> & -> & E2 & P0 & P1) | (-> & -> & -> & Nx & t & T0 & T1 & X2 & X0 & X1) ] ].
      * left. split; [ reflexivity | ]. split; [ cbn; repeat split; lra | auto ].
      * left. split; [ reflexivity | ]. split; [ cbn; repeat split; lra | cbn; discriminate ].
      * right. split; [ reflexivity | ]. split; [ cbn; lia | ]. split; [ auto | ]. split; [ exists t; cbn; auto | ].
        intros c (_ & F & _). exact (Z _ _ _ Nx F).
Qed.
