(** * Extreme points of the intersection of two triangles *)
From Coq Require Import List Arith Bool NArith QArith Lqa Lia Setoid.
From Verif Require Import Model_base Model_geometry Model_region Model_defects Spec_candidates Spec_defects Spec_ffi Proof_defect_edges.
Import ListNotations.
Local Open Scope Q_scope.

(** ** Points *)
Lemma same_refl : forall x, same_point x x.
Proof. intro x. repeat split; reflexivity. Qed.
Lemma same_sym : forall x y, same_point x y -> same_point y x.
Proof. intros x y (A & B & C). repeat split; symmetry; assumption. Qed.
Lemma same_trans : forall x y z, same_point x y -> same_point y z -> same_point x z.
Proof. intros x y z (A & B & C) (D & E & F). repeat split; etransitivity; eassumption. Qed.

Lemma mult_zero : forall a b : Q, ~ a == 0 -> a * b == 0 -> b == 0.
Proof. intros a b N H. apply Qmult_integral in H. tauto. Qed.
Lemma mult_nonzero : forall a b : Q, ~ a == 0 -> ~ b == 0 -> ~ a * b == 0.
Proof. intros a b Na Nb H. apply Qmult_integral in H. tauto. Qed.
Lemma half_eq : forall a b : Q, a == b / 2 <-> a + a == b.
Proof. intros a b. split; intro H; [ rewrite H; field | rewrite <- H; field ]. Qed.

Lemma lin2 : forall k1 k2 x1 x2 y1 y2 : Q, k1 * x1 + k2 * x2 == 0 -> k1 * y1 + k2 * y2 == 0 ->
  ~ x1 * y2 - y1 * x2 == 0 -> k1 == 0 /\ k2 == 0.
Proof.
  intros k1 k2 x1 x2 y1 y2 H1 H2 N. split; apply (mult_zero (x1 * y2 - y1 * x2) _ N).
  - transitivity ((k1 * x1 + k2 * x2) * y2 - (k1 * y1 + k2 * y2) * x2); [ ring | ]. rewrite H1, H2. ring.
  - transitivity ((k1 * y1 + k2 * y2) * x1 - (k1 * x1 + k2 * x2) * y1); [ ring | ]. rewrite H1, H2. ring.
Qed.

Definition normal (t : triangle) : vec3 := let '(a, b, c) := t in vcross (vsub b a) (vsub c a).
Definition zero3 (d : vec3) : Prop := vx d == 0 /\ vy d == 0 /\ vz d == 0.
Lemma zero3_dec : forall d, zero3 d \/ ~ zero3 d.
Proof.
  intro d. unfold zero3. destruct (Qeq_dec (vx d) 0), (Qeq_dec (vy d) 0), (Qeq_dec (vz d) 0); tauto.
Qed.
Lemma nonzero3 : forall d, ~ zero3 d -> ~ vx d == 0 \/ ~ vy d == 0 \/ ~ vz d == 0.
Proof.
  intros d H. unfold zero3 in H. destruct (Qeq_dec (vx d) 0), (Qeq_dec (vy d) 0), (Qeq_dec (vz d) 0); tauto.
Qed.

Lemma nondegenerate_normal : forall t, nondegenerate t -> ~ zero3 (normal t).
Proof.
  intros [ [a b] c] N Z. apply N. apply (is_degenerate_iff (fun x => x) a b c). unfold is_degenerate, normal, zero3 in *.
  destruct Z as (Zx & Zy & Zz). rewrite !andb_true_iff, !Qeq_bool_iff. auto.
Qed.
Lemma normal_nondegenerate : forall t, ~ zero3 (normal t) -> nondegenerate t.
Proof.
  intros [ [a b] c] N C. apply N. apply (is_degenerate_iff (fun x => x) a b c) in C. unfold is_degenerate in C.
  rewrite !andb_true_iff, !Qeq_bool_iff in C. unfold zero3. tauto.
Qed.

Lemma comb_zero : forall t u v w, nondegenerate t -> u + v + w == 0 -> zero3 (comb t u v w) -> u == 0 /\ v == 0 /\ w == 0.
Proof.
  intros [ [ [ [ax ay] az] [ [bx by_] bz] ] [ [cx cy] cz] ] u v w N S (Zx & Zy & Zz).
  apply nondegenerate_normal in N. apply nonzero3 in N.
  unfold comb, normal, vcross, vsub, vx, vy, vz in *. cbn [fst snd] in *.
  assert (Eu : u == - v - w) by lra.
  assert (X : v * (bx - ax) + w * (cx - ax) == 0) by (rewrite <- Zx, Eu; ring).
  assert (Y : v * (by_ - ay) + w * (cy - ay) == 0) by (rewrite <- Zy, Eu; ring).
  assert (Z : v * (bz - az) + w * (cz - az) == 0) by (rewrite <- Zz, Eu; ring).
  assert (K : v == 0 /\ w == 0); [ | destruct K; repeat split; lra ].
  destruct N as [N | [N | N] ].
  - apply (lin2 _ _ _ _ _ _ Y Z). exact N.
  - apply (lin2 _ _ _ _ _ _ Z X). exact N.
  - apply (lin2 _ _ _ _ _ _ X Y). exact N.
Qed.
Lemma comb_inj : forall t u v w u' v' w', nondegenerate t -> u + v + w == u' + v' + w' ->
  same_point (comb t u v w) (comb t u' v' w') -> u == u' /\ v == v' /\ w == w'.
Proof.
  intros [ [a b] c] u v w u' v' w' N S (X & Y & Z).
  destruct (comb_zero (a, b, c) (u - u') (v - v') (w - w') N) as (A & B & C); [ lra | | repeat split; lra ].
  unfold zero3, comb, vx, vy, vz in *. cbn [fst snd] in *. repeat split; lra.
Qed.
Lemma comb_same : forall t u v w u' v' w', u == u' -> v == v' -> w == w' -> same_point (comb t u v w) (comb t u' v' w').
Proof.
  intros [ [a b] c] u v w u' v' w' A B C. unfold same_point, comb, vx, vy, vz. cbn [fst snd]. rewrite A, B, C. repeat split; reflexivity.
Qed.

(** ** Directions *)
Definition free (used : bool) (u : Q) : Prop := if used then True else u == 0.
Definition dir (t : triangle) (m : bool * bool * bool) (d : vec3) : Prop :=
  let '(m0, m1, m2) := m in
  exists u v w, (free m0 u /\ free m1 v /\ free m2 w /\ u + v + w == 0) /\ same_point d (comb t u v w).
Definition transversal (l r : triangle) (m k : bool * bool * bool) : Prop := forall d, dir l m d -> dir r k d -> zero3 d.

Definition move (x d : vec3) (e : Q) : vec3 := (vx x + e * vx d, vy x + e * vy d, vz x + e * vz d).

Lemma small_step : forall used u m, weight used u -> free used m ->
  exists e0, 0 < e0 /\ forall e, - e0 <= e <= e0 -> 0 <= u + e * m.
Proof.
  intros [ | ] u m W F; cbn in *.
  - destruct (Qlt_le_dec m 0) as [Hm | Hm].
    + exists (u / (1 - m)). assert (P : 0 < 1 - m) by lra.
      assert (E : u / (1 - m) * (1 - m) == u) by (field; lra).
      assert (P0 : 0 < u / (1 - m)) by (apply Qlt_shift_div_l; lra). split; [ exact P0 | ].
      intros e [He1 He2]. set (e0 := u / (1 - m)) in *. clearbody e0. nra.
    + exists (u / (1 + m)). assert (P : 0 < 1 + m) by lra.
      assert (E : u / (1 + m) * (1 + m) == u) by (field; lra).
      assert (P0 : 0 < u / (1 + m)) by (apply Qlt_shift_div_l; lra). split; [ exact P0 | ].
      intros e [He1 He2]. set (e0 := u / (1 + m)) in *. clearbody e0. nra.
  - exists 1. split; [ lra | ]. intros e _. rewrite W, F. lra.
Qed.
Lemma small_both : forall A B : Q -> Prop, (exists e0, 0 < e0 /\ forall e, - e0 <= e <= e0 -> A e) ->
  (exists e0, 0 < e0 /\ forall e, - e0 <= e <= e0 -> B e) -> exists e0, 0 < e0 /\ forall e, - e0 <= e <= e0 -> A e /\ B e.
Proof.
  intros A B (e1 & P1 & H1) (e2 & P2 & H2). destruct (Qlt_le_dec e1 e2) as [L | L].
  - exists e1. split; [ exact P1 | ]. intros e He. split; [ apply H1 | apply H2 ]; lra.
  - exists e2. split; [ exact P2 | ]. intros e He. split; [ apply H1 | apply H2 ]; lra.
Qed.

Lemma move_inside : forall t m x d, in_feature t m x -> dir t m d ->
  exists e0, 0 < e0 /\ forall e, - e0 <= e <= e0 -> inside t (move x d e).
Proof.
  intros [ [a b] c] [ [m0 m1] m2] x d (u & v & w & (W0 & W1 & W2 & S) & X & Y & Z) (du & dv & dw & (F0 & F1 & F2 & DS) & DX & DY & DZ).
  destruct (small_both _ _ (small_both _ _ (small_step m0 u du W0 F0) (small_step m1 v dv W1 F1)) (small_step m2 w dw W2 F2)) as (e0 & P & H).
  exists e0. split; [ exact P | ]. intros e He. destruct (H e He) as [ [A B] C].
  exists (u + e * du), (v + e * dv), (w + e * dw). split; [ repeat split; try assumption | ].
  - transitivity ((u + v + w) + e * (du + dv + dw)); [ ring | ]. rewrite S, DS. ring.
  - unfold same_point, move, comb, vx, vy, vz in *. cbn [fst snd] in *. rewrite X, Y, Z, DX, DY, DZ. repeat split; ring.
Qed.

Lemma inside_unique : forall t u v w x, nondegenerate t -> inside t x -> u + v + w == 1 -> same_point x (comb t u v w) ->
  0 <= u /\ 0 <= v /\ 0 <= w.
Proof.
  intros t u v w x N (u' & v' & w' & (P0 & P1 & P2 & S) & E) S' E'.
  destruct (comb_inj t u v w u' v' w' N) as (A & B & C).
  - rewrite S, S'. reflexivity.
  - eapply same_trans; [ apply same_sym; exact E' | exact E ].
  - lra.
Qed.

Lemma between_dir : forall t m x y z, nondegenerate t -> in_feature t m x -> inside t y -> inside t z ->
  same_point x (middle y z) -> dir t m (vsub y z).
Proof.
  intros [ [a b] c] [ [m0 m1] m2] x y z N (u & v & w & (W0 & W1 & W2 & S) & X) (u1 & v1 & w1 & (A0 & A1 & A2 & S1) & Y) (u2 & v2 & w2 & (B0 & B1 & B2 & S2) & Z) M.
  destruct (comb_inj (a, b, c) (u + u) (v + v) (w + w) (u1 + u2) (v1 + v2) (w1 + w2) N) as (E0 & E1 & E2).
  - lra.
  - destruct X as (Xx & Xy & Xz), Y as (Yx & Yy & Yz), Z as (Zx & Zy & Zz), M as (Mx & My & Mz).
    unfold same_point, comb, middle, vx, vy, vz in *. cbn [fst snd] in *. rewrite half_eq in Mx, My, Mz. repeat split; lra.
  - exists (u1 - u2), (v1 - v2), (w1 - w2). split.
    + repeat split; [ | | | lra ]; [ destruct m0 | destruct m1 | destruct m2 ]; cbn in *; try exact I; lra.
    + destruct Y as (Yx & Yy & Yz), Z as (Zx & Zy & Zz). unfold same_point, comb, vsub, vx, vy, vz in *. cbn [fst snd] in *.
      rewrite Yx, Yy, Yz, Zx, Zy, Zz. repeat split; ring.
Qed.

Lemma feature_inside : forall t m x, in_feature t m x -> inside t x.
Proof.
  intros t [ [m0 m1] m2] x (u & v & w & (W0 & W1 & W2 & S) & X). exists u, v, w. split; [ | exact X ].
  assert (K : forall m k, weight m k -> 0 <= k) by (intros [ | ] k H; cbn in H; lra). repeat split; eauto.
Qed.
Lemma inside_feature : forall t x, inside t x -> exists m, in_feature t m x.
Proof.
  intros t x (u & v & w & (A & B & C & S) & X).
  assert (K : forall k, 0 <= k -> exists m, weight m k).
  { intros k Hk. destruct (Qlt_le_dec 0 k) as [L | L]; [ exists true; exact L | exists false; cbn; lra ]. }
  destruct (K u A) as [m0 W0], (K v B) as [m1 W1], (K w C) as [m2 W2]. exists (m0, m1, m2), u, v, w. auto.
Qed.

Lemma vertex_iff : forall l r m k x, nondegenerate l -> nondegenerate r -> in_feature l m x -> in_feature r k x ->
  (is_vertex l r x <-> transversal l r m k).
Proof.
  intros l r m k x Nl Nr Fl Fr. split.
  - intros [_ H] d Dl Dr.
    destruct (small_both _ _ (move_inside l m x d Fl Dl) (move_inside r k x d Fr Dr)) as (e & P & Hm).
    destruct (Hm e ltac:(lra)) as [Ly Ry]. destruct (Hm (- e) ltac:(lra)) as [Lz Rz].
    destruct (H _ _ (conj Ly Ry) (conj Lz Rz)) as (X & Y & Z).
    + unfold same_point, middle, move, vx, vy, vz. cbn [fst snd]. rewrite !half_eq. repeat split; ring.
    + unfold move, vx, vy, vz in *. cbn [fst snd] in *. unfold zero3, vx, vy, vz.
      repeat split; apply (mult_zero e); lra.
  - intro T. split; [ split; eapply feature_inside; eassumption | ]. intros y z [Ly Ry] [Lz Rz] M.
    destruct (T (vsub y z)) as (X & Y & Z).
    + eapply between_dir; eassumption.
    + eapply between_dir; eassumption.
    + unfold vsub, vx, vy, vz in *. cbn [fst snd] in *. unfold same_point, vx, vy, vz. repeat split; lra.
Qed.

(** A vertex lies strictly between no two points of the intersection. *)
Definition mix (y z : vec3) (t : Q) : vec3 := ((1 - t) * vx y + t * vx z, (1 - t) * vy y + t * vy z, (1 - t) * vz y + t * vz z).
Lemma inside_mix : forall t y z k, 0 <= k <= 1 -> inside t y -> inside t z -> inside t (mix y z k).
Proof.
  intros [ [a b] c] y z k Hk (u1 & v1 & w1 & (A0 & A1 & A2 & S1) & Y) (u2 & v2 & w2 & (B0 & B1 & B2 & S2) & Z).
  exists ((1 - k) * u1 + k * u2), ((1 - k) * v1 + k * v2), ((1 - k) * w1 + k * w2). split.
  - repeat split; nra.
  - destruct Y as (Yx & Yy & Yz), Z as (Zx & Zy & Zz). unfold same_point, comb, mix, vx, vy, vz in *. cbn [fst snd] in *.
    rewrite Yx, Yy, Yz, Zx, Zy, Zz. repeat split; ring.
Qed.
Lemma both_mix : forall l r y z k, 0 <= k <= 1 -> both l r y -> both l r z -> both l r (mix y z k).
Proof. intros l r y z k Hk [A B] [C D]. split; apply inside_mix; assumption. Qed.
Lemma both_same : forall l r x y, same_point x y -> both l r x -> both l r y.
Proof.
  intros l r x y E [ (u & v & w & S & X) (u' & v' & w' & S' & X')]. split; [ exists u, v, w | exists u', v', w' ];
    (split; [ assumption | ]); eapply same_trans; try eassumption; apply same_sym; exact E.
Qed.

Lemma vertex_mix : forall l r x y z k, is_vertex l r x -> both l r y -> both l r z -> 0 < k -> k < 1 ->
  same_point x (mix y z k) -> same_point x y /\ same_point x z.
Proof.
  intros l r x y z k [_ H] By Bz K0 K1 M.
  (* x is the middle of two points of the segment *)
  assert (G : exists e, 0 < e /\ e <= k /\ k + e <= 1) by (destruct (Qlt_le_dec k (1 - k)); [ exists k | exists (1 - k) ]; lra).
  destruct G as (e & Pe & E0 & E1).
  assert (By' := both_mix l r y z (k - e) ltac:(lra) By Bz). assert (Bz' := both_mix l r y z (k + e) ltac:(lra) By Bz).
  destruct M as (Mx & My & Mz).
  destruct (H _ _ By' Bz') as (X & Y & Z).
  { unfold same_point, middle, mix, vx, vy, vz in *. cbn [fst snd] in *. rewrite !half_eq. rewrite Mx, My, Mz. repeat split; ring. }
  unfold mix, vx, vy, vz in *. cbn [fst snd] in *.
  assert (Kx : fst (fst z) - fst (fst y) == 0) by (apply (mult_zero e); [ lra | nra ]).
  assert (Ky : snd (fst z) - snd (fst y) == 0) by (apply (mult_zero e); [ lra | nra ]).
  assert (Kz : snd z - snd y == 0) by (apply (mult_zero e); [ lra | nra ]).
  assert (Lx : fst (fst z) == fst (fst y)) by lra. assert (Ly : snd (fst z) == snd (fst y)) by lra. assert (Lz : snd z == snd y) by lra.
  unfold same_point, vx, vy, vz. rewrite Mx, My, Mz, Lx, Ly, Lz. repeat split; ring.
Qed.
