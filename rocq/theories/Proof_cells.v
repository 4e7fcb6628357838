(** * How two triangles meet: vertices, sides and common interior points *)
From Coq Require Import List Arith Bool NArith QArith Lqa Lia Setoid.
From Verif Require Import Model_base Model_geometry Model_soup Model_corefine Spec_candidates Spec_defects Spec_ffi Spec_corefine.
From Verif Require Import Proof_extreme Proof_hull Proof_ffi_result.
Import ListNotations.
Local Open Scope Q_scope.

Definition full : bool * bool * bool := (true, true, true).

(** A closed feature: the points whose other weights are zero. *)
Definition closed (t : triangle) (m : bool * bool * bool) (x : vec3) : Prop :=
  let '(m0, m1, m2) := m in
  exists u v w : Q, (0 <= u /\ 0 <= v /\ 0 <= w /\ u + v + w == 1) /\ (free m0 u /\ free m1 v /\ free m2 w) /\
    same_point x (comb t u v w).

Lemma closed_inside : forall t m x, closed t m x -> inside t x.
Proof. intros t [ [m0 m1] m2] x (u & v & w & A & _ & X). exists u, v, w. auto. Qed.
Lemma feature_closed : forall t m x, in_feature t m x -> closed t m x.
Proof.
  intros t [ [m0 m1] m2] x (u & v & w & (A & B & C & S) & X).
  assert (K : forall b k, weight b k -> 0 <= k /\ free b k) by (intros [ | ] k H; cbn in *; [ split; [ lra | exact I ] | split; [ lra | exact H ] ]).
  destruct (K _ _ A), (K _ _ B), (K _ _ C). exists u, v, w. auto 10.
Qed.
Lemma closed_same : forall t m x y, same_point x y -> closed t m x -> closed t m y.
Proof.
  intros t [ [m0 m1] m2] x y E (u & v & w & A & B & X). exists u, v, w. split; [ exact A | ]. split; [ exact B | ].
  eapply same_trans; [ apply same_sym; exact E | exact X ].
Qed.
Lemma inside_same : forall t x y, same_point x y -> inside t x -> inside t y.
Proof. intros t x y E (u & v & w & A & X). exists u, v, w. split; [ exact A | ]. eapply same_trans; [ apply same_sym; exact E | exact X ]. Qed.
Lemma feature_same : forall t m x y, same_point x y -> in_feature t m x -> in_feature t m y.
Proof. intros t [ [m0 m1] m2] x y E (u & v & w & A & X). exists u, v, w. split; [ exact A | ]. eapply same_trans; [ apply same_sym; exact E | exact X ]. Qed.
Lemma inside_closed : forall t x, inside t x -> closed t full x.
Proof. intros t x (u & v & w & A & X). exists u, v, w. cbn. auto. Qed.

(** The point of a segment. *)
Lemma mix_comb : forall t y z k u1 v1 w1 u2 v2 w2, same_point y (comb t u1 v1 w1) -> same_point z (comb t u2 v2 w2) ->
  same_point (mix y z k) (comb t ((1 - k) * u1 + k * u2) ((1 - k) * v1 + k * v2) ((1 - k) * w1 + k * w2)).
Proof.
  intros [ [a b] c] y z k u1 v1 w1 u2 v2 w2 (X & Y & Z) (X' & Y' & Z'). unfold mix. coords. rewrite X, Y, Z, X', Y', Z'. repeat split; ring.
Qed.

(** Features are extreme: when a point of a feature lies between two points of the
    triangle, they are in the (closed) feature as well. *)
Lemma closed_extreme : forall t m x y z k, nondegenerate t -> closed t m x -> inside t y -> inside t z -> 0 < k -> k < 1 ->
  same_point x (mix y z k) -> closed t m y /\ closed t m z.
Proof.
  intros t [ [m0 m1] m2] x y z k N (u & v & w & (P0 & P1 & P2 & S) & (F0 & F1 & F2) & X) (u1 & v1 & w1 & (A0 & A1 & A2 & S1) & Y)
    (u2 & v2 & w2 & (B0 & B1 & B2 & S2) & Z) K0 K1 M.
  pose proof (mix_comb t y z k _ _ _ _ _ _ Y Z) as C.
  destruct (comb_inj t u v w ((1 - k) * u1 + k * u2) ((1 - k) * v1 + k * v2) ((1 - k) * w1 + k * w2) N) as (E0 & E1 & E2);
    [ | exact (same_trans _ _ _ (same_trans _ _ _ (same_sym _ _ X) M) C) | ].
  { rewrite S. transitivity ((1 - k) * (u1 + v1 + w1) + k * (u2 + v2 + w2)); [ rewrite S1, S2; ring | ring ]. }
  assert (G : forall b r r1 r2, free b r -> 0 <= r1 -> 0 <= r2 -> r == (1 - k) * r1 + k * r2 -> free b r1 /\ free b r2).
  { clear - K0 K1. intros [ | ] r r1 r2 F H1 H2 E; cbn in *; [ auto | ]. rewrite F in E.
    assert (0 <= (1 - k) * r1) by (apply Qmult_le_0_compat; lra). assert (0 <= k * r2) by (apply Qmult_le_0_compat; lra).
    split; [ apply (mult_zero (1 - k)) | apply (mult_zero k) ]; lra. }
  destruct (G _ _ _ _ F0 A0 B0 E0), (G _ _ _ _ F1 A1 B1 E1), (G _ _ _ _ F2 A2 B2 E2).
  split; [ exists u1, v1, w1 | exists u2, v2, w2 ]; auto 10.
Qed.
Lemma middle_mix : forall y z, same_point (middle y z) (mix y z (1#2)).
Proof. intros y z. unfold middle, mix, same_point. cbn [vx vy vz fst snd]. unfold vx, vy, vz. cbn [fst snd]. repeat split; field. Qed.

Lemma closed_bits : forall t m m' x, nondegenerate t -> in_feature t m x -> closed t m' x -> (bits m <= bits m')%nat.
Proof.
  intros t [ [m0 m1] m2] [ [k0 k1] k2] x N (u & v & w & (A & B & C & S) & X) (u' & v' & w' & (P0 & P1 & P2 & S') & (F0 & F1 & F2) & X').
  destruct (comb_inj t u v w u' v' w' N) as (E0 & E1 & E2).
  - rewrite S, S'. reflexivity.
  - eapply same_trans; [ apply same_sym; exact X | exact X' ].
  - assert (G : forall b b' r r', weight b r -> free b' r' -> r == r' -> (Nat.b2n b <= Nat.b2n b')%nat).
    { intros [ | ] [ | ] r r' W F E; cbn in *; try lia. rewrite F in E. lra. }
    unfold bits. pose proof (G _ _ _ _ A F0 E0). pose proof (G _ _ _ _ B F1 E1). pose proof (G _ _ _ _ C F2 E2). lia.
Qed.

(** ** The corners of features *)
Section Corners.
  Context {P : Type}.
  Variable coords : P -> vec3.
  Definition among (ps : list P) (y : vec3) : Prop := exists p, In p ps /\ same_point y (coords p).

  Lemma closed_hull : forall t m x, closed (triangle_of coords t) m x <-> in_hull (among (pick m t)) x.
  Proof.
    intros [ [p q] r] [ [m0 m1] m2] x. cbn [triangle_of pick]. split.
    - intros (u & v & w & (A & B & C & S) & (F0 & F1 & F2) & X).
      assert (G : forall (b : bool) k p, free b k -> 0 <= k -> exists l, Forall (fun e => 0 <= fst e /\ among (if b then [p] else []) (snd e)) l /\ total l == k /\
        same_point (wsum l) (scale k (coords p))).
      { intros [ | ] k s F H; cbn in F.
        - exists [(k, coords s)]. split; [ constructor; [ split; [ exact H | exists s; split; [ left; reflexivity | apply same_refl ] ] | constructor ] | ].
          split; [ cbn; ring | ]. cbn [wsum]. coords. repeat split; ring.
        - exists []. split; [ constructor | ]. split; [ cbn; lra | ]. cbn [wsum]. coords. rewrite F. repeat split; ring. }
      destruct (G m0 u p F0 A) as (l0 & L0 & T0 & (X0 & Y0 & Z0)). destruct (G m1 v q F1 B) as (l1 & L1 & T1 & (X1 & Y1 & Z1)). destruct (G m2 w r F2 C) as (l2 & L2 & T2 & (X2 & Y2 & Z2)).
      exists (l0 ++ l1 ++ l2). split; [ | split ].
      + assert (K : forall ps l, (forall s, In s ps -> In s ((if m0 then [p] else []) ++ (if m1 then [q] else []) ++ (if m2 then [r] else []))) ->
          Forall (fun e => 0 <= fst e /\ among ps (snd e)) l ->
          Forall (fun e => 0 <= fst e /\ among ((if m0 then [p] else []) ++ (if m1 then [q] else []) ++ (if m2 then [r] else [])) (snd e)) l).
        { intros ps l Hs. apply Forall_impl. intros e [H (s & J & E)]. split; [ exact H | ]. exists s. auto. }
        apply Forall_app. split; [ | apply Forall_app; split ]; (eapply K; [ | eassumption ]); intros s J; rewrite !in_app_iff; tauto.
      + rewrite !total_app, T0, T1, T2. lra.
      + eapply same_trans; [ exact X | ]. destruct (wsum_app l0 (l1 ++ l2)) as (Xa & Ya & Za). destruct (wsum_app l1 l2) as (Xb & Yb & Zb).
        unfold scale, lin, comb, same_point in *. cbn [vx vy vz fst snd] in *. unfold vx, vy, vz in *. cbn [fst snd] in *.
        rewrite Xa, Ya, Za, Xb, Yb, Zb, X0, Y0, Z0, X1, Y1, Z1, X2, Y2, Z2. repeat split; ring.
    - intros (l & F & T & X).
      assert (K : forall l, Forall (fun e => 0 <= fst e /\ among ((if m0 then [p] else []) ++ (if m1 then [q] else []) ++ (if m2 then [r] else [])) (snd e)) l ->
        exists u v w, (0 <= u /\ 0 <= v /\ 0 <= w /\ u + v + w == total l) /\ (free m0 u /\ free m1 v /\ free m2 w) /\ same_point (wsum l) (comb (coords p, coords q, coords r) u v w)).
      { clear. induction l as [ | [k y] l IH]; intro F.
        - exists 0, 0, 0. split; [ cbn [total]; repeat split; lra | ]. split; [ destruct m0, m1, m2; cbn; repeat split; reflexivity | ]. cbn [wsum]. coords. repeat split; ring.
        - inversion F as [ | ? ? [Hk (s & J & Ey)] F']; subst. cbn [fst snd] in *. destruct (IH F') as (u & v & w & (A & B & C & S) & (F0 & F1 & F2) & (X & Y & Z)).
          destruct Ey as (Ex & Ey & Ez). rewrite !in_app_iff in J. destruct J as [J | [J | J] ].
          + destruct m0; [ destruct J as [<- | [ ] ] | destruct J ]. exists (k + u), v, w. split; [ cbn [total]; repeat split; lra | ]. split; [ cbn in *; auto | ].
            cbn [wsum]. coords. rewrite X, Y, Z, Ex, Ey, Ez. repeat split; ring.
          + destruct m1; [ destruct J as [<- | [ ] ] | destruct J ]. exists u, (k + v), w. split; [ cbn [total]; repeat split; lra | ]. split; [ cbn in *; auto | ].
            cbn [wsum]. coords. rewrite X, Y, Z, Ex, Ey, Ez. repeat split; ring.
          + destruct m2; [ destruct J as [<- | [ ] ] | destruct J ]. exists u, v, (k + w). split; [ cbn [total]; repeat split; lra | ]. split; [ cbn in *; auto | ].
            cbn [wsum]. coords. rewrite X, Y, Z, Ex, Ey, Ez. repeat split; ring. }
      destruct (K l F) as (u & v & w & (A & B & C & S) & G & Y). exists u, v, w. split; [ rewrite <- T; auto | ]. split; [ exact G | ]. eapply same_trans; eassumption.
  Qed.
  Lemma closed_pick : forall t m t' m' x, (forall p, In p (pick m t) -> In p (pick m' t')) ->
    closed (triangle_of coords t) m x -> closed (triangle_of coords t') m' x.
  Proof.
    intros t m t' m' x H. rewrite !closed_hull. intros (l & F & T & X). exists l. split; [ | auto ].
    eapply Forall_impl; [ | exact F ]. intros e [A (p & J & E)]. split; [ exact A | ]. exists p. auto.
  Qed.
End Corners.

(** ** Vertices *)
Lemma vertex_sym : forall T U x, is_vertex T U x -> is_vertex U T x.
Proof. intros T U x [ [A B] H]. split; [ split; assumption | ]. intros y z [Y1 Y2] [Z1 Z2]. apply H; split; assumption. Qed.
Lemma vertex_same : forall T U x y, same_point x y -> is_vertex T U x -> is_vertex T U y.
Proof.
  intros T U x y E [A H]. split; [ exact (both_same _ _ _ _ E A) | ]. intros u v Hu Hv M. apply H; [ exact Hu | exact Hv | ]. eapply same_trans; eassumption.
Qed.
Lemma side_swap : forall T U y z, is_side T U y z -> is_side U T y z.
Proof. intros T U y z H u v [A B] [C D]. apply H; split; assumption. Qed.

(** A vertex of the intersection of [T] and [U] is one of that of [T'] and [U] when it lies
    in the same feature of [T'] as of [T]. *)
Lemma vertex_transfer : forall {P} (coords : P -> vec3) t t' U m m' x,
  nondegenerate (triangle_of coords t') ->
  in_feature (triangle_of coords t) m x -> in_feature (triangle_of coords t') m' x ->
  (forall p, In p (pick m t) <-> In p (pick m' t')) ->
  is_vertex (triangle_of coords t) U x -> is_vertex (triangle_of coords t') U x.
Proof.
  intros P coords t t' U m m' x N F F' E [ [A B] V]. split; [ split; [ apply (feature_inside _ _ _ F') | exact B ] | ].
  intros y z [Y1 Y2] [Z1 Z2] M.
  destruct (closed_extreme _ m' x y z (1#2) N (feature_closed _ _ _ F') Y1 Z1) as [C1 C2]; [ reflexivity | reflexivity | | ].
  - eapply same_trans; [ exact M | apply middle_mix ].
  - assert (K : forall y, closed (triangle_of coords t') m' y -> inside (triangle_of coords t) y).
    { intros y0 C. apply (closed_inside _ m). apply (closed_pick coords t' m' t m); [ | exact C ]. intros p J. apply E, J. }
    apply V; [ split; [ apply K, C1 | exact Y2 ] | split; [ apply K, C2 | exact Z2 ] | exact M ].
Qed.

(** A corner of one triangle that lies in the other is a vertex. *)
Lemma corner_vertex : forall T U m x, nondegenerate T -> in_feature T m x -> bits m = 1%nat -> inside U x -> is_vertex T U x.
Proof.
  intros T U m x N F B I. split; [ split; [ exact (feature_inside _ _ _ F) | exact I ] | ].
  intros y z [Y _] [Z _] M. pose proof (between_dir T m x y z N F Y Z M) as D. rewrite dir_basis in D.
  assert (Z0 : zero3 (vsub y z)).
  { destruct T as [ [a b] c]. destruct m as [ [ [ | ] [ | ] ] [ | ] ]; cbn in B; try discriminate; exact D. }
  destruct Z0 as (A0 & A1 & A2). destruct y as [ [? ?] ?], z as [ [? ?] ?]. coords. repeat split; lra.
Qed.

(** ** Cells of dimension one *)
Lemma move_mix : forall x d s t, 0 < s -> 0 < t -> same_point x (mix (move x d s) (move x d (- t)) (s / (s + t))).
Proof. intros x d s t S T. unfold mix, move, same_point. cbn [vx vy vz fst snd]. unfold vx, vy, vz. cbn [fst snd]. repeat split; field; lra. Qed.
Lemma move_opp : forall x d s, same_point (move x (scale (-1) d) s) (move x d (- s)).
Proof. intros x d s. unfold move, scale, same_point. cbn [vx vy vz fst snd]. repeat split; ring. Qed.

(** The directions two features have in common: one line, or a plane. *)
Lemma common_line : forall T U m k d, nondegenerate T -> nondegenerate U -> dir T m d -> dir U k d -> ~ zero3 d ->
  (forall d', dir T m d' -> dir U k d' -> exists c, same_point d' (scale c d)) \/
  (m = full /\ k = full /\ zero3 (vcross (normal T) (normal U))).
Proof.
  intros T U m k d NT NU D1 D2 Nd.
  assert (one : forall s, (s = S0 \/ exists u, s = S1 u) -> in_span s d -> forall d', in_span s d' -> exists c, same_point d' (scale c d)).
  { intros s [-> | (u & ->)] Hd d' Hd'; [ exfalso; exact (Nd Hd) | ]. cbn in Hd, Hd'. destruct Hd as (a & A), Hd' as (b & B).
    assert (Na : ~ a == 0) by (intro Ea; apply Nd; destruct A as (A0 & A1 & A2); coords; rewrite A0, A1, A2, Ea; repeat split; ring).
    exists (b / a). destruct A as (A0 & A1 & A2), B as (B0 & B1 & B2). coords. rewrite A0, A1, A2, B0, B1, B2. repeat split; field; exact Na. }
  rewrite dir_basis in D1, D2.
  assert (C : forall t m, m = full \/ (basis t m = S0 \/ exists u, basis t m = S1 u)).
  { intros [ [a b] c] [ [ [ | ] [ | ] ] [ | ] ]; cbn; eauto. }
  destruct (C T m) as [-> | E1]; [ | left; intros d' H _; rewrite dir_basis in H; exact (one _ E1 D1 d' H) ].
  destruct (C U k) as [-> | E2]; [ | left; intros d' _ H; rewrite dir_basis in H; exact (one _ E2 D2 d' H) ].
  destruct (zero3_dec (vcross (normal T) (normal U))) as [Z | N]; [ right; auto | ].
  left. intros d' H1 H2. rewrite dir_basis in H1, H2.
  assert (orth : forall t v, in_span (basis t full) v -> vdot (normal t) v == 0).
  { intros [ [ [ [ax ay] az] [ [bx by_] bz] ] [ [cx cy] cz] ] [ [v1 v2] v3] (i & j & X & Y & Z). coords. rewrite X, Y, Z. ring. }
  pose proof (orth _ _ D1) as O1. pose proof (orth _ _ D2) as O2. pose proof (orth _ _ H1) as O3. pose proof (orth _ _ H2) as O4.
  apply parallel; [ exact Nd | ].
  destruct (zero3_dec (vcross d d')) as [Z | N']; [ exact Z | exfalso ]. apply N.
  assert (T1 : forall n, vdot n d == 0 -> vdot n d' == 0 -> zero3 (vcross (vcross d d') n)).
  { intros [ [n1 n2] n3] A B. destruct d as [ [d1 d2] d3], d' as [ [e1 e2] e3]. coords.
    repeat split.
    - transitivity (e1 * (n1 * d1 + n2 * d2 + n3 * d3) - d1 * (n1 * e1 + n2 * e2 + n3 * e3)); [ ring | rewrite A, B; ring ].
    - transitivity (e2 * (n1 * d1 + n2 * d2 + n3 * d3) - d2 * (n1 * e1 + n2 * e2 + n3 * e3)); [ ring | rewrite A, B; ring ].
    - transitivity (e3 * (n1 * d1 + n2 * d2 + n3 * d3) - d3 * (n1 * e1 + n2 * e2 + n3 * e3)); [ ring | rewrite A, B; ring ]. }
  destruct (parallel _ _ N' (T1 _ O1 O3)) as (a & A0 & A1 & A2). destruct (parallel _ _ N' (T1 _ O2 O4)) as (b & B0 & B1 & B2).
  revert A0 A1 A2 B0 B1 B2. generalize (vcross d d'), (normal T), (normal U). clear. intros [ [w1 w2] w3] [ [n1 n2] n3] [ [k1 k2] k3] A0 A1 A2 B0 B1 B2. coords.
  rewrite A0, A1, A2, B0, B1, B2. repeat split; ring.
Qed.

Definition strictly_between (y z x : vec3) : Prop := exists k, 0 < k /\ k < 1 /\ same_point x (mix y z k).

Lemma cell_cases : forall T U x, nondegenerate T -> nondegenerate U -> both T U x ->
  is_vertex T U x \/
  (exists y z, is_vertex T U y /\ is_vertex T U z /\ ~ same_point y z /\ is_side T U y z /\ strictly_between y z x) \/
  (in_feature T full x /\ in_feature U full x /\ zero3 (vcross (normal T) (normal U))).
Proof.
  intros T U x NT NU [IT IU]. apply inside_feature in IT. destruct IT as (m & FT). apply inside_feature in IU. destruct IU as (k & FU).
  destruct (transversal_decide T U m k NT NU) as [(d & D1 & D2 & Nd) | Tr]; [ right | left; apply (vertex_iff T U m k x NT NU FT FU); exact Tr ].
  destruct (common_line T U m k d NT NU D1 D2 Nd) as [Line | (-> & -> & Z)]; [ left | right; auto ].
  destruct (descend T U m k x d FT FU D1 D2 Nd) as (s & m1 & k1 & Ps & Fm1 & Fk1 & L1).
  assert (Nd' : ~ zero3 (scale (-1) d)) by (intros (X & Y & Z); apply Nd; coords; repeat split; lra).
  destruct (descend T U m k x (scale (-1) d) FT FU (dir_opp _ _ _ D1) (dir_opp _ _ _ D2) Nd') as (t & m2 & k2 & Pt & Fm2 & Fk2 & L2).
  apply (feature_same _ _ _ _ (move_opp x d t)) in Fm2, Fk2.
  set (y := move x d s) in *. set (z := move x d (- t)) in *.
  assert (By : both T U y) by (split; eapply feature_inside; eassumption).
  assert (Bz : both T U z) by (split; eapply feature_inside; eassumption).
  assert (Bx : both T U x) by (split; eapply feature_inside; eassumption).
  (* points of the line *)
  assert (Cy : closed T m y /\ closed U k y /\ closed T m z /\ closed U k z).
  { destruct (closed_extreme T m x y z (s / (s + t)) NT (feature_closed _ _ _ FT) (proj1 By) (proj1 Bz)) as [A B];
      [ apply Qlt_shift_div_l; lra | apply Qlt_shift_div_r; lra | apply move_mix; assumption | ].
    destruct (closed_extreme U k x y z (s / (s + t)) NU (feature_closed _ _ _ FU) (proj2 By) (proj2 Bz)) as [C D];
      [ apply Qlt_shift_div_l; lra | apply Qlt_shift_div_r; lra | apply move_mix; assumption | ]. auto. }
  destruct Cy as (Cy1 & Cy2 & Cz1 & Cz2).
  assert (lineof : forall v, closed T m v -> closed U k v -> exists c, same_point v (move x d c)).
  { intros v V1 V2.
    assert (Dv : forall t' mm, closed t' mm v -> in_feature t' mm x -> dir t' mm (vsub v x)).
    { intros [ [a b] c] [ [q0 q1] q2] (u1 & v1 & w1 & (P0 & P1 & P2 & S1) & (F0 & F1 & F2) & (X & Y & Z)) (u2 & v2 & w2 & (W0 & W1 & W2 & S2) & (X' & Y' & Z')).
      exists (u1 - u2), (v1 - v2), (w1 - w2). split.
      - assert (K : forall b p q, free b p -> weight b q -> free b (p - q)) by (intros [ | ] p q F W; cbn in *; [ exact I | lra ]).
        repeat split; [ apply K | apply K | apply K | lra ]; assumption.
      - coords. rewrite X, Y, Z, X', Y', Z'. repeat split; ring. }
    destruct (Line (vsub v x) (Dv _ _ V1 FT) (Dv _ _ V2 FU)) as (c & E0 & E1 & E2). exists c. destruct v as [ [? ?] ?], x as [ [? ?] ?]. unfold move. coords. repeat split; lra. }
  (* they lie between the ends *)
  assert (upto : forall v c, both T U v -> same_point v (move x d c) -> c <= s).
  { intros v c Bv E. destruct (Qlt_le_dec s c) as [L | L]; [ exfalso | exact L ].
    assert (M : same_point y (mix x v (s / c))).
    { destruct E as (E0 & E1 & E2). unfold y, mix, move, same_point in *. cbn [vx vy vz fst snd] in *. rewrite E0, E1, E2. repeat split; field; lra. }
    destruct (closed_extreme T m1 y x v (s / c) NT (feature_closed _ _ _ Fm1) (proj1 Bx) (proj1 Bv)) as [C1 _];
      [ apply Qlt_shift_div_l; lra | apply Qlt_shift_div_r; lra | exact M | ].
    destruct (closed_extreme U k1 y x v (s / c) NU (feature_closed _ _ _ Fk1) (proj2 Bx) (proj2 Bv)) as [C2 _];
      [ apply Qlt_shift_div_l; lra | apply Qlt_shift_div_r; lra | exact M | ].
    pose proof (closed_bits _ _ _ _ NT FT C1). pose proof (closed_bits _ _ _ _ NU FU C2). lia. }
  assert (downto : forall v c, both T U v -> same_point v (move x d c) -> - t <= c).
  { intros v c Bv E. destruct (Qlt_le_dec c (- t)) as [L | L]; [ exfalso | exact L ].
    assert (M : same_point z (mix x v (t / - c))).
    { destruct E as (E0 & E1 & E2). unfold z, mix, move, same_point in *. cbn [vx vy vz fst snd] in *. rewrite E0, E1, E2. repeat split; field; lra. }
    destruct (closed_extreme T m2 z x v (t / - c) NT (feature_closed _ _ _ Fm2) (proj1 Bx) (proj1 Bv)) as [C1 _];
      [ apply Qlt_shift_div_l; lra | apply Qlt_shift_div_r; lra | exact M | ].
    destruct (closed_extreme U k2 z x v (t / - c) NU (feature_closed _ _ _ Fk2) (proj2 Bx) (proj2 Bv)) as [C2 _];
      [ apply Qlt_shift_div_l; lra | apply Qlt_shift_div_r; lra | exact M | ].
    pose proof (closed_bits _ _ _ _ NT FT C1). pose proof (closed_bits _ _ _ _ NU FU C2). lia. }
  assert (seg : forall w, on_segment y z w -> closed T m w /\ closed U k w).
  { assert (K : forall t' mm, closed t' mm y -> closed t' mm z -> forall w, on_segment y z w -> closed t' mm w).
    { intros t' [ [q0 q1] q2] (u1 & v1 & w1 & (P0 & P1 & P2 & S1) & (F0 & F1 & F2) & Y) (u2 & v2 & w2 & (P0' & P1' & P2' & S2) & (G0 & G1 & G2) & Z) w Hw.
      rewrite on_segment_mix in Hw. destruct Hw as (r & Hr & E). exists ((1 - r) * u1 + r * u2), ((1 - r) * v1 + r * v2), ((1 - r) * w1 + r * w2). split; [ | split ].
      - assert (H : forall p q, 0 <= p -> 0 <= q -> 0 <= (1 - r) * p + r * q).
        { intros p q Hp Hq. assert (0 <= (1 - r) * p) by (apply Qmult_le_0_compat; lra). assert (0 <= r * q) by (apply Qmult_le_0_compat; lra). lra. }
        repeat split; [ apply H | apply H | apply H | ]; try assumption.
        transitivity ((1 - r) * (u1 + v1 + w1) + r * (u2 + v2 + w2)); [ ring | rewrite S1, S2; ring ].
      - assert (H : forall b p q, free b p -> free b q -> free b ((1 - r) * p + r * q)) by (intros [ | ] p q A B; cbn in *; [ exact I | rewrite A, B; ring ]).
        repeat split; apply H; assumption.
      - eapply same_trans; [ exact E | ]. apply mix_comb; assumption. }
    intros w Hw. split; [ exact (K T m Cy1 Cz1 w Hw) | exact (K U k Cy2 Cz2 w Hw) ]. }
  assert (Side : is_side T U y z).
  { intros u v Bu Bv M. destruct (seg _ M) as [C1 C2].
    destruct (closed_extreme T m _ u v (1#2) NT C1 (proj1 Bu) (proj1 Bv)) as [U1 V1]; [ reflexivity | reflexivity | apply middle_mix | ].
    destruct (closed_extreme U k _ u v (1#2) NU C2 (proj2 Bu) (proj2 Bv)) as [U2 V2]; [ reflexivity | reflexivity | apply middle_mix | ].
    assert (K : forall v, both T U v -> closed T m v -> closed U k v -> on_segment y z v).
    { intros v0 Bv0 A B. destruct (lineof v0 A B) as (c & E). pose proof (upto v0 c Bv0 E). pose proof (downto v0 c Bv0 E).
      rewrite on_segment_mix. exists ((s - c) / (s + t)). split; [ split; [ apply Qle_shift_div_l; lra | apply Qle_shift_div_r; lra ] | ].
      eapply same_trans; [ exact E | ]. unfold y, z, mix, move, same_point. cbn [vx vy vz fst snd]. repeat split; field; lra. }
    split; apply K; assumption. }
  assert (Nyz : ~ same_point y z).
  { intros (E0 & E1 & E2). apply Nd. unfold y, z, move in *. coords. repeat split; apply (mult_zero (s + t)); lra. }
  assert (Ends : forall r, same_point y (mix y z r) -> r == 0).
  { intros r (E0 & E1 & E2). destruct (Qeq_dec r 0) as [ | Nr]; [ assumption | exfalso ]. apply Nyz. unfold mix, same_point in *. cbn [vx vy vz fst snd] in *.
    repeat split; [ assert (K : vx y - vx z == 0) by (apply (mult_zero r); [ exact Nr | lra ]) | assert (K : vy y - vy z == 0) by (apply (mult_zero r); [ exact Nr | lra ]) | assert (K : vz y - vz z == 0) by (apply (mult_zero r); [ exact Nr | lra ]) ]; lra. }
  exists y, z. split; [ | split; [ | split; [ exact Nyz | split; [ exact Side | ] ] ] ].
  - split; [ exact By | ]. intros u v Bu Bv M.
    destruct (Side u v Bu Bv) as [Su Sv].
    { rewrite on_segment_mix. exists 0. split; [ lra | ]. eapply same_trans; [ apply same_sym; exact M | ]. unfold mix, same_point. cbn [vx vy vz fst snd]. repeat split; ring. }
    rewrite on_segment_mix in Su, Sv. destruct Su as (r1 & R1 & E1), Sv as (r2 & R2 & E2).
    assert (Z : (r1 + r2) / 2 == 0).
    { apply Ends. eapply same_trans; [ exact M | ]. destruct E1 as (X & Y & Z), E2 as (X' & Y' & Z'). unfold middle, mix, same_point in *. cbn [vx vy vz fst snd] in *.
      rewrite X, Y, Z, X', Y', Z'. repeat split; field. }
    assert (Z' : r1 + r2 == 0) by (transitivity (2 * ((r1 + r2) / 2)); [ field | rewrite Z; ring ]).
    assert (r1 == 0) by lra. assert (r2 == 0) by lra. destruct E1 as (X & Y & W), E2 as (X' & Y' & W'). unfold mix, same_point in *. cbn [vx vy vz fst snd] in *.
    rewrite X, Y, W, X', Y', W', H, H0. repeat split; reflexivity.
  - split; [ exact Bz | ]. intros u v Bu Bv M.
    destruct (Side u v Bu Bv) as [Su Sv].
    { rewrite on_segment_mix. exists 1. split; [ lra | ]. eapply same_trans; [ apply same_sym; exact M | ]. unfold mix, same_point. cbn [vx vy vz fst snd]. repeat split; ring. }
    rewrite on_segment_mix in Su, Sv. destruct Su as (r1 & R1 & E1), Sv as (r2 & R2 & E2).
    assert (Z : 1 - (r1 + r2) / 2 == 0).
    { assert (G : same_point z (mix y z ((r1 + r2) / 2))).
      { eapply same_trans; [ exact M | ]. destruct E1 as (X & Y & Z), E2 as (X' & Y' & Z'). unfold middle, mix, same_point in *. cbn [vx vy vz fst snd] in *.
        rewrite X, Y, Z, X', Y', Z'. repeat split; field. }
      set (r := (r1 + r2) / 2) in *. clearbody r. destruct (Qeq_dec (1 - r) 0) as [ | Nr]; [ assumption | exfalso ]. apply Nyz. destruct G as (G0 & G1 & G2). unfold mix, same_point in *. cbn [vx vy vz fst snd] in *.
      repeat split; [ assert (K : vx y - vx z == 0) by (apply (mult_zero (1 - r)); [ exact Nr | lra ]) | assert (K : vy y - vy z == 0) by (apply (mult_zero (1 - r)); [ exact Nr | lra ]) | assert (K : vz y - vz z == 0) by (apply (mult_zero (1 - r)); [ exact Nr | lra ]) ]; lra. }
    assert (Z' : 2 - (r1 + r2) == 0) by (transitivity (2 * (1 - (r1 + r2) / 2)); [ field | rewrite Z; ring ]).
    assert (r1 == 1) by lra. assert (r2 == 1) by lra. destruct E1 as (X & Y & W), E2 as (X' & Y' & W'). unfold mix, same_point in *. cbn [vx vy vz fst snd] in *.
    rewrite X, Y, W, X', Y', W', H, H0. repeat split; reflexivity.
  - exists (s / (s + t)). split; [ apply Qlt_shift_div_l; lra | ]. split; [ apply Qlt_shift_div_r; lra | ]. apply move_mix; assumption.
Qed.
