(** * Faces that planes keep apart

    A way to check that the faces of a mesh meet at common edges and vertices only: for two
    faces there is a plane with the one on the one side and the other on the other, such
    that the corners of the first face on the plane are corners of the second; and another plane
    with the faces exchanged. *)
From Coq Require Import List Arith NArith Bool QArith Lqa Lia.
From Verif Require Import Model_base Proof_base Model_geometry Model_soup.
From Verif Require Import Spec_candidates Spec_defects Spec_ffi Spec_corefine Proof_bridge Proof_mix_faces Proof_fan Proof_extreme.
Import ListNotations.
Local Open Scope Q_scope.

(** A plane: its normal and the value of the points on it. *)
Definition level (H : vec3 * Q) (x : vec3) : Q := vdot (fst H) x - snd H.

Lemma level_same : forall H x y, same_point x y -> level H x == level H y.
Proof. intros [n d] x y (E1 & E2 & E3). unfold level, vdot. cbn [fst snd]. rewrite E1, E2, E3. reflexivity. Qed.
Lemma level_comb : forall H a b c u v w, u + v + w == 1 -> level H (comb (a, b, c) u v w) == u * level H a + v * level H b + w * level H c.
Proof. intros [n d] a b c u v w S. unfold level, comb, vdot. cbn [fst snd vx vy vz]. setoid_replace u with (1 - v - w) by lra. ring. Qed.

Definition conforms {P} (coords : P -> vec3) (t u : P * P * P) : Prop :=
  forall mi mj x, in_feature (triangle_of coords t) mi x -> in_feature (triangle_of coords u) mj x -> forall p, In p (pick mi t) <-> In p (pick mj u).

Section Splits.
  Context {P : Type}.
  Variable P_eqb : P -> P -> bool.
  Hypothesis P_eqb_ok : forall a b, P_eqb a b = true <-> a = b.
  Variable coords : P -> vec3.

  Definition corner_list (t : P * P * P) : list P := let '(a, b, c) := t in [a; b; c].
  (** [t] is on or below the plane, [u] on or above it. *)
  Definition splits (H : vec3 * Q) (t u : P * P * P) : bool :=
    forallb (fun q => Qle_bool 0 (level H (coords q))) (corner_list u) &&
    forallb (fun p => Qle_bool (level H (coords p)) 0 && (negb (Qle_bool 0 (level H (coords p))) || existsb (P_eqb p) (corner_list u))) (corner_list t).

  Lemma weight_pos : forall m a, weight m a -> 0 <= a.
  Proof. intros [ | ] a W; cbn in W; lra. Qed.
  Lemma weight_used : forall m a, weight m a -> (0 < a <-> m = true).
  Proof. intros [ | ] a W; cbn in W; split; intro H; auto; try discriminate; lra. Qed.

  (** The used corners are among those of the other. *)
  Lemma splits_corners : forall H t u mi mj x, splits H t u = true -> in_feature (triangle_of coords t) mi x -> in_feature (triangle_of coords u) mj x ->
    forall p, In p (pick mi t) -> In p (corner_list u).
  Proof.
    intros H [ [a b] c] [ [a' b'] c'] [ [m0 m1] m2] [ [n0 n1] n2] x S (u & v & w & (W0 & W1 & W2 & E) & X) (u' & v' & w' & (W0' & W1' & W2' & E') & X') p J.
    unfold triangle_of in X, X'. rename H into Hp. unfold splits in S. apply andb_true_iff in S. destruct S as (SU & ST). rewrite forallb_forall in SU, ST.
    pose proof (level_same Hp _ _ X) as L. rewrite (level_comb Hp _ _ _ _ _ _ E) in L.
    pose proof (level_same Hp _ _ X') as L'. rewrite (level_comb Hp _ _ _ _ _ _ E') in L'.
    assert (U0 : 0 <= level Hp (coords a')) by (apply Qle_bool_iff, SU; left; reflexivity).
    assert (U1 : 0 <= level Hp (coords b')) by (apply Qle_bool_iff, SU; right; left; reflexivity).
    assert (U2 : 0 <= level Hp (coords c')) by (apply Qle_bool_iff, SU; right; right; left; reflexivity).
    pose proof (weight_pos _ _ W0') as P0. pose proof (weight_pos _ _ W1') as P1. pose proof (weight_pos _ _ W2') as P2.
    assert (Pos : 0 <= level Hp x) by (rewrite L'; clear - U0 U1 U2 P0 P1 P2; nra).
    assert (T : forall k, In k [a; b; c] -> level Hp (coords k) <= 0 /\ (level Hp (coords k) < 0 \/ In k (corner_list (a', b', c')))).
    { intros k Jk. specialize (ST k Jk). apply andb_true_iff in ST. destruct ST as (S1 & S2). apply Qle_bool_iff in S1. split; [ exact S1 | ].
      apply orb_true_iff in S2. destruct S2 as [S2 | S2].
      - left. apply negb_true_iff in S2. destruct (Qlt_le_dec (level Hp (coords k)) 0) as [ | N]; [ assumption | ]. apply Qle_bool_iff in N. congruence.
      - right. apply existsb_exists in S2. destruct S2 as (z & Jz & Ez). apply P_eqb_ok in Ez. subst z. exact Jz. }
    destruct (T a) as (A1 & A2); [ left; reflexivity | ]. destruct (T b) as (B1 & B2); [ right; left; reflexivity | ]. destruct (T c) as (C1 & C2); [ right; right; left; reflexivity | ].
    pose proof (weight_pos _ _ W0) as Q0. pose proof (weight_pos _ _ W1) as Q1. pose proof (weight_pos _ _ W2) as Q2.
    assert (M0 : u * level Hp (coords a) <= 0) by (clear - Q0 A1; nra). assert (M1 : v * level Hp (coords b) <= 0) by (clear - Q1 B1; nra). assert (M2 : w * level Hp (coords c) <= 0) by (clear - Q2 C1; nra).
    assert (Z0 : u * level Hp (coords a) == 0) by lra. assert (Z1 : v * level Hp (coords b) == 0) by lra. assert (Z2 : w * level Hp (coords c) == 0) by lra.
    unfold pick in J. apply in_app_iff in J. rewrite in_app_iff in J. destruct J as [J | [J | J] ].
    - destruct m0; [ | destruct J ]. destruct J as [<- | [ ] ]. destruct A2 as [A2 | A2]; [ | exact A2 ]. exfalso. cbn in W0. clear - W0 Z0 A2. nra.
    - destruct m1; [ | destruct J ]. destruct J as [<- | [ ] ]. destruct B2 as [B2 | B2]; [ | exact B2 ]. exfalso. cbn in W1. clear - W1 Z1 B2. nra.
    - destruct m2; [ | destruct J ]. destruct J as [<- | [ ] ]. destruct C2 as [C2 | C2]; [ | exact C2 ]. exfalso. cbn in W2. clear - W2 Z2 C2. nra.
  Qed.

  (** A weight of a corner of the other, spread over the own corners. *)
  Lemma contribution : forall p0 p1 p2 q m a, p0 <> p1 -> p0 <> p2 -> p1 <> p2 -> weight m a -> (m = true -> In q [p0; p1; p2]) ->
    exists k0 k1 k2, 0 <= k0 /\ 0 <= k1 /\ 0 <= k2 /\ k0 + k1 + k2 == a /\
      same_point (comb (coords q, coords q, coords q) a 0 0) (comb (coords p0, coords p1, coords p2) k0 k1 k2) /\
      (0 < k0 <-> m = true /\ q = p0) /\ (0 < k1 <-> m = true /\ q = p1) /\ (0 < k2 <-> m = true /\ q = p2).
  Proof.
    intros p0 p1 p2 q m a N01 N02 N12 W J. destruct m; cbn in W.
    - destruct (J eq_refl) as [<- | [<- | [<- | [ ] ] ] ]; [ exists a, 0, 0 | exists 0, a, 0 | exists 0, 0, a ]; unfold same_point, comb; cbn [vx vy vz fst snd];
        (repeat split; try lra; try ring; intros; auto; try (destruct H; congruence); try (exfalso; lra)).
    - exists 0, 0, 0. unfold same_point, comb; cbn [vx vy vz fst snd]. rewrite W. (repeat split; try lra; try ring; intros; try (destruct H; discriminate)).
  Qed.

  Lemma corners_differ : forall p0 p1 p2, nondegenerate (triangle_of coords (p0, p1, p2)) -> p0 <> p1 /\ p0 <> p2 /\ p1 <> p2.
  Proof.
    intros p0 p1 p2 N. apply nd_flat in N. unfold triangle_of, Spec_solid.flat, Spec_side.degenerate, Spec_side.same, Spec_side.normal, vcross, vsub in N. cbn [vx vy vz fst snd] in N.
    repeat split; intro X; rewrite X in N; apply N; repeat split; ring.
  Qed.

  Lemma splits_conforms : forall H H' t u, splits H t u = true -> splits H' u t = true -> nondegenerate (triangle_of coords t) -> conforms coords t u.
  Proof.
    intros H H' t u S S' Nd mi mj x Ft Fu p.
    pose proof (splits_corners H t u mi mj x S Ft Fu) as J. pose proof (splits_corners H' u t mj mi x S' Fu Ft) as J'.
    destruct t as [ [p0 p1] p2], u as [ [q0 q1] q2], mi as [ [m0 m1] m2], mj as [ [n0 n1] n2]. destruct (corners_differ _ _ _ Nd) as (N01 & N02 & N12).
    destruct Ft as (u & v & w & (W0 & W1 & W2 & E) & X), Fu as (u' & v' & w' & (W0' & W1' & W2' & E') & X').
    cbn [pick corner_list] in J, J'.
    destruct (contribution p0 p1 p2 q0 n0 u' N01 N02 N12 W0') as (a0 & a1 & a2 & A0 & A1 & A2 & As & Ax & Ay0 & Ay1 & Ay2).
    { intro En. apply J'. rewrite En. left. reflexivity. }
    destruct (contribution p0 p1 p2 q1 n1 v' N01 N02 N12 W1') as (b0 & b1 & b2 & B0 & B1 & B2 & Bs & Bx & By0 & By1 & By2).
    { intro En. apply J'. rewrite En. apply in_app_iff. right. left. reflexivity. }
    destruct (contribution p0 p1 p2 q2 n2 w' N01 N02 N12 W2') as (c0 & c1 & c2 & C0 & C1 & C2 & Cs & Cx & Cy0 & Cy1 & Cy2).
    { intro En. apply J'. rewrite En. apply in_app_iff. right. apply in_app_iff. right. left. reflexivity. }
    destruct (weights_unique (triangle_of coords (p0, p1, p2)) u v w (a0 + b0 + c0) (a1 + b1 + c1) (a2 + b2 + c2) x Nd E) as (Eu & Ev & Ew).
    { lra. }
    { exact X. }
    { clear - X' Ax Bx Cx. unfold triangle_of, same_point, comb in *. cbn [vx vy vz fst snd] in *. destruct X' as (X1 & X2 & X3), Ax as (A1 & A2 & A3), Bx as (B1 & B2 & B3), Cx as (C1 & C2 & C3).
      repeat split; lra. }
    assert (K0 : m0 = true <-> (n0 = true /\ q0 = p0) \/ (n1 = true /\ q1 = p0) \/ (n2 = true /\ q2 = p0)).
    { rewrite <- (weight_used _ _ W0), <- Ay0, <- By0, <- Cy0, Eu. clear - A0 B0 C0. split; [ | intros [ ? | [ ? | ? ] ]; lra ].
      intro L. destruct (Qlt_le_dec 0 a0), (Qlt_le_dec 0 b0), (Qlt_le_dec 0 c0); auto; exfalso; lra. }
    assert (K1 : m1 = true <-> (n0 = true /\ q0 = p1) \/ (n1 = true /\ q1 = p1) \/ (n2 = true /\ q2 = p1)).
    { rewrite <- (weight_used _ _ W1), <- Ay1, <- By1, <- Cy1, Ev. clear - A1 B1 C1. split; [ | intros [ ? | [ ? | ? ] ]; lra ].
      intro L. destruct (Qlt_le_dec 0 a1), (Qlt_le_dec 0 b1), (Qlt_le_dec 0 c1); auto; exfalso; lra. }
    assert (K2 : m2 = true <-> (n0 = true /\ q0 = p2) \/ (n1 = true /\ q1 = p2) \/ (n2 = true /\ q2 = p2)).
    { rewrite <- (weight_used _ _ W2), <- Ay2, <- By2, <- Cy2, Ew. clear - A2 B2 C2. split; [ | intros [ ? | [ ? | ? ] ]; lra ].
      intro L. destruct (Qlt_le_dec 0 a2), (Qlt_le_dec 0 b2), (Qlt_le_dec 0 c2); auto; exfalso; lra. }
    clear - K0 K1 K2 J'.
    assert (Pick : forall (m0 m1 m2 : bool) (a b c : P) p, In p (pick (m0, m1, m2) (a, b, c)) <-> (m0 = true /\ a = p) \/ (m1 = true /\ b = p) \/ (m2 = true /\ c = p)).
    { clear. intros m0 m1 m2 a b c p. unfold pick. rewrite !in_app_iff. destruct m0, m1, m2; cbn [In]; intuition discriminate. }
    split; intro I.
    - apply Pick in I. apply Pick. destruct I as [ (I & <-) | [ (I & <-) | (I & <-) ] ]; [ apply K0 in I | apply K1 in I | apply K2 in I ]; exact I.
    - pose proof (J' p I) as Jp. apply Pick in I. apply Pick. destruct Jp as [<- | [<- | [<- | [ ] ] ] ]; [ left | right; left | right; right ]; (split; [ | reflexivity ]); [ apply K0 | apply K1 | apply K2 ]; exact I.
  Qed.

  Lemma self_conforms : forall t, nondegenerate (triangle_of coords t) -> conforms coords t t.
  Proof.
    intros [ [a b] c] Nd [ [m0 m1] m2] [ [n0 n1] n2] x (u & v & w & (W0 & W1 & W2 & E) & X) (u' & v' & w' & (W0' & W1' & W2' & E') & X') p.
    destruct (weights_unique _ _ _ _ _ _ _ x Nd E E' X X') as (Eu & Ev & Ew).
    assert (X0 : m0 = n0) by (destruct m0, n0; auto; cbn in *; exfalso; lra). assert (X1 : m1 = n1) by (destruct m1, n1; auto; cbn in *; exfalso; lra). assert (X2 : m2 = n2) by (destruct m2, n2; auto; cbn in *; exfalso; lra).
    subst. reflexivity.
  Qed.

  (** A vertex of the intersection is a common corner. *)
  Lemma conforms_vertex : forall t u x, conforms coords t u -> is_vertex (triangle_of coords t) (triangle_of coords u) x ->
    exists p, In p (corner_list t) /\ In p (corner_list u) /\ same_point x (coords p).
  Proof.
    intros t u x Co V. destruct (inside_feature _ _ (proj1 (proj1 V))) as (mi & Ft), (inside_feature _ _ (proj2 (proj1 V))) as (mj & Fu).
    pose proof (Co mi mj x Ft Fu) as J. clear Co Fu.
    assert (Sub : forall m (t : P * P * P) p, In p (pick m t) -> In p (corner_list t)).
    { intros [ [m0 m1] m2] [ [a b] c] p. unfold pick. rewrite !in_app_iff. destruct m0, m1, m2; cbn [In corner_list]; tauto. }
    assert (Ins : forall (t : P * P * P) p, In p (corner_list t) -> inside (triangle_of coords t) (coords p)).
    { intros [ [a b] c] p Jp. cbn [corner_list triangle_of] in *. destruct (corners_self (coords a) (coords b) (coords c)) as (Ka & Kb & Kc). destruct Jp as [<- | [<- | [<- | [ ] ] ] ]; assumption. }
    assert (Bo : forall p, In p (pick mi t) -> In p (corner_list t) /\ In p (corner_list u) /\ both (triangle_of coords t) (triangle_of coords u) (coords p)).
    { intros p Jp. pose proof (Sub _ _ _ Jp) as J1. apply J in Jp. apply Sub in Jp. repeat split; auto. }
    clear J Sub Ins. destruct t as [ [a b] c], mi as [ [m0 m1] m2], Ft as (k0 & k1 & k2 & (W0 & W1 & W2 & E) & X). unfold triangle_of in X. cbn [weight] in W0, W1, W2.
    assert (One : forall p, In p (pick (m0, m1, m2) (a, b, c)) -> same_point x (coords p) -> exists p, In p (corner_list (a, b, c)) /\ In p (corner_list u) /\ same_point x (coords p)).
    { intros p Jp S. exists p. destruct (Bo p Jp) as (J1 & J2 & _). auto. }
    assert (Two : forall p q k, In p (pick (m0, m1, m2) (a, b, c)) -> In q (pick (m0, m1, m2) (a, b, c)) -> 0 < k -> k < 1 -> same_point x (mix (coords p) (coords q) k) ->
      exists p, In p (corner_list (a, b, c)) /\ In p (corner_list u) /\ same_point x (coords p)).
    { intros p q k Jp Jq K0 K1 S. apply (One p Jp). apply (vertex_mix _ _ _ _ _ _ V (proj2 (proj2 (Bo p Jp))) (proj2 (proj2 (Bo q Jq))) K0 K1 S). }
    destruct m0, m1, m2; cbn [weight] in W0, W1, W2; [ .. | exfalso; lra ].
    - apply (One a); [ left; reflexivity | ].
      set (k := k1 / (k1 + k2)). assert (Ek : k * (k1 + k2) == k1) by (unfold k; field; lra). assert (Hk : 0 <= k <= 1) by (clear - Ek W1 W2; split; nra).
      destruct (vertex_mix _ _ x (coords a) (mix (coords c) (coords b) k) (1 - k0) V) as (S & _); try lra.
      + apply Bo. left. reflexivity.
      + apply both_mix; [ exact Hk | apply Bo; right; right; left; reflexivity | apply Bo; right; left; reflexivity ].
      + assert (E1 : (1 - k0) * k == k1) by (rewrite <- Ek; setoid_replace (1 - k0) with (k1 + k2) by lra; ring). assert (E2 : (1 - k0) * (1 - k) == k2) by lra. clear - X E1 E2.
        destruct (coords a) as [ [? ?] ?], (coords b) as [ [? ?] ?], (coords c) as [ [? ?] ?], x as [ [? ?] ?]. unfold mix. vs. destruct X as (X1 & X2 & X3). rewrite X1, X2, X3, <- E1, <- E2. repeat split; ring.
      + exact S.
    - apply (Two a b k1); [ left; reflexivity | right; left; reflexivity | exact W1 | lra | ]. assert (E1 : k0 == 1 - k1) by lra. clear - X E1 W2.
      destruct (coords a) as [ [? ?] ?], (coords b) as [ [? ?] ?], (coords c) as [ [? ?] ?], x as [ [? ?] ?]. unfold mix. vs. destruct X as (X1 & X2 & X3). rewrite X1, X2, X3, W2, E1. repeat split; ring.
    - apply (Two a c k2); [ left; reflexivity | right; left; reflexivity | exact W2 | lra | ]. assert (E1 : k0 == 1 - k2) by lra. clear - X E1 W1.
      destruct (coords a) as [ [? ?] ?], (coords b) as [ [? ?] ?], (coords c) as [ [? ?] ?], x as [ [? ?] ?]. unfold mix. vs. destruct X as (X1 & X2 & X3). rewrite X1, X2, X3, W1, E1. repeat split; ring.
    - apply (One a); [ left; reflexivity | ]. assert (E1 : k0 == 1) by lra. clear - X E1 W1 W2.
      destruct (coords a) as [ [? ?] ?], (coords b) as [ [? ?] ?], (coords c) as [ [? ?] ?], x as [ [? ?] ?]. vs. destruct X as (X1 & X2 & X3). rewrite X1, X2, X3, W1, W2, E1. repeat split; ring.
    - apply (Two b c k2); [ left; reflexivity | right; left; reflexivity | exact W2 | lra | ]. assert (E1 : k1 == 1 - k2) by lra. clear - X E1 W0.
      destruct (coords a) as [ [? ?] ?], (coords b) as [ [? ?] ?], (coords c) as [ [? ?] ?], x as [ [? ?] ?]. unfold mix. vs. destruct X as (X1 & X2 & X3). rewrite X1, X2, X3, W0, E1. repeat split; ring.
    - apply (One b); [ left; reflexivity | ]. assert (E1 : k1 == 1) by lra. clear - X E1 W0 W2.
      destruct (coords a) as [ [? ?] ?], (coords b) as [ [? ?] ?], (coords c) as [ [? ?] ?], x as [ [? ?] ?]. vs. destruct X as (X1 & X2 & X3). rewrite X1, X2, X3, W0, W2, E1. repeat split; ring.
    - apply (One c); [ left; reflexivity | ]. assert (E1 : k2 == 1) by lra. clear - X E1 W0 W1.
      destruct (coords a) as [ [? ?] ?], (coords b) as [ [? ?] ?], (coords c) as [ [? ?] ?], x as [ [? ?] ?]. vs. destruct X as (X1 & X2 & X3). rewrite X1, X2, X3, W0, W1, E1. repeat split; ring.
  Qed.

  (** ** The check of a mesh *)
  Definition kept_apart (planes : list (vec3 * Q)) (t u : P * P * P) : bool :=
    existsb (fun H => splits H t u) planes && existsb (fun H => splits H u t) planes.
  Lemma kept_apart_conforms : forall planes t u, kept_apart planes t u = true -> nondegenerate (triangle_of coords t) -> conforms coords t u.
  Proof.
    intros planes t u K Nd. apply andb_true_iff in K. destruct K as (K1 & K2). apply existsb_exists in K1, K2. destruct K1 as (H1 & _ & S1), K2 as (H2 & _ & S2).
    exact (splits_conforms H1 H2 t u S1 S2 Nd).
  Qed.
  Definition normal_of (t : P * P * P) : vec3 := let '(a, b, c) := t in vcross (vsub (coords b) (coords a)) (vsub (coords c) (coords a)).
  Definition has_normal (t : P * P * P) : bool := let n := normal_of t in negb (Qeq_bool (vx n) 0 && Qeq_bool (vy n) 0 && Qeq_bool (vz n) 0).
  Lemma has_normal_nd : forall t, has_normal t = true -> nondegenerate (triangle_of coords t).
  Proof.
    intros [ [a b] c] H. apply flat_nd. intros (X & Y & Z). unfold has_normal in H. apply negb_true_iff in H.
    assert (E : Qeq_bool (vx (normal_of (a, b, c))) 0 && Qeq_bool (vy (normal_of (a, b, c))) 0 && Qeq_bool (vz (normal_of (a, b, c))) 0 = true); [ | congruence ].
    rewrite !andb_true_iff, !Qeq_bool_iff. auto.
  Qed.
  (** The planes of the faces, each with both orientations. *)
  Definition face_planes (ts : list (P * P * P)) : list (vec3 * Q) :=
    flat_map (fun t => let n := normal_of t in let d := vdot n (coords (fst (fst t))) in
      [(n, d); ((- vx n, - vy n, - vz n), - d)]) ts.

  (** The corners of the faces. *)
  Definition triples {D} (m : soup P D) (d : P) : list (P * P * P) :=
    map (fun f : face => let '(a, b, c) := f in (nth a (points m) d, nth b (points m) d, nth c (points m) d)) (faces m).
  Lemma triples_corners : forall {D} (m : soup P D) d i t, face_corners m i t -> nth_error (triples m d) i = Some t.
  Proof.
    intros D m d i t (a & b & c & p & q & r & E & A & B & C & ->). unfold triples. rewrite nth_error_map, E. cbn [option_map].
    rewrite (nth_error_nth _ _ d A), (nth_error_nth _ _ d B), (nth_error_nth _ _ d C). reflexivity.
  Qed.

  Lemma simplicial_check : forall {D} (m : soup P D) d planes, let ts := triples m d in
    forallb has_normal ts = true ->
    forallb (fun i => forallb (fun j => Nat.eqb i j || match nth_error ts i, nth_error ts j with Some t, Some u => kept_apart planes t u | _, _ => false end) (seq 0 (length ts))) (seq 0 (length ts)) = true ->
    simplicial coords m.
  Proof.
    intros D m d planes ts Nd Ch i j t u mi mj x Ci Cj. apply (triples_corners m d) in Ci, Cj. fold ts in Ci, Cj. revert mi mj x. change (conforms coords t u).
    rewrite forallb_forall in Nd.
    destruct (Nat.eq_dec i j) as [<- | N].
    - rewrite Ci in Cj. injection Cj as <-. apply self_conforms, has_normal_nd, Nd. eapply nth_error_In. exact Ci.
    - rewrite forallb_forall in Ch. specialize (Ch i ltac:(apply in_seq; split; [ lia | apply nth_error_Some; congruence ])). rewrite forallb_forall in Ch.
      specialize (Ch j ltac:(apply in_seq; split; [ lia | apply nth_error_Some; congruence ])). rewrite Ci, Cj in Ch. apply Nat.eqb_neq in N. rewrite N in Ch. cbn [orb] in Ch.
      apply (kept_apart_conforms planes); [ exact Ch | ]. apply has_normal_nd, Nd. eapply nth_error_In. exact Ci.
  Qed.
End Splits.
