(** * The vertices of the intersection, in order *)
From Coq Require Import List Arith Bool NArith QArith Lqa Lia Setoid Permutation.
From Verif Require Import Model_base Proof_base Model_geometry Model_region Model_points Model_ffi.
From Verif Require Import Spec_defects Spec_ffi Proof_extreme Proof_hull Proof_ffi_orient Proof_ffi_calls Proof_ffi_plane Proof_ffi_edge Proof_ffi_all Proof_polygon.
Import ListNotations.
Local Open Scope nat_scope.

Lemma finite_choice : forall {D} (Q : nat -> D -> Prop) (d0 : D) n, (forall i, i < n -> exists d, Q i d) -> exists f : nat -> D, forall i, i < n -> Q i (f i).
Proof.
  intros D Q d0 n. induction n as [ | n IH]; intro H; [ exists (fun _ => d0); intros; lia | ].
  destruct IH as (f & Hf); [ intros i Hi; apply H; lia | ]. destruct (H n ltac:(lia)) as (d & Hd).
  exists (fun i => if i =? n then d else f i). intros i Hi. destruct (i =? n) eqn:E; [ apply Nat.eqb_eq in E; subst; exact Hd | apply Nat.eqb_neq in E; apply Hf; lia ].
Qed.

Definition crd (c : nat) (u : tri) : Q := let '(u0, u1, u2) := u in match c with 0 => u0 | 1 => u1 | _ => u2 end.
Definition bit (c : nat) (m : mask) : bool := let '(m0, m1, m2) := m in match c with 0 => m0 | 1 => m1 | _ => m2 end.
Definition union (m m' : mask) : mask := let '(a, b, c) := m in let '(a', b', c') := m' in (a || a', b || b', c || c').
Lemma weights_crd : forall m u c, c < 3 -> weights m u -> weight (bit c m) (crd c u).
Proof. intros [ [a b] c] [ [u0 u1] u2] [ | [ | [ | i] ] ] H (W0 & W1 & W2); cbn; assumption. Qed.
Lemma weights_nonneg : forall m u c, c < 3 -> weights m u -> (0 <= crd c u)%Q.
Proof. intros m u c H W. apply (weights_crd m u c H) in W. destruct (bit c m); cbn in W; lra. Qed.
Lemma bit_crd : forall m u c, c < 3 -> weights m u -> (bit c m = false <-> (crd c u == 0)%Q).
Proof. intros m u c H W. apply (weights_crd m u c H) in W. destruct (bit c m); cbn in W; split; intro X; try discriminate; try reflexivity; try assumption. lra. Qed.
Lemma weights_unique : forall m m' u, weights m u -> weights m' u -> m = m'.
Proof.
  intros [ [a b] c] [ [a' b'] c'] [ [u0 u1] u2] (A & B & C) (A' & B' & C').
  assert (K : forall x y v, weight x v -> weight y v -> x = y) by (intros [ | ] [ | ] v X Y; cbn in *; try reflexivity; lra).
  rewrite (K _ _ _ A A'), (K _ _ _ B B'), (K _ _ _ C C'). reflexivity.
Qed.
(** A union of two vertices means that a coordinate is zero in both, and conversely. *)
Lemma union_two : forall m m', bits m <> 0 -> bits m' <> 0 -> ~ (m = m' /\ bits m = 1) ->
  (bits (union m m') = 2 <-> exists c, c < 3 /\ bit c m = false /\ bit c m' = false).
Proof.
  intros m m' N N' D. split.
  - intro H. destruct m as [ [ [ | ] [ | ] ] [ | ] ], m' as [ [ [ | ] [ | ] ] [ | ] ]; cbn in H; try lia;
      solve [ exists 0; repeat split; lia | exists 1; repeat split; lia | exists 2; repeat split; lia ].
  - intros (c & Hc & X & Y). destruct c as [ | [ | [ | c] ] ]; [ | | | lia ];
      destruct m as [ [ [ | ] [ | ] ] [ | ] ], m' as [ [ [ | ] [ | ] ] [ | ] ]; cbn in *; try lia; try discriminate; exfalso; apply D; split; reflexivity.
Qed.

(** ** Algebra of [bdet] *)
Section Bdet.
  Local Open Scope Q_scope.
  Lemma bdet_rot : forall u v w, bdet v w u == bdet u v w.
  Proof. intros [ [? ?] ?] [ [? ?] ?] [ [? ?] ?]. unfold bdet. ring. Qed.
  Lemma bdet_swap : forall u v w, bdet v u w == - bdet u v w.
  Proof. intros [ [? ?] ?] [ [? ?] ?] [ [? ?] ?]. unfold bdet. ring. Qed.
  (** Four points: any coordinate satisfies the affine relation. *)
  Lemma bdet_four : forall c i j k l, (c < 3)%nat ->
    bdet j k l * crd c i - bdet i k l * crd c j + bdet i j l * crd c k - bdet i j k * crd c l == 0.
  Proof. intros [ | [ | [ | c] ] ] [ [? ?] ?] [ [? ?] ?] [ [? ?] ?] [ [? ?] ?] H; [ | | | lia ]; unfold bdet, crd; ring. Qed.
  Lemma bdet_four_sum : forall i j k l, one i -> one j -> one k -> one l -> bdet j k l - bdet i k l + bdet i j l - bdet i j k == 0.
  Proof.
    intros i j k l Oi Oj Ok Ol. pose proof (bdet_four 0 i j k l ltac:(lia)) as H0. pose proof (bdet_four 1 i j k l ltac:(lia)) as H1. pose proof (bdet_four 2 i j k l ltac:(lia)) as H2.
    assert (E : forall u, one u -> crd 0 u + crd 1 u + crd 2 u == 1) by (intros [ [? ?] ?] H; exact H).
    apply E in Oi, Oj, Ok, Ol. set (A := bdet j k l) in *. set (B := bdet i k l) in *. set (C := bdet i j l) in *. set (D := bdet i j k) in *.
    transitivity (A * (crd 0 i + crd 1 i + crd 2 i) - B * (crd 0 j + crd 1 j + crd 2 j) + C * (crd 0 k + crd 1 k + crd 2 k) - D * (crd 0 l + crd 1 l + crd 2 l)).
    - rewrite Oi, Oj, Ok, Ol. ring.
    - lra.
  Qed.
  Lemma bdet_column : forall c i j k, (c < 3)%nat -> crd c i == 0 -> crd c j == 0 -> crd c k == 0 -> bdet i j k == 0.
  Proof.
    intros [ | [ | [ | c] ] ] [ [? ?] ?] [ [? ?] ?] [ [? ?] ?] H X Y Z; [ | | | lia ]; unfold bdet, crd in *; rewrite X, Y, Z; ring.
  Qed.
  Lemma cross_bdet : forall T x y z u v w, one u -> one v -> one w -> same_point x (cmb T u) -> same_point y (cmb T v) -> same_point z (cmb T w) ->
    same_point (vcross (vsub y x) (vsub z x)) (scale (bdet u v w) (normal T)).
  Proof.
    intros [ [p q] r] x y z [ [u0 u1] u2] [ [v0 v1] v2] [ [w0 w1] w2] Ou Ov Ow X Y Z. unfold one, cmb, normal, bdet in *.
    assert (Eu : u0 == 1 - u1 - u2) by lra. assert (Ev : v0 == 1 - v1 - v2) by lra. assert (Ew : w0 == 1 - w1 - w2) by lra. clear Ou Ov Ow.
    destruct p as [ [p0 p1] p2], q as [ [q0 q1] q2], r as [ [r0 r1] r2], x as [ [x0 x1] x2], y as [ [y0 y1] y2], z as [ [z0 z1] z2].
    pts. destruct X as (X0 & X1 & X2), Y as (Y0 & Y1 & Y2), Z as (Z0 & Z1 & Z2).
    repeat split; rewrite ?X0, ?X1, ?X2, ?Y0, ?Y1, ?Y2, ?Z0, ?Z1, ?Z2, Eu, Ev, Ew; ring.
  Qed.
End Bdet.

(** ** The vertices *)
Section Vertices.
  Variables L R : triangle.
  Hypothesis NL : nondegenerate L.
  Hypothesis NR : nondegenerate R.
  Variable lst : list (mask * mask).
  Hypothesis Dl : NoDup lst.
  Hypothesis Il : forall m k, In (m, k) lst <-> meet L R m k.
  Notation n := (length lst).
  Definition none : mask * mask := ((false, false, false), (false, false, false)).
  Notation mm := (fun i => fst (nth i lst none)).
  Notation kk := (fun i => snd (nth i lst none)).

  Lemma meet_unique : forall m k x y, transversal L R m k -> in_feature L m x -> in_feature R k x -> in_feature L m y -> in_feature R k y -> same_point x y.
  Proof.
    intros m k x y Tr X1 X2 Y1 Y2.
    assert (D : forall t m, in_feature t m x -> in_feature t m y -> dir t m (vsub x y)).
    { intros [ [p q] r] [ [m0 m1] m2] (u & v & w & (W0 & W1 & W2 & S) & X) (u' & v' & w' & (W0' & W1' & W2' & S') & Y).
      exists (u - u')%Q, (v - v')%Q, (w - w')%Q.
      assert (K : forall b s s', weight b s -> weight b s' -> free b (s - s')%Q) by (intros [ | ] s s' A B; cbn in *; [ exact I | lra ]).
      split; [ repeat split; [ apply K | apply K | apply K | lra ]; assumption | ].
      destruct X as (Xx & Xy & Xz), Y as (Yx & Yy & Yz). destruct x as [ [? ?] ?], y as [ [? ?] ?], p as [ [? ?] ?], q as [ [? ?] ?], r as [ [? ?] ?]. pts.
      rewrite Xx, Xy, Xz, Yx, Yy, Yz. repeat split; ring. }
    destruct (Tr (vsub x y) (D L m X1 Y1) (D R k X2 Y2)) as (A & B & C). destruct x as [ [? ?] ?], y as [ [? ?] ?]. pts. repeat split; lra.
  Qed.

  (** The point, and its coordinates in both triangles. *)
  Definition located (i : nat) (d : vec3 * tri * tri) : Prop :=
    let '(x, u, v) := d in
    one u /\ one v /\ same_point x (cmb L u) /\ same_point x (cmb R v) /\ weights (mm i) u /\ weights (kk i) v.
  Lemma located_exists : exists f : nat -> vec3 * tri * tri, forall i, i < n -> located i (f i).
  Proof.
    apply finite_choice; [ exact ((0, 0, 0)%Q, (0, 0, 0)%Q, (0, 0, 0)%Q) | ]. intros i Hi.
    assert (J : In (mm i, kk i) lst) by (rewrite <- surjective_pairing; apply nth_In; exact Hi).
    apply Il in J. destruct J as ((x & X & Y) & _). unfold located. cbn beta in X, Y.
    destruct (mm i) as [ [m0 m1] m2], (kk i) as [ [k0 k1] k2].
    destruct X as (u0 & u1 & u2 & (A0 & A1 & A2 & Su) & Xu). destruct Y as (v0 & v1 & v2 & (B0 & B1 & B2 & Sv) & Xv).
    exists (x, (u0, u1, u2), (v0, v1, v2)). cbn. repeat split; try assumption; apply Xu || apply Xv.
  Qed.

  Variable f : nat -> vec3 * tri * tri.
  Hypothesis Hf : forall i, i < n -> located i (f i).
  Definition px (i : nat) : vec3 := fst (fst (f i)).
  Definition ul (i : nat) : tri := snd (fst (f i)).
  Definition ur (i : nat) : tri := snd (f i).
  Lemma located_f : forall i, i < n -> one (ul i) /\ one (ur i) /\ same_point (px i) (cmb L (ul i)) /\ same_point (px i) (cmb R (ur i)) /\ weights (mm i) (ul i) /\ weights (kk i) (ur i).
  Proof. intros i Hi. specialize (Hf i Hi). unfold located, px, ul, ur in *. destruct (f i) as [ [x u] v]. exact Hf. Qed.
  Lemma px_features : forall i, i < n -> in_feature L (mm i) (px i) /\ in_feature R (kk i) (px i).
  Proof.
    intros i Hi. destruct (located_f i Hi) as (A & B & C & D & E & F).
    split; [ apply (feature_coords L _ _ (ul i) NL A C); exact E | apply (feature_coords R _ _ (ur i) NR B D); exact F ].
  Qed.
  Lemma px_vertex : forall i, i < n -> is_vertex L R (px i).
  Proof.
    intros i Hi. destruct (px_features i Hi) as [A B]. apply (vertex_iff L R _ _ _ NL NR A B).
    assert (J : In (mm i, kk i) lst) by (rewrite <- surjective_pairing; apply nth_In; exact Hi). apply Il in J. apply J.
  Qed.
  Lemma px_both : forall i, i < n -> both L R (px i).
  Proof. intros i Hi. apply px_vertex. exact Hi. Qed.
  Lemma px_distinct : forall i j, i < n -> j < n -> same_point (px i) (px j) -> i = j.
  Proof.
    intros i j Hi Hj E. apply (proj1 (NoDup_nth lst none) Dl i j Hi Hj).
    destruct (px_features i Hi) as [A B]. destruct (px_features j Hj) as [C D].
    destruct (located_f i Hi) as (O1 & O2 & C1 & C2 & W1 & W2).
    apply (in_feature_same _ _ _ _ (same_sym _ _ E)) in C, D.
    apply (feature_coords L _ _ (ul i) NL O1 C1) in C. apply (feature_coords R _ _ (ur i) NR O2 C2) in D.
    rewrite (surjective_pairing (nth i lst none)), (surjective_pairing (nth j lst none)). f_equal; eapply weights_unique; eassumption.
  Qed.
  Lemma vertex_px : forall x, is_vertex L R x -> exists i, i < n /\ same_point x (px i).
  Proof.
    intros x V. destruct (inside_feature _ _ (proj1 (proj1 V))) as (m & A). destruct (inside_feature _ _ (proj2 (proj1 V))) as (k & B).
    pose proof (proj1 (vertex_iff L R m k x NL NR A B) V) as Tr.
    assert (J : In (m, k) lst) by (apply Il; split; [ exists x; auto | exact Tr ]).
    destruct (In_nth lst (m, k) none J) as (i & Hi & E). exists i. split; [ exact Hi | ].
    destruct (px_features i Hi) as [C D]. rewrite E in C, D. cbn in C, D. exact (meet_unique m k x (px i) Tr A B C D).
  Qed.

  (** Three vertices are never on a line. *)
  Lemma not_collinear : forall i j k, i < n -> j < n -> k < n -> i <> j -> j <> k -> i <> k -> ~ zero3 (vcross (vsub (px j) (px i)) (vsub (px k) (px i))).
  Proof.
    intros i j k Hi Hj Hk Nij Njk Nik Z.
    assert (Nd : ~ zero3 (vsub (px j) (px i))).
    { intros (A & B & C). apply Nij. apply px_distinct; [ exact Hi | exact Hj | ]. destruct (px i) as [ [? ?] ?], (px j) as [ [? ?] ?]. pts. repeat split; lra. }
    destruct (parallel _ _ Nd Z) as (t & E).
    pose proof (px_both i Hi) as Bi. pose proof (px_both j Hj) as Bj. pose proof (px_both k Hk) as Bk.
    assert (M : forall i j k t, i < n -> j < n -> k < n -> i <> j -> i <> k -> (0 < t)%Q -> (t < 1)%Q -> same_point (px i) (mix (px j) (px k) t) -> False).
    { intros a b c s Ha Hb Hc Nab Nac S0 S1 X. destruct (vertex_mix L R (px a) (px b) (px c) s (px_vertex a Ha) (px_both b Hb) (px_both c Hc) S0 S1 X) as [Y _].
      apply Nab. apply px_distinct; assumption. }
    destruct (Qlt_le_dec t 0) as [T0 | T0].
    - (* i between k and j *)
      assert (P : (0 < 1 - t)%Q) by lra. assert (Et : (/ (1 - t) * (1 - t) == 1)%Q) by (field; lra). set (s := (/ (1 - t))%Q) in *.
      assert (S0 : (0 < s)%Q) by (apply Qinv_lt_0_compat; exact P). assert (S1 : (s < 1)%Q) by nra.
      apply (M i k j (1 - s)%Q); try assumption; try lra.
      destruct (px i) as [ [i0 i1] i2], (px j) as [ [j0 j1] j2], (px k) as [ [k0 k1] k2]. destruct E as (E0 & E1 & E2). pts.
      assert (K : forall a b c, (c - a == t * (b - a) -> a == (1 - (1 - s)) * c + (1 - s) * b)%Q).
      { intros a b c H. assert (Ec : (c == a + t * (b - a))%Q) by lra. rewrite Ec. setoid_replace ((1 - (1 - s)) * (a + t * (b - a)) + (1 - s) * b)%Q with (b + (s * (1 - t)) * (a - b))%Q by ring. rewrite Et. ring. }
      repeat split; apply K; assumption.
    - destruct (Qeq_dec t 0) as [Z0 | Z0].
      { apply Nik. apply px_distinct; try assumption. destruct (px i) as [ [i0 i1] i2], (px j) as [ [j0 j1] j2], (px k) as [ [k0 k1] k2]. destruct E as (E0 & E1 & E2). pts.
        rewrite Z0 in E0, E1, E2. repeat split; lra. }
      destruct (Qlt_le_dec t 1) as [T1 | T1].
      + apply (M k i j t); try assumption; try lra; [ congruence | congruence | ].
        destruct (px i) as [ [i0 i1] i2], (px j) as [ [j0 j1] j2], (px k) as [ [k0 k1] k2]. destruct E as (E0 & E1 & E2). pts. repeat split; lra.
      + destruct (Qeq_dec t 1) as [Z1 | Z1].
        { apply Njk. apply px_distinct; try assumption. destruct (px i) as [ [i0 i1] i2], (px j) as [ [j0 j1] j2], (px k) as [ [k0 k1] k2]. destruct E as (E0 & E1 & E2). pts.
          rewrite Z1 in E0, E1, E2. repeat split; lra. }
        assert (P : (1 < t)%Q) by lra. assert (Et : (/ t * t == 1)%Q) by (field; lra). set (s := (/ t)%Q) in *.
        assert (S0 : (0 < s)%Q) by (apply Qinv_lt_0_compat; lra). assert (S1 : (s < 1)%Q) by nra.
        apply (M j i k s); try assumption; try lra; [ congruence | ].
        destruct (px i) as [ [i0 i1] i2], (px j) as [ [j0 j1] j2], (px k) as [ [k0 k1] k2]. destruct E as (E0 & E1 & E2). pts.
        assert (K : forall a b c, (c - a == t * (b - a) -> b == (1 - s) * a + s * c)%Q).
        { intros a b c H. assert (Ec : (c == a + t * (b - a))%Q) by lra. rewrite Ec. setoid_replace ((1 - s) * a + s * (a + t * (b - a)))%Q with (a + (s * t) * (b - a))%Q by ring. rewrite Et. ring. }
        repeat split; apply K; assumption.
  Qed.

  Definition om (i j k : nat) : Q := bdet (ul i) (ul j) (ul k).
  Definition ccw (i j k : nat) : Prop := (0 < om i j k)%Q.
  Lemma om_cross : forall i j k, i < n -> j < n -> k < n -> same_point (vcross (vsub (px j) (px i)) (vsub (px k) (px i))) (scale (om i j k) (normal L)).
  Proof.
    intros i j k Hi Hj Hk. destruct (located_f i Hi) as (A & _ & B & _). destruct (located_f j Hj) as (C & _ & D & _). destruct (located_f k Hk) as (E & _ & F & _).
    apply cross_bdet; assumption.
  Qed.
  Lemma om_nonzero : forall i j k, i < n -> j < n -> k < n -> i <> j -> j <> k -> i <> k -> ~ (om i j k == 0)%Q.
  Proof.
    intros i j k Hi Hj Hk A B C E. apply (not_collinear i j k Hi Hj Hk A B C). destruct (om_cross i j k Hi Hj Hk) as (X & Y & Z).
    unfold zero3. rewrite X, Y, Z. unfold scale. cbn [vx vy vz fst snd]. rewrite E. repeat split; ring.
  Qed.
  (** The same with the coordinates of the right triangle. *)
  Lemma right_nonzero : forall i j k, i < n -> j < n -> k < n -> i <> j -> j <> k -> i <> k -> ~ (bdet (ur i) (ur j) (ur k) == 0)%Q.
  Proof.
    intros i j k Hi Hj Hk A B C E. apply (not_collinear i j k Hi Hj Hk A B C).
    destruct (located_f i Hi) as (_ & A1 & _ & B1 & _). destruct (located_f j Hj) as (_ & C1 & _ & D1 & _). destruct (located_f k Hk) as (_ & E1 & _ & F1 & _).
    destruct (cross_bdet R _ _ _ _ _ _ A1 C1 E1 B1 D1 F1) as (X & Y & Z).
    unfold zero3. rewrite X, Y, Z. unfold scale. cbn [vx vy vz fst snd]. rewrite E. repeat split; ring.
  Qed.

  Lemma ccw_rot : forall i j k, ccw i j k -> ccw j k i.
  Proof. intros i j k. unfold ccw, om. rewrite (bdet_rot (ul i) (ul j) (ul k)). auto. Qed.
  Lemma ccw_asym : forall i j k, ccw i j k -> ccw j i k -> False.
  Proof. intros i j k. unfold ccw, om. rewrite (bdet_swap (ul i) (ul j)). lra. Qed.
  Lemma ccw_orient : forall i j k, i < n -> j < n -> k < n -> i <> j -> j <> k -> i <> k -> ccw i j k \/ ccw j i k.
  Proof.
    intros i j k Hi Hj Hk A B C. pose proof (om_nonzero i j k Hi Hj Hk A B C) as Z. unfold ccw, om in *. rewrite (bdet_swap (ul i) (ul j)).
    destruct (Qlt_le_dec 0 (bdet (ul i) (ul j) (ul k))); [ auto | right; lra ].
  Qed.
  (** The affine relation between four of the points. *)
  Lemma four_points : forall i j k l (g : vec3 -> Q), i < n -> j < n -> k < n -> l < n -> g = vx \/ g = vy \/ g = vz ->
    (om j k l * g (px i) - om i k l * g (px j) + om i j l * g (px k) - om i j k * g (px l) == 0)%Q.
  Proof.
    intros i j k l g Hi Hj Hk Hl G. unfold om.
    destruct (located_f i Hi) as (_ & _ & A & _). destruct (located_f j Hj) as (_ & _ & B & _). destruct (located_f k Hk) as (_ & _ & C & _). destruct (located_f l Hl) as (_ & _ & D & _).
    pose proof (bdet_four 0 (ul i) (ul j) (ul k) (ul l) ltac:(lia)) as H0. pose proof (bdet_four 1 (ul i) (ul j) (ul k) (ul l) ltac:(lia)) as H1. pose proof (bdet_four 2 (ul i) (ul j) (ul k) (ul l) ltac:(lia)) as H2.
    set (a := bdet (ul j) (ul k) (ul l)) in *. set (b := bdet (ul i) (ul k) (ul l)) in *. set (c := bdet (ul i) (ul j) (ul l)) in *. set (d := bdet (ul i) (ul j) (ul k)) in *.
    clearbody a b c d. destruct L as [ [p q] r].
    assert (Q4 : forall x u, same_point x (cmb (p, q, r) u) -> (g x == crd 0 u * g p + crd 1 u * g q + crd 2 u * g r)%Q).
    { intros x [ [u0 u1] u2] (X & Y & Z). unfold cmb, comb, crd in *. cbn [vx vy vz fst snd] in *. destruct G as [-> | [-> | ->] ]; assumption. }
    rewrite (Q4 _ _ A), (Q4 _ _ B), (Q4 _ _ C), (Q4 _ _ D).
    setoid_replace (a * (crd 0 (ul i) * g p + crd 1 (ul i) * g q + crd 2 (ul i) * g r) - b * (crd 0 (ul j) * g p + crd 1 (ul j) * g q + crd 2 (ul j) * g r) +
      c * (crd 0 (ul k) * g p + crd 1 (ul k) * g q + crd 2 (ul k) * g r) - d * (crd 0 (ul l) * g p + crd 1 (ul l) * g q + crd 2 (ul l) * g r))%Q
      with ((a * crd 0 (ul i) - b * crd 0 (ul j) + c * crd 0 (ul k) - d * crd 0 (ul l)) * g p +
        (a * crd 1 (ul i) - b * crd 1 (ul j) + c * crd 1 (ul k) - d * crd 1 (ul l)) * g q + (a * crd 2 (ul i) - b * crd 2 (ul j) + c * crd 2 (ul k) - d * crd 2 (ul l)) * g r)%Q by ring.
    rewrite H0, H1, H2. ring.
  Qed.
  Lemma four_sum : forall i j k l, i < n -> j < n -> k < n -> l < n -> (om j k l - om i k l + om i j l - om i j k == 0)%Q.
  Proof. intros i j k l Hi Hj Hk Hl. apply bdet_four_sum; apply located_f; assumption. Qed.

  Lemma ccw_outer : forall i j k l, i < n -> j < n -> k < n -> l < n -> ccw l j k -> ccw i l k -> ccw i j l -> False.
  Proof.
    intros i j k l Hi Hj Hk Hl A B C. unfold ccw in *.
    pose proof (four_sum i j k l Hi Hj Hk Hl) as S. pose proof (fun g G => four_points i j k l g Hi Hj Hk Hl G) as F.
    assert (E1 : (om j k l == om l j k)%Q) by (unfold om; apply bdet_rot). assert (E2 : (om i k l == - om i l k)%Q).
    { unfold om. destruct (ul i) as [ [? ?] ?], (ul k) as [ [? ?] ?], (ul l) as [ [? ?] ?]. unfold bdet. ring. }
    set (al := om l j k) in *. set (be := om i l k) in *. set (ga := om i j l) in *. set (T := om i j k) in *.
    assert (ET : (T == al + be + ga)%Q) by lra. assert (PT : (0 < T)%Q) by lra. assert (PB : (0 < be + ga)%Q) by lra.
    set (s := (ga / (be + ga))%Q). assert (Es : (s * (be + ga) == ga)%Q) by (unfold s; field; lra).
    assert (S0 : (0 <= s <= 1)%Q) by nra.
    set (t := ((be + ga) / T)%Q). assert (Et : (t * T == be + ga)%Q) by (unfold t; field; lra). assert (T01 : (0 < t /\ t < 1)%Q) by nra.
    assert (M : same_point (px l) (mix (px i) (mix (px j) (px k) s) t)).
    { assert (K : forall g : vec3 -> Q, g = vx \/ g = vy \/ g = vz -> (g (px l) == (1 - t) * g (px i) + t * ((1 - s) * g (px j) + s * g (px k)))%Q).
      { intros g G. specialize (F g G). rewrite E1, E2 in F. apply (Qmult_inj_l _ _ T); [ lra | ].
        assert (X : (T * ((1 - t) * g (px i) + t * ((1 - s) * g (px j) + s * g (px k))) == (T - t * T) * g (px i) + (t * T) * g (px j) + (t * T) * s * (g (px k) - g (px j)))%Q) by ring.
        rewrite X, Et. assert (Y : ((be + ga) * s == ga)%Q) by lra. rewrite Y. assert (Z : (T - (be + ga) == al)%Q) by lra. rewrite Z. lra. }
      unfold same_point, mix. cbn [vx vy vz fst snd]. repeat split; apply (K _); auto. }
    destruct (vertex_mix L R _ _ _ t (px_vertex l Hl) (px_both i Hi) (both_mix L R _ _ s S0 (px_both j Hj) (px_both k Hk)) ltac:(tauto) ltac:(tauto) M) as [X _].
    apply px_distinct in X; [ | exact Hl | exact Hi ]. subst l. unfold ga, om in C. destruct (ul i) as [ [? ?] ?], (ul j) as [ [? ?] ?]. unfold bdet in C.
    match type of C with (0 < ?e)%Q => assert (Z : (e == 0)%Q) by ring; lra end.
  Qed.

  (** ** Adjacency *)
  Definition adj (i j : nat) : Prop := bits (union (mm i) (mm j)) = 2 \/ bits (union (kk i) (kk j)) = 2.
  Lemma mm_bits : forall i, i < n -> bits (mm i) <> 0 /\ bits (kk i) <> 0.
  Proof. intros i Hi. destruct (px_features i Hi) as [A B]. split; eapply in_feature_bits; eassumption. Qed.
  Lemma vertex_mask : forall t m x y, in_feature t m x -> in_feature t m y -> bits m = 1 -> same_point x y.
  Proof.
    intros t m x y A B H. destruct t as [ [p q] r]. destruct m as [ [ [ | ] [ | ] ] [ | ] ]; cbn in H; try lia.
    - eapply same_trans; [ apply (feature_start _ _ _ _ _ x (ends_01 p q r)) in A; exact A | ]. apply same_sym. apply (feature_start _ _ _ _ _ y (ends_01 p q r)) in B; exact B.
    - eapply same_trans; [ apply (feature_start _ _ _ _ _ x (ends_12 p q r)) in A; exact A | ]. apply same_sym. apply (feature_start _ _ _ _ _ y (ends_12 p q r)) in B; exact B.
    - eapply same_trans; [ apply (feature_start _ _ _ _ _ x (ends_20 p q r)) in A; exact A | ]. apply same_sym. apply (feature_start _ _ _ _ _ y (ends_20 p q r)) in B; exact B.
  Qed.
  Lemma adj_iff : forall i j, i < n -> j < n -> i <> j ->
    (adj i j <-> exists c, c < 3 /\ ((crd c (ul i) == 0)%Q /\ (crd c (ul j) == 0)%Q \/ (crd c (ur i) == 0)%Q /\ (crd c (ur j) == 0)%Q)).
  Proof.
    intros i j Hi Hj N. destruct (mm_bits i Hi) as [B1 B2]. destruct (mm_bits j Hj) as [B3 B4].
    destruct (px_features i Hi) as [F1 F2]. destruct (px_features j Hj) as [F3 F4].
    destruct (located_f i Hi) as (_ & _ & _ & _ & W1 & W2). destruct (located_f j Hj) as (_ & _ & _ & _ & W3 & W4).
    unfold adj. rewrite (union_two (mm i) (mm j)), (union_two (kk i) (kk j)); try assumption.
    - split.
      + intros [ (c & Hc & X & Y) | (c & Hc & X & Y) ]; exists c; (split; [ exact Hc | ]); [ left | right ]; (split; [ eapply bit_crd in X; [ exact X | exact Hc | eassumption ] | eapply bit_crd in Y; [ exact Y | exact Hc | eassumption ] ]).
      + intros (c & Hc & [ [X Y] | [X Y] ]); [ left | right ]; exists c; (split; [ exact Hc | ]); (split; [ eapply bit_crd; [ exact Hc | | exact X ]; eassumption | eapply bit_crd; [ exact Hc | | exact Y ]; eassumption ]).
    - intros [E H]. apply N. apply px_distinct; [ exact Hi | exact Hj | ]. cbn beta in *. rewrite <- E in F4. exact (vertex_mask R _ _ _ F2 F4 H).
    - intros [E H]. apply N. apply px_distinct; [ exact Hi | exact Hj | ]. cbn beta in *. rewrite <- E in F3. exact (vertex_mask L _ _ _ F1 F3 H).
  Qed.
  Lemma adj_sym : forall i j, adj i j -> adj j i.
  Proof.
    intros i j. unfold adj. assert (K : forall m m', union m m' = union m' m).
    { intros [ [a b] c] [ [a' b'] c']. unfold union. rewrite (orb_comm a), (orb_comm b), (orb_comm c). reflexivity. }
    rewrite (K (mm i)), (K (kk i)). auto.
  Qed.
  (** Three vertices do not share a zero coordinate. *)
  Lemma no_three : forall c i j k, c < 3 -> i < n -> j < n -> k < n -> i <> j -> j <> k -> i <> k ->
    ~ ((crd c (ul i) == 0)%Q /\ (crd c (ul j) == 0)%Q /\ (crd c (ul k) == 0)%Q) /\ ~ ((crd c (ur i) == 0)%Q /\ (crd c (ur j) == 0)%Q /\ (crd c (ur k) == 0)%Q).
  Proof.
    intros c i j k Hc Hi Hj Hk A B C. split; intros (X & Y & Z).
    - apply (om_nonzero i j k Hi Hj Hk A B C). exact (bdet_column c _ _ _ Hc X Y Z).
    - apply (right_nonzero i j k Hi Hj Hk A B C). exact (bdet_column c _ _ _ Hc X Y Z).
  Qed.
  Lemma right_four : forall c i j k l, c < 3 -> i < n -> j < n -> k < n -> l < n ->
    (om j k l * crd c (ur i) - om i k l * crd c (ur j) + om i j l * crd c (ur k) - om i j k * crd c (ur l) == 0)%Q.
  Proof.
    intros c i j k l Hc Hi Hj Hk Hl. pose proof (four_sum i j k l Hi Hj Hk Hl) as S. pose proof (fun g G => four_points i j k l g Hi Hj Hk Hl G) as F.
    destruct (located_f i Hi) as (_ & Oi & _ & A & _). destruct (located_f j Hj) as (_ & Oj & _ & B & _). destruct (located_f k Hk) as (_ & Ok & _ & C & _). destruct (located_f l Hl) as (_ & Ol & _ & D & _).
    set (a := om j k l) in *. set (b := om i k l) in *. set (e := om i j l) in *. set (d := om i j k) in *.
    destruct (ur i) as [ [i0 i1] i2] eqn:Ei, (ur j) as [ [j0 j1] j2] eqn:Ej, (ur k) as [ [k0 k1] k2] eqn:Ek, (ur l) as [ [l0 l1] l2] eqn:El. unfold one, cmb in *.
    destruct (comb_zero R (a * i0 - b * j0 + e * k0 - d * l0) (a * i1 - b * j1 + e * k1 - d * l1) (a * i2 - b * j2 + e * k2 - d * l2) NR) as (Z0 & Z1 & Z2).
    - transitivity (a * (i0 + i1 + i2) - b * (j0 + j1 + j2) + e * (k0 + k1 + k2) - d * (l0 + l1 + l2))%Q; [ ring | ]. rewrite Oi, Oj, Ok, Ol. lra.
    - destruct R as [ [p q] r]. assert (K : forall (g : vec3 -> Q), (g = vx \/ g = vy \/ g = vz) ->
        ((a * i0 - b * j0 + e * k0 - d * l0) * g p + (a * i1 - b * j1 + e * k1 - d * l1) * g q + (a * i2 - b * j2 + e * k2 - d * l2) * g r == 0)%Q).
      { intros g G. specialize (F g G).
        assert (Q4 : forall x u0 u1 u2, same_point x (comb (p, q, r) u0 u1 u2) -> (g x == u0 * g p + u1 * g q + u2 * g r)%Q).
        { intros x u0 u1 u2 (X & Y & Z). unfold comb in *. cbn [vx vy vz fst snd] in *. destruct G as [-> | [-> | ->] ]; assumption. }
        rewrite (Q4 _ _ _ _ A), (Q4 _ _ _ _ B), (Q4 _ _ _ _ C), (Q4 _ _ _ _ D) in F. rewrite <- F. ring. }
      unfold zero3, comb. cbn [vx vy vz fst snd]. repeat split; apply K; auto.
    - destruct c as [ | [ | [ | c] ] ]; [ exact Z0 | exact Z1 | exact Z2 | lia ].
  Qed.
  Lemma adj_support : forall i j k l, i < n -> j < n -> k < n -> l < n -> adj i j -> ccw i j k -> ccw j i l -> False.
  Proof.
    intros i j k l Hi Hj Hk Hl A P M. unfold ccw in *.
    assert (D : i <> j /\ j <> k /\ i <> k) by (apply (ccw_distinct ccw ccw_rot ccw_asym); exact P). destruct D as (N1 & N2 & N3).
    apply (adj_iff i j Hi Hj N1) in A. destruct A as (c & Hc & A).
    assert (M' : (om i j l < 0)%Q) by (unfold om in *; rewrite (bdet_swap (ul i) (ul j)) in M; lra).
    destruct (located_f k Hk) as (_ & _ & _ & _ & W1 & W2). destruct (located_f l Hl) as (_ & _ & _ & _ & W3 & W4).
    destruct (no_three c i j k Hc Hi Hj Hk N1 N2 N3) as [T1 T2]. destruct A as [ [X Y] | [X Y] ].
    - pose proof (bdet_four c (ul i) (ul j) (ul k) (ul l) Hc) as E. fold (om j k l) (om i k l) (om i j l) (om i j k) in E. rewrite X, Y in E.
      pose proof (weights_nonneg _ _ c Hc W1). pose proof (weights_nonneg _ _ c Hc W3). apply T1. repeat split; try assumption.
      assert (Z : (om i j l * crd c (ul k) == om i j k * crd c (ul l))%Q) by lra. nra.
    - pose proof (right_four c i j k l Hc Hi Hj Hk Hl) as E. rewrite X, Y in E.
      pose proof (weights_nonneg _ _ c Hc W2). pose proof (weights_nonneg _ _ c Hc W4). apply T2. repeat split; try assumption.
      assert (Z : (om i j l * crd c (ur k) == om i j k * crd c (ur l))%Q) by lra. nra.
  Qed.

  (** A line through two vertices with all others on one side is a side. *)
  Lemma support_adj : 3 <= n -> forall i j, i < n -> j < n -> i <> j -> (forall k, k < n -> k <> i -> k <> j -> ccw i j k) -> adj i j.
  Proof.
    intros N3 i j Hi Hj Nij All. apply (adj_iff i j Hi Hj Nij).
    assert (K : exists k, k < n /\ k <> i /\ k <> j).
    { destruct (Nat.eq_dec i 0), (Nat.eq_dec j 0), (Nat.eq_dec i 1), (Nat.eq_dec j 1); solve [ exists 0; lia | exists 1; lia | exists 2; lia ]. }
    destruct K as (k & Hk & Nki & Nkj). pose proof (All k Hk Nki Nkj) as Pk.
    destruct (located_f i Hi) as (Oi & Oi' & Ai & Ai' & Wi & Wi'). destruct (located_f j Hj) as (Oj & Oj' & Aj & Aj' & Wj & Wj'). destruct (located_f k Hk) as (Ok & Ok' & Ak & Ak' & Wk & Wk').
    assert (Dec : forall u v : tri, (exists c, c < 3 /\ (crd c u == 0)%Q /\ (crd c v == 0)%Q) \/ (forall c, c < 3 -> ~ ((crd c u == 0)%Q /\ (crd c v == 0)%Q))).
    { intros u v. assert (D : forall c, ((crd c u == 0)%Q /\ (crd c v == 0)%Q) \/ ~ ((crd c u == 0)%Q /\ (crd c v == 0)%Q)).
      { intro c. destruct (Qeq_dec (crd c u) 0), (Qeq_dec (crd c v) 0); tauto. }
      destruct (D 0) as [X | X]; [ left; exists 0; split; [ lia | exact X ] | ]. destruct (D 1) as [Y | Y]; [ left; exists 1; split; [ lia | exact Y ] | ].
      destruct (D 2) as [Z | Z]; [ left; exists 2; split; [ lia | exact Z ] | ]. right. intros [ | [ | [ | c] ] ] Hc; [ exact X | exact Y | exact Z | lia ]. }
    destruct (Dec (ul i) (ul j)) as [ (c & Hc & X) | NoL ]; [ exists c; auto | ]. destruct (Dec (ur i) (ur j)) as [ (c & Hc & X) | NoR ]; [ exists c; auto | ]. exfalso.
    set (y := middle (px i) (px j)). set (d := vsub (px i) (px k)).
    assert (Full : forall t u v w m1 m2, nondegenerate t -> one u -> one v -> one w -> same_point (px i) (cmb t u) -> same_point (px j) (cmb t v) -> same_point (px k) (cmb t w) ->
      weights m1 u -> weights m2 v -> (forall c, c < 3 -> ~ ((crd c u == 0)%Q /\ (crd c v == 0)%Q)) ->
      in_feature t (true, true, true) y /\ dir t (true, true, true) d).
    { intros t [ [u0 u1] u2] [ [v0 v1] v2] [ [w0 w1] w2] m1 m2 Nt Ou Ov Ow Xu Xv Xw Wu Wv No. unfold one, cmb in *. split.
      - assert (Pos : forall c, c < 3 -> (0 < crd c (u0, u1, u2) + crd c (v0, v1, v2))%Q).
        { intros c Hc. pose proof (weights_nonneg _ _ c Hc Wu). pose proof (weights_nonneg _ _ c Hc Wv). specialize (No c Hc).
          destruct (Qlt_le_dec 0 (crd c (u0, u1, u2) + crd c (v0, v1, v2))) as [X | X]; [ exact X | exfalso; apply No; split; lra ]. }
        pose proof (Pos 0 ltac:(lia)) as P0. pose proof (Pos 1 ltac:(lia)) as P1. pose proof (Pos 2 ltac:(lia)) as P2. cbn in P0, P1, P2.
        exists ((u0 + v0) / 2)%Q, ((u1 + v1) / 2)%Q, ((u2 + v2) / 2)%Q. split.
        + assert (H2 : forall e, (0 < e -> 0 < e / 2)%Q) by (intros e He; apply Qlt_shift_div_l; lra).
          cbn. repeat split; [ apply H2; exact P0 | apply H2; exact P1 | apply H2; exact P2 | ].
          setoid_replace ((u0 + v0) / 2 + (u1 + v1) / 2 + (u2 + v2) / 2)%Q with (((u0 + u1 + u2) + (v0 + v1 + v2)) / 2)%Q by field. rewrite Ou, Ov. reflexivity.
        + destruct t as [ [p q] r]. unfold y, middle. destruct Xu as (A0 & A1 & A2), Xv as (B0 & B1 & B2). unfold same_point, comb, vx, vy, vz in *. cbn [fst snd] in *.
          rewrite A0, A1, A2, B0, B1, B2. repeat split; field.
      - exists (u0 - w0)%Q, (u1 - w1)%Q, (u2 - w2)%Q. split; [ cbn; repeat split; try exact I; lra | ].
        destruct t as [ [p q] r]. unfold d. destruct Xu as (A0 & A1 & A2), Xw as (B0 & B1 & B2). unfold same_point, comb, vsub, vx, vy, vz in *. cbn [fst snd] in *.
        rewrite A0, A1, A2, B0, B1, B2. repeat split; ring. }
    destruct (Full L _ _ _ _ _ NL Oi Oj Ok Ai Aj Ak Wi Wj NoL) as [FL DL]. destruct (Full R _ _ _ _ _ NR Oi' Oj' Ok' Ai' Aj' Ak' Wi' Wj' NoR) as [FR DR].
    destruct (small_both _ _ (move_inside L _ _ _ FL DL) (move_inside R _ _ _ FR DR)) as (e0 & P0 & St).
    destruct (St e0 ltac:(lra)) as [ZL ZR]. set (z := move y d e0) in *.
    pose proof (hull_vertices L R z NL NR (conj ZL ZR)) as H. destruct H as (w & Fw & Tw & Sw).
    (* the linear function that is zero on the line *)
    set (g := fun x : vec3 => vdot (normal L) (vcross (vsub (px j) (px i)) (vsub x (px i)))).
    assert (Gx : forall p, p < n -> (g (px p) == om i j p * vdot (normal L) (normal L))%Q).
    { intros p Hp. unfold g. destruct (om_cross i j p Hi Hj Hp) as (X & Y & Z). unfold vdot at 1. rewrite X, Y, Z. unfold scale, vdot. cbn [vx vy vz fst snd]. ring. }
    assert (NN : (0 < vdot (normal L) (normal L))%Q).
    { pose proof (nondegenerate_normal L NL) as Z. destruct (normal L) as [ [a b] c]. unfold zero3, vdot, vx, vy, vz in *. cbn [fst snd] in *.
      destruct (Qlt_le_dec 0 (a * a + b * b + c * c)) as [X | X]; [ exact X | exfalso; apply Z ].
      assert (Sq : forall t, (0 <= t * t)%Q) by (intro t; nra). pose proof (Sq a). pose proof (Sq b). pose proof (Sq c).
      assert (S0 : forall t, (t * t == 0 -> t == 0)%Q) by (intros t Ht; destruct (Qeq_dec t 0) as [E | E]; [ exact E | exfalso; apply (mult_nonzero t t E E); exact Ht ]).
      repeat split; apply S0; lra. }
    assert (Gs : forall x x', same_point x x' -> (g x == g x')%Q).
    { intros x x' (X & Y & Z). unfold g. destruct x as [ [? ?] ?], x' as [ [? ?] ?], (px i) as [ [? ?] ?], (px j) as [ [? ?] ?], (normal L) as [ [? ?] ?]. pts. rewrite X, Y, Z. ring. }
    assert (Gv : forall x, is_vertex L R x -> (0 <= g x)%Q).
    { intros x V. destruct (vertex_px x V) as (p & Hp & E). rewrite (Gs _ _ E), (Gx p Hp).
      destruct (Nat.eq_dec p i) as [-> | Npi]; [ | destruct (Nat.eq_dec p j) as [-> | Npj] ].
      - assert (Z : (om i j i == 0)%Q) by (unfold om; destruct (ul i) as [ [? ?] ?], (ul j) as [ [? ?] ?]; unfold bdet; ring). rewrite Z. lra.
      - assert (Z : (om i j j == 0)%Q) by (unfold om; destruct (ul i) as [ [? ?] ?], (ul j) as [ [? ?] ?]; unfold bdet; ring). rewrite Z. lra.
      - pose proof (All p Hp Npi Npj) as Pp. unfold ccw in Pp. nra. }
    (* on a hull *)
    set (gl := fun x : vec3 => vdot (normal L) (vcross (vsub (px j) (px i)) x)).
    assert (Gl : forall x, (g x == gl x - gl (px i))%Q).
    { intro x. unfold g, gl. destruct x as [ [? ?] ?], (px i) as [ [? ?] ?], (px j) as [ [? ?] ?], (normal L) as [ [? ?] ?]. pts. ring. }
    assert (Gw : forall w, Forall (fun e => (0 <= fst e)%Q /\ is_vertex L R (snd e)) w -> (0 <= gl (wsum w) - total w * gl (px i))%Q).
    { clear w Fw Tw Sw. intros w. induction w as [ | [c x] w IH]; intro F.
      - cbn [wsum total]. assert (Z : (gl (0, 0, 0) == 0)%Q) by (unfold gl; destruct (px i) as [ [? ?] ?], (px j) as [ [? ?] ?], (normal L) as [ [? ?] ?]; pts; ring). rewrite Z. lra.
      - inversion F as [ | ? ? [Pc Vx] F']; subst. cbn [fst snd] in Pc, Vx. specialize (IH F'). cbn [wsum total].
        assert (Z : (gl ((c * vx x + vx (wsum w), c * vy x + vy (wsum w), c * vz x + vz (wsum w))%Q) == c * gl x + gl (wsum w))%Q).
        { unfold gl. destruct x as [ [? ?] ?], (wsum w) as [ [? ?] ?], (px i) as [ [? ?] ?], (px j) as [ [? ?] ?], (normal L) as [ [? ?] ?]. pts. ring. }
        rewrite Z. specialize (Gv x Vx). rewrite Gl in Gv. nra. }
    specialize (Gw w Fw). rewrite Tw in Gw.
    assert (Gz : (0 <= g z)%Q).
    { rewrite (Gs _ _ Sw), Gl. lra. }
    assert (Ez : (g z == - (e0 * (om i j k * vdot (normal L) (normal L))))%Q).
    { rewrite <- (Gx k Hk). unfold z, move, y, middle, d, g. destruct (px k) as [ [? ?] ?], (px i) as [ [? ?] ?], (px j) as [ [? ?] ?], (normal L) as [ [? ?] ?]. pts. field. }
    rewrite Ez in Gz. unfold ccw in Pk. assert (0 < om i j k * vdot (normal L) (normal L))%Q by nra. nra.
  Qed.
End Vertices.
