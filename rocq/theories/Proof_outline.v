(** * Sides of the intersection of two triangles are edges of its outline *)
From Coq Require Import List Arith Bool QArith Lqa Lia.
From Verif Require Import Model_base Model_geometry Model_soup Model_corefine Spec_candidates Spec_defects Spec_ffi Spec_corefine.
From Verif Require Import Proof_extreme Proof_hull Proof_ffi_result Proof_cells.
Import ListNotations.
Local Open Scope Q_scope.

Lemma mix_swap : forall y z k, same_point (mix y z k) (mix z y (1 - k)).
Proof. intros y z k. unfold mix, same_point. cbn [vx vy vz fst snd]. repeat split; ring. Qed.
Lemma between_swap : forall y z x, strictly_between y z x -> strictly_between z y x.
Proof. intros y z x (k & K0 & K1 & E). exists (1 - k). split; [ lra | ]. split; [ lra | ]. eapply same_trans; [ exact E | apply mix_swap ]. Qed.
Lemma between_on : forall y z x, strictly_between y z x -> on_segment y z x.
Proof. intros y z x (k & K0 & K1 & E). rewrite on_segment_mix. exists k. split; [ lra | exact E ]. Qed.
Lemma between_same : forall y z y' z' x x', same_point y y' -> same_point z z' -> same_point x x' -> strictly_between y z x -> strictly_between y' z' x'.
Proof.
  intros y z y' z' x x' (A & B & C) (D & F & G) (X & Y & Z) (k & K0 & K1 & (E0 & E1 & E2)). exists k. split; [ exact K0 | ]. split; [ exact K1 | ].
  unfold mix, same_point in *. cbn [vx vy vz fst snd] in *. rewrite <- A, <- B, <- C, <- D, <- F, <- G, <- X, <- Y, <- Z. auto.
Qed.

(** A vertex lies strictly between no two different points. *)
Lemma vertex_between : forall T U x y z, is_vertex T U x -> both T U y -> both T U z -> strictly_between y z x -> same_point x y /\ same_point x z.
Proof. intros T U x y z V Y Z (k & K0 & K1 & E). exact (vertex_mix T U x y z k V Y Z K0 K1 E). Qed.

Lemma line_cross : forall y z t, zero3 (vcross (vsub z y) (vsub (mix y z t) y)).
Proof. intros y z t. unfold mix. coords. repeat split; ring. Qed.
Lemma cross_same : forall y z x x', same_point x x' -> zero3 (vcross (vsub z y) (vsub x y)) -> zero3 (vcross (vsub z y) (vsub x' y)).
Proof. intros y z x x' (A & B & C) (D & E & F). coords. rewrite <- A, <- B, <- C. auto. Qed.

(** A side crosses no segment of the intersection. *)
Lemma side_between : forall T U y z u v x, is_vertex T U y -> is_vertex T U z -> ~ same_point y z -> is_side T U y z ->
  both T U u -> both T U v -> on_segment y z x -> strictly_between u v x -> on_segment y z u /\ on_segment y z v.
Proof.
  intros T U y z u v x Vy Vz N S.
  assert (G : forall u v k, both T U u -> both T U v -> on_segment y z x -> 0 < k -> k <= 1#2 -> same_point x (mix u v k) -> on_segment y z u /\ on_segment y z v).
  { intros u0 v0 k Bu Bv O K0 K1 E. set (u' := mix u0 v0 (2 * k)).
    assert (M : same_point x (middle u0 u')).
    { eapply same_trans; [ exact E | ]. unfold u', mix, middle, same_point. cbn [vx vy vz fst snd]. unfold vx, vy, vz. cbn [fst snd]. repeat split; field. }
    destruct (S u0 u' Bu) as [A B]; [ apply both_mix; [ lra | exact Bu | exact Bv ] | exact (segment_same _ _ _ _ _ _ (same_refl _) (same_refl _) M O) | ].
    split; [ exact A | ]. apply (line_between T U y z v0 Vy Vz N Bv).
    rewrite on_segment_mix in A, B. destruct A as (a & _ & A), B as (b & _ & B).
    apply (cross_same y z (mix y z (a + (b - a) * (1 / (2 * k))))); [ | apply line_cross ].
    destruct A as (A0 & A1 & A2), B as (B0 & B1 & B2). unfold u', mix, same_point in *. cbn [vx vy vz fst snd] in *. rewrite A0 in B0. rewrite A1 in B1. rewrite A2 in B2.
    assert (K : forall p q r, (1 - 2 * k) * ((1 - a) * p + a * q) + 2 * k * r == (1 - b) * p + b * q ->
      (1 - (a + (b - a) * (1 / (2 * k)))) * p + (a + (b - a) * (1 / (2 * k))) * q == r).
    { intros p q r H. assert (Er : r == ((1 - b) * p + b * q - (1 - 2 * k) * ((1 - a) * p + a * q)) / (2 * k)) by (rewrite <- H; field; lra). rewrite Er. field. lra. }
    repeat split; apply K; assumption. }
  intros Bu Bv O (k & K0 & K1 & E). destruct (Qlt_le_dec (1#2) k) as [H | H].
  - destruct (G v u (1 - k) Bv Bu O) as [A B]; [ lra | lra | eapply same_trans; [ exact E | apply mix_swap ] | auto ].
  - apply (G u v k Bu Bv O K0 H E).
Qed.

(** No side runs inside the cone of two others. *)
Lemma no_cone : forall T U y z1 z2 z3 al be, is_vertex T U y -> is_vertex T U z3 -> both T U z1 -> both T U z2 -> ~ same_point y z3 ->
  is_side T U y z3 -> ~ zero3 (vcross (vsub z3 y) (vsub z1 y)) -> 0 < al -> 0 < be ->
  same_point (vsub z3 y) (lin al (vsub z1 y) be (vsub z2 y)) -> False.
Proof.
  intros T U y z1 z2 z3 al be Vy V3 B1 B2 N S X Pa Pb E.
  set (u := mix z1 z2 (be / (al + be))).
  assert (R : 0 < be / (al + be) /\ be / (al + be) < 1) by (split; [ apply Qlt_shift_div_l; lra | apply Qlt_shift_div_r; lra ]).
  assert (Bu : both T U u) by (apply both_mix; [ lra | assumption | assumption ]).
  destruct E as (E0 & E1 & E2).
  destruct (Qlt_le_dec (al + be) 1) as [H | H].
  - destruct (vertex_mix T U z3 y u (al + be) V3 (proj1 Vy) Bu) as [A _]; [ lra | exact H | | exact (N (same_sym _ _ A)) ].
    unfold u, mix. coords. assert (K : forall p q r s, r - p == al * (q - p) + be * (s - p) -> r == (1 - (al + be)) * p + (al + be) * ((1 - be / (al + be)) * q + be / (al + be) * s)).
    { intros p q r s G. assert (Er : r == p + al * (q - p) + be * (s - p)) by (clear - G; lra). rewrite Er. field. lra. }
    repeat split; apply K; assumption.
  - destruct (side_between T U y z3 z1 z2 u Vy V3 N S B1 B2) as [A _].
    + rewrite on_segment_mix. exists (1 / (al + be)). split; [ split; [ apply Qle_shift_div_l; lra | apply Qle_shift_div_r; lra ] | ].
      unfold u, mix. coords. assert (K : forall p q r s, r - p == al * (q - p) + be * (s - p) -> (1 - be / (al + be)) * q + be / (al + be) * s == (1 - 1 / (al + be)) * p + 1 / (al + be) * r).
      { intros p q r s G. assert (Er : r == p + al * (q - p) + be * (s - p)) by (clear - G; lra). rewrite Er. field. lra. }
      repeat split; apply K; assumption.
    + exists (be / (al + be)). split; [ tauto | ]. split; [ tauto | apply same_refl ].
    + apply X. rewrite on_segment_mix in A. destruct A as (t & _ & A). apply (cross_same y z3 _ _ (same_sym _ _ A)). apply line_cross.
Qed.

Lemma apart_vertices : forall T U y z1 z2, is_vertex T U y -> is_vertex T U z1 -> is_vertex T U z2 -> ~ same_point y z1 -> ~ same_point y z2 -> ~ same_point z1 z2 ->
  ~ zero3 (vcross (vsub z1 y) (vsub z2 y)).
Proof.
  intros T U y z1 z2 Vy V1 V2 N1 N2 N Z. pose proof (line_between T U y z1 z2 Vy V1 N1 (proj1 V2) Z) as O. rewrite on_segment_mix in O. destruct O as (t & [T0 T1] & E).
  destruct (Qeq_dec t 0) as [Z0 | Z0].
  - apply N2. destruct E as (A & B & C). unfold mix, same_point in *. cbn [vx vy vz fst snd] in *. rewrite A, B, C, Z0. repeat split; ring.
  - destruct (Qeq_dec t 1) as [Z1 | Z1].
    + apply N. destruct E as (A & B & C). unfold mix, same_point in *. cbn [vx vy vz fst snd] in *. rewrite A, B, C, Z1. repeat split; ring.
    + destruct (vertex_mix T U z2 y z1 t V2 (proj1 Vy) (proj1 V1)) as [A _]; [ lra | lra | exact E | exact (N2 (same_sym _ _ A)) ].
Qed.

Lemma plane_dependent : forall n d1 d2 d3, ~ zero3 n -> vdot n d1 == 0 -> vdot n d2 == 0 -> vdot n d3 == 0 -> vdot (vcross d1 d2) d3 == 0.
Proof.
  intros [ [n0 n1] n2] [ [a0 a1] a2] [ [b0 b1] b2] [ [c0 c1] c2] N A B C. apply nonzero3 in N. coords.
  set (D := (a1 * b2 - a2 * b1) * c0 + (a2 * b0 - a0 * b2) * c1 + (a0 * b1 - a1 * b0) * c2).
  destruct N as [N | [N | N] ].
  - apply (mult_zero n0 _ N). transitivity ((n0 * a0 + n1 * a1 + n2 * a2) * (b1 * c2 - b2 * c1) + (n0 * b0 + n1 * b1 + n2 * b2) * (c1 * a2 - c2 * a1) + (n0 * c0 + n1 * c1 + n2 * c2) * (a1 * b2 - a2 * b1)); [ unfold D; ring | rewrite A, B, C; ring ].
  - apply (mult_zero n1 _ N). transitivity ((n0 * a0 + n1 * a1 + n2 * a2) * (b2 * c0 - b0 * c2) + (n0 * b0 + n1 * b1 + n2 * b2) * (c2 * a0 - c0 * a2) + (n0 * c0 + n1 * c1 + n2 * c2) * (a2 * b0 - a0 * b2)); [ unfold D; ring | rewrite A, B, C; ring ].
  - apply (mult_zero n2 _ N). transitivity ((n0 * a0 + n1 * a1 + n2 * a2) * (b0 * c1 - b1 * c0) + (n0 * b0 + n1 * b1 + n2 * b2) * (c0 * a1 - c1 * a0) + (n0 * c0 + n1 * c1 + n2 * c2) * (a0 * b1 - a1 * b0)); [ unfold D; ring | rewrite A, B, C; ring ].
Qed.

(** The points of a triangle are in its plane. *)
Lemma inside_plane : forall T x y, inside T x -> inside T y -> vdot (normal T) (vsub x y) == 0.
Proof.
  intros [ [a b] c] x y (u & v & w & (_ & _ & _ & S) & X & Y & Z) (u' & v' & w' & (_ & _ & _ & S') & X' & Y' & Z').
  assert (Eu : u == 1 - v - w) by lra. assert (Eu' : u' == 1 - v' - w') by lra.
  unfold normal. coords. rewrite X, Y, Z, X', Y', Z', Eu, Eu'. ring.
Qed.

(** A vertex is on two sides only. *)
Lemma three_sides : forall T U y z1 z2 z3, nondegenerate T -> is_vertex T U y -> is_vertex T U z1 -> is_vertex T U z2 -> is_vertex T U z3 ->
  ~ same_point y z1 -> ~ same_point y z2 -> ~ same_point y z3 -> ~ same_point z1 z2 -> ~ same_point z1 z3 -> ~ same_point z2 z3 ->
  is_side T U y z1 -> is_side T U y z2 -> is_side T U y z3 -> False.
Proof.
  intros T U y z1 z2 z3 NT Vy V1 V2 V3 N1 N2 N3 N12 N13 N23 S1 S2 S3.
  assert (C12 := apart_vertices T U y z1 z2 Vy V1 V2 N1 N2 N12).
  assert (C13 := apart_vertices T U y z1 z3 Vy V1 V3 N1 N3 N13).
  assert (C23 := apart_vertices T U y z2 z3 Vy V2 V3 N2 N3 N23).
  assert (C31 := apart_vertices T U y z3 z1 Vy V3 V1 N3 N1 (fun H => N13 (same_sym _ _ H))).
  assert (P : forall z, is_vertex T U z -> vdot (normal T) (vsub z y) == 0) by (intros z V; apply inside_plane; [ exact (proj1 (proj1 V)) | exact (proj1 (proj1 Vy)) ]).
  destruct (in_plane (vsub z1 y) (vsub z2 y) (vsub z3 y) C12) as (al & be & E).
  { apply (plane_dependent (normal T)); [ apply nondegenerate_normal; exact NT | apply P; assumption | apply P; assumption | apply P; assumption ]. }
  destruct E as (E0 & E1 & E2).
  destruct (Qeq_dec al 0) as [Za | Za].
  { apply C23. revert E0 E1 E2. generalize (vsub z1 y), (vsub z2 y), (vsub z3 y). clear - Za. intros [ [a0 a1] a2] [ [b0 b1] b2] [ [c0 c1] c2] E0 E1 E2. coords. rewrite E0, E1, E2, Za. repeat split; ring. }
  destruct (Qeq_dec be 0) as [Zb | Zb].
  { apply C13. revert E0 E1 E2. generalize (vsub z1 y), (vsub z2 y), (vsub z3 y). clear - Zb. intros [ [a0 a1] a2] [ [b0 b1] b2] [ [c0 c1] c2] E0 E1 E2. coords. rewrite E0, E1, E2, Zb. repeat split; ring. }
  destruct (Qlt_le_dec 0 al) as [Pa | Pa]; destruct (Qlt_le_dec 0 be) as [Pb | Pb].
  - exact (no_cone T U y z1 z2 z3 al be Vy V3 (proj1 V1) (proj1 V2) N3 S3 C31 Pa Pb (conj E0 (conj E1 E2))).
  - (* d1 = (1/al) d3 + (-be/al) d2 *)
    assert (Pb' : 0 < - be) by lra.
    apply (no_cone T U y z3 z2 z1 (1 / al) (- be / al) Vy V1 (proj1 V3) (proj1 V2) N1 S1 C13);
      [ apply Qlt_shift_div_l; lra | apply Qlt_shift_div_l; lra | ].
    revert E0 E1 E2. generalize (vsub z1 y), (vsub z2 y), (vsub z3 y). clear - Za. intros [ [a0 a1] a2] [ [b0 b1] b2] [ [c0 c1] c2] E0 E1 E2. coords. rewrite E0, E1, E2. repeat split; field; exact Za.
  - assert (Pa' : 0 < - al) by lra.
    apply (no_cone T U y z3 z1 z2 (1 / be) (- al / be) Vy V2 (proj1 V3) (proj1 V1) N2 S2 C23);
      [ apply Qlt_shift_div_l; lra | apply Qlt_shift_div_l; lra | ].
    revert E0 E1 E2. generalize (vsub z1 y), (vsub z2 y), (vsub z3 y). clear - Zb. intros [ [a0 a1] a2] [ [b0 b1] b2] [ [c0 c1] c2] E0 E1 E2. coords. rewrite E0, E1, E2. repeat split; field; exact Zb.
  - (* y is inside the three *)
    set (s := 1 - al - be). assert (Hs : 1 < s) by (unfold s; lra).
    set (r := - al - be). assert (Hr : 0 < r) by (unfold r; lra).
    set (u := mix z1 z2 (- be / r)).
    assert (Bu : both T U u).
    { apply both_mix; [ | exact (proj1 V1) | exact (proj1 V2) ]. split; [ apply Qle_shift_div_l; lra | apply Qle_shift_div_r; unfold r; lra ]. }
    destruct (vertex_mix T U y z3 u (r / s) Vy (proj1 V3) Bu) as [A _]; [ apply Qlt_shift_div_l; lra | apply Qlt_shift_div_r; unfold r, s; lra | | exact (N3 A) ].
    unfold u, mix. coords.
    assert (K : forall p q r' t, t - p == al * (q - p) + be * (r' - p) -> p == (1 - r / s) * t + r / s * ((1 - - be / r) * q + - be / r * r')).
    { intros p q r' t G. assert (Et : t == p + al * (q - p) + be * (r' - p)) by (clear - G; lra). rewrite Et. unfold r, s in *. field. clear - Pa Pb Hr Hs. split; lra. }
    repeat split; apply K; assumption.
Qed.

(** ** Outlines *)
Local Open Scope nat_scope.
Section Outline.
  Context {P : Type}.
  Variable coords : P -> vec3.
  Variable pts : list P.
  Variables T U : triangle.
  Hypothesis NT : nondegenerate T.
  Variable ids : list nat.
  Hypothesis O : outline coords pts T U ids.

  Lemma outline_neighbours : forall i j p q, In i ids -> In j ids -> nth_error pts i = Some p -> nth_error pts j = Some q ->
    i <> j -> is_side T U (coords p) (coords q) -> neighbours ids i j \/ neighbours ids j i.
  Proof.
    intros i j p q Ii Ij Ep Eq Nij S. destruct O as [Nd Ve _ On Si].
    assert (V : forall id r, In id ids -> nth_error pts id = Some r -> is_vertex T U (coords r)).
    { intros id r H E. destruct (Ve id H) as (r' & E' & V). rewrite E in E'. injection E' as <-. exact V. }
    destruct (In_nth_error _ _ Ii) as (k & Ek). destruct (In_nth_error _ _ Ij) as (l & El).
    assert (Lk : k < length ids) by (apply nth_error_Some; congruence). assert (Ll : l < length ids) by (apply nth_error_Some; congruence).
    assert (Nkl : k <> l) by (intros ->; congruence).
    set (n := length ids) in *.
    assert (idx : forall a b x, nth_error ids a = Some x -> nth_error ids b = Some x -> a = b).
    { intros a b x A B. apply (proj1 (NoDup_nth_error ids) Nd); [ apply nth_error_Some; congruence | congruence ]. }
    assert (J2 : 2 <= n) by lia.
    set (s := (k + 1) mod n). set (r := (k + n - 1) mod n).
    assert (Hs : (k + 1 < n /\ s = k + 1) \/ (k + 1 = n /\ s = 0)).
    { destruct (Nat.eq_dec (k + 1) n) as [E | E]; [ right; split; [ exact E | unfold s; rewrite E; apply Nat.mod_same; lia ] | left; split; [ lia | unfold s; apply Nat.mod_small; lia ] ]. }
    assert (Hr : (k = 0 /\ r = n - 1) \/ (0 < k /\ r = k - 1)).
    { destruct (Nat.eq_dec k 0) as [E | E]; [ left; split; [ exact E | unfold r; rewrite E; apply Nat.mod_small; lia ] | right; split; [ lia | ] ].
      unfold r. replace (k + n - 1) with (k - 1 + 1 * n) by lia. rewrite Nat.mod_add by lia. apply Nat.mod_small. lia. }
    assert (Hrs : (r + 1) mod n = k).
    { destruct Hr as [ [-> ->] | [H ->] ]; [ replace (n - 1 + 1) with n by lia; apply Nat.mod_same; lia | replace (k - 1 + 1) with k by lia; apply Nat.mod_small; lia ]. }
    assert (Hks : (k + 1) mod n = s) by reflexivity.
    destruct (Nat.eq_dec l s) as [-> | Ns]; [ left; exists k; auto | ].
    destruct (Nat.eq_dec l r) as [-> | Nr]; [ right; exists r; fold n; rewrite Hrs; auto | ].
    exfalso. clearbody s r. 
    assert (Ls : s < n) by (clear - Hs Hr Lk J2; lia). assert (Lr : r < n) by (clear - Hs Hr Lk J2; lia). assert (Nrs : r <> s) by (clear - Hs Hr Lk Ll Nkl Ns Nr J2; lia).
    assert (Nks : k <> s) by (clear - Hs Hr Lk Ll Nkl Ns Nr J2; lia). assert (Nkr : k <> r) by (clear - Hs Hr Lk Ll Nkl Ns Nr J2; lia).
    destruct (nth_error ids s) as [is | ] eqn:Es; [ | apply nth_error_None in Es; unfold n in Ls; lia ].
    destruct (nth_error ids r) as [ir | ] eqn:Er; [ | apply nth_error_None in Er; unfold n in Lr; lia ].
    destruct (Ve is (nth_error_In _ _ Es)) as (ps & Eps & Vs). destruct (Ve ir (nth_error_In _ _ Er)) as (pr & Epr & Vr).
    assert (D : forall a b x y px py, nth_error ids a = Some x -> nth_error ids b = Some y -> nth_error pts x = Some px -> nth_error pts y = Some py -> a <> b -> ~ same_point (coords px) (coords py)).
    { intros a b x y px py A B Px Py N H. apply N. assert (x = y) by (eapply On; eauto using nth_error_In). subst y. exact (idx a b x A B). }
    apply (three_sides T U (coords p) (coords q) (coords ps) (coords pr) NT (V i p Ii Ep) (V j q Ij Eq) Vs Vr
      (D k l i j p q Ek El Ep Eq Nkl) (D k s i is p ps Ek Es Ep Eps Nks) (D k r i ir p pr Ek Er Ep Epr Nkr)
      (D l s j is q ps El Es Eq Eps Ns) (D l r j ir q pr El Er Eq Epr Nr) (D s r is ir ps pr Es Er Eps Epr (fun H => Nrs (eq_sym H))) S).
    - apply (Si i is p ps); [ exists k; fold n; rewrite Hks; auto | exact Ep | exact Eps ].
    - apply side_sym. apply (Si ir i pr p); [ exists r; fold n; rewrite Hrs; auto | exact Epr | exact Ep ].
  Qed.
End Outline.
