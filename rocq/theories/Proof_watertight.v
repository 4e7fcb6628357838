(** * Around an edge of the boundary of a set *)
From Coq Require Import List Arith Bool ZArith QArith Lqa Lia Permutation.
From Verif Require Import Model_base Model_soup Model_geometry Model_side Model_corefine.
From Verif Require Import Spec_candidates Spec_side Spec_solid Spec_conform Spec_defects Spec_ffi Spec_corefine Spec_cut Spec_whole Spec_again Spec_find Spec_visible Spec_balance.
From Verif Require Import Proof_fan Proof_extreme Proof_hull Proof_cells Proof_bridge Proof_find.
From Verif Require Import Proof_affine Proof_small Proof_walk Proof_link Proof_winding Proof_hinge Proof_twosides Proof_oneset Proof_separate Proof_balance Proof_visible Proof_meet Proof_same.
From Verif Require Import Spec_corefine Spec_side Spec_solid.
Import ListNotations.
Local Open Scope Q_scope.

Lemma hcut_part : forall T x y z s, same z (along x s (vsub y x)) -> ~ hgt T x == hgt T z -> same (hcut T x z) (hcut T x y).
Proof.
  intros T x y z s Z N. assert (Hz : hgt T z == hgt T x + s * (hgt T y - hgt T x)) by (rewrite (hgt_same T _ _ Z), hgt_along, hgt_diff; reflexivity).
  assert (Ns : ~ s == 0) by (intro E; apply N; rewrite Hz, E; ring).
  assert (Nd : ~ hgt T x - hgt T y == 0) by (intro E; apply N; rewrite Hz; setoid_replace (hgt T y - hgt T x) with (- (hgt T x - hgt T y)) by ring; rewrite E; ring).
  rewrite !hcut_along. destruct Z as (Z1 & Z2 & Z3). unfold same, along, vsub in *. cbn [vx vy vz fst snd] in *.
  set (hx := hgt T x) in *. set (hy := hgt T y) in *. set (hz := hgt T z) in *.
  assert (E : hx / (hx - hz) == hx / (hx - hy) / s).
  { rewrite Hz. field. repeat split; auto. intro X. assert (Y : s * (hx - hy) == 0) by lra. apply Qmult_integral in Y. tauto. }
  rewrite E, Z1, Z2, Z3. repeat split; field; auto.
Qed.
Lemma cc_add : forall T x y z, in_segment z x y -> cc T x y = (cc T x z + cc T z y)%Z.
Proof.
  intros T x y z (s & (S0 & S1) & Z).
  assert (Hz : hgt T z == hgt T x + s * (hgt T y - hgt T x)) by (rewrite (hgt_same T _ _ Z), hgt_along, hgt_diff; reflexivity).
  assert (Z' : same z (along y (1 - s) (vsub x y))) by (apply (same_trans _ _ _ Z); unfold same, along, vsub; cbn [vx vy vz fst snd]; repeat split; ring).
  assert (C1 : ~ hgt T x == hgt T z -> memb T (hcut T x z) = memb T (hcut T x y)) by (intro N; apply memb_same, (hcut_part T x y z s Z N)).
  assert (C2 : ~ hgt T z == hgt T y -> ~ hgt T x == hgt T y -> memb T (hcut T z y) = memb T (hcut T x y)).
  { intros N N'. apply memb_same. apply (same_trans _ _ _ (hcut_sym T z y N)). apply (same_trans _ (hcut T y x)); [ | apply same_sym, hcut_sym, N' ].
    apply (hcut_part T y x z (1 - s) Z'). intro E. apply N. symmetry. exact E. }
  unfold cc. destruct (Qlt_le_dec (hgt T x) 0) as [A | A], (Qlt_le_dec (hgt T y) 0) as [B | B], (Qlt_le_dec (hgt T z) 0) as [C | C]; try reflexivity;
    try (exfalso; clear C1 C2; nra); try (rewrite C1 by lra; lia); try (rewrite C2 by lra; lia).
Qed.

Lemma separated : forall m a b, ~ in_segment m a b -> exists g, 0 <= aev g a /\ 0 <= aev g b /\ aev g m < 0.
Proof.
  intros m a b N. set (d := vsub b a).
  assert (K : forall c, in_segment c a b -> 0 <= vdot (vsub c m) (vsub a c) -> 0 <= vdot (vsub c m) (vsub b c) -> exists g, 0 <= aev g a /\ 0 <= aev g b /\ aev g m < 0).
  { intros c I A B. exists (through (vsub c m) c). assert (E : forall x, aev (through (vsub c m) c) x == vdot (vsub c m) (vsub x c)) by (intro x; clear; crush; ring).
    rewrite !E. split; [ exact A | ]. split; [ exact B | ]. assert (X : vdot (vsub c m) (vsub m c) == - vdot (vsub c m) (vsub c m)) by (clear; crush; ring). rewrite X.
    destruct (Qlt_le_dec 0 (vdot (vsub c m) (vsub c m))) as [L | L]; [ lra | exfalso ]. apply N.
    assert (Z : vdot (vsub c m) (vsub c m) == 0) by (pose proof (vdot_self (vsub c m)); lra). apply vdot_self_zero in Z. apply (in_segment_same c m); [ | exact I ].
    destruct Z as (Z1 & Z2 & Z3). unfold same, vsub in *. cbn [vx vy vz fst snd] in *. repeat split; lra. }
  assert (Self : forall u x, vdot u (vsub x x) == 0) by (clear; crush; ring).
  destruct (Qlt_le_dec 0 (vdot (vsub m a) d)) as [L1 | L1].
  2: { apply (K a); [ apply in_segment_start | rewrite Self; lra | ]. assert (X : vdot (vsub a m) (vsub b a) == - vdot (vsub m a) d) by (unfold d; clear; crush; ring). rewrite X. lra. }
  destruct (Qlt_le_dec (vdot (vsub m b) d) 0) as [L2 | L2].
  2: { apply (K b); [ apply in_segment_sym, in_segment_start | | rewrite Self; lra ]. assert (X : vdot (vsub b m) (vsub a b) == vdot (vsub m b) d) by (unfold d; clear; crush; ring). rewrite X. lra. }
  set (D := vdot d d). set (h := vdot (vsub m a) d) in *. assert (X : vdot (vsub m b) d == h - D) by (unfold D, h, d; clear; crush; ring). rewrite X in L2.
  set (t := h / D). assert (Ht : t * D == h) by (unfold t; field; lra). assert (T0 : 0 <= t) by (unfold t; apply Qle_shift_div_l; lra). assert (T1 : t <= 1) by (unfold t; apply Qle_shift_div_r; lra).
  set (c := along a t d). assert (Pk : vdot (vsub c m) d == 0). { assert (Y : vdot (vsub c m) d == t * D - h) by (unfold c, D, h; clearbody d; clear; crush; ring). rewrite Y, Ht. ring. }
  apply (K c).
  - exists t. split; [ lra | apply same_refl ].
  - assert (Y : vdot (vsub c m) (vsub a c) == - t * vdot (vsub c m) d) by (unfold c; clearbody d t; clear; crush; ring). rewrite Y, Pk. lra.
  - assert (Y : vdot (vsub c m) (vsub b c) == (1 - t) * vdot (vsub c m) d) by (unfold c, d; clearbody t; clear; crush; ring). rewrite Y, Pk. lra.
Qed.

(** A small triangle around a point. *)
Definition around (m : vec3) (w1 w2 : vec3) (e : Q) : tri3 := (along m e w1, along m e w2, along m e (scaled (-(1)) (vadd w1 w2))).

Lemma ev_near : forall m w1 w2 a b, ~ in_segment m a b -> eventually (fun e => forall z, on_tri z (around m w1 w2 e) -> ~ in_segment z a b).
Proof.
  intros m w1 w2 a b N. destruct (separated m a b N) as (g & Ga & Gb & Gm).
  generalize (ev_and _ _ (ev_neg _ (vdot (ak g) w1) Gm) (ev_and _ _ (ev_neg _ (vdot (ak g) w2) Gm) (ev_neg _ (vdot (ak g) (scaled (-(1)) (vadd w1 w2))) Gm))). apply ev_mono.
  intros e E0 (A & B & C) z (u & v & w & U & V & W & S & X & Y & Z) (s & (S0 & S1) & Es). rewrite <- aev_along in A, B, C.
  assert (Ez := aev_bary g z _ _ _ u v w S X Y Z). assert (Ez' : aev g z == (1 - s) * aev g a + s * aev g b).
  { rewrite (aev_same g _ _ Es), aev_along. assert (Q0 : vdot (ak g) (vsub b a) == aev g b - aev g a) by (destruct g; clear; crush; ring). rewrite Q0. ring. }
  set (p := aev g (along m e w1)) in *. set (q := aev g (along m e w2)) in *. set (r := aev g (along m e (scaled (-(1)) (vadd w1 w2)))) in *. clearbody p q r.
  assert (0 <= (1 - s) * aev g a) by (apply Qmult_le_0_compat; lra). assert (0 <= s * aev g b) by (apply Qmult_le_0_compat; lra).
  assert (0 <= u * - p) by (apply Qmult_le_0_compat; lra). assert (0 <= v * - q) by (apply Qmult_le_0_compat; lra). assert (0 <= w * - r) by (apply Qmult_le_0_compat; lra).
  assert (P1 : u * - p == 0) by lra. assert (P2 : v * - q == 0) by lra. assert (P3 : w * - r == 0) by lra.
  apply Qmult_integral in P1, P2, P3. destruct P1 as [P1 | P1]; [ | lra ]. destruct P2 as [P2 | P2]; [ | lra ]. destruct P3 as [P3 | P3]; lra.
Qed.

(** Directions for it. *)
Lemma directions : forall (ns : list vec3) d, (forall n, In n ns -> ~ same n zero3) -> ~ same d zero3 ->
  exists w1 w2, ~ vdot d (vcross w1 w2) == 0 /\ forall n, In n ns -> ~ vdot n w1 == 0 /\ ~ vdot n w2 == 0 /\ ~ vdot n (scaled (-(1)) (vadd w1 w2)) == 0.
Proof.
  intros ns d Hn Hd. destruct (orthogonal d) as (m0 & M0 & M1).
  destruct (generic (m0 :: ns)) as (w1 & W1); [ intros n [<- | J]; auto | ].
  assert (Nc : ~ same (vcross d w1) zero3).
  { intros (E1 & E2 & E3). assert (Id : vdot m0 w1 * vdot d d == vdot m0 d * vdot d w1 + vdot (vcross d m0) (vcross d w1)) by (clear; crush; ring).
    assert (Z : vdot (vcross d m0) (vcross d w1) == 0) by (unfold vdot; rewrite E1, E2, E3; unfold zero3; cbn [vx vy vz fst snd]; ring). rewrite Z, M1 in Id.
    assert (Z' : vdot m0 w1 * vdot d d == 0) by lra. apply Qmult_integral in Z'. destruct Z' as [Z' | Z']; [ apply (W1 m0 (or_introl eq_refl)), Z' | apply Hd, vdot_self_zero, Z' ]. }
  destruct (generic (vcross d w1 :: ns)) as (w2 & W2); [ intros n [<- | J]; auto | ].
  assert (EV : eventually (fun t => forall n, In n ns -> ~ vdot n w1 + t * vdot n w2 == 0)) by (apply ev_list; intros n J; apply ev_nonzero; right; apply W1; right; exact J).
  destruct (ev_witness _ EV) as (t & T0 & Ht). exists w1, (scaled t w2). split.
  - assert (E : vdot d (vcross w1 (scaled t w2)) == t * vdot (vcross d w1) w2) by (unfold scaled; clear; crush; ring). rewrite E. intro Z. apply Qmult_integral in Z. destruct Z as [Z | Z]; [ lra | ].
    exact (W2 _ (or_introl eq_refl) Z).
  - intros n J. split; [ apply W1; right; exact J | ]. split.
    + assert (E : vdot n (scaled t w2) == t * vdot n w2) by (unfold scaled; clear; crush; ring). rewrite E. intro Z. apply Qmult_integral in Z. destruct Z as [Z | Z]; [ lra | ]. exact (W2 _ (or_intror J) Z).
    + assert (E : vdot n (scaled (-(1)) (vadd w1 (scaled t w2))) == - (vdot n w1 + t * vdot n w2)) by (unfold scaled; clear; crush; ring). rewrite E. intro Z. apply (Ht n J). lra.
Qed.

(** The plane of the triangle. *)
Lemma around_normal : forall m w1 w2 e d, vdot (tri_normal (around m w1 w2 e)) d == 3 * (e * e) * vdot d (vcross w1 w2).
Proof. intros. unfold around, tri_normal, scaled. crush. ring. Qed.
Lemma around_center : forall m w1 w2 e, on_tri m (around m w1 w2 e).
Proof. intros m w1 w2 e. exists (1 # 3), (1 # 3), (1 # 3). unfold around, along, scaled, vadd. cbn [vx vy vz fst snd]. repeat split; try lra; ring. Qed.
Lemma around_not_flat : forall m w1 w2 e d, 0 < e -> ~ vdot d (vcross w1 w2) == 0 -> ~ flat (around m w1 w2 e).
Proof.
  intros m w1 w2 e d E0 N F. assert (Z : vdot (tri_normal (around m w1 w2 e)) d == 0).
  { unfold around in *. cbn [flat tri_normal] in *. destruct F as (E1 & E2 & E3). unfold vdot. rewrite E1, E2, E3. cbn [vx vy vz fst snd]. ring. }
  rewrite around_normal in Z. apply Qmult_integral in Z. destruct Z as [Z | Z]; [ | exact (N Z) ]. assert (0 < e * e) by nra. lra.
Qed.
(** Its sides do not meet the line through the point in the direction [d]. *)
Lemma around_sides : forall m w1 w2 e d z t, 0 < e -> ~ vdot d (vcross w1 w2) == 0 -> side_in (around m w1 w2 e) z -> ~ same z (along m t d).
Proof.
  intros m w1 w2 e d z t E0 N.
  assert (G : forall u v, vdot d (vcross u v) == vdot d (vcross w1 w2) -> in_segment z (along m e u) (along m e v) -> ~ same z (along m t d)).
  { intros u v E (s & Hs & Z) Zt. set (w := along u s (vsub v u)).
    assert (W : forall k : vec3, e * vdot k w == t * vdot k d).
    { intro k. assert (A := vdot_same k _ _ (same_trans _ _ _ (same_sym _ _ Z) Zt)). rewrite !vdot_add_r in A. assert (B : vdot k (vsub (along m e v) (along m e u)) == e * vdot k (vsub v u)) by (clear; crush; ring). rewrite B in A. unfold w. rewrite vdot_add_r. lra. }
    assert (W1 := W (vcross d u)). assert (W2 := W (vcross d v)).
    assert (X1 : vdot (vcross d u) w == s * vdot d (vcross u v)) by (unfold w; clear; crush; ring). assert (X2 : vdot (vcross d v) w == - (1 - s) * vdot d (vcross u v)) by (unfold w; clear; crush; ring).
    assert (X3 : vdot (vcross d u) d == 0) by (clear; crush; ring). assert (X4 : vdot (vcross d v) d == 0) by (clear; crush; ring).
    rewrite X1, X3, E in W1. rewrite X2, X4, E in W2. set (D := vdot d (vcross w1 w2)) in *.
    assert (Y : e * D == 0) by lra. apply Qmult_integral in Y. destruct Y as [Y | Y]; [ lra | exact (N Y) ]. }
  unfold around. cbn [side_in]. intros [I | [I | I] ]; apply (G _ _) in I; try exact I; unfold scaled; clear; crush; ring.
Qed.

Lemma zsum_scale : forall {A} (g : A -> Z) s l, zsum (map (fun t => s * g t)%Z l) = (s * zsum (map g l))%Z.
Proof. intros A g s l. induction l as [ | t l IH]; [ cbn; lia | ]. unfold zsum in *. cbn [map fold_right]. rewrite IH. lia. Qed.

Section Change.
  Context {P : Type}.
  Variable coords : P -> vec3.
  Variable ts : list (P * P * P).
  Notation tri_of := (Proof_winding.tri_of coords).
  Notation clear := (clear coords ts).
  Notation ef := (ef coords ts).
  Notation total := (total coords ts).
  Hypothesis Hflat : forall t, In t ts -> ~ flat (tri_of t).
  Hypothesis Hap : forall i j t u x, nth_error ts i = Some t -> nth_error ts j = Some u -> in_tri x (tri_of t) -> on_tri x (tri_of u) -> j = i.
  Variable S : vec3 -> Prop.
  Hypothesis Hwalk : walks coords ts S.
  Hypothesis Hfits : fits coords ts S.
  Hypothesis Hdec : forall x, S x \/ ~ S x.

  (** How the set changes on the way. *)
  Definition change (x y : vec3) (k : Z) : Prop :=
    (S x /\ S y /\ k = 0%Z) \/ (~ S x /\ ~ S y /\ k = 0%Z) \/ (~ S x /\ S y /\ k = 1%Z) \/ (S x /\ ~ S y /\ k = (-1)%Z).

  Lemma total_part : forall x y z, in_segment z x y -> total x y = (total x z + total z y)%Z.
  Proof. intros x y z I. unfold Proof_winding.total. rewrite <- zsum_plus. apply zsum_ext. intros t _. apply cc_add, I. Qed.
  Lemma free_total : forall x y, (forall z, in_segment z x y -> clear z) -> total x y = 0%Z.
  Proof. intros x y H. apply zsum_zero. intros t J. apply cc_free; [ apply Hflat, J | intros z Z; exact (H z Z t J) ]. Qed.
  Lemma free_change : forall x y, (forall z, in_segment z x y -> clear z) -> change x y (total x y).
  Proof. intros x y H. rewrite (free_total x y H). pose proof (Hwalk x y H). destruct (Hdec x); unfold change; tauto. Qed.

  (** Through one face. *)
  Lemma face_total : forall i t q v, nth_error ts i = Some t -> in_tri q (tri_of t) -> ~ vdot (tri_normal (tri_of t)) v == 0 ->
    eventually (fun e => total (along q e (scaled (-(1)) v)) (along q e v) = (if Qlt_le_dec (vdot (tri_normal (tri_of t)) v) 0 then 1 else -1)%Z /\ clear (along q e v)).
  Proof.
    intros i t q v Ei Hq Nv. set (T := tri_of t) in *. set (n := tri_normal T) in *. set (v' := scaled (-(1)) v).
    assert (Ev : forall w, eventually (fun e => forall u, In u ts -> ~ on_tri q (tri_of u) -> forall z, in_segment z q (along q e w) -> ~ on_tri z (tri_of u))).
    { intro w. apply ev_list. intros u Ju. assert (Nu := Hflat u Ju). destruct (on_tri_dec (tri_of u) q Nu) as [O | O].
      - apply ev_true. intros e _ N. contradiction.
      - apply (ev_mono (fun e => forall z, in_segment z q (along q e w) -> ~ sat (cons_tri (tri_of u)) z)).
        + intros e _ H _ z Z Sz. apply (H z Z). apply (on_tri_iff (tri_of u) z Nu), Sz.
        + apply ev_point. intro Sz. apply O. apply (on_tri_iff (tri_of u) q Nu), Sz. }
    generalize (ev_and _ _ (Ev v) (Ev v')). apply ev_mono. intros e E0 (M1 & M2).
    assert (NT : ~ flat T) by (eapply Hflat, nth_error_In, Ei).
    assert (Hq0 : hgt T q == 0) by (apply in_hgt, Hq). assert (He : hgt T (along q e v) == e * vdot n v) by (rewrite hgt_along, Hq0; fold n; ring).
    assert (He' : hgt T (along q e v') == - (e * vdot n v)).
    { rewrite hgt_along, Hq0. fold n. assert (Y : vdot n v' == - vdot n v) by (unfold v', scaled; clear; crush; ring). rewrite Y. ring. }
    assert (Ne : ~ e * vdot n v == 0) by (intro E; apply Qmult_integral in E; destruct E as [E | E]; [ lra | contradiction ]).
    assert (Mid : in_segment q (along q e v') (along q e v)) by (exists (1 # 2); split; [ lra | ]; unfold v', same, along, vsub, scaled; cbn [vx vy vz fst snd]; repeat split; ring).
    assert (Other : forall j u w, nth_error ts j = Some u -> j <> i -> (w = v \/ w = v') -> forall z, in_segment z q (along q e w) -> ~ on_tri z (tri_of u)).
    { intros j u w Ej Nij [-> | ->]; [ apply M1 | apply M2 ]; try (eapply nth_error_In, Ej); intro O; apply Nij; exact (Hap i j t u q Ei Ej Hq O). }
    split.
    - unfold Proof_winding.total. rewrite (zsum_one _ _ ts i t Ei).
      + fold T. destruct (Qlt_le_dec (vdot n v) 0) as [L | L].
        * assert (0 < e * - vdot n v) by (apply Qmult_lt_0_compat; lra). apply cc_in; [ exact NT | intro O; apply on_hgt in O; lra | ]. split; [ lra | ]. split; [ lra | ]. exists q. split; [ exact Mid | apply in_on_tri, Hq ].
        * assert (0 < e * vdot n v) by (apply Qmult_lt_0_compat; lra). rewrite cc_anti. assert (X : cc T (along q e v) (along q e v') = 1%Z); [ | rewrite X; reflexivity ].
          apply cc_in; [ exact NT | intro O; apply on_hgt in O; lra | ]. split; [ lra | ]. split; [ lra | ]. exists q. split; [ apply in_segment_sym, Mid | apply in_on_tri, Hq ].
      + intros j u Ej Nij. rewrite (cc_add _ _ _ q Mid). assert (Nu : ~ flat (tri_of u)) by (eapply Hflat, nth_error_In, Ej).
        rewrite (cc_free (tri_of u) q (along q e v) Nu (Other j u v Ej Nij (or_introl eq_refl))), cc_anti, (cc_free (tri_of u) q (along q e v') Nu (Other j u v' Ej Nij (or_intror eq_refl))). reflexivity.
    - intros u Ju O. apply In_nth_error in Ju. destruct Ju as (j & Ej). destruct (Nat.eq_dec j i) as [-> | Nij].
      + rewrite Ei in Ej. injection Ej as <-. apply on_hgt in O. fold T in O. lra.
      + apply (Other j u v Ej Nij (or_introl eq_refl) (along q e v)); [ | exact O ]. apply in_segment_sym, in_segment_start.
  Qed.

  Lemma change_along : forall n l x y, (length l <= n)%nat -> incl l ts -> ef x y -> clear x -> clear y ->
    (forall u, In u ts -> In u l \/ forall z, in_segment z x y -> ~ on_tri z (tri_of u)) -> change x y (total x y).
  Proof.
    intros n. induction n as [ | n IH]; intros l x y Ln Sub E Cx Cy Rest.
    - destruct l; [ | cbn in Ln; lia ]. apply free_change. intros z Z u J; destruct (Rest u J) as [ [] | H ]; exact (H z Z).
    - destruct (meets coords ts Hflat x y E Cy l Sub) as [Fr | (t & k & Jt & Hk & Ik & Nk & Fk)].
      + apply free_change. intros z Z u J; destruct (Rest u J) as [ H | H ]; [ exact (Fr u z H Z) | exact (H z Z) ].
      + assert (Jts : In t ts) by (apply Sub, Jt). set (q := along x k (vsub y x)) in *.
        assert (K0 : 0 < k).
        { destruct (Qlt_le_dec 0 k) as [L | L]; [ exact L | exfalso ]. apply (Cx t Jts). apply (on_tri_same _ q); [ | apply in_on_tri, Ik ]. assert (Z0 : k == 0) by lra. unfold q, same, along. cbn [vx vy vz fst snd]. rewrite Z0. repeat split; ring. }
        assert (K1 : k < 1).
        { destruct (Qlt_le_dec k 1) as [L | L]; [ exact L | exfalso ]. apply (Cy t Jts). apply (on_tri_same _ q); [ | apply in_on_tri, Ik ]. assert (Z0 : k == 1) by lra. unfold q, same, along, vsub. cbn [vx vy vz fst snd]. rewrite Z0. repeat split; ring. }
        apply In_nth_error in Jts as Ei; destruct Ei as (i & Ei). set (N := tri_normal (tri_of t)) in *. set (v := vsub y x) in *. set (v' := scaled (-(1)) v).
        assert (Op : vdot N v' == - vdot N v) by (unfold v'; generalize N as n0, v as v0; clear; unfold scaled; crush; ring).
        assert (Nv : ~ vdot N v' == 0) by (rewrite Op; intro Z0; apply Nk; lra).
        assert (Fs := face_total i t q v Ei Ik Nk).
        assert (Gs := Hfits i t q v Ei Ik Nk). assert (Gb := Hfits i t q v' Ei Ik Nv).
        destruct (ev_witness _ (ev_below _ k K0 (ev_below _ (1 - k) ltac:(lra) (ev_and _ _ Fs (ev_and _ _ Gs Gb))))) as (e & E0 & E1 & E2 & (W1 & C1) & G1 & G2). fold N in W1, G1, G2. fold v' in W1.
        set (xf := along q e v) in *. set (xb := along q e v') in *.
        assert (Sb : same xb (along x (k - e) v)) by (unfold xb, v', q, same, along, scaled; cbn [vx vy vz fst snd]; repeat split; ring).
        assert (Sf : same xf (along x (k + e) v)) by (unfold xf, q, same, along; cbn [vx vy vz fst snd]; repeat split; ring).
        assert (Cb : forall z, in_segment z x xb -> clear z).
        { intros z (s & Hs & Z) u Ju O. assert (Sz : same z (along x (s * (k - e)) v)).
          { apply (same_trans _ _ _ Z). destruct Sb as (S1 & S2 & S3). unfold same, along, vsub in *. cbn [vx vy vz fst snd] in *. rewrite S1, S2, S3. repeat split; ring. }
          assert (S0 : 0 <= s * (k - e)) by (apply Qmult_le_0_compat; lra). assert (S1 : s * (k - e) < k) by (clear - Hs E0 E1; nra).
          destruct (Rest u Ju) as [Jl | H]; [ apply (Fk u (s * (k - e)) Jl S0 S1); apply (on_tri_same _ z); assumption | ].
          apply (H z); [ | exact O ]. exists (s * (k - e)). split; [ lra | exact Sz ]. }
        assert (Exf : in_segment xf x y) by (exists (k + e); split; [ lra | exact Sf ]).
        assert (Exb : in_segment xb x xf).
        { exists ((k - e) / (k + e)). split; [ split; [ apply Qle_shift_div_l; lra | apply Qle_shift_div_r; lra ] | ]. apply (same_trans _ _ _ Sb). destruct Sf as (S1' & S2 & S3). unfold same, along, vsub in *. cbn [vx vy vz fst snd] in *. rewrite S1', S2, S3. repeat split; field; lra. }
        apply in_split in Jt. destruct Jt as (l1 & l2 & El).
        assert (St : change xf y (total xf y)).
        { apply (IH (l1 ++ l2)).
          - rewrite El, app_length in Ln. cbn in Ln. rewrite app_length. lia.
          - intros u J. apply Sub. rewrite El. apply in_app_iff in J. apply in_app_iff. cbn. tauto.
          - exact (ef_part coords ts x y xf Exf E).
          - exact C1.
          - exact Cy.
          - intros u Ju. assert (Sg : forall z, in_segment z xf y -> in_segment z x y).
            { intros z (s & (S0 & S1) & Z). exists ((k + e) + s * (1 - (k + e))). split; [ split; nra | ]. apply (same_trans _ _ _ Z). destruct Sf as (S1' & S2 & S3). unfold v, same, along, vsub in *. cbn [vx vy vz fst snd] in *. rewrite S1', S2, S3. repeat split; ring. }
            destruct (Rest u Ju) as [Jl | H]; [ | right; intros z Z; apply H, Sg, Z ]. rewrite El in Jl. apply in_app_iff in Jl. cbn in Jl.
            destruct Jl as [Jl | [<- | Jl] ]; [ left; apply in_app_iff; auto | right | left; apply in_app_iff; auto ].
            intros z (s & (S0 & S1) & Z) O. apply on_hgt in O. rewrite (hgt_same _ _ _ Z) in O.
            assert (Hq0 : hgt (tri_of t) q == 0) by (apply on_hgt, in_on_tri, Ik).
            assert (Hz : hgt (tri_of t) (along xf s (vsub y xf)) == (e + s * (1 - (k + e))) * vdot N v).
            { rewrite hgt_along, hgt_diff. unfold xf. rewrite hgt_along, Hq0. fold N. assert (Hy : hgt (tri_of t) y == (1 - k) * vdot N v).
              { assert (Sy : same y (along q (1 - k) v)) by (unfold q, v, same, along, vsub; cbn [vx vy vz fst snd]; repeat split; ring). rewrite (hgt_same _ _ _ Sy), hgt_along, Hq0. fold N. ring. }
              rewrite Hy. ring. }
            rewrite Hz in O. apply Qmult_integral in O. destruct O as [O | O]; [ | exact (Nk O) ]. assert (0 <= s * (1 - (k + e))) by (apply Qmult_le_0_compat; lra). lra. }
        assert (Tot : total x y = (total xb xf + total xf y)%Z).
        { rewrite (total_part x y xf Exf), (total_part x xf xb Exb), (free_total x xb Cb). lia. }
        rewrite Tot, W1. clear Tot W1 IH. assert (Sx := Hwalk x xb Cb). unfold change in *.
        destruct (Qlt_le_dec (vdot N v) 0) as [Lt | Lt].
        * assert (A1 : S xf) by (apply G1, Lt). assert (A2 : ~ S xb) by (apply G2; lra). assert (A3 : ~ S x) by tauto.
          destruct St as [ (A & B & ->) | [ (A & B & _) | [ (A & _) | (A & B & ->) ] ] ]; try contradiction; [ right; right; left; auto | right; left; auto ].
        * assert (Gt : 0 < vdot N v) by lra. assert (A1 : ~ S xf) by (apply G1, Gt). assert (A2 : S xb) by (apply G2; lra). assert (A3 : S x) by tauto.
          destruct St as [ (A & B & _) | [ (A & B & ->) | [ (A & B & ->) | (A & _) ] ] ]; try contradiction; [ right; right; right; auto | left; auto ].
  Qed.
  Theorem set_change : forall x y, ef x y -> clear x -> clear y -> change x y (total x y).
  Proof. intros x y E Cx Cy. apply (change_along (length ts) ts); auto; apply incl_refl. Qed.

  (** Around an edge. *)
  Variables p q : P.
  Hypothesis Hpq : ~ same (coords p) (coords q).
  Hypothesis Hne : p <> q.
  Hypothesis Hdiff : forall x y z, In (x, y, z) ts -> x <> y /\ y <> z /\ z <> x.
  Hypothesis Hedge : forall a b, In (a, b) (all_sides ts) -> in_segment (mid (coords p) (coords q)) (coords a) (coords b) -> (a = p /\ b = q) \/ (a = q /\ b = p).
  Hypothesis Hedec : forall a b, In (a, b) (all_sides ts) -> in_segment (mid (coords p) (coords q)) (coords a) (coords b) \/ ~ in_segment (mid (coords p) (coords q)) (coords a) (coords b).

  Theorem around_edge : exists f : P * P * P -> Z, zsum (map f ts) = 0%Z /\
    forall t, In t ts -> (f t = 1%Z /\ directed t p q) \/ (f t = (-1)%Z /\ directed t q p) \/ (f t = 0%Z /\ ~ directed t p q /\ ~ directed t q p).
  Proof.
    set (m := mid (coords p) (coords q)) in *. set (d := vsub (coords q) (coords p)).
    assert (Nd : ~ same d zero3) by (intros (E1 & E2 & E3); apply Hpq; unfold d, zero3, same, vsub in *; cbn [vx vy vz fst snd] in *; repeat split; lra).
    destruct (directions (map (fun t => tri_normal (tri_of t)) ts) d) as (w1 & w2 & Nw & Hw).
    { intros n J. apply in_map_iff in J. destruct J as (t & <- & J). intro E. apply (Hflat t J). destruct (tri_of t) as [ [a b] c]. exact E. }
    { exact Nd. }
    assert (Hw' : forall t, In t ts -> ~ vdot (tri_normal (tri_of t)) w1 == 0 /\ ~ vdot (tri_normal (tri_of t)) w2 == 0 /\ ~ vdot (tri_normal (tri_of t)) (scaled (-(1)) (vadd w1 w2)) == 0)
      by (intros t J; apply Hw, in_map_iff; exists t; auto). clear Hw.
    assert (Gen : forall w, (forall t, In t ts -> ~ vdot (tri_normal (tri_of t)) w == 0) -> eventually (fun e => clear (along m e w))).
    { intros w H. generalize (ev_generic (map tri_of ts) m w). intro EV. eapply ev_mono; [ | apply EV ].
      - intros e _ K t J. apply K, in_map, J.
      - intros U J. apply in_map_iff in J. destruct J as (t & <- & J). exact (H t J). }
    assert (Far : eventually (fun e => forall s, In s (all_sides ts) -> ~ in_segment m (coords (fst s)) (coords (snd s)) -> forall z, on_tri z (around m w1 w2 e) -> ~ in_segment z (coords (fst s)) (coords (snd s)))).
    { apply ev_list. intros [a b] J. destruct (Hedec a b J) as [I | I]; [ apply ev_true; intros e _ N; contradiction | ].
      generalize (ev_near m w1 w2 _ _ I). apply ev_mono. intros e _ H _. exact H. }
    destruct (ev_witness _ (ev_and _ _ (ev_and _ _ (Gen w1 (fun t J => proj1 (Hw' t J))) (ev_and _ _ (Gen w2 (fun t J => proj1 (proj2 (Hw' t J)))) (Gen _ (fun t J => proj2 (proj2 (Hw' t J)))))) Far)) as (e & E0 & (C1 & C2 & C3) & Fr).
    set (F := around m w1 w2 e) in *.
    assert (NF : ~ flat F) by (apply (around_not_flat m w1 w2 e d E0 Nw)).
    assert (Seg : forall a b z, (a = p /\ b = q) \/ (a = q /\ b = p) -> in_segment z (coords a) (coords b) -> exists t, same z (along m t d)).
    { intros a b z H I. assert (I' : in_segment z (coords p) (coords q)) by (destruct H as [ (-> & ->) | (-> & ->) ]; [ exact I | apply in_segment_sym, I ]).
      destruct I' as (s & _ & Z). exists (s - (1 # 2)). apply (same_trans _ _ _ Z). unfold m, mid, d, same, along, vsub. cbn [vx vy vz fst snd]. repeat split; ring. }
    assert (Avoid : forall a b z, In (a, b) (all_sides ts) -> in_segment z (coords a) (coords b) -> ~ side_in F z).
    { intros a b z J I Sz. destruct (Hedec a b J) as [M | M].
      - destruct (Seg a b z (Hedge a b J M) I) as (t & Z). exact (around_sides m w1 w2 e d z t E0 Nw Sz Z).
      - exact (Fr (a, b) J M z (side_on _ _ Sz) I). }
    assert (Ef : forall x y, (forall z, in_segment z x y -> side_in F z) -> ef x y) by (intros x y H z a b J I Z; exact (Avoid a b z J I (H z Z))).
    destruct F as [ [x1 x2] x3] eqn:EF. unfold F, around in EF. injection EF as <- <- <-. set (x1 := along m e w1) in *. set (x2 := along m e w2) in *. set (x3 := along m e (scaled (-(1)) (vadd w1 w2))) in *.
    change (x1, x2, x3) with (around m w1 w2 e) in *. fold F in NF, Avoid, Ef.
    assert (T12 := set_change x1 x2 (Ef x1 x2 (fun z Z => or_introl Z)) C1 C2). assert (T23 := set_change x2 x3 (Ef x2 x3 (fun z Z => or_intror (or_introl Z))) C2 C3). assert (T31 := set_change x3 x1 (Ef x3 x1 (fun z Z => or_intror (or_intror Z))) C3 C1).
    assert (Sum : (total x1 x2 + total x2 x3 + total x3 x1 = 0)%Z) by (unfold change in T12, T23, T31; destruct (Hdec x1), (Hdec x2), (Hdec x3); intuition lia).
    assert (Sum' : zsum (map (fun t => turn F (tri_of t)) ts) = 0%Z).
    { rewrite <- Sum. unfold Proof_winding.total. rewrite <- !zsum_plus. apply zsum_ext. intros t J. rewrite (link F (tri_of t) NF).
      - reflexivity.
      - intros z Sz St. destruct (side_listed coords ts t z J St) as (a & b & Jab & I). exact (Avoid a b z Jab I Sz). }
    assert (Hm0 : hgt F m == 0) by (apply on_hgt, around_center).
    set (D := vdot (tri_normal F) d). assert (ED : D == 3 * (e * e) * vdot d (vcross w1 w2)) by apply around_normal.
    assert (ND : ~ D == 0). { rewrite ED. intro Z. apply Qmult_integral in Z. destruct Z as [Z | Z]; [ | exact (Nw Z) ]. assert (0 < e * e) by (clear - E0; nra). lra. }
    assert (Hp : hgt F (coords p) == - ((1 # 2) * D)).
    { assert (Z : same (coords p) (along m (-(1 # 2)) d)) by (unfold m, mid, d, same, along, vsub; cbn [vx vy vz fst snd]; repeat split; ring). rewrite (hgt_same F _ _ Z), hgt_along, Hm0. fold D. ring. }
    assert (Hq : hgt F (coords q) == (1 # 2) * D).
    { assert (Z : same (coords q) (along m (1 # 2) d)) by (unfold m, mid, d, same, along, vsub; cbn [vx vy vz fst snd]; repeat split; ring). rewrite (hgt_same F _ _ Z), hgt_along, Hm0. fold D. ring. }
    assert (Im : in_segment m (coords p) (coords q)) by (exists (1 # 2); split; [ lra | apply same_refl ]).
    assert (Sg : exists s, (s = 1 \/ s = -1)%Z /\ cc F (coords p) (coords q) = s).
    { exists (cc F (coords p) (coords q)). split; [ | reflexivity ]. destruct (Qlt_le_dec D 0) as [L | L].
      - left. apply cc_in; [ exact NF | intro O; apply on_hgt in O; lra | ]. split; [ lra | ]. split; [ lra | ]. exists m. split; [ exact Im | apply around_center ].
      - right. rewrite cc_anti. assert (X : cc F (coords q) (coords p) = 1%Z); [ | rewrite X; reflexivity ].
        apply cc_in; [ exact NF | intro O; apply on_hgt in O; lra | ]. split; [ lra | ]. split; [ lra | ]. exists m. split; [ apply in_segment_sym, Im | apply around_center ]. }
    destruct Sg as (s & Hs & Cs). assert (Cs' : cc F (coords q) (coords p) = (- s)%Z) by (rewrite cc_anti, Cs; reflexivity).
    assert (Side : forall a b, In (a, b) (all_sides ts) -> (a = p /\ b = q /\ cc F (coords a) (coords b) = s) \/ (a = q /\ b = p /\ cc F (coords a) (coords b) = (- s)%Z) \/
      (cc F (coords a) (coords b) = 0%Z /\ ~ (a = p /\ b = q) /\ ~ (a = q /\ b = p))).
    { intros a b J. destruct (Hedec a b J) as [M | M].
      - destruct (Hedge a b J M) as [ (-> & ->) | (-> & ->) ]; auto.
      - right. right. split; [ apply cc_free; [ exact NF | ]; intros z Z O; exact (Fr (a, b) J M z O Z) | ].
        split; intros (-> & ->); apply M; [ exact Im | apply in_segment_sym, Im ]. }
    exists (fun t => (s * turn F (tri_of t))%Z). split.
    - rewrite (zsum_scale (fun t => turn F (tri_of t)) s), Sum'. lia.
    - intros [ [x y] z] J. destruct (Hdiff x y z J) as (D1 & D2 & D3). assert (L : forall c, In c (sides_of (x, y, z)) -> In c (all_sides ts)) by (intros c K; apply in_flat_map; exists (x, y, z); auto).
      assert (S1 := Side x y (L (x, y) (or_introl eq_refl))). assert (S2 := Side y z (L (y, z) (or_intror (or_introl eq_refl)))). assert (S3 := Side z x (L (z, x) (or_intror (or_intror (or_introl eq_refl))))).
      change (turn F (tri_of (x, y, z))) with (cc F (coords x) (coords y) + cc F (coords y) (coords z) + cc F (coords z) (coords x))%Z. cbn [directed].
      assert (Ss : (s * s = 1)%Z) by (clear - Hs; destruct Hs as [E | E]; rewrite E; reflexivity).
      destruct S1 as [ (A1 & B1 & ->) | [ (A1 & B1 & ->) | (-> & A1 & B1) ] ].
      1,2: assert (Z2 : cc F (coords y) (coords z) = 0%Z) by (destruct S2 as [ (A2 & B2 & _) | [ (A2 & B2 & _) | (-> & _) ] ]; [ exfalso; congruence | exfalso; congruence | reflexivity ]);
        assert (Z3 : cc F (coords z) (coords x) = 0%Z) by (destruct S3 as [ (A2 & B2 & _) | [ (A2 & B2 & _) | (-> & _) ] ]; [ exfalso; congruence | exfalso; congruence | reflexivity ]); rewrite Z2, Z3.
      + left. split; [ lia | ]. left. auto.
      + right. left. split; [ lia | ]. left. auto.
      + destruct S2 as [ (A2 & B2 & ->) | [ (A2 & B2 & ->) | (-> & A2 & B2) ] ].
        1,2: assert (Z3 : cc F (coords z) (coords x) = 0%Z) by (destruct S3 as [ (A3 & B3 & _) | [ (A3 & B3 & _) | (-> & _) ] ]; [ exfalso; congruence | exfalso; congruence | reflexivity ]); rewrite Z3.
        * left. split; [ lia | ]. right. left. auto.
        * right. left. split; [ lia | ]. right. left. auto.
        * destruct S3 as [ (A3 & B3 & ->) | [ (A3 & B3 & ->) | (-> & A3 & B3) ] ].
          -- left. split; [ lia | ]. right. right. auto.
          -- right. left. split; [ lia | ]. right. right. auto.
          -- right. right. split; [ lia | ]. split; intros [ (U & V) | [ (U & V) | (U & V) ] ]; auto.
  Qed.
End Change.
