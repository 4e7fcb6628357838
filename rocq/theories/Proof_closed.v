(** * Two faces of a convex body at a side *)
From Coq Require Import List Arith ZArith QArith Qminmax Lqa Lia.
From Verif Require Import Model_base Proof_base Model_soup Model_geometry Model_side.
From Verif Require Import Spec_candidates Spec_side Spec_solid Spec_visible Proof_affine Proof_small Proof_walk Proof_link Proof_hinge Proof_visible Proof_meet.
From Verif Require Import Spec_side Spec_solid.
Import ListNotations.
Local Open Scope Q_scope.

(** The corners of the triangle, in their order. *)
Definition rot {A} (T : A * A * A) (a b c : A) : Prop := T = (a, b, c) \/ T = (b, c, a) \/ T = (c, a, b).
Lemma rot_hgt : forall T a b c x, rot T a b c -> hgt T x == hgt (a, b, c) x.
Proof. intros T a b c x [-> | [-> | ->] ]; cbn [hgt]; unfold ht; crush; ring. Qed.
Lemma rot_in : forall T a b c x, rot T a b c -> in_tri x (a, b, c) -> in_tri x T.
Proof.
  intros T a b c x [-> | [-> | ->] ] H; [ exact H | | ]; destruct H as (u & v & w & U & V & W & S & X & Y & Z); cbn [in_tri].
  - exists v, w, u. repeat split; try assumption; [ lra | rewrite X | rewrite Y | rewrite Z ]; ring.
  - exists w, u, v. repeat split; try assumption; [ lra | rewrite X | rewrite Y | rewrite Z ]; ring.
Qed.
Lemma rot_flat : forall T a b c, rot T a b c -> ~ flat T -> ~ flat (a, b, c).
Proof.
  intros T a b c [-> | [-> | ->] ] N; [ exact N | | ]; intro F; apply N; unfold flat, degenerate, same in *; destruct F as (F1 & F2 & F3); clear N; crush; repeat split; lra.
Qed.
Lemma rot_corner : forall T a b c, rot T a b c -> on_tri c T.
Proof. intros T a b c [-> | [-> | ->] ]; cbn [on_tri]; [ apply (corners_on a b c) | apply (corners_on b c a) | apply (corners_on c a b) ]. Qed.

(** They overlap if they are in one plane and look the same way. *)
Lemma same_side_overlap : forall a b c d, ~ flat (a, b, c) -> hgt (a, b, c) d == 0 -> 0 < vdot (normal a b d) (normal a b c) ->
  exists q, in_tri q (a, b, c) /\ in_tri q (a, b, d).
Proof.
  intros a b c d NT Z0 Pos. set (m := mid a b). set (nT := normal a b c) in *.
  destruct (tri_vals a b c) as (_ & _ & (A1 & A2 & A3) & (B1 & B2 & B3) & (C1 & C2 & C3)). fold nT in A1, A2, A3, B1, B2, B3, C1, C2, C3.
  assert (HN : 0 < vdot nT nT) by (apply nondeg_pos, NT). set (N := vdot nT nT) in *.
  set (g1 := through (vcross nT (vsub b a)) a) in *. set (g2 := through (vcross nT (vsub c b)) b) in *. set (g3 := through (vcross nT (vsub a c)) c) in *.
  assert (M : forall g, aev g m == (1 # 2) * aev g a + (1 # 2) * aev g b) by (intro g; rewrite (aev_segment g m a b (1 # 2)) by apply same_refl; ring).
  assert (G1 : vdot (ak g1) (vsub d m) == vdot (normal a b d) nT) by (unfold g1, nT, m, mid; clear; crush; ring).
  assert (P2 := ev_pos (aev g2 m) (vdot (ak g2) (vsub d m)) ltac:(rewrite M, B1, B2; lra)). assert (P3 := ev_pos (aev g3 m) (vdot (ak g3) (vsub d m)) ltac:(rewrite M, C1, C2; lra)).
  destruct (ev_witness _ (ev_and _ _ ev_one (ev_and _ _ P2 P3))) as (e & E0 & E1 & E2 & E3).
  assert (Hm : hgt (a, b, c) m == 0) by (unfold m, mid; cbn [hgt]; unfold ht; clear; crush; ring).
  exists (along m e (vsub d m)). split.
  - cbn [in_tri]. apply vals_open; [ exact NT | | | | ].
    + rewrite <- hgt_aev. assert (X := hgt_diff (a, b, c) m d). rewrite Z0, Hm in X. rewrite hgt_along, Hm, X. ring.
    + change (0 < aev g1 (along m e (vsub d m))). rewrite aev_along, M, A1, A2, G1. assert (0 < e * vdot (normal a b d) nT) by (apply Qmult_lt_0_compat; assumption). lra.
    + change (0 < aev g2 (along m e (vsub d m))). rewrite aev_along. exact E2.
    + change (0 < aev g3 (along m e (vsub d m))). rewrite aev_along. exact E3.
  - cbn [in_tri]. exists ((1 # 2) * (1 - e)), ((1 # 2) * (1 - e)), e. (repeat split; [ lra | lra | lra | lra | | | ]; unfold m, mid, along, vsub; cbn [vx vy vz fst snd]; ring).
Qed.

Section Body.
  Context {D : Type}.
  Variables (m : soup vec3 D) (A : vec3 -> Prop).
  Hypothesis Bd : bounds m A.
  Hypothesis Conv : forall fi T x, soup_triangle m fi = Ok T -> on_boundary m x -> hgt T x <= 0.

  Lemma sides_overlap : forall i j T U a b c d, soup_triangle m i = Ok T -> soup_triangle m j = Ok U -> ~ flat T -> ~ flat U ->
    rot T a b c -> rot U a b d -> exists z, in_tri z T /\ in_tri z U.
  Proof.
    intros i j T U a b c d HT HU FT FU RT RU.
    assert (Bc : forall k V x y z, soup_triangle m k = Ok V -> rot V x y z -> on_boundary m z).
    { intros k V x y z HV RV. apply rot_corner in RV. destruct V as [ [p q] r]. exists k, p, q, r. split; [ exact HV | exact RV ]. }
    pose proof (Conv i T d HT (Bc _ _ _ _ _ HU RU)) as H1. pose proof (Conv j U c HU (Bc _ _ _ _ _ HT RT)) as H2.
    rewrite (rot_hgt _ _ _ _ _ RT) in H1. rewrite (rot_hgt _ _ _ _ _ RU) in H2.
    assert (X : hgt (a, b, d) c == - hgt (a, b, c) d) by (cbn [hgt]; unfold ht; clear; crush; ring).
    assert (Z1 : hgt (a, b, c) d == 0) by lra. assert (FT' := rot_flat _ _ _ _ RT FT). assert (FU' := rot_flat _ _ _ _ RU FU).
    assert (PT : 0 < vdot (normal a b c) (normal a b c)) by (apply nondeg_pos, FT'). assert (PU : 0 < vdot (normal a b d) (normal a b d)) by (apply nondeg_pos, FU').
    destruct (hgt_corners a b c) as (Ha & Hb & _). assert (Par := in_plane_parallel (a, b, c) a b d Ha Hb Z1). cbn [tri_normal] in Par.
    set (n := normal a b c) in *. set (k := normal a b d) in *.
    destruct (Qlt_le_dec 0 (vdot k n)) as [L | L].
    - destruct (same_side_overlap a b c d FT' Z1 L) as (z & I1 & I2). exists z. split; [ exact (rot_in _ _ _ _ _ RT I1) | exact (rot_in _ _ _ _ _ RU I2) ].
    - exfalso. destruct (Qeq_dec (vdot k n) 0) as [E | E]; [ exact (cross_zero k n Par E PU PT) | ]. assert (L' : vdot k n < 0) by lra.
      (* right behind the one face, and in front of the other *)
      assert (Opp : forall x, vdot n n * hgt U x == vdot k n * hgt T x).
      { intro x. rewrite (rot_hgt _ _ _ _ _ RT), (rot_hgt _ _ _ _ _ RU). cbn [hgt]. unfold ht. fold n k. destruct Par as (P1 & P2 & P3).
        assert (Y : vdot n n * vdot k (vsub x a) - vdot k n * vdot n (vsub x a) == vx (vcross k n) * vx (vcross n (vsub x a)) + vy (vcross k n) * vy (vcross n (vsub x a)) + vz (vcross k n) * vz (vcross n (vsub x a)) \/ vdot n n * vdot k (vsub x a) - vdot k n * vdot n (vsub x a) == - (vx (vcross k n) * vx (vcross n (vsub x a)) + vy (vcross k n) * vy (vcross n (vsub x a)) + vz (vcross k n) * vz (vcross n (vsub x a)))).
        { clear. generalize (vsub x a) as w. generalize n k. crush. first [ left; ring | right; ring ]. }
        assert (Zc : vx (vcross k n) * vx (vcross n (vsub x a)) + vy (vcross k n) * vy (vcross n (vsub x a)) + vz (vcross k n) * vz (vcross n (vsub x a)) == 0) by (rewrite P1, P2, P3; unfold zero3, vx, vy, vz; cbn [fst snd]; ring).
        rewrite Zc in Y. destruct Y as [Y | Y]; lra. }
      destruct T as [ [p q] r]. set (T := (p, q, r)) in *. set (g := centroid p q r). set (v := scaled (-(1)) (normal p q r)).
      destruct (bd_face _ _ Bd i p q r g v HT (centroid_open p q r)) as (b0 & B0 & HB).
      assert (PT' : 0 < vdot (normal p q r) (normal p q r)) by (apply nondeg_pos, FT).
      assert (Nv : vdot (normal p q r) v == - vdot (normal p q r) (normal p q r)) by (unfold v, scaled, vdot; cbn [vx vy vz fst snd]; ring).
      set (e := (1 # 2) * b0). assert (Ee : 0 < e < b0) by (unfold e; lra).
      assert (In0 : A (along g e v)) by (apply (proj1 (HB e Ee)); rewrite Nv; lra).
      apply (front_out m A Bd Conv j U (along g e v) HU); [ | exact In0 ].
      assert (G : hgt T g == 0) by (apply hgt_on, open_on, centroid_open).
      assert (HTx : hgt T (along g e v) < 0). { rewrite hgt_along, G. cbn [tri_normal T]. unfold T. cbn [tri_normal]. rewrite Nv. assert (0 < e * vdot (normal p q r) (normal p q r)) by (apply Qmult_lt_0_compat; [ apply Ee | exact PT' ]). lra. }
      pose proof (Opp (along g e v)) as O. clear - O HTx L' PT. set (hu := hgt U (along g e v)) in *. set (ht := hgt T (along g e v)) in *. clearbody hu ht.
      assert (0 < - vdot k n * - ht) by (apply Qmult_lt_0_compat; lra). destruct (Qlt_le_dec 0 hu) as [ | L]; [ assumption | ]. assert (0 <= vdot n n * - hu) by (apply Qmult_le_0_compat; lra). lra.
  Qed.
End Body.
