(** * Straight ways through convex meshes *)
From Coq Require Import List Arith ZArith QArith Lqa Lia.
From Verif Require Import Model_base Model_soup Model_geometry Model_side.
From Verif Require Import Spec_candidates Spec_side Spec_solid Spec_visible Spec_balance.
From Verif Require Import Proof_affine Proof_small Proof_walk Proof_link Proof_visible.
Import ListNotations.
Local Open Scope Q_scope.

Lemma on_tri_cases : forall T z, on_tri z T -> in_tri z T \/ side_in T z.
Proof.
  intros [ [a b] c] z (u & v & w & U & V & W & S & X & Y & Z). cbn [in_tri side_in].
  destruct (Qlt_le_dec 0 u) as [U' | U'], (Qlt_le_dec 0 v) as [V' | V'], (Qlt_le_dec 0 w) as [W' | W'].
  1: left; exists u, v, w; repeat split; assumption.
  all: right.
  1, 3: left; exists v; split; [ lra | ]; unfold same, along, vsub; cbn [vx vy vz fst snd]; rewrite X, Y, Z; assert (w == 0) as -> by lra; assert (u == 1 - v) as -> by lra; repeat split; ring.
  1: right; right; exists u; split; [ lra | ]; unfold same, along, vsub; cbn [vx vy vz fst snd]; rewrite X, Y, Z; assert (v == 0) as -> by lra; assert (w == 1 - u) as -> by lra; repeat split; ring.
  all: right; left; exists w; (split; [ lra | ]); unfold same, along, vsub; cbn [vx vy vz fst snd]; rewrite X, Y, Z; assert (u == 0) as -> by lra; assert (v == 1 - w) as -> by lra; repeat split; ring.
Qed.

(** One goes in through one face at most: what one meets first (or last). *)
Section Turns.
  Context {D : Type}.
  Variables (m : soup vec3 D) (s : Q).
  Hypothesis Pf : proper_faces m.
  Hypothesis Hs : 0 < s * s.
  Hypothesis Conv : forall fi T x, soup_triangle m fi = Ok T -> on_boundary m x -> s * hgt T x <= 0.

  Lemma in_once : forall x y i j, avoids_edges m x y -> goes_in m x y i -> goes_in m x y j -> i = j.
  Proof.
    intros x y i j Av (a & b & c & Ti & Hx & Hy & z & (k & (K0 & K1) & Z) & O) (a' & b' & c' & Tj & Hx' & Hy' & z' & (k' & (K0' & K1') & Z') & O').
    assert (Bz : on_boundary m z) by (exists i, a, b, c; auto). assert (Bz' : on_boundary m z') by (exists j, a', b', c'; auto).
    assert (C1 := Conv i _ z' Ti Bz'). assert (C2 := Conv j _ z Tj Bz).
    assert (F1 : hgt (a, b, c) z' == (k' - k) * (hgt (a, b, c) y - hgt (a, b, c) x)).
    { assert (E := hgt_on (a, b, c) z O). rewrite (hgt_same _ _ _ Z), hgt_seg in E. rewrite (hgt_same _ _ _ Z'), hgt_seg. lra. }
    assert (F2 : hgt (a', b', c') z == (k - k') * (hgt (a', b', c') y - hgt (a', b', c') x)).
    { assert (E := hgt_on (a', b', c') z' O'). rewrite (hgt_same _ _ _ Z'), hgt_seg in E. rewrite (hgt_same _ _ _ Z), hgt_seg. lra. }
    change (height a b c x) with (hgt (a, b, c) x) in Hx. change (height a b c y) with (hgt (a, b, c) y) in Hy. change (height a' b' c' x) with (hgt (a', b', c') x) in Hx'. change (height a' b' c' y) with (hgt (a', b', c') y) in Hy'.
    set (u := hgt (a, b, c) y - hgt (a, b, c) x) in *. set (v := hgt (a', b', c') y - hgt (a', b', c') x) in *. assert (U : u < 0) by (unfold u; lra). assert (V : v < 0) by (unfold v; lra).
    rewrite F1 in C1. rewrite F2 in C2. assert (Ek : k == k').
    { clear - C1 C2 U V Hs. set (d := k' - k) in *. assert (E : k - k' == - d) by (unfold d; ring). rewrite E in C2. assert (A1 : s * d * u <= 0) by lra. assert (A2 : - (s * d) * v <= 0) by lra.
      assert (A3 : s * d == 0) by nra. apply Qmult_integral in A3. destruct A3 as [A3 | A3]; [ rewrite A3 in Hs; lra | unfold d in A3; lra ]. }
    assert (Sz : same z z') by (destruct Z as (Z1 & Z2 & Z3), Z' as (Z1' & Z2' & Z3'); unfold same, along, vsub in *; cbn [vx vy vz fst snd] in *; rewrite Z1, Z2, Z3, Z1', Z2', Z3', Ek; repeat split; reflexivity).
    assert (Iz : in_segment z x y) by (exists k; split; [ split; assumption | exact Z ]).
    assert (N := pf_nondegenerate _ Pf i a b c Ti).
    destruct (on_tri_cases (a, b, c) z O) as [I | S].
    - symmetry. apply (pf_apart _ Pf i j a b c z Ti I). exists a', b', c'. split; [ exact Tj | ]. apply (on_tri_same (a', b', c') z'); [ | exact O' ]. destruct Sz as (S1 & S2 & S3). repeat split; symmetry; assumption.
    - exfalso. destruct (Av i a b c z Ti Iz) as (A1 & A2 & A3). cbn [side_in] in S. tauto.
  Qed.
End Turns.

Lemma convex_by_turns : forall D (m : soup vec3 D), proper_faces m -> convex_mesh m -> by_turns m.
Proof.
  intros D m Pf C x y ins outs _ _ Av (l & N & <- & Hl) (l' & N' & <- & Hl').
  assert (X : exists s, 0 < s * s /\ forall fi T x, soup_triangle m fi = Ok T -> on_boundary m x -> s * hgt T x <= 0).
  { destruct C as [C | C]; [ exists 1 | exists (-(1)) ]; (split; [ reflexivity | ]); intros fi [ [a b] c] z T O; specialize (C fi a b c z T O); change (height a b c z) with (hgt (a, b, c) z) in C; lra. }
  destruct X as (s & Hs & Conv).
  assert (Av' : avoids_edges m y x).
  { intros fi a b c z T (k & K & Z). apply (Av fi a b c z T). exists (1 - k). split; [ lra | ]. destruct Z as (Z1 & Z2 & Z3). unfold same, along, vsub in *. cbn [vx vy vz fst snd] in *. rewrite Z1, Z2, Z3. repeat split; ring. }
  assert (One : forall (l : list nat) (Q : nat -> Prop), NoDup l -> (forall i, In i l -> Q i) -> (forall i j, Q i -> Q j -> i = j) -> (length l <= 1)%nat).
  { clear. intros [ | i [ | j l] ] Q N H1 H2; cbn; try lia. exfalso. inversion N as [ | ? ? X Y]. apply X. left. apply H2; apply H1; cbn; auto. }
  assert (length l <= 1)%nat by (apply (One l (goes_in m x y) N); [ intros i; apply Hl | intros i j; apply (in_once m s Pf Hs Conv); exact Av ]).
  assert (length l' <= 1)%nat by (apply (One l' (goes_in m y x) N'); [ intros i; apply Hl' | intros i j; apply (in_once m s Pf Hs Conv); exact Av' ]). lia.
Qed.
