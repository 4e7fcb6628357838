(** * Volumes of tilings *)
From Coq Require Import List Arith Bool QArith Qminmax Lqa Lia Field.
From Verif Require Import Model_base Model_soup Model_geometry Model_corefine Spec_defects Spec_ffi Spec_corefine Spec_mix Spec_side Spec_solid.
From Verif Require Import Proof_affine Proof_small Proof_link Proof_bridge Proof_separate Proof_area.
From Verif Require Import Spec_ffi Spec_mix Spec_side Spec_solid.
Import ListNotations.
Local Open Scope Q_scope.

Section Frame.
  Variables a b c : vec3.
  Let u := vsub b a.
  Let w := vsub c a.
  Let n := vcross u w.
  Hypothesis Hn : 0 < vdot n n.

  Definition pos2 (p : vec3) : pt := (vdot n (vcross (vsub p a) w) / vdot n n, vdot n (vcross u (vsub p a)) / vdot n n).
  Definition back (z : pt) : vec3 := (vx a + fst z * vx u + snd z * vx w, vy a + fst z * vy u + snd z * vy w, vz a + fst z * vz u + snd z * vz w).
  Definition tri_pos (T : vec3 * vec3 * vec3) : tri2 := let '(p, q, r) := T in (pos2 p, pos2 q, pos2 r).

  Lemma dual : forall v, vdot n n * vx v == vdot n (vcross v w) * vx u + vdot n (vcross u v) * vx w + vdot n v * vx n /\
    vdot n n * vy v == vdot n (vcross v w) * vy u + vdot n (vcross u v) * vy w + vdot n v * vy n /\
    vdot n n * vz v == vdot n (vcross v w) * vz u + vdot n (vcross u v) * vz w + vdot n v * vz n.
  Proof. intro v. unfold n. clearbody u w. clear. destruct u as [ [u1 u2] u3], w as [ [w1 w2] w3], v as [ [v1 v2] v3]. cbv [vdot vcross vx vy vz fst snd]. repeat split; ring. Qed.

  Lemma pos_back : forall z, fst (pos2 (back z)) == fst z /\ snd (pos2 (back z)) == snd z.
  Proof.
    intros [x y]. unfold pos2. cbn [fst snd]. assert (Nz : ~ vdot n n == 0) by lra.
    assert (E1 : vdot n (vcross (vsub (back (x, y)) a) w) == x * vdot n n) by (unfold n, back; clearbody u w; clear; destruct u as [ [u1 u2] u3], w as [ [w1 w2] w3], a as [ [a1 a2] a3]; cbv [vdot vcross vsub vx vy vz fst snd]; ring).
    assert (E2 : vdot n (vcross u (vsub (back (x, y)) a)) == y * vdot n n) by (unfold n, back; clearbody u w; clear; destruct u as [ [u1 u2] u3], w as [ [w1 w2] w3], a as [ [a1 a2] a3]; cbv [vdot vcross vsub vx vy vz fst snd]; ring).
    rewrite E1, E2. split; field; exact Nz.
  Qed.

  Lemma back_pos : forall p, vdot n (vsub p a) == 0 -> same p (back (pos2 p)).
  Proof.
    intros p Z. destruct (dual (vsub p a)) as (X & Y & W). rewrite Z in X, Y, W. assert (Nz : ~ vdot n n == 0) by lra.
    unfold same, back, pos2. cbn [fst snd]. set (k := vdot n n) in *. set (s := vdot n (vcross (vsub p a) w)) in *. set (t := vdot n (vcross u (vsub p a))) in *.
    assert (G : forall pv av uv wv nv, k * (pv - av) == s * uv + t * wv + 0 * nv -> pv == av + s / k * uv + t / k * wv).
    { clear - Nz. intros pv av uv wv nv H. assert (H' : pv - av == (s * uv + t * wv) / k) by (rewrite <- (Qdiv_mult_l (pv - av) k Nz); rewrite (Qmult_comm (pv - av) k), H; field; exact Nz). assert (E : s / k * uv + t / k * wv == (s * uv + t * wv) / k) by (field; exact Nz). lra. }
    destruct p as [ [p1 p2] p3]. clear - X Y W G. destruct a as [ [a1 a2] a3]. repeat split; (eapply G; [ first [ exact X | exact Y | exact W ] ]).
  Qed.

  Lemma normal_dbl : forall p q r, vdot n (vsub p a) == 0 -> vdot n (vsub q a) == 0 -> vdot n (vsub r a) == 0 ->
    vdot (face_normal (p, q, r)) n == dbl (tri_pos (p, q, r)) * vdot n n /\ forall x, vdot x (face_normal (p, q, r)) == dbl (tri_pos (p, q, r)) * vdot x n.
  Proof.
    intros p q r Hp Hq Hr. assert (G : forall x, vdot x (face_normal (p, q, r)) == dbl (tri_pos (p, q, r)) * vdot x n).
    { intro x. cbn [tri_pos dbl]. pose proof (back_pos p Hp) as (P1 & P2 & P3). pose proof (back_pos q Hq) as (Q1 & Q2 & Q3). pose proof (back_pos r Hr) as (R1 & R2 & R3).
      set (p2 := pos2 p) in *. set (q2 := pos2 q) in *. set (r2 := pos2 r) in *. clearbody p2 q2 r2. unfold face_normal, vdot at 1, vcross, vsub. cbn [vx vy vz fst snd].
      rewrite P1, P2, P3, Q1, Q2, Q3, R1, R2, R3. unfold back, edge, n. clearbody u w. clear. destruct u as [ [u1 u2] u3], w as [ [w1 w2] w3], a as [ [a1 a2] a3]. cbv [vdot vcross vx vy vz fst snd]. ring. }
    split; [ | exact G ]. rewrite <- (G n). unfold vdot. ring.
  Qed.

  (** Weights. *)
  Lemma weights : forall p q r z, vdot n (vsub p a) == 0 -> vdot n (vsub q a) == 0 -> vdot n (vsub r a) == 0 -> 0 < dbl (tri_pos (p, q, r)) ->
    let D := dbl (tri_pos (p, q, r)) in let k1 := edge (pos2 q) (pos2 r) z / D in let k2 := edge (pos2 r) (pos2 p) z / D in let k3 := edge (pos2 p) (pos2 q) z / D in
    k1 + k2 + k3 == 1 /\ vx (back z) == k1 * vx p + k2 * vx q + k3 * vx r /\ vy (back z) == k1 * vy p + k2 * vy q + k3 * vy r /\ vz (back z) == k1 * vz p + k2 * vz q + k3 * vz r.
  Proof.
    intros p q r z Hp Hq Hr HD D k1 k2 k3. assert (Nz : ~ D == 0) by (unfold D; lra).
    pose proof (back_pos p Hp) as (P1 & P2 & P3). pose proof (back_pos q Hq) as (Q1 & Q2 & Q3). pose proof (back_pos r Hr) as (R1 & R2 & R3).
    assert (S1 : k1 + k2 + k3 == 1). { assert (E : k1 + k2 + k3 == (edge (pos2 p) (pos2 q) z + edge (pos2 q) (pos2 r) z + edge (pos2 r) (pos2 p) z) / D) by (unfold k1, k2, k3; field; exact Nz). rewrite E, edge_sum. unfold D, tri_pos, dbl. field. exact Nz. }
    assert (S2 : k1 * fst (pos2 p) + k2 * fst (pos2 q) + k3 * fst (pos2 r) == fst z).
    { assert (E : k1 * fst (pos2 p) + k2 * fst (pos2 q) + k3 * fst (pos2 r) == (edge (pos2 q) (pos2 r) z * fst (pos2 p) + edge (pos2 r) (pos2 p) z * fst (pos2 q) + edge (pos2 p) (pos2 q) z * fst (pos2 r)) / D) by (unfold k1, k2, k3; field; exact Nz).
      assert (F : edge (pos2 q) (pos2 r) z * fst (pos2 p) + edge (pos2 r) (pos2 p) z * fst (pos2 q) + edge (pos2 p) (pos2 q) z * fst (pos2 r) == D * fst z) by (unfold D, tri_pos, dbl, edge; ring). rewrite E, F. field. exact Nz. }
    assert (S3 : k1 * snd (pos2 p) + k2 * snd (pos2 q) + k3 * snd (pos2 r) == snd z).
    { assert (E : k1 * snd (pos2 p) + k2 * snd (pos2 q) + k3 * snd (pos2 r) == (edge (pos2 q) (pos2 r) z * snd (pos2 p) + edge (pos2 r) (pos2 p) z * snd (pos2 q) + edge (pos2 p) (pos2 q) z * snd (pos2 r)) / D) by (unfold k1, k2, k3; field; exact Nz).
      assert (F : edge (pos2 q) (pos2 r) z * snd (pos2 p) + edge (pos2 r) (pos2 p) z * snd (pos2 q) + edge (pos2 p) (pos2 q) z * snd (pos2 r) == D * snd z) by (unfold D, tri_pos, dbl, edge; ring). rewrite E, F. field. exact Nz. }
    split; [ exact S1 | ].
    set (p2 := pos2 p) in *. set (q2 := pos2 q) in *. set (r2 := pos2 r) in *. clearbody k1 k2 k3 p2 q2 r2.
    assert (G : forall av uv wv pv qv rv, pv == av + fst p2 * uv + snd p2 * wv -> qv == av + fst q2 * uv + snd q2 * wv -> rv == av + fst r2 * uv + snd r2 * wv ->
      av + fst z * uv + snd z * wv == k1 * pv + k2 * qv + k3 * rv).
    { clear - S1 S2 S3. intros av uv wv pv qv rv P Q0 R. rewrite P, Q0, R. rewrite <- S2, <- S3. assert (E : k1 == 1 - k2 - k3) by lra. rewrite E. ring. }
    repeat split; unfold back, vx, vy, vz in *; cbn [fst snd] in *; apply G; assumption.
  Qed.

  Lemma inside_in2 : forall p q r z, vdot n (vsub p a) == 0 -> vdot n (vsub q a) == 0 -> vdot n (vsub r a) == 0 -> 0 < dbl (tri_pos (p, q, r)) ->
    (on_tri (back z) (p, q, r) <-> in2 (tri_pos (p, q, r)) z) /\ (open2 (tri_pos (p, q, r)) z -> in_tri (back z) (p, q, r)).
  Proof.
    intros p q r z Hp Hq Hr HD. destruct (weights p q r z Hp Hq Hr HD) as (S1 & X & Y & Z). set (D := dbl (tri_pos (p, q, r))) in *.
    split; [ split | ].
    - intros (i & j & k & I & J & K & S & Ex & Ey & Ez).
      assert (Lin : forall v v1 v2, fst (pos2 v) == i * fst (pos2 p) + j * fst (pos2 q) + k * fst (pos2 r) -> snd (pos2 v) == i * snd (pos2 p) + j * snd (pos2 q) + k * snd (pos2 r) -> fst z == fst (pos2 v) -> snd z == snd (pos2 v) -> v1 = v2 :> nat ->
        edge (pos2 q) (pos2 r) z == i * D /\ edge (pos2 r) (pos2 p) z == j * D /\ edge (pos2 p) (pos2 q) z == k * D).
      { clear - S. intros v _ _ V1 V2 Z1 Z2 _. assert (Ei : i == 1 - j - k) by lra. unfold D, tri_pos, dbl, edge. rewrite Z1, Z2, V1, V2, Ei. repeat split; ring. }
      assert (Aff : fst (pos2 (back z)) == i * fst (pos2 p) + j * fst (pos2 q) + k * fst (pos2 r) /\ snd (pos2 (back z)) == i * snd (pos2 p) + j * snd (pos2 q) + k * snd (pos2 r)).
      { set (v := back z) in *. clearbody v. clear - S Ex Ey Ez Hn. assert (Ei : i == 1 - j - k) by lra. unfold pos2. cbn [fst snd]. set (kk := vdot n n) in *. assert (Nz : ~ kk == 0) by lra. clearbody kk. clearbody n. unfold vdot, vcross, vsub. cbn [vx vy vz fst snd]. rewrite Ex, Ey, Ez, Ei. split; field; exact Nz. }
      destruct Aff as (A1 & A2). destruct (pos_back z) as (B1 & B2). destruct (Lin (back z) 0%nat 0%nat A1 A2 (Qeq_sym _ _ B1) (Qeq_sym _ _ B2) eq_refl) as (L1 & L2 & L3).
      cbn [tri_pos in2]. rewrite L1, L2, L3. repeat split; apply Qmult_le_0_compat; lra.
    - cbn [tri_pos in2]. intros (E3 & E1 & E2). cbn [on_tri]. eexists _, _, _. split; [ | split; [ | split; [ | split; [ exact S1 | split; [ exact X | split; [ exact Y | exact Z ] ] ] ] ] ]; apply Qle_shift_div_l; lra.
    - cbn [tri_pos open2]. intros (E3 & E1 & E2). cbn [in_tri]. eexists _, _, _. split; [ | split; [ | split; [ | split; [ exact S1 | split; [ exact X | split; [ exact Y | exact Z ] ] ] ] ] ]; apply Qlt_shift_div_l; lra.
  Qed.
End Frame.

Fixpoint vsum (f : vec3 * vec3 * vec3 -> Q) (l : list (vec3 * vec3 * vec3)) : Q := match l with [] => 0 | T :: l => f T + vsum f l end.
Definition det3 (T : vec3 * vec3 * vec3) : Q := let '(p, q, r) := T in vdot p (vcross q r).

Lemma det_normal : forall p q r, det3 (p, q, r) == vdot p (face_normal (p, q, r)).
Proof. intros [ [p1 p2] p3] [ [q1 q2] q3] [ [r1 r2] r3]. cbv [det3 face_normal vdot vcross vsub vx vy vz fst snd]. ring. Qed.


(** What is covered inside is covered. *)
Lemma edge_affine : forall p q z g t, edge p q (fst z + t * (fst g - fst z), snd z + t * (snd g - snd z)) == (1 - t) * edge p q z + t * edge p q g.
Proof. intros [p1 p2] [q1 q2] [z1 z2] [g1 g2] t. unfold edge. cbn [fst snd]. ring. Qed.
Lemma stays_negative : forall u v, u < 0 -> exists e, 0 < e /\ forall t, 0 < t < e -> (1 - t) * u + t * v < 0.
Proof.
  intros u v H. destruct (Qlt_le_dec v 0) as [V | V].
  - exists 1. split; [ lra | ]. intros t T. assert (0 < (1 - t) * - u) by (apply Qmult_lt_0_compat; lra). assert (0 < t * - v) by (apply Qmult_lt_0_compat; lra). lra.
  - exists (- u / (v - u)). assert (0 < v - u) by lra. split; [ apply Qlt_shift_div_l; lra | ]. intros t (T & T'). assert (X : t * (v - u) < - u) by (apply (Qmult_lt_r _ _ (v - u)) in T'; [ | assumption ]; rewrite (Qmult_comm (- u / (v - u))), Qmult_div_r in T' by lra; exact T'). lra.
Qed.
Lemma leaves : forall T z g, ~ in2 T z -> exists e, 0 < e /\ forall t, 0 < t < e -> ~ in2 T (fst z + t * (fst g - fst z), snd z + t * (snd g - snd z)).
Proof.
  intros [ [p q] r] z g N. unfold in2 in *.
  assert (X : edge p q z < 0 \/ edge q r z < 0 \/ edge r p z < 0).
  { destruct (Qlt_le_dec (edge p q z) 0); [ auto | ]. destruct (Qlt_le_dec (edge q r z) 0); [ auto | ]. destruct (Qlt_le_dec (edge r p z) 0); [ auto | ]. exfalso. apply N. auto. }
  destruct X as [X | [X | X] ]; [ destruct (stays_negative _ (edge p q g) X) as (e & E & G) | destruct (stays_negative _ (edge q r g) X) as (e & E & G) | destruct (stays_negative _ (edge r p g) X) as (e & E & G) ];
    exists e; (split; [ exact E | ]); intros t H; rewrite !edge_affine; specialize (G t H); lra.
Qed.
Lemma leaves_all : forall parts z g, (forall T, In T parts -> ~ in2 T z) ->
  exists e, 0 < e /\ forall t, 0 < t < e -> forall T, In T parts -> ~ in2 T (fst z + t * (fst g - fst z), snd z + t * (snd g - snd z)).
Proof.
  induction parts as [ | T parts IH]; intros z g N; [ exists 1; split; [ lra | intros t _ T [] ] | ].
  destruct (IH z g) as (e & E & G); [ intros U J; apply N; right; exact J | ]. destruct (leaves T z g (N T (or_introl eq_refl))) as (e' & E' & G').
  exists (Qmin e e'). split; [ apply Q.min_glb_lt; assumption | ]. intros t (H & H') U [<- | J]; [ apply G' | apply (G t) ]; try exact J; (split; [ exact H | ]); eapply Qlt_le_trans; try exact H'; [ apply Q.le_min_r | apply Q.le_min_l ].
Qed.
Lemma in2_dec : forall T z, in2 T z \/ ~ in2 T z.
Proof. intros [ [p q] r] z. unfold in2. destruct (Qlt_le_dec (edge p q z) 0), (Qlt_le_dec (edge q r z) 0), (Qlt_le_dec (edge r p z) 0); solve [ left; repeat split; assumption | right; lra ]. Qed.
Lemma closed_cover : forall S parts, 0 < dbl S -> (forall z, open2 S z -> exists T, In T parts /\ in2 T z) -> forall z, in2 S z -> exists T, In T parts /\ in2 T z.
Proof.
  intros [ [p q] r] parts Pos Cov z I.
  assert (D : (exists T, In T parts /\ in2 T z) \/ forall T, In T parts -> ~ in2 T z).
  { clear. induction parts as [ | T parts [ (U & J & I) | IH ] ]; [ right; intros T [] | left; exists U; split; [ right; exact J | exact I ] | ].
    destruct (in2_dec T z) as [I | I]; [ left; exists T; split; [ left; reflexivity | exact I ] | right; intros U [<- | J]; [ exact I | exact (IH U J) ] ]. }
  destruct D as [D | D]; [ exact D | exfalso ]. set (g := ((1 # 3) * (fst p + fst q + fst r), (1 # 3) * (snd p + snd q + snd r)) : pt).
  destruct (leaves_all parts z g D) as (e & E & G). set (t := Qmin (1 # 2) ((1 # 2) * e)).
  assert (T0 : 0 < t) by (apply Q.min_glb_lt; lra). assert (T1 : t < e) by (eapply Qle_lt_trans; [ apply Q.le_min_r | lra ]). assert (T2 : t <= 1 # 2) by apply Q.le_min_l.
  destruct (Cov (fst z + t * (fst g - fst z), snd z + t * (snd g - snd z))) as (T & J & X); [ | exact (G t (conj T0 T1) T J X) ].
  assert (Eg : edge p q g == (1 # 3) * dbl (p, q, r) /\ edge q r g == (1 # 3) * dbl (p, q, r) /\ edge r p g == (1 # 3) * dbl (p, q, r)) by (clear; destruct p as [p1 p2], q as [q1 q2], r as [r1 r2]; unfold g, dbl, edge; cbn [fst snd]; repeat split; ring).
  destruct Eg as (E1 & E2 & E3), I as (I1 & I2 & I3). assert (Y : 0 < t * ((1 # 3) * dbl (p, q, r))) by (apply Qmult_lt_0_compat; lra).
  unfold open2. rewrite !edge_affine, E1, E2, E3.
  assert (M : forall y, 0 <= y -> 0 < (1 - t) * y + t * ((1 # 3) * dbl (p, q, r))) by (intros y Hy; assert (0 <= (1 - t) * y) by (apply Qmult_le_0_compat; lra); lra).
  repeat split; apply M; assumption.
Qed.

(** The volumes of the cones over the parts add up to the one over the whole. *)
Definition apart (T U : tri3) : Prop := forall x, in_tri x T -> in_tri x U -> False.
Theorem parts_det : forall S (parts : list tri3), ~ flat S -> (forall T, In T parts -> 0 < vdot (tri_normal T) (tri_normal S)) ->
  (forall T x, In T parts -> on_tri x T -> on_tri x S) -> (forall x, in_tri x S -> exists T, In T parts /\ on_tri x T) ->
  ForallOrdPairs apart parts -> vsum det3 parts == det3 S.
Proof.
  intros [ [a b] c] parts Nd Tu Ins Cov Ap. set (n := vcross (vsub b a) (vsub c a)).
  assert (Hn : 0 < vdot n n) by exact (nondeg_pos a b c Nd).
  assert (Fl : forall x, on_tri x (a, b, c) -> vdot n (vsub x a) == 0).
  { intros x (i & j & k & I & J & K & S & Ex & Ey & Ez). assert (Ei : i == 1 - j - k) by lra. unfold vdot, vsub at 1 2 3. cbn [vx vy vz fst snd]. rewrite Ex, Ey, Ez, Ei. unfold n. clear. destruct a as [ [a1 a2] a3], b as [ [b1 b2] b3], c as [ [c1 c2] c3]. cbv [vcross vsub vx vy vz fst snd]. ring. }
  assert (Co : forall p q r x, x = p \/ x = q \/ x = r -> on_tri x (p, q, r)).
  { intros p q r x [-> | [-> | ->] ]; [ exists 1, 0, 0 | exists 0, 1, 0 | exists 0, 0, 1 ]; repeat split; try lra; ring. }
  assert (Fp : forall p q r, (p, q, r) = (a, b, c) \/ In (p, q, r) parts -> vdot n (vsub p a) == 0 /\ vdot n (vsub q a) == 0 /\ vdot n (vsub r a) == 0).
  { intros p q r [E | J]; [ injection E as -> -> ->; repeat split; apply Fl, Co; auto | ]. repeat split; apply Fl, (Ins _ _ J), Co; auto. }
  assert (Ps : forall T, T = (a, b, c) \/ In T parts -> 0 < dbl (tri_pos a b c T)).
  { intros [ [p q] r] H. destruct (Fp p q r H) as (F1 & F2 & F3). destruct (normal_dbl a b c Hn p q r F1 F2 F3) as (E & _).
    assert (Pos : 0 < vdot (face_normal (p, q, r)) n) by (destruct H as [H | J]; [ injection H as -> -> ->; exact Hn | exact (Tu _ J) ]).
    fold n in E. rewrite E in Pos. destruct (Qlt_le_dec 0 (dbl (tri_pos a b c (p, q, r)))) as [X | X]; [ exact X | exfalso ]. assert (0 <= - dbl (tri_pos a b c (p, q, r)) * vdot n n) by (apply Qmult_le_0_compat; lra). lra. }
  assert (Br : forall T z, T = (a, b, c) \/ In T parts -> (on_tri (back a b c z) T <-> in2 (tri_pos a b c T) z) /\ (open2 (tri_pos a b c T) z -> in_tri (back a b c z) T)).
  { intros [ [p q] r] z H. destruct (Fp p q r H) as (F1 & F2 & F3). apply (inside_in2 a b c Hn p q r z F1 F2 F3 (Ps _ H)). }
  assert (Sum : tsum dbl (map (tri_pos a b c) parts) == dbl (tri_pos a b c (a, b, c))).
  { apply areas_add.
    - apply Ps. left. reflexivity.
    - intros T J. apply in_map_iff in J. destruct J as (T' & <- & J). apply Ps. right. exact J.
    - intros T z J I. apply in_map_iff in J. destruct J as (T' & <- & J). apply (Br T' z (or_intror J)) in I. apply (Br (a, b, c) z (or_introl eq_refl)). exact (Ins T' _ J I).
    - apply closed_cover; [ apply Ps; left; reflexivity | ]. intros z I. apply (proj2 (Br (a, b, c) z (or_introl eq_refl))) in I. destruct (Cov _ I) as (T & J & I'). exists (tri_pos a b c T). split; [ apply in_map, J | ]. apply (Br T z (or_intror J)). exact I'.
    - assert (Pw : ForallOrdPairs (fun T U => forall z, open2 T z -> open2 U z -> False) (map (tri_pos a b c) parts)).
      { assert (Br' : forall T z, In T parts -> open2 (tri_pos a b c T) z -> in_tri (back a b c z) T) by (intros T z J; apply (Br T z (or_intror J))).
        clear - Ap Br'. induction Ap as [ | T parts F Ap IH]; cbn [map]; constructor.
        - apply Forall_forall. intros V J. apply in_map_iff in J. destruct J as (U & <- & J). intros z O1 O2. rewrite Forall_forall in F. apply (F U J (back a b c z)); apply Br'; auto; [ left; reflexivity | right; exact J ].
        - apply IH. intros U z J. apply Br'. right. exact J. }
      revert Pw. generalize (map (tri_pos a b c) parts). clear. intros l Pw. induction Pw as [ | T l F Pw IH]; intros i j V W z Ei Ej O1 O2; [ destruct i; discriminate | ].
      rewrite Forall_forall in F. destruct i as [ | i], j as [ | j]; cbn [nth_error] in Ei, Ej; [ reflexivity | | | f_equal; eapply IH; eassumption ]; exfalso.
      + injection Ei as <-. exact (F W (nth_error_In _ _ Ej) z O1 O2).
      + injection Ej as <-. exact (F V (nth_error_In _ _ Ei) z O2 O1). }
  assert (Each : forall T, T = (a, b, c) \/ In T parts -> det3 T == dbl (tri_pos a b c T) * vdot a n).
  { intros [ [p q] r] H. destruct (Fp p q r H) as (F1 & F2 & F3). rewrite det_normal. rewrite (proj2 (normal_dbl a b c Hn p q r F1 F2 F3)). fold n.
    assert (E : vdot p n == vdot a n) by (assert (X : vdot n (vsub p a) == vdot p n - vdot a n) by (clear; destruct n as [ [n1 n2] n3], p as [ [p1 p2] p3], a as [ [a1 a2] a3]; cbv [vdot vsub vx vy vz fst snd]; ring); lra). rewrite E. reflexivity. }
  rewrite (Each _ (or_introl eq_refl)), <- Sum. clear - Each. induction parts as [ | T parts IH]; cbn [map tsum vsum]; [ ring | ].
  rewrite IH, (Each T (or_intror (or_introl eq_refl))); [ ring | ]. intros U [-> | J]; apply Each; [ left; reflexivity | right; right; exact J ].
Qed.
