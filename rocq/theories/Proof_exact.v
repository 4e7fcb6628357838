(** * Points with rational coordinates, and the two constructions

    A witness for the hypotheses about points and constructions: points are triples of
    reduced fractions, and the constructions are computed exactly. *)
From Coq Require Import List Arith Bool QArith Qcanon Lqa Lia.
From Verif Require Import Model_base Model_geometry Model_soup Spec_defects Spec_ffi Spec_corefine Proof_extreme Proof_hull Proof_ffi_edge.
Import ListNotations.
Local Open Scope Q_scope.

Definition exact : Type := (Qc * Qc * Qc)%type.
Definition value (p : exact) : vec3 := let '(x, y, z) := p in (this x, this y, this z).
Definition reduce (v : vec3) : exact := (Q2Qc (vx v), Q2Qc (vy v), Q2Qc (vz v)).
Definition exact_eqb (p q : exact) : bool :=
  Qeq_bool (vx (value p)) (vx (value q)) && Qeq_bool (vy (value p)) (vy (value q)) && Qeq_bool (vz (value p)) (vz (value q)).

Lemma value_reduce : forall v, same_point (value (reduce v)) v.
Proof. intros [ [x y] z]. unfold same_point, value, reduce, vx, vy, vz. cbn [fst snd this Q2Qc]. rewrite !Qred_correct. repeat split; reflexivity. Qed.
Lemma value_inj : forall p q, same_point (value p) (value q) -> p = q.
Proof.
  intros [ [x y] z] [ [x' y'] z'] (X & Y & Z). unfold value, vx, vy, vz in *. cbn [fst snd] in *.
  apply Qc_is_canon in X, Y, Z. congruence.
Qed.
Lemma exact_eqb_ok : forall p q, exact_eqb p q = true <-> p = q.
Proof.
  intros p q. unfold exact_eqb. rewrite !andb_true_iff, !Qeq_bool_iff. split.
  - intros [ [X Y] Z]. apply value_inj. split; [ exact X | split; [ exact Y | exact Z ] ].
  - intros ->. repeat split; reflexivity.
Qed.

Definition along (a d : vec3) (t : Q) : vec3 := (vx a + t * vx d, vy a + t * vy d, vz a + t * vz d).

(** The common point of two lines. *)
Definition exact_ll (a b p q : exact) : exact :=
  let d := vsub (value b) (value a) in
  let e := vsub (value q) (value p) in
  let n := vcross d e in
  reduce (along (value a) d (vdot (vcross (vsub (value p) (value a)) e) n / vdot n n)).
(** The common point of a plane and a line. *)
Definition exact_pl (a b c p q : exact) : exact :=
  let n := vcross (vsub (value b) (value a)) (vsub (value c) (value a)) in
  let e := vsub (value q) (value p) in
  reduce (along (value p) e (vdot n (vsub (value a) (value p)) / vdot n e)).

Lemma line_along : forall p q x, line p q x <-> exists t, same_point x (along p (vsub q p) t).
Proof.
  intros [ [p0 p1] p2] [ [q0 q1] q2] x. unfold line, comb, along, same_point, vsub, vx, vy, vz. cbn [fst snd]. split.
  - intros (u & v & S & (X & Y & Z)). exists v. rewrite X, Y, Z. setoid_replace u with (1 - v) by lra. repeat split; ring.
  - intros (t & X & Y & Z). exists (1 - t), t. split; [ ring | ]. rewrite X, Y, Z. repeat split; ring.
Qed.
Lemma square_zero : forall n, vdot n n == 0 -> zero3 n.
Proof.
  intros [ [x y] z] H. unfold vdot, zero3, vx, vy, vz in *. cbn [fst snd] in *.
  assert (A : 0 <= x * x) by nra. assert (B : 0 <= y * y) by nra. assert (C : 0 <= z * z) by nra.
  assert (X : x * x == 0) by lra. assert (Y : y * y == 0) by lra. assert (Z : z * z == 0) by lra.
  apply Qmult_integral in X, Y, Z. repeat split; tauto.
Qed.
Lemma sub_zero : forall p q, zero3 (vsub q p) -> same_point p q.
Proof. intros [ [p0 p1] p2] [ [q0 q1] q2] (X & Y & Z). unfold same_point, vsub, vx, vy, vz in *. cbn [fst snd] in *. repeat split; lra. Qed.
Lemma shifted : forall x d, same_point x (along x d 1) -> zero3 d.
Proof. intros [ [p0 p1] p2] [ [q0 q1] q2] (X & Y & Z). unfold along, zero3, vx, vy, vz in *. cbn [fst snd] in *. repeat split; lra. Qed.
Lemma along_along : forall x a d s k e, same_point x (along a d s) -> same_point e (scale k d) -> same_point (along x e 1) (along a d (s + k)).
Proof.
  intros [ [x0 x1] x2] [ [a0 a1] a2] [ [d0 d1] d2] s k [ [e0 e1] e2] (X & Y & Z) (X' & Y' & Z'). unfold along, same_point, scale, vx, vy, vz in *. cbn [fst snd] in *.
  rewrite X, Y, Z, X', Y', Z'. repeat split; ring.
Qed.
Lemma along_ext : forall a d t t', t == t' -> same_point (along a d t) (along a d t').
Proof. intros a d t t' E. unfold along, same_point, vx, vy, vz. cbn [fst snd]. rewrite E. repeat split; reflexivity. Qed.

Theorem exact_ll_correct : ll_correct value exact_ll.
Proof.
  intros a b p q x meets Nab Npq [M1 M2] Un. unfold exact_ll.
  set (A := value a) in *. set (B := value b) in *. set (Pp := value p) in *. set (Qq := value q) in *. set (d := vsub B A). set (e := vsub Qq Pp). set (n := vcross d e).
  apply line_along in M1, M2. destruct M1 as (t & T). destruct M2 as (s & S). fold d in T. fold e in S.
  assert (Nn : ~ vdot n n == 0).
  { intro H. apply square_zero in H. assert (Nd : ~ zero3 d) by (intro X; apply Nab, sub_zero; exact X).
    destruct (parallel d e Nd H) as (k & K).
    assert (X : same_point x (along x e 1)).
    { apply Un. split; apply line_along; [ exists (t + k); apply along_along; assumption | exists (s + 1); fold e; apply along_along; [ assumption | destruct e as [ [? ?] ?]; unfold same_point, scale, vx, vy, vz; cbn [fst snd]; repeat split; ring ] ]. }
    apply Npq, sub_zero. exact (shifted _ _ X). }
  eapply same_trans; [ apply value_reduce | ]. apply same_sym. eapply same_trans; [ exact T | ]. apply along_ext.
  assert (E : vdot (vcross (vsub Pp A) e) n == t * vdot n n).
  { assert (G : same_point (vcross (vsub Pp A) e) (scale t n)).
    { unfold n, d, e in *. clear - T S. destruct A as [ [a0 a1] a2], B as [ [b0 b1] b2], Pp as [ [p0 p1] p2], Qq as [ [q0 q1] q2], x as [ [x0 x1] x2].
      destruct T as (T0 & T1 & T2), S as (S0 & S1 & S2). unfold same_point, along, scale, vcross, vsub, vx, vy, vz in *. cbn [fst snd] in *.
      assert (E0 : p0 - a0 == t * (b0 - a0) - s * (q0 - p0)) by lra. assert (E1 : p1 - a1 == t * (b1 - a1) - s * (q1 - p1)) by lra. assert (E2 : p2 - a2 == t * (b2 - a2) - s * (q2 - p2)) by lra.
      rewrite E0, E1, E2. repeat split; ring. }
    destruct G as (G0 & G1 & G2). unfold vdot at 1. rewrite G0, G1, G2. unfold scale, vdot, vx, vy, vz. cbn [fst snd]. ring. }
  rewrite E. field. exact Nn.
Qed.

Theorem exact_pl_correct : pl_correct value exact_pl.
Proof.
  intros a b c p q x meets Nabc Npq [M1 M2] Un. unfold exact_pl.
  set (A := value a) in *. set (B := value b) in *. set (C := value c) in *. set (Pp := value p) in *. set (Qq := value q) in *. set (e := vsub Qq Pp). set (n := vcross (vsub B A) (vsub C A)).
  assert (M2' := M2). apply line_along in M2'. destruct M2' as (s & S). fold e in S. destruct M1 as (u & v & w & Su & X).
  assert (Nn : ~ vdot n e == 0).
  { intro H. assert (Nz : ~ zero3 n) by exact (nondegenerate_normal _ Nabc).
    destruct (in_plane _ _ e Nz H) as (k & j & K).
    assert (Y : same_point x (along x e 1)).
    { apply Un. split.
      - exists (u - k - j), (v + k), (w + j). split; [ lra | ]. clear - X K. destruct A as [ [a0 a1] a2], B as [ [b0 b1] b2], C as [ [c0 c1] c2], e as [ [e0 e1] e2], x as [ [x0 x1] x2].
        destruct X as (X0 & X1 & X2), K as (K0 & K1 & K2). unfold same_point, along, lin, comb, vsub, vx, vy, vz in *. cbn [fst snd] in *. rewrite X0, X1, X2, K0, K1, K2. repeat split; ring.
      - apply line_along. exists (s + 1). fold e. apply along_along; [ assumption | destruct e as [ [? ?] ?]; unfold same_point, scale, vx, vy, vz; cbn [fst snd]; repeat split; ring ]. }
    apply Npq, sub_zero. exact (shifted _ _ Y). }
  eapply same_trans; [ apply value_reduce | ]. apply same_sym. eapply same_trans; [ exact S | ]. apply along_ext.
  assert (E : vdot n (vsub A Pp) == s * vdot n e).
  { assert (G : vdot n (vsub x A) == 0).
    { unfold n. clear - X Su. assert (Eu : u == 1 - v - w) by lra. clear Su. destruct A as [ [a0 a1] a2], B as [ [b0 b1] b2], C as [ [c0 c1] c2], x as [ [x0 x1] x2].
      destruct X as (X0 & X1 & X2). unfold same_point, comb, vdot, vcross, vsub, vx, vy, vz in *. cbn [fst snd] in *. rewrite X0, X1, X2, Eu. ring. }
    assert (G' : vdot n (vsub x Pp) == s * vdot n e).
    { clear - S. destruct n as [ [n0 n1] n2], Pp as [ [p0 p1] p2], e as [ [e0 e1] e2], x as [ [x0 x1] x2]. destruct S as (S0 & S1 & S2).
      unfold same_point, along, vdot, vsub, vx, vy, vz in *. cbn [fst snd] in *. rewrite S0, S1, S2. ring. }
    rewrite <- G'. clear - G. destruct n as [ [n0 n1] n2], Pp as [ [p0 p1] p2], A as [ [a0 a1] a2], x as [ [x0 x1] x2]. unfold vdot, vsub, vx, vy, vz in *. cbn [fst snd] in *. lra. }
  rewrite E. field. exact Nn.
Qed.
