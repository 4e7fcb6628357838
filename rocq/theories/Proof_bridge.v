(** * The two vocabularies for triangles say the same *)
From Coq Require Import List Arith Bool QArith Lqa Lia.
From Verif Require Import Model_base Proof_base Model_geometry Model_soup Model_corefine.
From Verif Require Import Spec_candidates Spec_side Spec_solid Spec_conform Spec_defects Spec_ffi Spec_corefine Spec_mix.
From Verif Require Import Proof_fan Proof_extreme Proof_hull Proof_cells.
Import ListNotations.
Local Open Scope Q_scope.

Lemma on_inside : forall x T, on_tri x T <-> inside T x.
Proof.
  intros x [ [a b] c]. cbn [on_tri]. unfold in_triangle, inside, comb, same_point. cbn [vx vy vz fst snd].
  split; intros (u & v & w & H); exists u, v, w; [ destruct H as (A & B & C & D & X & Y & Z) | destruct H as ((A & B & C & D) & X & Y & Z) ]; auto 8.
Qed.
Lemma in_full : forall x T, in_tri x T <-> in_feature T full x.
Proof.
  intros x [ [a b] c]. cbn [in_tri]. unfold in_open_triangle, in_feature, full, comb, same_point. cbn [weight vx vy vz fst snd].
  split; intros (u & v & w & H); exists u, v, w; [ destruct H as (A & B & C & D & X & Y & Z) | destruct H as ((A & B & C & D) & X & Y & Z) ]; auto 8.
Qed.
Lemma nd_flat : forall T, nondegenerate T -> ~ flat T.
Proof. intros [ [a b] c] N F. apply nondegenerate_normal in N. apply N. exact F. Qed.
Lemma flat_nd : forall T, ~ flat T -> nondegenerate T.
Proof. intros [ [a b] c] N. apply normal_nondegenerate. intro Z. apply N. exact Z. Qed.
Lemma open_between : forall x a b, in_open_segment x a b <-> strictly_between a b x.
Proof.
  intros x a b. unfold in_open_segment, strictly_between, same, same_point, along, mix, vsub. cbn [vx vy vz fst snd].
  split; intros (t & A & B & X & Y & Z); exists t; (split; [ exact A | ]); (split; [ exact B | ]); rewrite X, Y, Z; unfold vx, vy, vz; cbn [fst snd]; repeat split; ring.
Qed.
Lemma part_aligned : forall T S, 0 < vdot (face_normal T) (face_normal S) -> (forall x, inside T x -> inside S x) -> aligned T S.
Proof.
  intros [ [p q] r] S H I.
  destruct (Proof_mix_faces.corners_self p q r) as (A1 & A2 & A3).
  destruct (I p A1) as (u0 & v0 & w0 & (_ & _ & _ & S0) & X0), (I q A2) as (u1 & v1 & w1 & (_ & _ & _ & S1) & X1), (I r A3) as (u2 & v2 & w2 & (_ & _ & _ & S2) & X2).
  pose proof (normal_comb S u0 v0 w0 u1 v1 w1 u2 v2 w2 S0 S1 S2 p q r X0 X1 X2) as X. clear S0 S1 S2 X0 X1 X2 A1 A2 A3 I.
  set (k := det u0 v0 w0 u1 v1 w1 u2 v2 w2) in *. exists k. destruct S as [ [a b] c].
  change (tri_normal (p, q, r)) with (face_normal (p, q, r)). change (tri_normal (a, b, c)) with (face_normal (a, b, c)).
  revert H X. generalize (face_normal (p, q, r)), (face_normal (a, b, c)). clearbody k. clear. intros [ [n1 n2] n3] [ [m1 m2] m3] H X.
  pose proof (X (m1, m2, m3)) as Xm. pose proof (X (1, 0, 0)) as Y1. pose proof (X (0, 1, 0)) as Y2. pose proof (X (0, 0, 1)) as Y3. clear X.
  unfold same, scaled, vdot, vx, vy, vz in *. cbn [fst snd] in *. split.
  - rewrite Xm in H. assert (0 <= m1 * m1 + m2 * m2 + m3 * m3) by nra. nra.
  - repeat split; lra.
Qed.
Lemma located_corners : forall {P D} (coords : P -> vec3) (m : soup P D) fi U,
  soup_triangle (located coords m) fi = Ok U <-> exists t, face_corners m fi t /\ U = triangle_of coords t.
Proof.
  intros P D coords m fi U. unfold soup_triangle, soup_face, soup_point, located. cbn [points faces].
  split.
  - destruct (vec_at (faces m) fi) as [ [ [a b] c] | | ] eqn:E; cbn [bind]; try discriminate.
    destruct (vec_at (map coords (points m)) a) as [p | | ] eqn:A; cbn [bind]; try discriminate.
    destruct (vec_at (map coords (points m)) b) as [q | | ] eqn:B; cbn [bind]; try discriminate.
    destruct (vec_at (map coords (points m)) c) as [r | | ] eqn:C; cbn [bind]; try discriminate.
    intro H. injection H as <-. apply vec_at_ok in E. apply vec_at_ok in A, B, C. rewrite nth_error_map in A, B, C.
    destruct (nth_error (points m) a) as [x | ] eqn:A'; [ | discriminate ]. destruct (nth_error (points m) b) as [y | ] eqn:B'; [ | discriminate ]. destruct (nth_error (points m) c) as [z | ] eqn:C'; [ | discriminate ].
    cbn in A, B, C. injection A as <-. injection B as <-. injection C as <-. exists (x, y, z). split; [ | reflexivity ]. exists a, b, c, x, y, z. auto 8.
  - intros (t & (a & b & c & x & y & z & E & A & B & C & ->) & ->). rewrite (proj2 (vec_at_ok _ _ _ _) E). cbn [bind].
    rewrite (proj2 (vec_at_ok _ _ _ (coords x))) by (rewrite nth_error_map, A; reflexivity). cbn [bind].
    rewrite (proj2 (vec_at_ok _ _ _ (coords y))) by (rewrite nth_error_map, B; reflexivity). cbn [bind].
    rewrite (proj2 (vec_at_ok _ _ _ (coords z))) by (rewrite nth_error_map, C; reflexivity). reflexivity.
Qed.
Lemma located_boundary : forall {P D} (coords : P -> vec3) (m : soup P D) x,
  on_boundary (located coords m) x <-> exists fi t, face_corners m fi t /\ inside (triangle_of coords t) x.
Proof.
  intros P D coords m x. split.
  - intros (fi & a & b & c & E & H). apply located_corners in E. destruct E as (t & C & E). exists fi, t. split; [ exact C | ]. rewrite <- E. apply (on_inside x (a, b, c)), H.
  - intros (fi & t & C & I). exists fi. destruct (triangle_of coords t) as [ [a b] c] eqn:E. exists a, b, c. split; [ apply located_corners; eauto | apply (on_inside x (a, b, c)), I ].
Qed.

(** Triangles with the same corners. *)
Lemma turned_aligned : forall {P} (coords : P -> vec3) t u, turned t u -> aligned (triangle_of coords t) (triangle_of coords u).
Proof.
  intros P coords [ [x y] z] u H. exists 1. split; [ reflexivity | ].
  destruct H as [-> | [-> | ->] ]; cbn [triangle_of tri_normal]; generalize (coords x), (coords y), (coords z); intros [ [a1 a2] a3] [ [b1 b2] b3] [ [c1 c2] c3];
    unfold same, scaled, Spec_side.normal, vcross, vsub, vx, vy, vz; cbn [fst snd]; repeat split; ring.
Qed.
Lemma turned_against : forall {P} (coords : P -> vec3) t u, turned_over t u -> against (triangle_of coords t) (triangle_of coords u).
Proof.
  intros P coords [ [x y] z] u H. exists (-1). split; [ reflexivity | ].
  destruct H as [-> | [-> | ->] ]; cbn [triangle_of tri_normal]; generalize (coords x), (coords y), (coords z); intros [ [a1 a2] a3] [ [b1 b2] b3] [ [c1 c2] c3];
    unfold same, scaled, Spec_side.normal, vcross, vsub, vx, vy, vz; cbn [fst snd]; repeat split; ring.
Qed.
