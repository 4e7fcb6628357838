(** * Points and the faces that they see *)
From Coq Require Import List Arith ZArith QArith Qabs Qminmax Lqa Lia Bool.
From Verif Require Import Model_base Proof_base Model_soup Model_geometry Model_side Spec_aabb Spec_candidates Spec_side Spec_solid Spec_visible.
From Verif Require Import Proof_affine Proof_small Proof_link.
From Verif Require Import Spec_side Spec_solid.
Import ListNotations.
Local Open Scope Q_scope.

Lemma centroid_open : forall a b c, in_open_triangle (centroid a b c) a b c.
Proof. intros a b c. exists (1 # 3), (1 # 3), (1 # 3). unfold centroid, Qdiv. cbn [vx vy vz fst snd]. repeat split; try lra; change (/ 3) with (1 # 3); ring. Qed.

Lemma open_on : forall x a b c, in_open_triangle x a b c -> in_triangle x a b c.
Proof. intros x a b c (u & v & w & U & V & W & H). exists u, v, w. repeat split; try lra; apply H. Qed.
Lemma open_same : forall x y a b c, same x y -> in_open_triangle x a b c -> in_open_triangle y a b c.
Proof. intros x y a b c (X & Y & Z) (u & v & w & U & V & W & S & A & B & C). exists u, v, w. rewrite <- X, <- Y, <- Z. auto 10. Qed.
Lemma on_same : forall D (m : soup vec3 D) fi x y, same x y -> on_face m fi x -> on_face m fi y.
Proof.
  intros D m fi x y (X & Y & Z) (a & b & c & T & (u & v & w & U & V & W & S & A & B & C)). exists a, b, c. split; [ exact T | ].
  exists u, v, w. rewrite <- X, <- Y, <- Z. auto 10.
Qed.

(** The ray towards a face that one sees is not ambiguous. *)
Lemma sees_clear : forall D (m : soup vec3 D) p fi, proper_faces m -> sees m p fi -> ~ ambiguous m p fi.
Proof.
  intros D m p fi Pf (a & b & c & T & H) (a' & b' & c' & q & i & j & T' & Ne & Sg & Oi & Oj & _).
  rewrite T in T'. injection T' as <- <- <-. pose proof (H q Sg (ex_intro _ i Oi)) as E.
  assert (I : in_open_triangle q a b c) by (apply (open_same (centroid a b c)); [ destruct E as (E1 & E2 & E3); repeat split; symmetry; assumption | apply centroid_open ]).
  apply Ne. rewrite (pf_apart _ Pf fi i a b c q T I Oi), (pf_apart _ Pf fi j a b c q T I Oj). reflexivity.
Qed.

Lemma valid_triangle : forall D (m : soup vec3 D) i, valid_faces m -> (i < num_faces m)%nat -> exists T, soup_triangle m i = Ok T.
Proof.
  intros D m i V L. unfold soup_triangle, soup_face, soup_point, vec_at. destruct (nth_error (faces m) i) as [ [ [a b] c] | ] eqn:E; [ cbn [bind] | apply nth_error_None in E; unfold num_faces in L; lia ].
  apply nth_error_In in E. unfold valid_faces in V. rewrite Forall_forall in V. specialize (V _ E). cbn in V.
  assert (N : forall v, (v < length (points m))%nat -> nth_error (points m) v = Some (nth v (points m) (0, 0, 0))) by (intros v Lv; apply nth_error_nth'; exact Lv).
  rewrite (N a), (N b), (N c) by apply V. cbn [bind]. eexists. reflexivity.
Qed.

(** The triangles of a mesh. *)
Lemma all_triangles : forall D (m : soup vec3 D), exists l : list tri3, forall T, In T l <-> exists i, soup_triangle m i = Ok T.
Proof.
  intros D m.
  assert (X : forall n, exists l : list tri3, forall T, In T l <-> exists i, (i < n)%nat /\ soup_triangle m i = Ok T).
  { induction n as [ | n (l & IH)].
    - exists []. intro T. split; [ intros [] | intros (i & L & _); lia ].
    - destruct (soup_triangle m n) as [T0 | e | ] eqn:E.
      + exists (T0 :: l). intro T. split.
        * intros [<- | J]; [ exists n; split; [ lia | exact E ] | ]. apply IH in J. destruct J as (i & L & J). exists i. split; [ lia | exact J ].
        * intros (i & L & J). destruct (Nat.eq_dec i n) as [-> | N]; [ left; congruence | right; apply IH; exists i; split; [ lia | exact J ] ].
      + exists l. intro T. rewrite IH. split; intros (i & L & J); exists i; (split; [ | exact J ]); [ lia | ]. destruct (Nat.eq_dec i n) as [-> | N]; [ congruence | lia ].
      + exists l. intro T. rewrite IH. split; intros (i & L & J); exists i; (split; [ | exact J ]); [ lia | ]. destruct (Nat.eq_dec i n) as [-> | N]; [ congruence | lia ]. }
  destruct (X (num_faces m)) as (l & H). exists l. intro T. rewrite H. split; [ intros (i & _ & J); exists i; exact J | ].
  intros (i & J). exists i. split; [ | exact J ]. unfold num_faces. apply nth_error_Some. unfold soup_triangle, soup_face, vec_at in J. destruct (nth_error (faces m) i); [ discriminate | cbn in J; discriminate J ].
Qed.

Lemma all_or_some : forall (A : Type) (l : list A) (P Q : A -> Prop), (forall x, In x l -> P x \/ Q x) -> (exists x, In x l /\ P x) \/ (forall x, In x l -> Q x).
Proof.
  intros A l P Q. induction l as [ | a l IH]; intro H; [ right; intros x [] | ].
  destruct (H a (or_introl eq_refl)) as [X | X]; [ left; exists a; split; [ left; reflexivity | exact X ] | ].
  destruct IH as [ (x & J & Y) | Y ]; [ intros x J; apply H; right; exact J | left; exists x; split; [ right; exact J | exact Y ] | right ].
  intros x [<- | J]; auto.
Qed.

Lemma common_bound : forall (A : Type) (l : list A) (P : A -> Q -> Prop), (forall x, In x l -> exists b, 0 < b /\ forall e, 0 < e < b -> P x e) ->
  exists b, 0 < b /\ forall e, 0 < e < b -> forall x, In x l -> P x e.
Proof.
  intros A l P. induction l as [ | a l IH]; intro H; [ exists 1; split; [ lra | intros e _ x [] ] | ].
  destruct (H a (or_introl eq_refl)) as (b & B & Hb). destruct IH as (b' & B' & Hb'); [ intros x J; apply H; right; exact J | ].
  destruct (Qlt_le_dec b b') as [L | L].
  - exists b. split; [ exact B | ]. intros e E x [<- | J]; [ apply Hb, E | apply Hb'; [ lra | exact J ] ].
  - exists b'. split; [ exact B' | ]. intros e E x [<- | J]; [ apply Hb; lra | apply Hb'; [ exact E | exact J ] ].
Qed.

Lemma hgt_on : forall T x, on_tri x T -> hgt T x == 0.
Proof.
  intros [ [a b] c] x (u & v & w & _ & _ & _ & S & X & Y & Z). rewrite (hgt_bary (a, b, c) x a b c u v w S X Y Z).
  destruct (hgt_corners a b c) as (E1 & E2 & E3). rewrite E1, E2, E3. ring.
Qed.
Lemma hgt_seg : forall T x y t, hgt T (along x t (vsub y x)) == (1 - t) * hgt T x + t * hgt T y.
Proof. intros T x y t. rewrite hgt_along, hgt_diff. ring. Qed.
Lemma hgt_centroid : forall T a b c, hgt T (centroid a b c) == (1 # 3) * (hgt T a + hgt T b + hgt T c).
Proof.
  intros T a b c. rewrite (hgt_bary T (centroid a b c) a b c (1 # 3) (1 # 3) (1 # 3)); [ ring | lra | | | ]; unfold centroid, Qdiv; cbn [vx vy vz fst snd]; change (/ 3) with (1 # 3); ring.
Qed.
Lemma corners_on : forall a b c, in_triangle a a b c /\ in_triangle b a b c /\ in_triangle c a b c.
Proof. intros a b c. split; [ | split ]; [ exists 1, 0, 0 | exists 0, 1, 0 | exists 0, 0, 1 ]; repeat split; try lra; ring. Qed.

(** Three directions in one plane. *)
Lemma det_zero : forall n u v w, ~ same n zero3 -> vdot n u == 0 -> vdot n v == 0 -> vdot n w == 0 -> vdot (vcross u v) w == 0.
Proof.
  intros [ [n1 n2] n3] [ [u1 u2] u3] [ [v1 v2] v3] [ [w1 w2] w3] N U V W. unfold vcross, vdot, same, zero3 in *. cbn [vx vy vz fst snd] in *.
  set (d := (u2 * v3 - u3 * v2) * w1 + (u3 * v1 - u1 * v3) * w2 + (u1 * v2 - u2 * v1) * w3).
  assert (E1 : d * n1 == 0).
  { transitivity ((n1 * u1 + n2 * u2 + n3 * u3) * (v2 * w3 - v3 * w2) + (n1 * v1 + n2 * v2 + n3 * v3) * (w2 * u3 - w3 * u2) + (n1 * w1 + n2 * w2 + n3 * w3) * (u2 * v3 - u3 * v2)); [ unfold d; ring | rewrite U, V, W; ring ]. }
  assert (E2 : d * n2 == 0).
  { transitivity ((n1 * u1 + n2 * u2 + n3 * u3) * (v3 * w1 - v1 * w3) + (n1 * v1 + n2 * v2 + n3 * v3) * (w3 * u1 - w1 * u3) + (n1 * w1 + n2 * w2 + n3 * w3) * (u3 * v1 - u1 * v3)); [ unfold d; ring | rewrite U, V, W; ring ]. }
  assert (E3 : d * n3 == 0).
  { transitivity ((n1 * u1 + n2 * u2 + n3 * u3) * (v1 * w2 - v2 * w1) + (n1 * v1 + n2 * v2 + n3 * v3) * (w1 * u2 - w2 * u1) + (n1 * w1 + n2 * w2 + n3 * w3) * (u1 * v2 - u2 * v1)); [ unfold d; ring | rewrite U, V, W; ring ]. }
  destruct (Qeq_dec d 0) as [Z | Z]; [ exact Z | exfalso ]. apply N.
  repeat split; [ apply Qmult_integral in E1; destruct E1; [ contradiction | assumption ] | apply Qmult_integral in E2; destruct E2; [ contradiction | assumption ] | apply Qmult_integral in E3; destruct E3; [ contradiction | assumption ] ].
Qed.

(** A plane that contains a triangle is the plane of the triangle. *)
Lemma plane_agrees : forall T a b c x, ~ flat T -> hgt T a == 0 -> hgt T b == 0 -> hgt T c == 0 -> hgt T x == 0 -> hgt (a, b, c) x == 0.
Proof.
  intros T a b c x N A B C X. cbn [hgt]. unfold ht. apply (det_zero (tri_normal T)); [ destruct T as [ [p q] r]; exact N | | | ]; rewrite hgt_diff; lra.
Qed.

Section Convex.
  Context {D : Type}.
  Variables (m : soup vec3 D) (A : vec3 -> Prop) (s : Q).
  Hypothesis Pf : proper_faces m.
  Hypothesis Bd : bounds m A.
  Hypothesis Hs : 0 < s * s.
  Hypothesis Conv : forall fi T x, soup_triangle m fi = Ok T -> on_boundary m x -> s * hgt T x <= 0.

  Lemma corner_boundary : forall fi a b c, soup_triangle m fi = Ok (a, b, c) -> on_boundary m a /\ on_boundary m b /\ on_boundary m c.
  Proof. intros fi a b c T. destruct (corners_on a b c) as (X & Y & Z). split; [ | split ]; exists fi, a, b, c; auto. Qed.

  Lemma sees_from_front : forall fi T x, soup_triangle m fi = Ok T -> 0 < s * hgt T x -> sees m x fi.
  Proof.
    intros fi [ [a b] c] x T F. exists a, b, c. split; [ exact T | ]. intros y (t & (T0 & T1) & Ey) O.
    pose proof (Conv fi _ y T O) as H. rewrite (hgt_same _ _ _ Ey), hgt_seg in H.
    rewrite (hgt_on (a, b, c) (centroid a b c)) in H by (apply open_on, centroid_open).
    assert (E : t == 1) by nra. destruct Ey as (E1 & E2 & E3). unfold same, along, vsub in *. cbn [vx vy vz fst snd] in *. rewrite E1, E2, E3, E. repeat split; ring.
  Qed.

  Lemma sees_from_behind : forall fi T x, soup_triangle m fi = Ok T -> ~ on_boundary m x -> (forall fj U, soup_triangle m fj = Ok U -> s * hgt U x <= 0) -> ~ hgt T x == 0 -> sees m x fi.
  Proof.
    intros fi [ [a b] c] x T Off Be N. exists a, b, c. split; [ exact T | ]. intros y (t & (T0 & T1) & Ey) O.
    destruct (Qlt_le_dec t 1) as [L | L].
    2: { assert (E : t == 1) by lra. destruct Ey as (E1 & E2 & E3). unfold same, along, vsub in *. cbn [vx vy vz fst snd] in *. rewrite E1, E2, E3, E. repeat split; ring. }
    exfalso. destruct O as (fj & p & q & r & U & O). pose proof (hgt_on (p, q, r) y O) as Z. rewrite (hgt_same _ _ _ Ey), hgt_seg, hgt_centroid in Z.
    destruct (Qlt_le_dec 0 t) as [P | P].
    2: { assert (E : t == 0) by lra. apply Off. exists fj. apply (on_same D m fj y x); [ | exists p, q, r; auto ]. destruct Ey as (E1 & E2 & E3). unfold same, along, vsub in *. cbn [vx vy vz fst snd] in *. rewrite E1, E2, E3, E. repeat split; ring. }
    destruct (corner_boundary fi a b c T) as (Ba & Bb & Bc).
    pose proof (Conv fj _ a U Ba) as Ha. pose proof (Conv fj _ b U Bb) as Hb. pose proof (Conv fj _ c U Bc) as Hc. pose proof (Be fj _ U) as Hx.
    apply N. set (T' := (p, q, r)) in *.
    assert (S : (1 - t) * (s * hgt T' x) + t * ((1 # 3) * (s * hgt T' a + s * hgt T' b + s * hgt T' c)) == 0).
    { transitivity (s * ((1 - t) * hgt T' x + t * ((1 # 3) * (hgt T' a + hgt T' b + hgt T' c)))); [ ring | rewrite Z; ring ]. }
    assert (Z0 : forall k, s * k == 0 -> k == 0).
    { intros k E. apply Qmult_integral in E. destruct E as [E | E]; [ rewrite E in Hs; lra | exact E ]. }
    assert (Ex : s * hgt T' x == 0) by nra.
    assert (Sum : s * hgt T' a + s * hgt T' b + s * hgt T' c == 0) by nra.
    apply (plane_agrees T' a b c x); [ exact (pf_nondegenerate _ Pf fj p q r U) | | | | ]; apply Z0; lra.
  Qed.

  (** A point in the planes of all faces. *)
  Lemma apex : forall fi T x, soup_triangle m fi = Ok T -> ~ on_boundary m x -> (forall fj U, soup_triangle m fj = Ok U -> hgt U x == 0) -> False.
  Proof.
    intros fi [ [a b] c] x T Off Al. destruct (all_triangles D m) as (l & Hl).
    destruct (generic (map tri_normal l)) as (v0 & Hv0).
    { intros n J. apply in_map_iff in J. destruct J as (U & <- & J). apply Hl in J. destruct J as (j & J). destruct U as [ [p q] r]. exact (pf_nondegenerate _ Pf j p q r J). }
    assert (Hv : exists v, vdot (normal a b c) v < 0 /\ forall U, In U l -> ~ vdot (tri_normal U) v == 0).
    { assert (J : In (a, b, c) l) by (apply Hl; exists fi; exact T).
      assert (N : ~ vdot (normal a b c) v0 == 0) by (apply Hv0; apply (in_map tri_normal) in J; exact J).
      destruct (Qlt_le_dec (vdot (normal a b c) v0) 0) as [L | L].
      - exists v0. split; [ exact L | ]. intros U JU. apply Hv0, in_map, JU.
      - exists (scaled (-(1)) v0). assert (E : forall n, vdot n (scaled (-(1)) v0) == - vdot n v0) by (intro n; unfold vdot, scaled; cbn [vx vy vz fst snd]; ring).
        split; [ rewrite E; lra | ]. intros U JU. rewrite E. intro Z. apply (Hv0 (tri_normal U)); [ apply in_map, JU | lra ]. }
    destruct Hv as (v & Vn & Hv). clear v0 Hv0. set (g := centroid a b c).
    (* close to the centroid one is off all planes *)
    destruct (common_bound tri3 l (fun U e => ~ hgt U (along g e v) == 0 /\ ~ hgt U (along g (- e) v) == 0)) as (b1 & B1 & H1).
    { intros U J. destruct (Qeq_dec (hgt U g) 0) as [Z | Z].
      - exists 1. split; [ lra | ]. intros e E. rewrite !hgt_along, Z. specialize (Hv U J). split; intro F; apply Hv; nra.
      - set (k := vdot (tri_normal U) v) in *. assert (Kn : ~ k == 0) by exact (Hv U J). exists (Qabs (hgt U g / k)).
        assert (E0 : 0 < Qabs (hgt U g / k)).
        { destruct (Qlt_le_dec 0 (Qabs (hgt U g / k))) as [X | X]; [ exact X | exfalso ].
          pose proof (Qle_Qabs (hgt U g / k)) as L1. pose proof (Qle_Qabs (- (hgt U g / k))) as L2. rewrite Qabs_opp in L2.
          assert (E : hgt U g / k == 0) by lra. apply Z. rewrite <- (Qmult_div_r (hgt U g) k Kn), E. ring. }
        split; [ exact E0 | ]. intros e E. rewrite !hgt_along. fold k.
        assert (Q : hgt U g == (hgt U g / k) * k) by (field; exact Kn). set (h := hgt U g / k) in *.
        destruct (Qlt_le_dec h 0) as [L | L]; [ rewrite Qabs_neg in E by lra | rewrite Qabs_pos in E by lra ]; rewrite Q; split; intro F; apply Kn;
          [ assert (X : (h + e) * k == 0) by lra | assert (X : (h - e) * k == 0) by lra | assert (X : (h + e) * k == 0) by lra | assert (X : (h - e) * k == 0) by lra ];
          apply Qmult_integral in X; destruct X as [X | X]; try exact X; exfalso; lra. }
    set (w := vsub g x).
    assert (Wp : 0 < vdot w w).
    { destruct (Qlt_le_dec 0 (vdot w w)) as [X | X]; [ exact X | exfalso ]. apply Off. exists fi. apply (on_same D m fi g x); [ | exists a, b, c; split; [ exact T | apply open_on, centroid_open ] ].
      unfold w, vdot, vsub in X. cbn [vx vy vz fst snd] in X. unfold same.
      set (d1 := vx g - vx x) in *. set (d2 := vy g - vy x) in *. set (d3 := vz g - vz x) in *.
      assert (d1 * d1 == 0 /\ d2 * d2 == 0 /\ d3 * d3 == 0) as (Y1 & Y2 & Y3) by (repeat split; nra).
      apply Qmult_integral in Y1. apply Qmult_integral in Y2. apply Qmult_integral in Y3. unfold d1, d2, d3 in *. repeat split; lra. }
    destruct (bd_face _ _ Bd fi a b c g v T (centroid_open a b c)) as (b2 & B2 & H2).
    destruct (bd_face _ _ Bd fi a b c g (scaled (-(1)) v) T (centroid_open a b c)) as (b3 & B3 & H3).
    assert (B4 : exists b4, 0 < b4 /\ forall e, 0 < e < b4 -> (1 # 2) * vdot w w <= vdot w w + e * vdot w v /\ (1 # 2) * vdot w w <= vdot w w - e * vdot w v).
    { set (k := vdot w v). set (W := vdot w w) in *. destruct (Qlt_le_dec 0 (k * k)) as [Pk | Pk].
      - exists (W / (2 * (1 + k * k))). assert (D0 : 0 < 2 * (1 + k * k)) by lra. split; [ apply Qlt_shift_div_l; [ exact D0 | lra ] | ].
        intros e (E0 & E1). assert (E2 : e * (2 * (1 + k * k)) < W) by (apply (Qmult_lt_r _ _ _ D0) in E1; rewrite Qmult_comm in E1; assert (X : W / (2 * (1 + k * k)) * (2 * (1 + k * k)) == W) by (field; lra); lra).
        assert (k <= 1 + k * k /\ - k <= 1 + k * k) by (split; nra). split; nra.
      - exists 1. split; [ lra | ]. intros e E. assert (k == 0) as -> by nra. split; lra. }
    destruct B4 as (b4 & B4 & H4).
    assert (Ex : exists e, 0 < e /\ e < b1 /\ e < b2 /\ e < b3 /\ e < b4).
    { destruct (common_bound Q [b1; b2; b3; b4] (fun b e => e < b)) as (b0 & B0 & H0).
      - intros b' J. exists b'. split; [ destruct J as [<- | [<- | [<- | [<- | [] ] ] ] ]; assumption | intros e E; lra ].
      - exists ((1 # 2) * b0). specialize (H0 ((1 # 2) * b0) ltac:(lra)). split; [ lra | ]. repeat split; apply H0; cbn; auto. }
    destruct Ex as (e & E0 & E1 & E2 & E3 & E4).
    specialize (H1 e (conj E0 E1)). specialize (H2 e (conj E0 E2)). specialize (H3 e (conj E0 E3)). specialize (H4 e (conj E0 E4)).
    set (z1 := along g e v). set (z2 := along g (- e) v).
    assert (I1 : A z1) by (apply H2, Vn).
    (* far away *)
    assert (Far : exists R, 1 <= R /\ forall y, on_boundary m y -> vdot w (vsub y x) < R * ((1 # 2) * vdot w w)).
    { assert (X : exists M, forall U, In U l -> let '(p, q, r) := U in vdot w (vsub p x) <= M /\ vdot w (vsub q x) <= M /\ vdot w (vsub r x) <= M).
      { clear - l. induction l as [ | [ [p q] r] l' (M & IH)]; [ exists 0; intros U [] | ].
        set (p1 := vdot w (vsub p x)). set (q1 := vdot w (vsub q x)). set (r1 := vdot w (vsub r x)).
        exists (Qmax M (Qmax p1 (Qmax q1 r1))).
        pose proof (Q.le_max_l M (Qmax p1 (Qmax q1 r1))) as L1. pose proof (Q.le_max_r M (Qmax p1 (Qmax q1 r1))) as L2.
        pose proof (Q.le_max_l p1 (Qmax q1 r1)) as L3. pose proof (Q.le_max_r p1 (Qmax q1 r1)) as L4.
        pose proof (Q.le_max_l q1 r1) as L5. pose proof (Q.le_max_r q1 r1) as L6.
        intros U [<- | J]; [ fold p1 q1 r1; repeat split; lra | ]. specialize (IH U J). destruct U as [ [p' q'] r']. destruct IH as (I1 & I2 & I3). repeat split; lra. }
      destruct X as (M & HM). set (W := vdot w w) in *.
      assert (Y : forall y, on_boundary m y -> vdot w (vsub y x) <= M).
      { intros y (j & p & q & r & U & (u1 & u2 & u3 & U1 & U2 & U3 & S & X & Y & Z)). destruct (HM (p, q, r)) as (M1 & M2 & M3); [ apply Hl; exists j; exact U | ].
        assert (E : vdot w (vsub y x) == u1 * vdot w (vsub p x) + u2 * vdot w (vsub q x) + u3 * vdot w (vsub r x)).
        { assert (S' : u1 == 1 - u2 - u3) by lra. unfold vdot, vsub. cbn [vx vy vz fst snd]. rewrite X, Y, Z, S'. ring. }
        rewrite E. nra. }
      exists (1 + 2 * Qabs M / W). pose proof (Qle_Qabs M) as A1. pose proof (Qabs_nonneg M) as A0.
      assert (Q0 : 0 <= 2 * Qabs M / W) by (apply Qle_shift_div_l; [ exact Wp | lra ]).
      split; [ lra | ]. intros y O. specialize (Y y O).
      assert (E : (1 + 2 * Qabs M / W) * ((1 # 2) * W) == (1 # 2) * W + Qabs M) by (field; lra). rewrite E. lra. }
    destruct Far as (R & R1 & Far).
    set (f1 := along x R (vsub z1 x)). set (f2 := along x R (vsub z2 x)).
    assert (Up : forall z k, (forall U, In U l -> ~ hgt U z == 0) -> 0 < k -> ~ on_boundary m (along x k (vsub z x))).
    { intros z k Hz K (j & p & q & r & U & O). apply hgt_on with (T := (p, q, r)) in O. rewrite hgt_seg, (Al j _ U) in O.
      apply (Hz (p, q, r)); [ apply Hl; exists j; exact U | ]. assert (X : k * hgt (p, q, r) z == 0) by lra. apply Qmult_integral in X. destruct X as [X | X]; [ exfalso; lra | exact X ]. }
    assert (Bs : forall y y', same y y' -> on_boundary m y -> on_boundary m y') by (intros y y' E (j & O); exists j; exact (on_same D m j y y' E O)).
    assert (Wk : forall z, (forall U, In U l -> ~ hgt U z == 0) -> (A z <-> A (along x R (vsub z x)))).
    { intros z Hz. apply (bd_walk _ _ Bd). intros y (t & (T0 & T1) & Ey) O. apply (Up z (1 + t * (R - 1)) Hz); [ nra | ]. revert O. apply Bs.
      destruct Ey as (Y1 & Y2 & Y3). unfold same, along, vsub in *. cbn [vx vy vz fst snd] in *. rewrite Y1, Y2, Y3. repeat split; ring. }
    assert (Fr : A f1 <-> A f2).
    { apply (bd_walk _ _ Bd). intros y (t & (T0 & T1) & (Y1 & Y2 & Y3)) O. specialize (Far y O).
      assert (E : vdot w (vsub y x) == R * (vdot w w + (1 - 2 * t) * (e * vdot w v))).
      { unfold f1, f2, z1, z2, w, vdot, along, vsub in *. cbn [vx vy vz fst snd] in *. rewrite Y1, Y2, Y3. ring. }
      rewrite E in Far. destruct H4 as (H4 & H4'). set (k := e * vdot w v) in *. set (W := vdot w w) in *.
      assert (X : (1 # 2) * W <= W + (1 - 2 * t) * k).
      { destruct (Qlt_le_dec k 0); nra. }
      nra. }
    assert (I2 : A z2) by (apply (Wk z2); [ intros U J; apply (H1 U J) | ]; apply Fr; apply (Wk z1); [ intros U J; apply (H1 U J) | exact I1 ]).
    apply (proj2 H3).
    - unfold vdot, scaled in *. cbn [vx vy vz fst snd] in *. lra.
    - assert (Es : same z2 (along g e (scaled (-(1)) v))) by (unfold z2, same, along, scaled; cbn [vx vy vz fst snd]; repeat split; ring).
      apply (bd_walk _ _ Bd z2); [ | exact I2 ]. intros y (t & _ & (Y1 & Y2 & Y3)) (j & p & q & r & U & O). apply hgt_on with (T := (p, q, r)) in O.
      assert (Ey : same y z2) by (destruct Es as (S1 & S2 & S3); unfold same, along, vsub in *; cbn [vx vy vz fst snd] in *; rewrite Y1, Y2, Y3, <- S1, <- S2, <- S3; repeat split; ring).
      rewrite (hgt_same _ _ _ Ey) in O. apply (proj2 (H1 (p, q, r) ltac:(apply Hl; exists j; exact U))). exact O.
  Qed.

  Lemma convex_sees_signed : forall x, (0 < num_faces m)%nat -> ~ on_boundary m x -> exists fi, (fi < num_faces m)%nat /\ sees m x fi.
  Proof.
    intros x Ne Off. destruct (all_triangles D m) as (l & Hl).
    assert (R : forall fi T, soup_triangle m fi = Ok T -> (fi < num_faces m)%nat).
    { intros i T J. unfold num_faces. apply nth_error_Some. unfold soup_triangle, soup_face, vec_at in J. destruct (nth_error (faces m) i); [ discriminate | cbn in J; discriminate J ]. }
    destruct (all_or_some tri3 l (fun T => 0 < s * hgt T x) (fun T => s * hgt T x <= 0)) as [ (T & J & H) | H ].
    { intros T _. destruct (Qlt_le_dec 0 (s * hgt T x)); auto. }
    { apply Hl in J. destruct J as (i & J). exists i. split; [ exact (R i T J) | exact (sees_from_front i T x J H) ]. }
    destruct (all_or_some tri3 l (fun T => ~ hgt T x == 0) (fun T => hgt T x == 0)) as [ (T & J & H') | H' ].
    { intros T _. destruct (Qeq_dec (hgt T x) 0); auto. }
    { apply Hl in J. destruct J as (i & J). exists i. split; [ exact (R i T J) | ]. apply (sees_from_behind i T x J Off); [ | exact H' ]. intros j U JU. apply H, Hl. exists j. exact JU. }
    exfalso. destruct (valid_triangle D m 0 (pf_valid _ Pf) Ne) as (T & J). apply (apex 0 T x J Off). intros j U JU. apply H', Hl. exists j. exact JU.
  Qed.
End Convex.

Lemma convex_sees : forall D (m : soup vec3 D) A x, solid m A -> convex_mesh m -> (0 < num_faces m)%nat -> ~ on_boundary m x -> exists fi, (fi < num_faces m)%nat /\ sees m x fi.
Proof.
  intros D m A x (Pf & Bd & _) [C | C] Ne Off.
  - apply (convex_sees_signed m A 1); auto; [ lra | ]. intros fi [ [a b] c] y T O. specialize (C fi a b c y T O). unfold height in C. cbn [hgt]. unfold ht. lra.
  - apply (convex_sees_signed m A (-(1))); auto; [ lra | ]. intros fi [ [a b] c] y T O. specialize (C fi a b c y T O). unfold height in C. cbn [hgt]. unfold ht. lra.
Qed.
