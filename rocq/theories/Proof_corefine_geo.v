(** * The points of a record *)
From Coq Require Import List Arith NArith Bool QArith Lqa Lia Permutation.
From Verif Require Import Model_base Proof_base Model_geometry Model_soup Model_region Model_points Model_ffi.
From Verif Require Import Spec_points Spec_defects Spec_ffi Spec_corefine Proof_extreme Proof_hull Proof_ffi_orient Proof_ffi_calls Proof_ffi_edge
  Proof_ffi_plane Proof_ffi_all Proof_polygon Proof_ffi_order Proof_ffi_result Prop_ffi Prop_points.
Import ListNotations.
Local Open Scope nat_scope.

Lemma ffi_entry : forall {P} (coords : P -> vec3) points a b c p q r T U l,
  triangle_at coords points a b c T -> triangle_at coords points p q r U -> nondegenerate T -> nondegenerate U ->
  face_face_intersection coords points a b c p q r = Ok l ->
  forall reg, In reg l -> exists m k, reg = convex_hull (side true m) (side false k) /\ meet T U m k.
Proof.
  intros P coords points a b c p q r T U l HT HU NT NU E reg J.
  destruct (ffi_all coords points a b c p q r T U HT HU NT NU) as (lst & f & o & _ & I & _ & Po & _ & E' & _).
  rewrite E in E'. injection E' as ->. apply in_map_iff in J. destruct J as (i & <- & J).
  apply (Permutation_in _ (Permutation_sym Po)) in J. apply in_seq in J.
  unfold hull_at. rewrite nth_error_map, (nth_error_nth' lst ((false, false, false), (false, false, false))) by lia.
  cbn [option_map]. destruct (nth i lst ((false, false, false), (false, false, false))) as [m k] eqn:En.
  exists m, k. split; [ reflexivity | ]. apply I. rewrite <- En. apply nth_In. lia.
Qed.

(** The affine hull of a feature. *)
Definition aff (t : triangle) (m : mask) (x : vec3) : Prop :=
  let '(m0, m1, m2) := m in
  exists u v w, (free m0 u /\ free m1 v /\ free m2 w /\ u + v + w == 1)%Q /\ same_point x (comb t u v w).
Lemma feature_aff : forall t m x, in_feature t m x -> aff t m x.
Proof.
  intros t [ [m0 m1] m2] x (u & v & w & (A & B & C & S) & X). exists u, v, w. split; [ | exact X ].
  repeat split; [ destruct m0 | destruct m1 | destruct m2 | exact S ]; cbn in *; auto.
Qed.
Lemma aff_same : forall t m x y, same_point x y -> aff t m x -> aff t m y.
Proof. intros t [ [m0 m1] m2] x y E (u & v & w & H & X). exists u, v, w. split; [ exact H | eapply same_trans; [ apply same_sym; exact E | exact X ] ]. Qed.
Lemma aff_dir : forall t m x y, aff t m x -> aff t m y -> dir t m (vsub x y).
Proof.
  intros t [ [m0 m1] m2] x y (u & v & w & (A & B & C & S) & X) (u' & v' & w' & (A' & B' & C' & S') & Y).
  exists (u - u')%Q, (v - v')%Q, (w - w')%Q. split.
  - repeat split; [ destruct m0 | destruct m1 | destruct m2 | lra ]; cbn in *; auto; lra.
  - destruct t as [ [ [ [? ?] ?] [ [? ?] ?] ] [ [? ?] ?] ]. destruct x as [ [? ?] ?], y as [ [? ?] ?]. unfold same_point, comb, vsub, vx, vy, vz in *. cbn [fst snd] in *.
    destruct X as (X1 & X2 & X3), Y as (Y1 & Y2 & Y3). rewrite X1, X2, X3, Y1, Y2, Y3. repeat split; ring.
Qed.
Lemma aff_unique : forall l r m k x y, transversal l r m k -> aff l m x -> aff r k x -> aff l m y -> aff r k y -> same_point x y.
Proof.
  intros l r m k x y Tr X1 X2 Y1 Y2. assert (Z := Tr _ (aff_dir _ _ _ _ X1 Y1) (aff_dir _ _ _ _ X2 Y2)).
  destruct x as [ [? ?] ?], y as [ [? ?] ?]. unfold zero3, vsub, same_point, vx, vy, vz in *. cbn [fst snd] in *. destruct Z as (Z1 & Z2 & Z3). repeat split; lra.
Qed.

(** The affine hull of an edge is the line through its ends, in whatever order; that of
    the face the plane. *)
Lemma line_sym : forall p q x, line p q x -> line q p x.
Proof.
  intros p q x (u & v & S & X). exists v, u. split; [ lra | ]. eapply same_trans; [ exact X | ].
  destruct p as [ [? ?] ?], q as [ [? ?] ?]. unfold same_point, comb, vx, vy, vz. cbn [fst snd]. repeat split; ring.
Qed.
Ltac comb_ring := match goal with
  | X : same_point ?x (comb ?t _ _ _) |- same_point ?x _ => eapply same_trans; [ exact X | ]
  end; repeat match goal with t : vec3 |- _ => destruct t as [ [? ?] ?] end; unfold same_point, comb, vx, vy, vz; cbn [fst snd]; repeat split.
Lemma edge_aff : forall a b c m x, bits m = 2 -> exists p q, pick m (a, b, c) = [p; q] /\ (aff (a, b, c) m x <-> line p q x).
Proof.
  intros a b c [ [ [ | ] [ | ] ] [ | ] ] x Hb; cbn in Hb; try lia; cbn [pick app]; do 2 eexists; (split; [ reflexivity | ]); unfold aff, line, free; split.
  - intros (u & v & w & (_ & _ & C & S) & X). exists u, v. split; [ lra | ]. comb_ring; rewrite C; ring.
  - intros (u & v & S & X). exists u, v, 0%Q. split; [ repeat split; lra | ]. comb_ring; ring.
  - intros (u & v & w & (_ & C & _ & S) & X). exists u, w. split; [ lra | ]. comb_ring; rewrite C; ring.
  - intros (u & v & S & X). exists u, 0%Q, v. split; [ repeat split; lra | ]. comb_ring; ring.
  - intros (u & v & w & (C & _ & _ & S) & X). exists v, w. split; [ lra | ]. comb_ring; rewrite C; ring.
  - intros (u & v & S & X). exists 0%Q, u, v. split; [ repeat split; lra | ]. comb_ring; ring.
Qed.
Lemma plane_swap : forall a b c x, plane a b c x -> plane b a c x /\ plane a c b x.
Proof.
  intros a b c x (u & v & w & S & X). split; [ exists v, u, w | exists u, w, v ]; (split; [ lra | ]); comb_ring; ring.
Qed.
Lemma face_aff : forall a b c x, aff (a, b, c) (true, true, true) x <-> plane a b c x.
Proof.
  intros a b c x. unfold aff, plane, free. split; intros (u & v & w & S & X); exists u, v, w; (split; [ | exact X ]); tauto.
Qed.

Lemma side_parts : forall m k, intersection (convex_hull (side true m) (side false k)) LEFT_FACE = side true m /\
  intersection (convex_hull (side true m) (side false k)) RIGHT_FACE = side false k.
Proof. intros [ [ [ | ] [ | ] ] [ | ] ] [ [ [ | ] [ | ] ] [ | ] ]; split; reflexivity. Qed.

(** The request of an entry. *)
Definition req (m : mask) (a b c : nat) (k : mask) (p q r : nat) : request :=
  mk_req (side true m) a b c (side false k) p q r.
Lemma req_left : forall m a b c k p q r, left_vertices (req m a b c k p q r) = pick m (a, b, c).
Proof. intros [ [ [ | ] [ | ] ] [ | ] ] a b c k p q r; reflexivity. Qed.
Lemma req_right : forall m a b c k p q r, right_vertices (req m a b c k p q r) = pick k (p, q, r).
Proof. intros m a b c [ [ [ | ] [ | ] ] [ | ] ] p q r; reflexivity. Qed.
Lemma pick_length : forall {A} m (t : A * A * A), length (pick m t) = bits m.
Proof. intros A [ [ [ | ] [ | ] ] [ | ] ] [ [x y] z]; reflexivity. Qed.
Lemma pick_map : forall {A B} (f : A -> B) m x y z, pick m (f x, f y, f z) = map f (pick m (x, y, z)).
Proof. intros A B f [ [ [ | ] [ | ] ] [ | ] ] x y z; reflexivity. Qed.
Lemma pick_in : forall {A} m (x y z i : A), In i (pick m (x, y, z)) -> i = x \/ i = y \/ i = z.
Proof. intros A [ [ [ | ] [ | ] ] [ | ] ] x y z i H; cbn in H; intuition. Qed.
Lemma bits_cases : forall m, bits m <= 3.
Proof. intros [ [ [ | ] [ | ] ] [ | ] ]; cbn; lia. Qed.
Lemma bits_3 : forall m, bits m = 3 -> m = (true, true, true).
Proof. intros [ [ [ | ] [ | ] ] [ | ] ] H; cbn in H; try lia. reflexivity. Qed.

Lemma triangle_ids : forall {P} (coords : P -> vec3) points a b c T, triangle_at coords points a b c T -> nondegenerate T ->
  NoDup [a; b; c] /\ a < length points /\ b < length points /\ c < length points.
Proof.
  intros P coords points a b c T H N. destruct (triangle_pts _ _ _ _ _ _ H) as (La & Lb & Lc & _).
  destruct H as (pa & pb & pc & A & B & C & ->). assert (X := distinct_corners _ _ _ N). destruct X as (X & Y & Z).
  split; [ | auto ]. repeat constructor; cbn; intuition; subst.
  - rewrite A in B. injection B as ->. apply X. apply same_refl.
  - rewrite A in C. injection C as ->. apply Z. apply same_refl.
  - rewrite B in C. injection C as ->. apply Y. apply same_refl.
Qed.

Lemma shared_end : forall p q r x, line p q x -> line p r x -> ~ same_point x p ->
  exists k, same_point (vsub r p) (scale k (vsub q p)).
Proof.
  intros p q r x (u & v & S & X) (u' & v' & S' & Y) N.
  assert (V : ~ (v' == 0)%Q).
  { intro V. apply N. eapply same_trans; [ exact Y | ]. assert (U : (u' == 1)%Q) by lra.
    destruct p as [ [? ?] ?], q as [ [? ?] ?], r as [ [? ?] ?]. unfold same_point, comb, vx, vy, vz. cbn [fst snd]. rewrite U, V. repeat split; ring. }
  exists (v / v')%Q. assert (E := same_trans _ _ _ (same_sym _ _ X) Y). clear X Y N.
  assert (Hu : (u == 1 - v)%Q) by lra. assert (Hu' : (u' == 1 - v')%Q) by lra.
  destruct p as [ [p1 p2] p3], q as [ [q1 q2] q3], r as [ [r1 r2] r3]. unfold same_point, comb, scale, vsub, vx, vy, vz in *. cbn [fst snd] in *.
  destruct E as (E1 & E2 & E3). rewrite Hu, Hu' in E1, E2, E3.
  assert (G : forall p q r : Q, ((1 - v) * p + v * q + 0 * q == (1 - v') * p + v' * r + 0 * r)%Q -> (r - p == v / v' * (q - p))%Q).
  { intros a b c H. apply (Qmult_inj_l _ _ v' V). transitivity (v * (b - a))%Q; [ lra | field; exact V ]. }
  repeat split; apply G; assumption.
Qed.

Lemma zero_sub : forall x y, zero3 (vsub x y) -> same_point x y.
Proof. intros [ [? ?] ?] [ [? ?] ?] (A & B & C). unfold same_point, vsub, vx, vy, vz in *. cbn [fst snd] in *. repeat split; lra. Qed.
Lemma edge_facts : forall {P} (coords : P -> vec3) points a b c T m x, triangle_at coords points a b c T -> nondegenerate T ->
  bits m = 2 -> in_feature T m x ->
  exists i j, let p := at_ coords points i in let q := at_ coords points j in
    pick m (a, b, c) = [i; j] /\ line p q x /\ ~ same_point x p /\ ~ same_point x q /\ ~ same_point p q /\
    forall s, dir T m (scale s (vsub q p)).
Proof.
  intros P coords points a b c T m x HT N Hb F. destruct (triangle_pts _ _ _ _ _ _ HT) as (_ & _ & _ & ET). clear HT.
  assert (L := fun y => edge_aff (at_ coords points a) (at_ coords points b) (at_ coords points c) m y Hb).
  destruct (distinct_corners _ _ _ (eq_ind T (fun T => nondegenerate T) N _ ET)) as (N1 & N2 & N3).
  assert (Off : forall i, In (at_ coords points i) (pick m (at_ coords points a, at_ coords points b, at_ coords points c)) -> ~ same_point x (at_ coords points i)).
  { intros i J E. assert (Y := in_feature_same _ _ _ _ E F). subst T. apply in_feature_bits in F as Fb.
    assert (G : forall u v w, (u + v + w == 1)%Q -> same_point (at_ coords points i) (comb (at_ coords points a, at_ coords points b, at_ coords points c) u v w) ->
        let '(m0, m1, m2) := m in weight m0 u /\ weight m1 v /\ weight m2 w).
    { intros u v w S X. assert (W := proj1 (feature_coords _ m _ (u, v, w) N S X) Y). destruct m as [ [m0 m1] m2]. exact W. }
    destruct m as [ [m0 m1] m2]. cbn [pick] in J. apply in_app_or in J. destruct J as [J | J]; [ | apply in_app_or in J; destruct J as [J | J] ].
    - assert (E1 : at_ coords points i = at_ coords points a) by (destruct m0; [ destruct J as [J | [ ] ]; auto | destruct J ]). rewrite E1 in G.
      specialize (G 1%Q 0%Q 0%Q ltac:(lra)). destruct G as (_ & G1 & G2).
      { generalize (at_ coords points a), (at_ coords points b), (at_ coords points c). intros A B C. destruct A as [ [? ?] ?], B as [ [? ?] ?], C as [ [? ?] ?]. unfold same_point, comb, vx, vy, vz. cbn [fst snd]. repeat split; ring. }
      destruct m0, m1, m2; cbn in Hb, G1, G2; try lia; lra.
    - assert (E1 : at_ coords points i = at_ coords points b) by (destruct m1; [ destruct J as [J | [ ] ]; auto | destruct J ]). rewrite E1 in G.
      specialize (G 0%Q 1%Q 0%Q ltac:(lra)). destruct G as (G1 & _ & G2).
      { generalize (at_ coords points a), (at_ coords points b), (at_ coords points c). intros A B C. destruct A as [ [? ?] ?], B as [ [? ?] ?], C as [ [? ?] ?]. unfold same_point, comb, vx, vy, vz. cbn [fst snd]. repeat split; ring. }
      destruct m0, m1, m2; cbn in Hb, G1, G2; try lia; lra.
    - assert (E1 : at_ coords points i = at_ coords points c) by (destruct m2; [ destruct J as [J | [ ] ]; auto | destruct J ]). rewrite E1 in G.
      specialize (G 0%Q 0%Q 1%Q ltac:(lra)). destruct G as (G1 & G2 & _).
      { generalize (at_ coords points a), (at_ coords points b), (at_ coords points c). intros A B C. destruct A as [ [? ?] ?], B as [ [? ?] ?], C as [ [? ?] ?]. unfold same_point, comb, vx, vy, vz. cbn [fst snd]. repeat split; ring. }
      destruct m0, m1, m2; cbn in Hb, G1, G2; try lia; lra. }
  assert (Dr : forall i j, pick m (a, b, c) = [i; j] -> forall s, dir T m (scale s (vsub (at_ coords points j) (at_ coords points i)))).
  { intros i j E s. destruct (L (at_ coords points i)) as (p & q & Ep & L1). destruct (L (at_ coords points j)) as (p' & q' & Ep' & L2).
    rewrite (pick_map (at_ coords points)) in Ep, Ep'. rewrite E in Ep, Ep'. cbn [map] in Ep, Ep'. injection Ep as <- <-. injection Ep' as <- <-.
    assert (A1 : aff T m (at_ coords points i)).
    { subst T. apply L1. exists 1%Q, 0%Q. split; [ lra | ]. generalize (at_ coords points i), (at_ coords points j). intros A B. destruct A as [ [? ?] ?], B as [ [? ?] ?]. unfold same_point, comb, vx, vy, vz. cbn [fst snd]. repeat split; ring. }
    assert (A2 : aff T m (at_ coords points j)).
    { subst T. apply L2. exists 0%Q, 1%Q. split; [ lra | ]. generalize (at_ coords points i), (at_ coords points j). intros A B. destruct A as [ [? ?] ?], B as [ [? ?] ?]. unfold same_point, comb, vx, vy, vz. cbn [fst snd]. repeat split; ring. }
    assert (X := aff_dir _ _ _ _ A2 A1). destruct m as [ [m0 m1] m2]. destruct X as (u & v & w & (F0 & F1 & F2 & S) & X).
    exists (s * u)%Q, (s * v)%Q, (s * w)%Q. split.
    - repeat split; [ destruct m0 | destruct m1 | destruct m2 | ]; cbn in *; auto; nra.
    - subst T. revert X. generalize (at_ coords points i), (at_ coords points j), (at_ coords points a), (at_ coords points b), (at_ coords points c).
      intros I J A B C X. destruct I as [ [? ?] ?], J as [ [? ?] ?], A as [ [? ?] ?], B as [ [? ?] ?], C as [ [? ?] ?]. unfold same_point, comb, scale, vsub, vx, vy, vz in *. cbn [fst snd] in *.
      destruct X as (X1 & X2 & X3). rewrite X1, X2, X3. repeat split; ring. }
  destruct (L x) as (p & q & Ep & L1). rewrite (pick_map (at_ coords points)) in Ep, Off.
  destruct m as [ [m0 m1] m2].
  assert (exists i j, pick (m0, m1, m2) (a, b, c) = [i; j] /\ ~ same_point (at_ coords points i) (at_ coords points j)) as (i & j & E & Nij).
  { destruct m0, m1, m2; cbn in Hb; try lia; cbn [pick app]; do 2 eexists; (split; [ reflexivity | ]); auto. intro H. apply N3. apply same_sym. exact H. }
  rewrite E in Ep, Off. cbn [map] in Ep, Off. injection Ep as <- <-.
  exists i, j. split; [ exact E | ]. split; [ apply L1; rewrite <- ET; apply feature_aff; exact F | ].
  split; [ apply Off; left; reflexivity | ]. split; [ apply Off; right; left; reflexivity | ]. split; [ exact Nij | ]. exact (Dr i j E).
Qed.

Lemma meet_edges_apart : forall {P} (coords : P -> vec3) points a b c p q r T U m k, triangle_at coords points a b c T -> triangle_at coords points p q r U ->
  nondegenerate T -> nondegenerate U -> meet T U m k -> bits m = 2 -> bits k = 2 ->
  forall i, In i (pick m (a, b, c)) -> ~ In i (pick k (p, q, r)).
Proof.
  intros P coords points a b c p q r T U m k HT HU NT NU ((x & F & G) & Tr) Bm Bk i J K.
  destruct (edge_facts coords points a b c T m x HT NT Bm F) as (i1 & j1 & E1 & L1 & X1 & Y1 & N1 & D1).
  destruct (edge_facts coords points p q r U k x HU NU Bk G) as (i2 & j2 & E2 & L2 & X2 & Y2 & N2 & D2).
  rewrite E1 in J. rewrite E2 in K. destruct J as [J | [J | [ ] ] ], K as [K | [K | [ ] ] ]; subst.
  - destruct (shared_end _ _ _ _ L1 L2 X1) as (s & S). apply N2. assert (Z : zero3 (vsub (at_ coords points j2) (at_ coords points i))).
    { apply Tr; [ eapply dir_same; [ apply same_sym; exact S | apply D1 ] | eapply dir_same; [ | apply (D2 1%Q) ] ].
      destruct (at_ coords points j2) as [ [? ?] ?], (at_ coords points i) as [ [? ?] ?]. unfold same_point, scale, vsub, vx, vy, vz. cbn [fst snd]. repeat split; ring. }
    apply same_sym, zero_sub; exact Z.
  - destruct (shared_end _ _ _ _ L1 (line_sym _ _ _ L2) X1) as (s & S). apply N2. assert (Z : zero3 (vsub (at_ coords points i2) (at_ coords points i))).
    { apply Tr; [ eapply dir_same; [ apply same_sym; exact S | apply D1 ] | eapply dir_same; [ | apply (D2 (-1)%Q) ] ].
      destruct (at_ coords points i2) as [ [? ?] ?], (at_ coords points i) as [ [? ?] ?]. unfold same_point, scale, vsub, vx, vy, vz. cbn [fst snd]. repeat split; ring. }
    apply zero_sub; exact Z.
  - destruct (shared_end _ _ _ _ (line_sym _ _ _ L1) L2 Y1) as (s & S). apply N2. assert (Z : zero3 (vsub (at_ coords points j2) (at_ coords points i))).
    { apply Tr; [ eapply dir_same; [ | apply (D1 (- s)%Q) ] | eapply dir_same; [ | apply (D2 1%Q) ] ].
      - eapply same_trans; [ | apply same_sym; exact S ].
        destruct (at_ coords points i1) as [ [? ?] ?], (at_ coords points i) as [ [? ?] ?]. unfold same_point, scale, vsub, vx, vy, vz. cbn [fst snd]. repeat split; ring.
      - destruct (at_ coords points j2) as [ [? ?] ?], (at_ coords points i) as [ [? ?] ?]. unfold same_point, scale, vsub, vx, vy, vz. cbn [fst snd]. repeat split; ring. }
    apply same_sym, zero_sub; exact Z.
  - destruct (shared_end _ _ _ _ (line_sym _ _ _ L1) (line_sym _ _ _ L2) Y1) as (s & S). apply N2. assert (Z : zero3 (vsub (at_ coords points i2) (at_ coords points i))).
    { apply Tr; [ eapply dir_same; [ | apply (D1 (- s)%Q) ] | eapply dir_same; [ | apply (D2 (-1)%Q) ] ].
      - eapply same_trans; [ | apply same_sym; exact S ].
        destruct (at_ coords points i1) as [ [? ?] ?], (at_ coords points i) as [ [? ?] ?]. unfold same_point, scale, vsub, vx, vy, vz. cbn [fst snd]. repeat split; ring.
      - destruct (at_ coords points i2) as [ [? ?] ?], (at_ coords points i) as [ [? ?] ?]. unfold same_point, scale, vsub, vx, vy, vz. cbn [fst snd]. repeat split; ring. }
    apply zero_sub; exact Z.
Qed.

Lemma req_valid : forall {P} (coords : P -> vec3) points a b c p q r T U m k, triangle_at coords points a b c T -> triangle_at coords points p q r U ->
  nondegenerate T -> nondegenerate U -> meet T U m k -> valid_request (length points) (req m a b c k p q r).
Proof.
  intros P coords points a b c p q r T U m k HT HU NT NU M.
  destruct (triangle_ids _ _ _ _ _ _ HT NT) as (Da & La & Lb & Lc). destruct (triangle_ids _ _ _ _ _ _ HU NU) as (Dp & Lp & Lq & Lr).
  assert (Bm : bits m <> 0 /\ bits k <> 0) by (destruct M as ((x & F & G) & _); split; eapply in_feature_bits; eassumption). destruct Bm as [Bm Bk].
  split.
  - clear - Bm. destruct m as [ [ [ | ] [ | ] ] [ | ] ]; cbn in Bm; try lia; cbn; tauto.
  - clear - Bk. destruct k as [ [ [ | ] [ | ] ] [ | ] ]; cbn in Bk; try lia; cbn; tauto.
  - exact Da.
  - exact Dp.
  - cbn. repeat constructor; assumption.
  - rewrite req_left, req_right, !pick_length. pose proof (bits_cases m). pose proof (bits_cases k).
    destruct (Nat.eq_dec (bits m) 3) as [E | E]; [ | lia ]. destruct (Nat.eq_dec (bits k) 3) as [E' | E']; [ | lia ].
    apply bits_3 in E. apply bits_3 in E'. subst. exfalso. exact (faces_not_transversal T U NT NU (proj2 M)).
  - rewrite req_left, req_right, !pick_length. intros E E'. exact (meet_edges_apart coords points a b c p q r T U m k HT HU NT NU M E E').
Qed.
