(** * The common part of two convex bodies *)
From Coq Require Import List Arith ZArith QArith Qabs Qminmax Lqa Lia Bool.
From Verif Require Import Model_base Proof_base Model_soup Model_geometry Model_side Spec_aabb Spec_candidates Spec_side Spec_solid Spec_visible.
From Verif Require Import Proof_affine Proof_small Proof_link Proof_visible.
From Verif Require Import Spec_side Spec_solid.
Import ListNotations.
Local Open Scope Q_scope.

(** The point is behind the planes of all faces. *)
Definition below {D} (m : soup vec3 D) (x : vec3) : Prop := forall fi T, soup_triangle m fi = Ok T -> hgt T x < 0.
Definition off_planes {D} (m : soup vec3 D) (x : vec3) : Prop := forall fi T, soup_triangle m fi = Ok T -> ~ hgt T x == 0.

Lemma below_off : forall D (m : soup vec3 D) x, below m x -> ~ on_boundary m x.
Proof. intros D m x B (fi & a & b & c & T & O). specialize (B fi _ T). rewrite (hgt_on (a, b, c) x O) in B. lra. Qed.
Lemma planes_off : forall D (m : soup vec3 D) x, off_planes m x -> ~ on_boundary m x.
Proof. intros D m x B (fi & a & b & c & T & O). exact (B fi _ T (hgt_on (a, b, c) x O)). Qed.
Lemma below_same : forall D (m : soup vec3 D) x y, same x y -> below m x -> below m y.
Proof. intros D m x y E B fi T J. rewrite <- (hgt_same T x y E). exact (B fi T J). Qed.

Section Body.
  Context {D : Type}.
  Variables (m : soup vec3 D) (A : vec3 -> Prop).
  Hypothesis Bd : bounds m A.
  Hypothesis Conv : forall fi T x, soup_triangle m fi = Ok T -> on_boundary m x -> hgt T x <= 0.

  Lemma front_out : forall fi T x, soup_triangle m fi = Ok T -> 0 < hgt T x -> ~ A x.
  Proof.
    intros fi [ [a b] c] x J H Ax. set (g := centroid a b c). assert (G : hgt (a, b, c) g == 0) by (apply hgt_on, open_on, centroid_open).
    destruct (bd_face _ _ Bd fi a b c g (vsub x g) J (centroid_open a b c)) as (bb & B0 & HB).
    assert (Ex : exists e, 0 < e < bb /\ e <= 1) by (exists (Qmin ((1 # 2) * bb) 1); pose proof (Q.min_glb_lt ((1 # 2) * bb) 1 0 ltac:(lra) ltac:(lra)); pose proof (Q.le_min_l ((1 # 2) * bb) 1); pose proof (Q.le_min_r ((1 # 2) * bb) 1); lra).
    destruct Ex as (e & E & E1). apply (proj2 (HB e E)).
    - change (normal a b c) with (tri_normal (a, b, c)). rewrite hgt_diff, G. lra.
    - apply (bd_walk _ _ Bd x); [ | exact Ax ]. intros z (t & (T0 & T1) & Ez) O. pose proof (Conv fi _ z J O) as L.
      rewrite (hgt_same _ _ _ Ez), hgt_seg, hgt_seg, G in L. set (h := hgt (a, b, c) x) in *.
      assert (X : (1 - t) * h + t * ((1 - e) * 0 + e * h) == ((1 - t) + t * e) * h) by ring. rewrite X in L.
      assert (P : 0 < (1 - t) + t * e) by nra. nra.
  Qed.

  Lemma behind_in : forall fi T x, soup_triangle m fi = Ok T -> below m x -> A x.
  Proof.
    intros fi [ [a b] c] x J H. set (g := centroid a b c). assert (G : forall fj U, soup_triangle m fj = Ok U -> hgt U g <= 0).
    { intros fj U K. apply (Conv fj U g K). exists fi, a, b, c. split; [ exact J | apply open_on, centroid_open ]. }
    assert (G0 : hgt (a, b, c) g == 0) by (apply hgt_on, open_on, centroid_open).
    destruct (bd_face _ _ Bd fi a b c g (vsub x g) J (centroid_open a b c)) as (bb & B0 & HB).
    assert (Ex : exists e, 0 < e < bb /\ e <= 1) by (exists (Qmin ((1 # 2) * bb) 1); pose proof (Q.min_glb_lt ((1 # 2) * bb) 1 0 ltac:(lra) ltac:(lra)); pose proof (Q.le_min_l ((1 # 2) * bb) 1); pose proof (Q.le_min_r ((1 # 2) * bb) 1); lra).
    destruct Ex as (e & E & E1). apply (bd_walk _ _ Bd x (along g e (vsub x g))).
    - intros z (t & (T0 & T1) & Ez). apply below_off. apply (below_same _ _ _ _ (conj (Qeq_sym _ _ (proj1 Ez)) (conj (Qeq_sym _ _ (proj1 (proj2 Ez))) (Qeq_sym _ _ (proj2 (proj2 Ez)))))).
      intros fj U K. rewrite hgt_seg, hgt_seg. pose proof (G fj U K). pose proof (H fj U K).
      assert (X : (1 - t) * hgt U x + t * ((1 - e) * hgt U g + e * hgt U x) == ((1 - t) + t * e) * hgt U x + (t * (1 - e)) * hgt U g) by ring. rewrite X.
      assert (0 < (1 - t) + t * e) by nra. assert (0 <= t * (1 - e)) by nra. nra.
    - apply (proj1 (HB e E)). change (normal a b c) with (tri_normal (a, b, c)). rewrite hgt_diff, G0. pose proof (H fi _ J). lra.
  Qed.

  Lemma body_below : forall x, off_planes m x -> A x -> below m x.
  Proof.
    intros x Off Ax fi T J. pose proof (Off fi T J) as N. destruct (Qlt_le_dec 0 (hgt T x)) as [L | L]; [ elim (front_out fi T x J L Ax) | ].
    destruct (Qlt_le_dec (hgt T x) 0) as [L' | L']; [ exact L' | elim N; lra ].
  Qed.
End Body.

(** Short ways in a general direction stay off the planes. *)
Lemma small_off : forall (l : list tri3) q v, (forall U, In U l -> ~ vdot (tri_normal U) v == 0) ->
  exists b, 0 < b /\ forall e, 0 < e < b -> forall U, In U l -> ~ hgt U (along q e v) == 0.
Proof.
  intros l q v Hv. apply common_bound. intros U J. set (k := vdot (tri_normal U) v) in *. assert (Kn : ~ k == 0) by exact (Hv U J).
  destruct (Qeq_dec (hgt U q) 0) as [Z | Z].
  - exists 1. split; [ lra | ]. intros e E F. rewrite hgt_along, Z in F. fold k in F. apply Kn. nra.
  - exists (Qabs (hgt U q / k)).
    assert (E0 : 0 < Qabs (hgt U q / k)).
    { destruct (Qlt_le_dec 0 (Qabs (hgt U q / k))) as [X | X]; [ exact X | exfalso ].
      pose proof (Qle_Qabs (hgt U q / k)) as L1. pose proof (Qle_Qabs (- (hgt U q / k))) as L2. rewrite Qabs_opp in L2.
      assert (E : hgt U q / k == 0) by lra. apply Z. rewrite <- (Qmult_div_r (hgt U q) k Kn), E. ring. }
    split; [ exact E0 | ]. intros e E F. rewrite hgt_along in F. fold k in F.
    assert (Qe : hgt U q == (hgt U q / k) * k) by (field; exact Kn). set (h := hgt U q / k) in *. rewrite Qe in F.
    assert (X : (h + e) * k == 0) by lra. apply Qmult_integral in X. destruct X as [X | X]; [ | exact (Kn X) ].
    destruct (Qlt_le_dec h 0) as [L | L]; [ rewrite Qabs_neg in E by lra | rewrite Qabs_pos in E by lra ]; lra.
Qed.

Lemma generic_behind : forall (l : list tri3) (T : tri3), (forall U, In U l -> ~ flat U) -> In T l ->
  exists v, vdot (tri_normal T) v < 0 /\ forall U, In U l -> ~ vdot (tri_normal U) v == 0.
Proof.
  intros l T Hf J. destruct (generic (map tri_normal l)) as (v0 & Hv0).
  { intros n I. apply in_map_iff in I. destruct I as (U & <- & I). specialize (Hf U I). destruct U as [ [p q] r]. exact Hf. }
  assert (N : forall U, In U l -> ~ vdot (tri_normal U) v0 == 0) by (intros U I; apply Hv0, in_map, I).
  destruct (Qlt_le_dec (vdot (tri_normal T) v0) 0) as [L | L]; [ exists v0; auto | ].
  exists (scaled (-(1)) v0). assert (E : forall n, vdot n (scaled (-(1)) v0) == - vdot n v0) by (intro n; unfold vdot, scaled; cbn [vx vy vz fst snd]; ring).
  pose proof (N T J) as NT. split; [ rewrite E; lra | ]. intros U I. rewrite E. intro Z. apply (N U I). lra.
Qed.

Section Meet.
  Context {D : Type}.
  Variables (ma mb m : soup vec3 D) (A B S : vec3 -> Prop).
  Hypothesis Fa : forall fi T, soup_triangle ma fi = Ok T -> ~ flat T.
  Hypothesis Fb : forall fi T, soup_triangle mb fi = Ok T -> ~ flat T.
  Hypothesis Pf : forall fi a b c, soup_triangle m fi = Ok (a, b, c) -> ~ degenerate a b c.
  Hypothesis Bd : bounds m S.
  Hypothesis A1 : forall x, off_planes ma x -> A x -> below ma x.
  Hypothesis B1 : forall x, off_planes mb x -> B x -> below mb x.
  Hypothesis A2 : forall x y, A x -> below ma y -> A y.
  Hypothesis B2 : forall x y, B x -> below mb y -> B y.
  Hypothesis HS : forall x, ~ on_boundary ma x -> ~ on_boundary mb x -> (S x <-> A x /\ B x).

  (** Right behind a face. *)
  Lemma face_behind : forall fi a b c q, soup_triangle m fi = Ok (a, b, c) -> in_open_triangle q a b c ->
    (forall fj T, soup_triangle ma fj = Ok T \/ soup_triangle mb fj = Ok T -> hgt T q <= 0) /\
    exists y, below ma y /\ below mb y /\ A y /\ B y.
  Proof.
    intros fi a b c q J Oq. destruct (all_triangles D ma) as (la & Hla). destruct (all_triangles D mb) as (lb & Hlb).
    set (l := (a, b, c) :: la ++ lb).
    destruct (generic_behind l (a, b, c)) as (v & Vn & Hv).
    { intros U [<- | I]; [ exact (Pf fi a b c J) | ]. apply in_app_iff in I. destruct I as [I | I]; [ apply Hla in I | apply Hlb in I ]; destruct I as (j & I); eauto. }
    { left. reflexivity. }
    destruct (small_off l q v Hv) as (b1 & P1 & H1). destruct (bd_face _ _ Bd fi a b c q v J Oq) as (b2 & P2 & H2).
    assert (Near : forall e, 0 < e -> e < b1 -> e < b2 -> let y := along q e v in below ma y /\ below mb y /\ A y /\ B y).
    { intros e E0 E1 E2. cbn zeta. set (y := along q e v).
      assert (Oa : off_planes ma y) by (intros j T I; apply (H1 e (conj E0 E1)); right; apply in_app_iff; left; apply Hla; exists j; exact I).
      assert (Ob : off_planes mb y) by (intros j T I; apply (H1 e (conj E0 E1)); right; apply in_app_iff; right; apply Hlb; exists j; exact I).
      assert (Sy : S y) by (apply (proj1 (H2 e (conj E0 E2))); exact Vn).
      apply (HS y (planes_off _ _ _ Oa) (planes_off _ _ _ Ob)) in Sy. destruct Sy as (Ay & By). auto. }
    split.
    - intros fj T I. destruct (Qlt_le_dec 0 (hgt T q)) as [L | L]; [ exfalso | exact L ].
      set (k := vdot (tri_normal T) v).
      assert (Ex : exists b3, 0 < b3 /\ forall e, 0 < e < b3 -> 0 < hgt T q + e * k).
      { destruct (Qlt_le_dec k 0) as [Lk | Lk]; [ | exists 1; split; [ lra | intros e E; nra ] ].
        exists (hgt T q / (- k)). assert (Dk : 0 < - k) by lra. split; [ apply Qlt_shift_div_l; [ exact Dk | lra ] | ].
        intros e (E0 & E1). assert (X : e * (- k) < hgt T q) by (apply (Qmult_lt_r _ _ _ Dk) in E1; assert (Y : hgt T q / (- k) * (- k) == hgt T q) by (field; lra); lra). lra. }
      destruct Ex as (b3 & P3 & H3).
      destruct (common_bound Q [b1; b2; b3] (fun b' e => e < b')) as (b0 & P0 & H0).
      { intros b' I'. exists b'. split; [ destruct I' as [<- | [<- | [<- | [] ] ] ]; assumption | intros e E; lra ]. }
      specialize (H0 ((1 # 2) * b0) ltac:(lra)). set (e := (1 # 2) * b0) in *. assert (E0 : 0 < e) by (unfold e; lra).
      destruct (Near e E0 (H0 b1 ltac:(cbn; auto)) (H0 b2 ltac:(cbn; auto))) as (X & Y & _).
      specialize (H3 e (conj E0 (H0 b3 ltac:(cbn; auto)))).
      assert (Z : hgt T (along q e v) < 0) by (destruct I as [I | I]; [ exact (X fj T I) | exact (Y fj T I) ]).
      rewrite hgt_along in Z. fold k in Z. lra.
    - set (e := (1 # 2) * Qmin b1 b2). pose proof (Q.min_glb_lt b1 b2 0 P1 P2). pose proof (Q.le_min_l b1 b2). pose proof (Q.le_min_r b1 b2).
      exists (along q e v). apply Near; unfold e; lra.
  Qed.

  (** All of the surface. *)
  Lemma surface_behind : forall x fj T, on_boundary m x -> soup_triangle ma fj = Ok T \/ soup_triangle mb fj = Ok T -> hgt T x <= 0.
  Proof.
    intros x fj T (fi & a & b & c & J & O) I. destruct (Qlt_le_dec 0 (hgt T x)) as [L | L]; [ exfalso | exact L ].
    assert (Mid : forall e, 0 < e -> e <= 1 -> (1 - e) * hgt T x + e * hgt T (centroid a b c) <= 0).
    { intros e E0 E1. rewrite <- hgt_seg. refine (proj1 (face_behind fi a b c (along x e (vsub (centroid a b c) x)) J _) fj T I).
      destruct O as (u & v & w & U & V & W & Su & X & Y & Z). exists ((1 - e) * u + e * (1 # 3)), ((1 - e) * v + e * (1 # 3)), ((1 - e) * w + e * (1 # 3)).
      unfold along, vsub, centroid, Qdiv. cbn [vx vy vz fst snd]. change (/ 3) with (1 # 3). rewrite X, Y, Z.
      split; [ nra | ]. split; [ nra | ]. split; [ nra | ]. split; [ | repeat split; ring ].
      transitivity ((1 - e) * (u + v + w) + e); [ ring | rewrite Su; ring ]. }
    set (h := hgt T x) in *. set (k := hgt T (centroid a b c)) in *. pose proof (Mid 1 ltac:(lra) ltac:(lra)) as K1.
    assert (Dk : 0 < 2 * (h - k)) by lra. assert (E1 : h / (2 * (h - k)) <= 1) by (apply Qle_shift_div_r; [ exact Dk | lra ]).
    assert (E0 : 0 < h / (2 * (h - k))) by (apply Qlt_shift_div_l; [ exact Dk | lra ]).
    specialize (Mid _ E0 E1). assert (X : (1 - h / (2 * (h - k))) * h + h / (2 * (h - k)) * k == (1 # 2) * h) by (field; lra). lra.
  Qed.

  Lemma meet_convex : forall fi a b c x, soup_triangle m fi = Ok (a, b, c) -> on_boundary m x -> hgt (a, b, c) x <= 0.
  Proof.
    intros fi a b c x J O. destruct (Qlt_le_dec 0 (hgt (a, b, c) x)) as [L | L]; [ exfalso | exact L ]. set (T := (a, b, c)) in *. set (g := centroid a b c).
    destruct (face_behind fi a b c g J (centroid_open a b c)) as (Cg & y & Ya & Yb & Ay & By).
    assert (Es : exists s, 0 < s <= 1 /\ 0 < (1 - s) * hgt T x + s * hgt T y).
    { set (h := hgt T x) in *. set (k := hgt T y) in *. destruct (Qlt_le_dec k 0) as [Lk | Lk]; [ | exists (1 # 2); split; [ lra | nra ] ].
      assert (Dk : 0 < 2 * (h - k)) by lra. exists (h / (2 * (h - k))).
      split; [ split; [ apply Qlt_shift_div_l; [ exact Dk | lra ] | apply Qle_shift_div_r; [ exact Dk | lra ] ] | ].
      assert (X : (1 - h / (2 * (h - k))) * h + h / (2 * (h - k)) * k == (1 # 2) * h) by (field; lra). lra. }
    destruct Es as (s & Hs & Hz). rewrite <- hgt_seg in Hz. set (z := along x s (vsub y x)) in *.
    assert (Za : below ma z) by (intros fj U I; unfold z; rewrite hgt_seg; pose proof (surface_behind x fj U O (or_introl I)); pose proof (Ya fj U I); nra).
    assert (Zb : below mb z) by (intros fj U I; unfold z; rewrite hgt_seg; pose proof (surface_behind x fj U O (or_intror I)); pose proof (Yb fj U I); nra).
    assert (G : hgt T g == 0) by (apply hgt_on, open_on, centroid_open).
    destruct (bd_face _ _ Bd fi a b c g (vsub z g) J (centroid_open a b c)) as (bb & P0 & HB).
    assert (Ex : exists e, 0 < e < bb /\ e <= 1) by (exists (Qmin ((1 # 2) * bb) 1); pose proof (Q.min_glb_lt ((1 # 2) * bb) 1 0 ltac:(lra) ltac:(lra)); pose proof (Q.le_min_l ((1 # 2) * bb) 1); pose proof (Q.le_min_r ((1 # 2) * bb) 1); lra).
    destruct Ex as (e & E & E1). apply (proj2 (HB e E)).
    - change (normal a b c) with (tri_normal T). rewrite hgt_diff, G. lra.
    - assert (Wa : below ma (along g e (vsub z g))) by (intros fj U I; rewrite hgt_seg; pose proof (Cg fj U (or_introl I)); pose proof (Za fj U I); nra).
      assert (Wb : below mb (along g e (vsub z g))) by (intros fj U I; rewrite hgt_seg; pose proof (Cg fj U (or_intror I)); pose proof (Zb fj U I); nra).
      apply HS; [ exact (below_off _ _ _ Wa) | exact (below_off _ _ _ Wb) | ]. split; [ exact (A2 y _ Ay Wa) | exact (B2 y _ By Wb) ].
  Qed.
End Meet.

(** ** Turning all faces around *)
Definition turned_face (f : face) : face := let '(a, b, c) := f in (a, c, b).
Definition turned_soup {D} (m : soup vec3 D) : soup vec3 D := mk_soup (points m) (map turned_face (faces m)) (face_data m).

Lemma turned_triangle : forall D (m : soup vec3 D) fi a b c, soup_triangle (turned_soup m) fi = Ok (a, b, c) <-> soup_triangle m fi = Ok (a, c, b).
Proof.
  intros D m fi a b c. unfold soup_triangle, soup_face, vec_at, turned_soup. cbn [faces points]. rewrite nth_error_map. unfold soup_point, vec_at. cbn [points].
  destruct (nth_error (faces m) fi) as [ [ [i j] k] | ]; cbn [option_map turned_face bind]; [ | split; discriminate ].
  destruct (nth_error (points m) i), (nth_error (points m) j), (nth_error (points m) k); cbn [bind]; split; congruence.
Qed.
Lemma in_turned : forall x a b c, in_triangle x a c b <-> in_triangle x a b c.
Proof. intros x a b c. split; intros (u & v & w & U & V & W & S & X & Y & Z); exists u, w, v; repeat split; try assumption; lra. Qed.
Lemma in_turned_open : forall x a b c, in_open_triangle x a c b -> in_open_triangle x a b c.
Proof. intros x a b c (u & v & w & U & V & W & S & X & Y & Z); exists u, w, v; repeat split; try assumption; lra. Qed.
Lemma turned_boundary : forall D (m : soup vec3 D) x, on_boundary (turned_soup m) x <-> on_boundary m x.
Proof.
  intros D m x. split; intros (fi & a & b & c & J & O); exists fi, a, c, b.
  - apply (proj1 (turned_triangle _ _ _ _ _ _)) in J. split; [ exact J | apply in_turned, O ].
  - split; [ apply turned_triangle; exact J | apply in_turned, O ].
Qed.
Lemma turned_normal : forall a b c v, vdot (normal a c b) v == - vdot (normal a b c) v.
Proof. intros. unfold normal, vdot, vcross, vsub. cbn [vx vy vz fst snd]. ring. Qed.
Lemma turned_height : forall a b c x, height a c b x == - height a b c x.
Proof. intros. apply turned_normal. Qed.
Lemma turned_bounds : forall D (m : soup vec3 D) A, bounds m A -> bounds (turned_soup m) (fun x => ~ A x).
Proof.
  intros D m A [Wk Fc]. split.
  - intros x y H. assert (E : A x <-> A y) by (apply Wk; intros z Hz O; apply (H z Hz), turned_boundary, O). tauto.
  - intros fi a b c q v J O. apply (proj1 (turned_triangle _ _ _ _ _ _)) in J. destruct (Fc fi a c b q v J (in_turned_open _ _ _ _ O)) as (bb & B0 & H). exists bb. split; [ exact B0 | ].
    intros e E. destruct (H e E) as (H1 & H2). rewrite turned_normal in H1, H2. split; intro L; [ apply H2; lra | ]. intro N. apply N, H1. lra.
Qed.
Lemma turned_flat : forall D (m : soup vec3 D), (forall fi a b c, soup_triangle m fi = Ok (a, b, c) -> ~ degenerate a b c) -> forall fi a b c, soup_triangle (turned_soup m) fi = Ok (a, b, c) -> ~ degenerate a b c.
Proof.
  intros D m H fi a b c J F. apply (proj1 (turned_triangle _ _ _ _ _ _)) in J. apply (H _ _ _ _ J). revert F. unfold degenerate, same, normal, vcross, vsub. cbn [vx vy vz fst snd]. intros (X & Y & Z). repeat split; lra.
Qed.
