(** * How often the sides of two triangles pass through each other *)
From Coq Require Import List Arith ZArith QArith Qminmax Lqa Lia.
From Verif Require Import Model_base Model_soup Model_geometry Model_side.
From Verif Require Import Spec_candidates Spec_side Spec_solid Proof_affine Proof_small.
From Verif Require Import Proof_walk.
Import ListNotations.
Local Open Scope Q_scope.

(** The height of a point over the plane through [o] with the normal [n]. *)
Definition ht (n o z : vec3) : Q := vdot n (vsub z o).
(** Where the line from [p] to [q] passes through the plane. *)
Definition cut (n o p q : vec3) : vec3 := along p (ht n o p / (ht n o p - ht n o q)) (vsub q p).

Lemma ht_along : forall n o p t v, ht n o (along p t v) == ht n o p + t * vdot n v.
Proof. intros. unfold ht. crush. ring. Qed.
Lemma ht_diff : forall n o p q, vdot n (vsub q p) == ht n o q - ht n o p.
Proof. intros. unfold ht. crush. ring. Qed.
Lemma ht_same : forall n o x y, same x y -> ht n o x == ht n o y.
Proof. intros n o x y (E1 & E2 & E3). unfold ht, vdot, vsub. cbn [vx vy vz fst snd]. rewrite E1, E2, E3. reflexivity. Qed.

Lemma cut_zero : forall n o p q, ~ ht n o p == ht n o q -> ht n o (cut n o p q) == 0.
Proof. intros n o p q N. unfold cut. rewrite ht_along, (ht_diff n o). field. intro. apply N. lra. Qed.

Lemma cut_segment : forall n o p q s, s * s == 1 -> 0 <= s * ht n o p -> s * ht n o q <= 0 -> ~ ht n o p == ht n o q -> in_segment (cut n o p q) p q.
Proof.
  intros n o p q s Hs Hp Hq N. set (hp := ht n o p) in *. set (hq := ht n o q) in *. exists (hp / (hp - hq)). split; [ | apply same_refl ].
  assert (E : hp / (hp - hq) == (s * hp) / (s * hp - s * hq)).
  { field. split; [ | intro; apply N; lra ]. intro X. apply N. assert (s * (s * hp - s * hq) == 0) by (rewrite X; ring). assert (s * s * (hp - hq) == 0) by lra. rewrite Hs in *. lra. }
  assert (P : 0 < s * hp - s * hq).
  { destruct (Qlt_le_dec 0 (s * hp - s * hq)) as [L | L]; [ exact L | exfalso ]. apply N. assert (X : s * hp - s * hq == 0) by lra. assert (Y : s * (s * hp - s * hq) == 0) by (rewrite X; ring). assert (Z : s * s * (hp - hq) == 0) by lra. rewrite Hs in Z. lra. }
  rewrite E. split; [ apply Qle_shift_div_l; lra | apply Qle_shift_div_r; lra ].
Qed.

(** A point is determined by two planes and the position along their common line. *)
Lemma line_point : forall n n' x y, ~ same (vcross n n') zero3 ->
  vdot n x == vdot n y -> vdot n' x == vdot n' y -> vdot (vcross n n') x == vdot (vcross n n') y -> same x y.
Proof.
  intros n n' x y Nz E1 E2 E3. set (D := vcross n n') in *.
  assert (HD : ~ vdot D D == 0) by (intro X; apply Nz; apply vdot_self_zero, X).
  assert (K : forall i : vec3 -> Q, (i = vx \/ i = vy \/ i = vz) -> vdot D D * (i x - i y) == 0).
  { assert (G : forall v, vdot n v == 0 -> vdot n' v == 0 -> vdot D v == 0 -> vdot D D * vx v == 0 /\ vdot D D * vy v == 0 /\ vdot D D * vz v == 0).
    { intros v V1 V2 V3.
      assert (I : vdot D D * vx v == vx D * vdot D v - vx (vcross D (vsub (scaled (vdot n v) n') (scaled (vdot n' v) n))) /\
                  vdot D D * vy v == vy D * vdot D v - vy (vcross D (vsub (scaled (vdot n v) n') (scaled (vdot n' v) n))) /\
                  vdot D D * vz v == vz D * vdot D v - vz (vcross D (vsub (scaled (vdot n v) n') (scaled (vdot n' v) n)))).
      { unfold D. clear. destruct n as [ [n1 n2] n3], n' as [ [k1 k2] k3], v as [ [v1 v2] v3]. unfold vdot, vcross, vsub, scaled. cbn [vx vy vz fst snd]. repeat split; ring. }
      destruct I as (I1 & I2 & I3). rewrite I1, I2, I3. unfold vcross, vsub, scaled. cbn [vx vy vz fst snd]. rewrite V1, V2, V3. repeat split; ring. }
    destruct (G (vsub x y)) as (G1 & G2 & G3); try (unfold vdot, vsub in *; cbn [vx vy vz fst snd] in *; lra).
    intros i [-> | [-> | ->] ]; unfold vsub in G1, G2, G3; cbn [vx vy vz fst snd] in *; assumption. }
  repeat split; [ specialize (K vx ltac:(tauto)) | specialize (K vy ltac:(tauto)) | specialize (K vz ltac:(tauto)) ]; apply Qmult_integral in K; destruct K; try contradiction; lra.
Qed.

(** ** Crossings *)
Definition hgt (T : tri3) (z : vec3) : Q := let '(a, b, c) := T in ht (normal a b c) a z.
Definition hcut (T : tri3) (p q : vec3) : vec3 := let '(a, b, c) := T in cut (normal a b c) a p q.
Definition cons_tri (T : tri3) : list aff := let '(a, b, c) := T in tri_cons a b c.
Definition memb (T : tri3) (z : vec3) : Z := if sat_dec (cons_tri T) z then 1 else 0.
(** How often the segment from [p] to [q] passes through the triangle, from its front to its
    back; points of the plane count as points in front of it. *)
Definition cc (T : tri3) (p q : vec3) : Z :=
  match Qlt_le_dec (hgt T p) 0, Qlt_le_dec (hgt T q) 0 with
  | right _, left _ => memb T (hcut T p q)
  | left _, right _ => - memb T (hcut T p q)
  | _, _ => 0
  end.

Lemma memb_in : forall T z, ~ flat T -> on_tri z T -> memb T z = 1%Z.
Proof. intros T z N H. unfold memb. destruct (sat_dec (cons_tri T) z) as [S | S]; [ reflexivity | ]. exfalso. apply S. apply (on_tri_iff T z N), H. Qed.
Lemma memb_out : forall T z, ~ flat T -> ~ on_tri z T -> memb T z = 0%Z.
Proof. intros T z N H. unfold memb. destruct (sat_dec (cons_tri T) z) as [S | S]; [ | reflexivity ]. exfalso. apply H. apply (on_tri_iff T z N), S. Qed.
Lemma memb_same : forall T x y, same x y -> memb T x = memb T y.
Proof.
  intros T x y E. unfold memb. destruct (sat_dec (cons_tri T) x) as [A | A], (sat_dec (cons_tri T) y) as [B | B]; try reflexivity; exfalso.
  - apply B. exact (sat_same _ x y E A).
  - apply A. exact (sat_same _ y x (same_sym _ _ E) B).
Qed.
Lemma hgt_same : forall T x y, same x y -> hgt T x == hgt T y.
Proof. intros [ [a b] c] x y E. apply ht_same, E. Qed.
Lemma hgt_along : forall T p t v, hgt T (along p t v) == hgt T p + t * vdot (tri_normal T) v.
Proof. intros [ [a b] c] p t v. apply ht_along. Qed.
Lemma hcut_along : forall T p q, hcut T p q = along p (hgt T p / (hgt T p - hgt T q)) (vsub q p).
Proof. intros [ [a b] c] p q. reflexivity. Qed.
Lemma hgt_diff : forall T p q, vdot (tri_normal T) (vsub q p) == hgt T q - hgt T p.
Proof. intros [ [a b] c] p q. apply ht_diff. Qed.
Lemma hcut_zero : forall T p q, ~ hgt T p == hgt T q -> hgt T (hcut T p q) == 0.
Proof. intros [ [a b] c] p q. apply cut_zero. Qed.
Lemma hcut_segment : forall T p q, (0 <= hgt T p /\ hgt T q < 0) \/ (hgt T p < 0 /\ 0 <= hgt T q) -> in_segment (hcut T p q) p q.
Proof.
  intros [ [a b] c] p q [ (A & B) | (A & B) ]; [ apply (cut_segment _ _ p q 1) | apply (cut_segment _ _ p q (-(1))) ]; unfold hgt in *; try reflexivity; lra.
Qed.
Lemma hcut_sym : forall T p q, ~ hgt T p == hgt T q -> same (hcut T p q) (hcut T q p).
Proof.
  intros T p q N. rewrite !hcut_along. set (h := hgt T p) in *. set (k := hgt T q) in *.
  unfold same, along, vsub. cbn [vx vy vz fst snd]. repeat split; field; split; intro; apply N; lra.
Qed.

Lemma cc_anti : forall T p q, cc T p q = (- cc T q p)%Z.
Proof.
  intros T p q. unfold cc. destruct (Qlt_le_dec (hgt T p) 0) as [A | A], (Qlt_le_dec (hgt T q) 0) as [B | B]; try reflexivity;
    rewrite (memb_same T _ _ (hcut_sym T p q ltac:(lra))); lia.
Qed.
Lemma cc_free : forall T p q, ~ flat T -> (forall z, in_segment z p q -> ~ on_tri z T) -> cc T p q = 0%Z.
Proof.
  intros T p q N H. unfold cc. destruct (Qlt_le_dec (hgt T p) 0) as [A | A], (Qlt_le_dec (hgt T q) 0) as [B | B]; try reflexivity;
    rewrite memb_out; try reflexivity; try exact N; apply H, hcut_segment; auto.
Qed.

(** ** A triangle that is cut by a plane *)
Definition side_in (T : tri3) (z : vec3) : Prop := let '(a, b, c) := T in in_segment z a b \/ in_segment z b c \/ in_segment z c a.
Definition turn (F : tri3) (T : tri3) : Z := let '(x, y, o) := T in (cc F x y + cc F y o + cc F o x)%Z.
Definition rot (T : tri3) : tri3 := let '(x, y, o) := T in (y, o, x).

Lemma rot_turn : forall F T, turn F (rot T) = turn F T.
Proof. intros F [ [x y] o]. cbn [turn rot]. lia. Qed.
Lemma rot_side : forall T z, side_in (rot T) z -> side_in T z.
Proof. intros [ [x y] o] z. cbn [side_in rot]. tauto. Qed.
Lemma rot_on : forall T z, on_tri z (rot T) <-> on_tri z T.
Proof.
  intros [ [x y] o] z. cbn [on_tri rot]. split; intros (u & v & w & U & V & W & E & X & Y & Z).
  - exists w, u, v. repeat split; lra.
  - exists v, w, u. repeat split; lra.
Qed.
Lemma rot_normal : forall T, same (tri_normal (rot T)) (tri_normal T).
Proof. intros [ [x y] o]. cbn [tri_normal rot]. crush. repeat split; cbn [vx vy vz fst snd]; ring. Qed.
Lemma rot_hgt : forall T z, hgt (rot T) z == hgt T z.
Proof. intros [ [x y] o] z. cbn [hgt rot]. unfold ht. crush. ring. Qed.
Lemma rot_three : forall T, rot (rot (rot T)) = T.
Proof. intros [ [x y] o]. reflexivity. Qed.

(** The vertex [p] is on one side and the others are on the other. *)
Definition isolated (F : tri3) (T : tri3) : Prop := let '(p, q, r) := T in
  (0 <= hgt F p /\ hgt F q < 0 /\ hgt F r < 0) \/ (hgt F p < 0 /\ 0 <= hgt F q /\ 0 <= hgt F r).
Lemma sides_of_plane : forall F T, (let '(p, q, r) := T in (0 <= hgt F p /\ 0 <= hgt F q /\ 0 <= hgt F r) \/ (hgt F p < 0 /\ hgt F q < 0 /\ hgt F r < 0)) \/
  exists U, (U = T \/ U = rot T \/ U = rot (rot T)) /\ isolated F U.
Proof.
  intros F [ [p q] r]. destruct (Qlt_le_dec (hgt F p) 0) as [A | A], (Qlt_le_dec (hgt F q) 0) as [B | B], (Qlt_le_dec (hgt F r) 0) as [C | C]; auto; right.
  - exists (r, p, q). split; [ auto | ]. left. auto.
  - exists (q, r, p). split; [ auto | ]. left. auto.
  - exists (p, q, r). split; [ auto | ]. right. auto.
  - exists (p, q, r). split; [ auto | ]. left. auto.
  - exists (q, r, p). split; [ auto | ]. right. auto.
  - exists (r, p, q). split; [ auto | ]. right. auto.
Qed.
Lemma one_side_turn : forall F T, (let '(p, q, r) := T in (0 <= hgt F p /\ 0 <= hgt F q /\ 0 <= hgt F r) \/ (hgt F p < 0 /\ hgt F q < 0 /\ hgt F r < 0)) -> turn F T = 0%Z.
Proof.
  intros F [ [p q] r] H. cbn [turn]. unfold cc.
  destruct (Qlt_le_dec (hgt F p) 0), (Qlt_le_dec (hgt F q) 0), (Qlt_le_dec (hgt F r) 0); try reflexivity; exfalso; destruct H as [ (? & ? & ?) | (? & ? & ?)]; lra.
Qed.

Definition level (F T : tri3) (z : vec3) : Q := vdot (vcross (tri_normal F) (tri_normal T)) z.
Record sliced (F T : tri3) (lo hi : vec3) : Prop := {
  sl_lo : side_in T lo; sl_hi : side_in T hi; sl_lo0 : hgt F lo == 0; sl_hi0 : hgt F hi == 0;
  sl_par : ~ same (vcross (tri_normal F) (tri_normal T)) zero3;
  sl_le : level F T lo <= level F T hi;
  sl_turn : turn F T = (memb F lo - memb F hi)%Z;
  sl_in : forall z, on_tri z T -> hgt F z == 0 -> level F T lo <= level F T z /\ level F T z <= level F T hi;
  sl_on : forall z, hgt F z == 0 -> hgt T z == 0 -> level F T lo <= level F T z -> level F T z <= level F T hi -> on_tri z T
}.

Lemma level_along : forall F T p t v, level F T (along p t v) == level F T p + t * level F T v.
Proof. intros F T p t v. unfold level. apply vdot_add_r. Qed.
Lemma level_square : forall F p q r, let T := (p, q, r) in let D := vcross (tri_normal F) (tri_normal T) in
  vdot D D == (hgt F p - hgt F q) * level F T (vsub r p) - (hgt F p - hgt F r) * level F T (vsub q p).
Proof.
  intros F p q r T D. assert (A := hgt_diff F p q). assert (B := hgt_diff F p r). 
  setoid_replace (hgt F p - hgt F q) with (- vdot (tri_normal F) (vsub q p)) by lra. setoid_replace (hgt F p - hgt F r) with (- vdot (tri_normal F) (vsub r p)) by lra.
  clear. subst T D. unfold level. cbn [tri_normal]. generalize (tri_normal F) as n. intros n. unfold normal. generalize (vsub q p) as u, (vsub r p) as v. crush. ring.
Qed.
Lemma hgt_bary : forall F z p q r u v w, u + v + w == 1 -> vx z == u * vx p + v * vx q + w * vx r -> vy z == u * vy p + v * vy q + w * vy r -> vz z == u * vz p + v * vz q + w * vz r ->
  hgt F z == u * hgt F p + v * hgt F q + w * hgt F r.
Proof.
  intros [ [a b] c] z p q r u v w S X Y Z. cbn [hgt]. unfold ht, vdot, vsub. cbn [vx vy vz fst snd]. rewrite X, Y, Z.
  setoid_replace u with (1 - v - w) by lra. ring.
Qed.
Lemma vdot_bary : forall n z p q r u v w, u + v + w == 1 -> vx z == u * vx p + v * vx q + w * vx r -> vy z == u * vy p + v * vy q + w * vy r -> vz z == u * vz p + v * vz q + w * vz r ->
  vdot n z == vdot n p + v * vdot n (vsub q p) + w * vdot n (vsub r p).
Proof.
  intros n z p q r u v w S X Y Z. unfold vdot, vsub. cbn [vx vy vz fst snd]. rewrite X, Y, Z.
  setoid_replace u with (1 - v - w) by lra. ring.
Qed.
Lemma hgt_corners : forall p q r, hgt (p, q, r) p == 0 /\ hgt (p, q, r) q == 0 /\ hgt (p, q, r) r == 0.
Proof. intros. cbn [hgt]. unfold ht. crush. repeat split; ring. Qed.
Lemma hgt_vdot : forall F z w, hgt F z - hgt F w == vdot (tri_normal F) z - vdot (tri_normal F) w.
Proof. intros [ [a b] c] z w. cbn [hgt tri_normal]. unfold ht. generalize (normal a b c) as n. crush. ring. Qed.

Lemma isolated_sliced : forall F p q r, isolated F (p, q, r) -> ~ flat (p, q, r) -> exists lo hi, sliced F (p, q, r) lo hi.
Proof.
  intros F p q r I Nf. set (T := (p, q, r)) in *. set (hp := hgt F p). set (hq := hgt F q). set (hr := hgt F r).
  set (B := level F T (vsub q p)). set (C := level F T (vsub r p)). set (dq := hp - hq). set (dr := hp - hr).
  set (D := vcross (tri_normal F) (tri_normal T)). set (N := vdot D D).
  assert (EN : N == dq * C - dr * B) by (apply level_square).
  cbn [isolated T] in I. fold hp hq hr in I.
  assert (Ndq : ~ dq == 0) by (unfold dq; lra). assert (Ndr : ~ dr == 0) by (unfold dr; lra).
  assert (HN : 0 < N).
  { destruct (Qlt_le_dec 0 N) as [L | L]; [ exact L | exfalso ]. assert (Z : N == 0) by (pose proof (vdot_self D); unfold N in *; lra).
    apply vdot_self_zero in Z.
    (* the planes would be parallel *)
    assert (G : forall n m u, same (vcross n m) (0, 0, 0) -> vdot m u == 0 -> vdot n u * vdot m m == 0).
    { clear. intros n m u (X & Y & Z) E. destruct n as [ [n1 n2] n3], m as [ [m1 m2] m3], u as [ [u1 u2] u3]. unfold vcross, vdot in *. cbn [vx vy vz fst snd] in *.
      setoid_replace ((n1 * u1 + n2 * u2 + n3 * u3) * (m1 * m1 + m2 * m2 + m3 * m3))
        with ((n1 * m1 + n2 * m2 + n3 * m3) * (m1 * u1 + m2 * u2 + m3 * u3) + (n2 * m3 - n3 * m2) * (u2 * m3 - u3 * m2) + (n3 * m1 - n1 * m3) * (u3 * m1 - u1 * m3) + (n1 * m2 - n2 * m1) * (u1 * m2 - u2 * m1)) by ring.
      rewrite E, X, Y, Z. ring. }
    assert (E : vdot (tri_normal F) (vsub q p) * vdot (tri_normal T) (tri_normal T) == 0).
    { apply G; [ exact Z | ]. rewrite (hgt_diff T p q). destruct (hgt_corners p q r) as (E1 & E2 & _). fold T in E1, E2. lra. }
    assert (P := nondeg_pos p q r Nf). change (normal p q r) with (tri_normal T) in P.
    apply Qmult_integral in E. destruct E as [E | E]; [ | lra ]. rewrite (hgt_diff F p q) in E. unfold dq, hp, hq in Ndq. lra. }
  set (al := hcut F p q). set (be := hcut F p r).
  assert (Ea : (level F T al - level F T p) * dq == hp * B).
  { unfold al. rewrite hcut_along, level_along. fold hp hq B. fold dq. field. exact Ndq. }
  assert (Eb : (level F T be - level F T p) * dr == hp * C).
  { unfold be. rewrite hcut_along, level_along. fold hp hr C. fold dr. field. exact Ndr. }
  set (la := level F T al) in *. set (lb := level F T be) in *. set (l0 := level F T p) in *.
  assert (Za : hgt F al == 0) by (apply hcut_zero; fold hp hq; unfold dq in Ndq; lra).
  assert (Zb : hgt F be == 0) by (apply hcut_zero; fold hp hr; unfold dr in Ndr; lra).
  assert (Sa : in_segment al p q) by (apply hcut_segment; fold hp hq; lra).
  assert (Sb : in_segment be p r) by (apply hcut_segment; fold hp hr; lra).
  (* points of the triangle *)
  assert (In : forall z, on_tri z T -> hgt F z == 0 -> exists v w, 0 <= v /\ 0 <= w /\ (level F T z - la) * dq == w * N /\ (level F T z - lb) * dr == - (v * N)).
  { intros z (u & v & w & U & V & W & S & X & Y & Z) Hz. exists v, w. split; [ exact V | ]. split; [ exact W | ].
    assert (Hh : hp == v * dq + w * dr). { rewrite (hgt_bary F z p q r u v w S X Y Z) in Hz. fold hp hq hr in Hz. unfold dq, dr. setoid_replace u with (1 - v - w) in Hz by lra. lra. }
    assert (El : level F T z == l0 + v * B + w * C) by (unfold level, l0, B, C; apply (vdot_bary _ z p q r u v w S X Y Z)).
    clear - Ea Eb Hh El EN. split.
    - setoid_replace ((level F T z - la) * dq) with ((level F T z - l0) * dq - (la - l0) * dq) by ring. rewrite Ea, El, EN, Hh. ring.
    - setoid_replace ((level F T z - lb) * dr) with ((level F T z - l0) * dr - (lb - l0) * dr) by ring. rewrite Eb, El, EN, Hh. ring. }
  assert (On : forall z, hgt F z == 0 -> hgt T z == 0 -> 0 <= (level F T z - la) * dq -> (level F T z - lb) * dr <= 0 -> on_tri z T).
  { intros z Hz Tz A1 A2. set (L := level F T z - l0).
    set (w := (L * dq - hp * B) / N). set (v := (hp * C - L * dr) / N).
    assert (Wn : w * N == L * dq - hp * B) by (unfold w; field; lra). assert (Vn : v * N == hp * C - L * dr) by (unfold v; field; lra).
    assert (W0 : 0 <= w). { unfold w. apply Qle_shift_div_l; [ exact HN | ]. rewrite <- Ea. unfold L. lra. }
    assert (V0 : 0 <= v). { unfold v. apply Qle_shift_div_l; [ exact HN | ]. rewrite <- Eb. unfold L. lra. }
    assert (Hh : v * dq + w * dr == hp).
    { assert (X : (v * dq + w * dr) * N == hp * N) by (setoid_replace ((v * dq + w * dr) * N) with (v * N * dq + w * N * dr) by ring; rewrite Vn, Wn, EN; ring).
      apply (Qmult_inj_r _ _ N); [ lra | exact X ]. }
    assert (Hl : v * B + w * C == L).
    { assert (X : (v * B + w * C) * N == L * N) by (setoid_replace ((v * B + w * C) * N) with (v * N * B + w * N * C) by ring; rewrite Vn, Wn, EN; ring).
      apply (Qmult_inj_r _ _ N); [ lra | exact X ]. }
    assert (U0 : 0 <= 1 - v - w).
    { destruct (Qlt_le_dec (1 - v - w) 0) as [K | K]; [ exfalso | exact K ]. unfold dq, dr in Hh. clear - I K Hh W0 V0.
      assert (X : (1 - v - w) * hp == - (v * hq) - w * hr) by lra.
      destruct I as [ (I1 & I2 & I3) | (I1 & I2 & I3) ].
      - assert (0 <= - (1 - v - w) * hp) by (apply Qmult_le_0_compat; lra). assert (0 <= v * - hq) by (apply Qmult_le_0_compat; lra). assert (0 <= w * - hr) by (apply Qmult_le_0_compat; lra).
        assert (Y1 : v * - hq == 0) by lra. assert (Y2 : w * - hr == 0) by lra. apply Qmult_integral in Y1, Y2. destruct Y1 as [Y1 | Y1]; [ | lra ]. destruct Y2 as [Y2 | Y2]; lra.
      - assert (0 < (1 - v - w) * hp) by nra. assert (0 <= v * hq) by (apply Qmult_le_0_compat; lra). assert (0 <= w * hr) by (apply Qmult_le_0_compat; lra). lra. }
    set (y := (((1 - v - w) * vx p + v * vx q + w * vx r, (1 - v - w) * vy p + v * vy q + w * vy r, (1 - v - w) * vz p + v * vz q + w * vz r)) : vec3).
    assert (Hy : hgt F y == 0). { rewrite (hgt_bary F y p q r (1 - v - w) v w); [ | ring | reflexivity | reflexivity | reflexivity ]. fold hp hq hr. unfold dq, dr in Hh. lra. }
    assert (Ty : hgt T y == 0). { destruct (hgt_corners p q r) as (E1 & E2 & E3). fold T in E1, E2, E3. rewrite (hgt_bary T y p q r (1 - v - w) v w); [ | ring | reflexivity | reflexivity | reflexivity ]. rewrite E1, E2, E3. ring. }
    assert (Ly : level F T y == level F T z). { unfold level at 1. rewrite (vdot_bary _ y p q r (1 - v - w) v w); [ | ring | reflexivity | reflexivity | reflexivity ]. fold (level F T p) (level F T (vsub q p)) (level F T (vsub r p)). fold l0 B C. unfold L in Hl. lra. }
    assert (E : same y z).
    { apply (line_point (tri_normal F) (tri_normal T)).
      - fold D. intros (X1 & X2 & X3). assert (Y : N == 0) by (unfold N, vdot; rewrite X1, X2, X3; reflexivity). lra.
      - pose proof (hgt_vdot F y z). lra.
      - pose proof (hgt_vdot T y z). lra.
      - exact Ly. }
    destruct E as (E1 & E2 & E3). exists (1 - v - w), v, w. split; [ exact U0 | ]. split; [ exact V0 | ]. split; [ exact W0 | ]. split; [ ring | ].
    rewrite <- E1, <- E2, <- E3. repeat split; reflexivity. }
  assert (Par : ~ same D zero3). { intros (X1 & X2 & X3). assert (Y : N == 0) by (unfold N, vdot; rewrite X1, X2, X3; reflexivity). lra. }
  assert (Eab : (lb - la) * (dq * dr) == hp * N).
  { setoid_replace ((lb - la) * (dq * dr)) with ((lb - l0) * dr * dq - (la - l0) * dq * dr) by ring. rewrite Ea, Eb, EN. ring. }
  assert (Side : forall z, in_segment z p q \/ in_segment z p r -> side_in T z).
  { intros z [H | H]; [ left; exact H | right; right; apply in_segment_sym, H ]. }
  assert (Tu : turn F T = if Qlt_le_dec hp 0 then (memb F be - memb F al)%Z else (memb F al - memb F be)%Z).
  { cbn [turn T]. rewrite (cc_anti F r p). unfold cc. fold hp hq hr. fold al be.
    destruct (Qlt_le_dec hp 0), (Qlt_le_dec hq 0), (Qlt_le_dec hr 0); try lia; exfalso; lra. }
  destruct I as [ (I1 & I2 & I3) | (I1 & I2 & I3) ].
  - assert (Pq : 0 < dq) by (unfold dq; lra). assert (Pr : 0 < dr) by (unfold dr; lra).
    exists al, be. constructor; auto; fold la lb.
    + assert (0 < dq * dr) by (apply Qmult_lt_0_compat; assumption). assert (0 <= hp * N) by (apply Qmult_le_0_compat; lra). clear - Eab H H0. nra.
    + rewrite Tu. destruct (Qlt_le_dec hp 0); [ lra | reflexivity ].
    + intros z Oz Hz. destruct (In z Oz Hz) as (v & w & V & W & X & Y). assert (0 <= w * N) by (apply Qmult_le_0_compat; lra). assert (0 <= v * N) by (apply Qmult_le_0_compat; lra).
      clear - X Y H H0 Pq Pr. split; nra.
    + intros z Hz Tz A1 A2. apply On; auto; clear - A1 A2 Pq Pr; nra.
  - assert (Pq : dq < 0) by (unfold dq; lra). assert (Pr : dr < 0) by (unfold dr; lra).
    exists be, al. constructor; auto; fold la lb.
    + assert (0 < (- dq) * (- dr)) by (apply Qmult_lt_0_compat; lra). assert (0 <= - hp * N) by (apply Qmult_le_0_compat; lra). clear - Eab H H0. nra.
    + rewrite Tu. destruct (Qlt_le_dec hp 0); [ reflexivity | lra ].
    + intros z Oz Hz. destruct (In z Oz Hz) as (v & w & V & W & X & Y). assert (0 <= w * N) by (apply Qmult_le_0_compat; lra). assert (0 <= v * N) by (apply Qmult_le_0_compat; lra).
      clear - X Y H H0 Pq Pr. split; nra.
    + intros z Hz Tz A1 A2. apply On; auto; clear - A1 A2 Pq Pr; nra.
Qed.

Lemma rot_sliced : forall F T lo hi, sliced F (rot T) lo hi -> sliced F T lo hi.
Proof.
  intros F T lo hi [ A1 A2 A3 A4 A5 A6 A7 A8 A9 ].
  assert (L : forall z, level F (rot T) z == level F T z).
  { intro z. unfold level. destruct (rot_normal T) as (E1 & E2 & E3). generalize dependent (tri_normal (rot T)). intros n _ E1 E2 E3.
    unfold vdot, vcross. cbn [vx vy vz fst snd]. rewrite E1, E2, E3. reflexivity. }
  constructor; auto using rot_side.
  - intro X. apply A5. apply (same_trans _ (vcross (tri_normal F) (tri_normal T))); [ | exact X ]. destruct (rot_normal T) as (E1 & E2 & E3).
    generalize dependent (tri_normal (rot T)). intros n _ E1 E2 E3. unfold same, vcross. cbn [vx vy vz fst snd]. rewrite E1, E2, E3. repeat split; reflexivity.
  - rewrite <- !L. exact A6.
  - rewrite <- rot_turn. exact A7.
  - intros z Oz Hz. rewrite <- !L. apply A8; [ apply rot_on, Oz | exact Hz ].
  - intros z Hz Tz B1 B2. apply rot_on. apply A9; rewrite ?L; auto. rewrite rot_hgt. exact Tz.
Qed.
Lemma rot_flat : forall T, flat (rot T) -> flat T.
Proof.
  intros T H. destruct (rot_normal T) as (E1 & E2 & E3). destruct T as [ [x y] o]. cbn [flat rot tri_normal] in *. unfold degenerate in *.
  destruct H as (H1 & H2 & H3). repeat split; [ rewrite <- E1 | rewrite <- E2 | rewrite <- E3 ]; assumption.
Qed.
Lemma slice : forall F T, ~ flat T ->
  (let '(p, q, r) := T in (0 <= hgt F p /\ 0 <= hgt F q /\ 0 <= hgt F r) \/ (hgt F p < 0 /\ hgt F q < 0 /\ hgt F r < 0)) \/ exists lo hi, sliced F T lo hi.
Proof.
  intros F T N. destruct (sides_of_plane F T) as [H | (U & E & I)]; [ left; exact H | right ].
  assert (NU : ~ flat U) by (destruct E as [-> | [-> | ->] ]; intro X; apply N; repeat apply rot_flat in X; exact X).
  assert (S : exists lo hi, sliced F U lo hi) by (destruct U as [ [p q] r]; apply isolated_sliced; assumption).
  destruct S as (lo & hi & S). exists lo, hi. destruct E as [-> | [-> | ->] ]; repeat apply rot_sliced in S; exact S.
Qed.

Lemma side_on : forall T z, side_in T z -> on_tri z T.
Proof.
  intros [ [x y] o] z H. cbn [side_in on_tri] in *.
  destruct H as [ (t & (T0 & T1) & (X & Y & Z)) | [ (t & (T0 & T1) & (X & Y & Z)) | (t & (T0 & T1) & (X & Y & Z)) ] ];
    unfold along, vsub in X, Y, Z; cbn [vx vy vz fst snd] in X, Y, Z;
    [ exists (1 - t), t, 0 | exists 0, (1 - t), t | exists t, 0, (1 - t) ]; (repeat split; try lra; unfold vx, vy, vz in *; lra).
Qed.
Lemma on_hgt : forall T z, on_tri z T -> hgt T z == 0.
Proof.
  intros [ [x y] o] z (u & v & w & U & V & W & S & X & Y & Z). rewrite (hgt_bary _ z x y o u v w S X Y Z).
  destruct (hgt_corners x y o) as (E1 & E2 & E3). rewrite E1, E2, E3. ring.
Qed.
Lemma one_sided : forall F x y o z, (0 <= hgt F x /\ 0 <= hgt F y /\ 0 <= hgt F o) \/ (hgt F x < 0 /\ hgt F y < 0 /\ hgt F o < 0) ->
  on_tri z (x, y, o) -> hgt F z == 0 -> side_in (x, y, o) z \/ (hgt F x == 0 /\ hgt F y == 0 /\ hgt F o == 0).
Proof.
  intros F x y o z H (u & v & w & U & V & W & S & X & Y & Z) Hz. rewrite (hgt_bary _ z x y o u v w S X Y Z) in Hz.
  set (hx := hgt F x) in *. set (hy := hgt F y) in *. set (ho := hgt F o) in *.
  destruct H as [ (A & B & C) | (A & B & C) ].
  - assert (0 <= u * hx) by (apply Qmult_le_0_compat; lra). assert (0 <= v * hy) by (apply Qmult_le_0_compat; lra). assert (0 <= w * ho) by (apply Qmult_le_0_compat; lra).
    assert (E1 : u * hx == 0) by lra. assert (E2 : v * hy == 0) by lra. assert (E3 : w * ho == 0) by lra.
    apply Qmult_integral in E1, E2, E3. destruct E1 as [E1 | E1].
    { left. cbn [side_in]. right. left. exists w. split; [ lra | ]. unfold same, along, vsub. cbn [vx vy vz fst snd]. rewrite X, Y, Z, E1. setoid_replace v with (1 - w) by lra. repeat split; ring. }
    destruct E2 as [E2 | E2].
    { left. cbn [side_in]. right. right. exists u. split; [ lra | ]. unfold same, along, vsub. cbn [vx vy vz fst snd]. rewrite X, Y, Z, E2. setoid_replace w with (1 - u) by lra. repeat split; ring. }
    destruct E3 as [E3 | E3]; [ | right; auto ].
    left. cbn [side_in]. left. exists v. split; [ lra | ]. unfold same, along, vsub. cbn [vx vy vz fst snd]. rewrite X, Y, Z, E3. setoid_replace u with (1 - v) by lra. repeat split; ring.
  - exfalso. assert (0 <= u * - hx) by (apply Qmult_le_0_compat; lra). assert (0 <= v * - hy) by (apply Qmult_le_0_compat; lra). assert (0 <= w * - ho) by (apply Qmult_le_0_compat; lra).
    assert (E1 : u * - hx == 0) by lra. assert (E2 : v * - hy == 0) by lra. assert (E3 : w * - ho == 0) by lra.
    apply Qmult_integral in E1, E2, E3. destruct E1 as [E1 | E1]; [ | lra ]. destruct E2 as [E2 | E2]; [ | lra ]. destruct E3 as [E3 | E3]; lra.
Qed.
Lemma in_plane_parallel : forall F x y o, hgt F x == 0 -> hgt F y == 0 -> hgt F o == 0 -> same (vcross (tri_normal (x, y, o)) (tri_normal F)) zero3.
Proof.
  intros F x y o X Y O. assert (A := hgt_diff F x y). assert (B := hgt_diff F x o). assert (A0 : vdot (tri_normal F) (vsub y x) == 0) by lra. assert (B0 : vdot (tri_normal F) (vsub o x) == 0) by lra.
  clear - A0 B0. cbn [tri_normal]. unfold normal. generalize dependent (tri_normal F). generalize (vsub y x) as u, (vsub o x) as v. intros u v n A B.
  destruct n as [ [n1 n2] n3], u as [ [u1 u2] u3], v as [ [v1 v2] v3]. unfold vcross, vdot, zero3, same in *. cbn [vx vy vz fst snd] in *.
  split; [ | split ].
  - setoid_replace (( u3 * v1 - u1 * v3) * n3 - (u1 * v2 - u2 * v1) * n2) with (v1 * (n1 * u1 + n2 * u2 + n3 * u3) - u1 * (n1 * v1 + n2 * v2 + n3 * v3)) by ring. rewrite A, B. ring.
  - setoid_replace ((u1 * v2 - u2 * v1) * n1 - (u2 * v3 - u3 * v2) * n3) with (v2 * (n1 * u1 + n2 * u2 + n3 * u3) - u2 * (n1 * v1 + n2 * v2 + n3 * v3)) by ring. rewrite A, B. ring.
  - setoid_replace ((u2 * v3 - u3 * v2) * n2 - (u3 * v1 - u1 * v3) * n1) with (v3 * (n1 * u1 + n2 * u2 + n3 * u3) - u3 * (n1 * v1 + n2 * v2 + n3 * v3)) by ring. rewrite A, B. ring.
Qed.

(** If one of the triangles is on one side of the other, no sides pass through it. *)
Lemma one_sided_turn : forall F T, ~ flat F -> ~ flat T -> (forall z, side_in F z -> side_in T z -> False) ->
  (let '(p, q, r) := T in (0 <= hgt F p /\ 0 <= hgt F q /\ 0 <= hgt F r) \/ (hgt F p < 0 /\ hgt F q < 0 /\ hgt F r < 0)) -> turn T F = 0%Z.
Proof.
  intros F T NF NT Ap H. destruct (slice T F NF) as [K | (lo & hi & [ A1 A2 A3 A4 A5 A6 A7 A8 A9 ])]; [ apply one_side_turn, K | ].
  destruct T as [ [x y] o]. rewrite A7.
  assert (G : forall z, side_in F z -> ~ on_tri z (x, y, o)).
  { intros z Sz Oz. destruct (one_sided F x y o z H Oz (on_hgt _ _ (side_on _ _ Sz))) as [S | (E1 & E2 & E3)]; [ exact (Ap z Sz S) | ].
    apply A5. apply in_plane_parallel; assumption. }
  rewrite !memb_out; auto.
Qed.

Lemma flat_hgt : forall T z, flat T -> hgt T z == 0.
Proof. intros [ [x y] o] z (E1 & E2 & E3). cbn [hgt]. unfold ht, vdot. rewrite E1, E2, E3. cbn [vx vy vz fst snd]. ring. Qed.
Lemma flat_turn : forall F T, flat T -> turn F T = 0%Z /\ turn T F = 0%Z.
Proof.
  intros F T Hf. split.
  - destruct (sides_of_plane F T) as [H | (U & E & I)]; [ apply one_side_turn, H | ].
    assert (Eu : turn F T = turn F U) by (destruct E as [-> | [-> | ->] ]; rewrite ?rot_turn; reflexivity).
    assert (Fu : flat U).
    { destruct E as [-> | [-> | ->] ]; [ exact Hf | | ]; apply rot_flat; [ apply rot_flat | ]; rewrite rot_three; exact Hf. }
    rewrite Eu. clear Eu E Hf T. destruct U as [ [p q] r]. cbn [turn isolated] in *. rewrite (cc_anti F r p). unfold cc.
    assert (Sm : same (hcut F p q) (hcut F p r)).
    { assert (N1 : ~ hgt F p - hgt F q == 0) by lra. assert (N2 : ~ hgt F p - hgt F r == 0) by lra. rewrite !hcut_along.
      assert (A := hgt_diff F p q). assert (B := hgt_diff F p r). set (hp := hgt F p) in *. set (hq := hgt F q) in *. set (hr := hgt F r) in *.
      destruct Fu as (E1 & E2 & E3). unfold normal in E1, E2, E3.
      assert (G : forall k : vec3 -> Q, k = vx \/ k = vy \/ k = vz -> (hp - hr) * k (vsub q p) == (hp - hq) * k (vsub r p)).
      { setoid_replace (hp - hr) with (- vdot (tri_normal F) (vsub r p)) by lra. setoid_replace (hp - hq) with (- vdot (tri_normal F) (vsub q p)) by lra.
        clear - E1 E2 E3. generalize dependent (vsub q p). generalize dependent (vsub r p). generalize (tri_normal F). intros n v u E1 E2 E3.
        destruct n as [ [n1 n2] n3], u as [ [u1 u2] u3], v as [ [v1 v2] v3]. unfold vcross, vdot in *. cbn [vx vy vz fst snd] in *.
        intros k [-> | [-> | ->] ]; cbn [vx vy vz fst snd].
        - setoid_replace (- (n1 * v1 + n2 * v2 + n3 * v3) * u1) with (- (n1 * u1 + n2 * u2 + n3 * u3) * v1 + n3 * (u3 * v1 - u1 * v3) - n2 * (u1 * v2 - u2 * v1)) by ring. rewrite E2, E3. ring.
        - setoid_replace (- (n1 * v1 + n2 * v2 + n3 * v3) * u2) with (- (n1 * u1 + n2 * u2 + n3 * u3) * v2 + n1 * (u1 * v2 - u2 * v1) - n3 * (u2 * v3 - u3 * v2)) by ring. rewrite E1, E3. ring.
        - setoid_replace (- (n1 * v1 + n2 * v2 + n3 * v3) * u3) with (- (n1 * u1 + n2 * u2 + n3 * u3) * v3 + n2 * (u2 * v3 - u3 * v2) - n1 * (u3 * v1 - u1 * v3)) by ring. rewrite E1, E2. ring. }
      assert (G' : forall k : vec3 -> Q, k = vx \/ k = vy \/ k = vz -> hp / (hp - hq) * k (vsub q p) == hp / (hp - hr) * k (vsub r p)).
      { intros k Hk. specialize (G k Hk). setoid_replace (hp / (hp - hq) * k (vsub q p)) with (hp / ((hp - hq) * (hp - hr)) * ((hp - hr) * k (vsub q p))) by (field; auto). rewrite G. field. auto. }
      unfold same, along. cbn [vx vy vz fst snd]. rewrite (G' vx), (G' vy), (G' vz) by auto. repeat split; reflexivity. }
    destruct (Qlt_le_dec (hgt F p) 0), (Qlt_le_dec (hgt F q) 0), (Qlt_le_dec (hgt F r) 0); try reflexivity; try (exfalso; lra); rewrite (memb_same F _ _ Sm); lia.
  - apply one_side_turn. destruct F as [ [a b] c]. left. rewrite !(flat_hgt T) by exact Hf. repeat split; lra.
Qed.

(** The sides of one triangle pass through the other as often as the other way round. *)
Lemma link : forall F T, ~ flat F -> (forall z, side_in F z -> side_in T z -> False) -> turn F T = turn T F.
Proof.
  intros F T NF Ap.
  assert (Dc : flat T \/ ~ flat T).
  { destruct T as [ [x y] o]. cbn [flat]. unfold degenerate, same. destruct (Qeq_dec (vx (normal x y o)) (vx (0, 0, 0))); [ | right; tauto ].
    destruct (Qeq_dec (vy (normal x y o)) (vy (0, 0, 0))); [ | right; tauto ]. destruct (Qeq_dec (vz (normal x y o)) (vz (0, 0, 0))); [ left | right ]; tauto. }
  destruct Dc as [Ft | NT]; [ destruct (flat_turn F T Ft) as (-> & ->); reflexivity | ].
  assert (Ap' : forall z, side_in T z -> side_in F z -> False) by (intros z A B; exact (Ap z B A)).
  destruct (slice F T NT) as [H | (lo & hi & [ A1 A2 A3 A4 A5 A6 A7 A8 A9 ])].
  { rewrite (one_side_turn F T H), (one_sided_turn F T NF NT Ap H). reflexivity. }
  destruct (slice T F NF) as [H | (lo' & hi' & [ B1 B2 B3 B4 B5 B6 B7 B8 B9 ])].
  { rewrite (one_side_turn T F H), (one_sided_turn T F NT NF Ap' H). reflexivity. }
  assert (L : forall z, level F T z == - level T F z).
  { intro z. unfold level. generalize (tri_normal F) as n, (tri_normal T) as n'. clear. intros. destruct n as [ [n1 n2] n3], n' as [ [k1 k2] k3], z as [ [z1 z2] z3]. unfold vdot, vcross. cbn [vx vy vz fst snd]. ring. }
  assert (Ne : forall z z', side_in T z -> hgt F z == 0 -> side_in F z' -> hgt T z' == 0 -> ~ level T F z == level T F z').
  { intros z z' S1 H1 S2 H2 E. assert (Sm : same z z').
    { apply (line_point (tri_normal T) (tri_normal F)); [ exact B5 | | | exact E ].
      - pose proof (hgt_vdot T z z'). pose proof (on_hgt _ _ (side_on _ _ S1)). lra.
      - pose proof (hgt_vdot F z z'). pose proof (on_hgt _ _ (side_on _ _ S2)). lra. }
    apply (Ap z'); [ exact S2 | ]. destruct T as [ [x y] o]. cbn [side_in] in *. destruct S1 as [S1 | [S1 | S1] ]; [ left | right; left | right; right ]; eapply in_segment_same; eassumption. }
  assert (N1 := Ne lo lo' A1 A3 B1 B3). assert (N2 := Ne lo hi' A1 A3 B2 B4). assert (N3 := Ne hi lo' A2 A4 B1 B3). assert (N4 := Ne hi hi' A2 A4 B2 B4).
  rewrite A7, B7.
  assert (MF : forall z, side_in T z -> hgt F z == 0 -> memb F z = if Qlt_le_dec (level T F z) (level T F lo') then 0%Z else if Qlt_le_dec (level T F hi') (level T F z) then 0%Z else 1%Z).
  { intros z S H. destruct (Qlt_le_dec (level T F z) (level T F lo')) as [K | K]; [ | destruct (Qlt_le_dec (level T F hi') (level T F z)) as [K' | K'] ].
    - apply memb_out; [ exact NF | ]. intro O. destruct (B8 z O (on_hgt _ _ (side_on _ _ S))). lra.
    - apply memb_out; [ exact NF | ]. intro O. destruct (B8 z O (on_hgt _ _ (side_on _ _ S))). lra.
    - apply memb_in; [ exact NF | ]. apply B9; auto. apply on_hgt, side_on, S. }
  assert (MT : forall z, side_in F z -> hgt T z == 0 -> memb T z = if Qlt_le_dec (level T F z) (level T F hi) then 0%Z else if Qlt_le_dec (level T F lo) (level T F z) then 0%Z else 1%Z).
  { intros z S H. destruct (Qlt_le_dec (level T F z) (level T F hi)) as [K | K]; [ | destruct (Qlt_le_dec (level T F lo) (level T F z)) as [K' | K'] ].
    - apply memb_out; [ exact NT | ]. intro O. destruct (A8 z O (on_hgt _ _ (side_on _ _ S))) as (X & Y). rewrite !L in X, Y. lra.
    - apply memb_out; [ exact NT | ]. intro O. destruct (A8 z O (on_hgt _ _ (side_on _ _ S))) as (X & Y). rewrite !L in X, Y. lra.
    - apply memb_in; [ exact NT | ]. apply A9; auto; rewrite ?L; try lra. apply on_hgt, side_on, S. }
  rewrite (MF lo A1 A3), (MF hi A2 A4), (MT lo' B1 B3), (MT hi' B2 B4). rewrite !L in A6.
  repeat match goal with |- context [Qlt_le_dec ?a ?b] => destruct (Qlt_le_dec a b) end; try reflexivity; exfalso; lra.
Qed.
