(** * Two faces at an edge *)
From Coq Require Import List Arith ZArith QArith Qminmax Lqa Lia.
From Verif Require Import Model_base Model_soup Model_geometry Model_side.
From Verif Require Import Spec_candidates Spec_side Spec_solid Proof_affine Proof_small Proof_walk Proof_link.
Import ListNotations.
Local Open Scope Q_scope.

(** ** Points of open triangles *)
Lemma open_vals : forall a b c x, ~ degenerate a b c -> in_open_triangle x a b c ->
  0 < aev (through (vcross (normal a b c) (vsub b a)) a) x /\ 0 < aev (through (vcross (normal a b c) (vsub c b)) b) x /\ 0 < aev (through (vcross (normal a b c) (vsub a c)) c) x.
Proof.
  intros a b c x Nd (u & v & w & U & V & W & S & X & Y & Z). assert (HN := nondeg_pos a b c Nd). destruct (tri_vals a b c) as (_ & _ & (A1 & A2 & A3) & (B1 & B2 & B3) & (C1 & C2 & C3)).
  set (N := vdot (normal a b c) (normal a b c)) in *. rewrite !(aev_bary _ x a b c u v w S X Y Z). rewrite A1, A2, A3, B1, B2, B3, C1, C2, C3.
  assert (forall k, 0 < k -> 0 < k * N) by (clear -HN; intros k Hk; apply Qmult_lt_0_compat; assumption). pose proof (H u U). pose proof (H v V). pose proof (H w W). repeat split; lra.
Qed.
Lemma vals_open : forall a b c x, ~ degenerate a b c -> aev (through (normal a b c) a) x == 0 ->
  0 < aev (through (vcross (normal a b c) (vsub b a)) a) x -> 0 < aev (through (vcross (normal a b c) (vsub c b)) b) x -> 0 < aev (through (vcross (normal a b c) (vsub a c)) c) x -> in_open_triangle x a b c.
Proof.
  intros a b c x Nd E1 Hw Hu Hv. assert (HN := nondeg_pos a b c Nd).
  destruct (tri_coords a b c x) as (X & Y & Z). pose proof (tri_sum a b c x) as Sm. cbv zeta in *. rewrite E1 in X, Y, Z.
  set (N := vdot (normal a b c) (normal a b c)) in *.
  set (u := aev (through (vcross (normal a b c) (vsub c b)) b) x) in *. set (v := aev (through (vcross (normal a b c) (vsub a c)) c) x) in *. set (w := aev (through (vcross (normal a b c) (vsub b a)) a) x) in *.
  assert (NN : ~ N == 0) by lra. exists (u / N), (v / N), (w / N).
  assert (Q1 : forall t, 0 < t -> 0 < t / N) by (intros t Ht; apply Qlt_shift_div_l; lra).
  assert (Q2 : forall r s t y d, N * d == u * r + v * s + w * t + 0 * y -> d == u / N * r + v / N * s + w / N * t).
  { intros r s t y d E. setoid_replace d with ((N * d) / N) by (field; exact NN). rewrite E. field. exact NN. }
  split; [ apply Q1, Hu | ]. split; [ apply Q1, Hv | ]. split; [ apply Q1, Hw | ].
  split; [ | split; [ eapply Q2, X | split; [ eapply Q2, Y | eapply Q2, Z ] ] ].
  setoid_replace (u / N + v / N + w / N) with ((w + u + v) / N) by (field; exact NN). rewrite Sm. field. exact NN.
Qed.
Lemma aev_segment : forall g z p q t, same z (along p t (vsub q p)) -> aev g z == (1 - t) * aev g p + t * aev g q.
Proof. intros [k c] z p q t (E1 & E2 & E3). unfold aev, vdot. cbn [ak ac]. rewrite E1, E2, E3. unfold along, vsub. cbn [vx vy vz fst snd]. ring. Qed.
Lemma hgt_aev : forall a b c z, hgt (a, b, c) z == aev (through (normal a b c) a) z.
Proof. intros a b c z. cbn [hgt]. unfold ht. generalize (normal a b c) as n. crush. ring. Qed.
Lemma hgt_segment : forall T z p q t, same z (along p t (vsub q p)) -> hgt T z == (1 - t) * hgt T p + t * hgt T q.
Proof. intros [ [a b] c] z p q t E. rewrite !hgt_aev. apply aev_segment, E. Qed.

Lemma open_not_side : forall T z, ~ flat T -> in_tri z T -> ~ side_in T z.
Proof.
  intros [ [a b] c] z Nd H S. cbn [in_tri flat side_in] in *. destruct (open_vals a b c z Nd H) as (A & B & C). destruct (tri_vals a b c) as (_ & _ & (A1 & A2 & A3) & (B1 & B2 & B3) & (C1 & C2 & C3)).
  destruct S as [ (t & _ & S) | [ (t & _ & S) | (t & _ & S) ] ].
  - rewrite (aev_segment _ _ _ _ _ S), A1, A2 in A. lra.
  - rewrite (aev_segment _ _ _ _ _ S), B2, B3 in B. lra.
  - rewrite (aev_segment _ _ _ _ _ S), C1, C3 in C. lra.
Qed.
Lemma in_hgt : forall T z, in_tri z T -> hgt T z == 0.
Proof. intros T z H. apply on_hgt, in_on_tri, H. Qed.
Lemma in_convex : forall T x y z, ~ flat T -> in_tri x T -> in_tri y T -> in_segment z x y -> in_tri z T.
Proof.
  intros [ [a b] c] x y z Nd X Y (t & Ht & E). assert (Hx := in_hgt _ _ X). assert (Hy := in_hgt _ _ Y). rewrite hgt_aev in Hx, Hy. cbn [in_tri flat] in *.
  destruct (open_vals a b c x Nd X) as (A & B & C). destruct (open_vals a b c y Nd Y) as (A' & B' & C').
  assert (K : forall p q, 0 < p -> 0 < q -> 0 < (1 - t) * p + t * q).
  { intros p q P Q. destruct (Qlt_le_dec 0 t) as [L | L].
    - assert (0 < t * q) by (apply Qmult_lt_0_compat; assumption). assert (0 <= (1 - t) * p) by (apply Qmult_le_0_compat; lra). lra.
    - assert (E0 : t == 0) by lra. rewrite E0. lra. }
  apply vals_open; [ exact Nd | rewrite (aev_segment _ _ _ _ _ E), Hx, Hy; ring | | | ]; rewrite (aev_segment _ _ _ _ _ E); apply K; assumption.
Qed.
Lemma side_same : forall T x y, same x y -> side_in T x -> side_in T y.
Proof. intros [ [a b] c] x y E [S | [S | S] ]; [ left | right; left | right; right ]; eapply in_segment_same; eassumption. Qed.

(** ** Crossings *)
Lemma cc_front : forall T p q, 0 <= hgt T p -> 0 <= hgt T q -> cc T p q = 0%Z.
Proof. intros T p q A B. unfold cc. destruct (Qlt_le_dec (hgt T p) 0); [ exfalso; lra | ]. destruct (Qlt_le_dec (hgt T q) 0); [ exfalso; lra | reflexivity ]. Qed.
Lemma cc_leave : forall T p q, ~ flat T -> on_tri p T -> hgt T q < 0 -> cc T p q = 1%Z.
Proof.
  intros T p q N O H. assert (E := on_hgt T p O). unfold cc. destruct (Qlt_le_dec (hgt T p) 0); [ exfalso; lra | ]. destruct (Qlt_le_dec (hgt T q) 0); [ | exfalso; lra ].
  apply memb_in; [ exact N | ]. apply (on_tri_same T p); [ | exact O ]. rewrite hcut_along.
  assert (Z0 : hgt T p / (hgt T p - hgt T q) == 0) by (rewrite E; field; lra). unfold same, along. cbn [vx vy vz fst snd]. rewrite Z0. repeat split; ring.
Qed.
Lemma cc_enter : forall T p q, ~ flat T -> hgt T p < 0 -> on_tri q T -> cc T p q = (-1)%Z.
Proof. intros T p q N H O. rewrite cc_anti, cc_leave by assumption. reflexivity. Qed.
Lemma cc_still : forall T p, cc T p p = 0%Z.
Proof. intros T p. pose proof (cc_anti T p p). lia. Qed.

(** ** Rotated corners *)
Lemma rot_in : forall T z, in_tri z (rot T) <-> in_tri z T.
Proof.
  intros [ [x y] o] z. cbn [in_tri rot]. split; intros (u & v & w & U & V & W & E & X & Y & Z).
  - exists w, u, v. repeat split; try assumption; try lra.
  - exists v, w, u. repeat split; try assumption; try lra.
Qed.
Lemma rot_side_iff : forall T z, side_in (rot T) z <-> side_in T z.
Proof. intros T z. split; [ apply rot_side | ]. intro H. rewrite <- (rot_three T) in H. apply rot_side in H. apply rot_side in H. exact H. Qed.
Lemma rot_cc : forall T p q, ~ flat T -> cc (rot T) p q = cc T p q.
Proof.
  intros T p q N. assert (N' : ~ flat (rot T)) by (intro H; apply N, rot_flat, H). unfold cc.
  assert (M : forall z, memb (rot T) z = memb T z).
  { intro z. destruct (on_tri_dec T z N) as [O | O]; [ rewrite (memb_in T z N O); apply (memb_in _ _ N'), rot_on, O | rewrite (memb_out T z N O); apply (memb_out _ _ N'); intro O'; apply O, rot_on, O' ]. }
  assert (C : same (hcut (rot T) p q) (hcut T p q)).
  { rewrite !hcut_along. unfold same, along. cbn [vx vy vz fst snd]. rewrite !rot_hgt. repeat split; reflexivity. }
  assert (Hp := rot_hgt T p). assert (Hq := rot_hgt T q).
  destruct (Qlt_le_dec (hgt (rot T) p) 0), (Qlt_le_dec (hgt (rot T) q) 0), (Qlt_le_dec (hgt T p) 0), (Qlt_le_dec (hgt T q) 0); try (exfalso; lra); try reflexivity; rewrite M, (memb_same T _ _ C); reflexivity.
Qed.

(** ** The way from one face to the other *)
Definition mid (a b : vec3) : vec3 := along a (1 # 2) (vsub b a).
Lemma near_seg : forall cs m w w', ~ sat cs m -> eventually (fun e => forall z, in_segment z (along m e w) (along m e w') -> ~ sat cs z).
Proof.
  intros cs m w w' H. destruct (sat_not cs m H) as (g & Jg & Hg).
  assert (A := ev_neg (aev g m) (vdot (ak g) w) Hg). assert (B := ev_neg (aev g m) (vdot (ak g) w') Hg).
  apply (ev_mono (fun t => aev g m + t * vdot (ak g) w < 0 /\ aev g m + t * vdot (ak g) w' < 0)); [ | apply ev_and; assumption ].
  intros e _ (E1 & E2) z (t & Ht & E) S. unfold sat in S. rewrite Forall_forall in S. specialize (S g Jg). rewrite (aev_segment _ _ _ _ _ E), !aev_along in S.
  set (k := aev g m + e * vdot (ak g) w) in *. set (l := aev g m + e * vdot (ak g) w') in *. clearbody k l. clear - Ht E1 E2 S. nra.
Qed.

Lemma ev_one : eventually (fun e => e < 1).
Proof. apply (ev_mono (fun t => t < 1 /\ True)); [ tauto | ]. apply ev_below; [ lra | apply ev_true; auto ]. Qed.

Lemma cross_zero : forall n k, same (vcross n k) zero3 -> vdot n k == 0 -> 0 < vdot n n -> 0 < vdot k k -> False.
Proof.
  intros n k (E1 & E2 & E3) E A B. assert (L : vdot n n * vdot k k == vdot n k * vdot n k + vdot (vcross n k) (vcross n k)) by (clear; crush; ring).
  assert (Z0 : vdot (vcross n k) (vcross n k) == 0) by (unfold vdot; rewrite E1, E2, E3; reflexivity). rewrite E, Z0 in L. assert (0 < vdot n n * vdot k k) by (apply Qmult_lt_0_compat; assumption). lra.
Qed.

Lemma hinge : forall a b c d, let T := (a, b, c) in let U := (b, a, d) in let m := mid a b in ~ flat T -> ~ flat U ->
  (forall z, in_tri z T -> ~ on_tri z U) -> (forall z, in_tri z U -> ~ on_tri z T) ->
  exists w, eventually (fun e => let q := along m e (vsub c m) in let y := along m e w in let q' := along m e (vsub d m) in
    in_tri q T /\ in_tri q' U /\ (forall z, in_segment z q y \/ in_segment z y q' -> ~ side_in T z /\ ~ side_in U z) /\
    (cc T q y + cc U q y = 0)%Z /\ (cc T y q' + cc U y q' = 0)%Z).
Proof.
  intros a b c d T U m NT NU ApT ApU.
  assert (PT : 0 < vdot (tri_normal T) (tri_normal T)) by (apply nondeg_pos, NT). assert (PU : 0 < vdot (tri_normal U) (tri_normal U)) by (apply nondeg_pos, NU).
  set (nT := tri_normal T) in *. set (nU := tri_normal U) in *.
  assert (Tm : hgt T m == 0) by (unfold T, m, mid; cbn [hgt]; unfold ht; crush; ring). assert (Um : hgt U m == 0) by (unfold U, m, mid; cbn [hgt]; unfold ht; crush; ring).
  assert (Tc : vdot nT (vsub c m) == 0) by (unfold nT, T, m, mid; cbn [tri_normal]; crush; ring). assert (Ud : vdot nU (vsub d m) == 0) by (unfold nU, U, m, mid; cbn [tri_normal]; crush; ring).
  set (dT := vdot nT (vsub d m)). assert (D : vdot nU (vsub c m) == dT) by (unfold dT, nT, nU, T, U, m, mid; cbn [tri_normal]; crush; ring).
  assert (Open : forall e, 0 < e -> e < 1 -> in_tri (along m e (vsub c m)) T /\ in_tri (along m e (vsub d m)) U).
  { intros e E0 E1. unfold T, U, m, mid. cbn [in_tri]. split; exists ((1 # 2) * (1 - e)), ((1 # 2) * (1 - e)), e; (repeat split; [ lra | lra | lra | lra | | | ]; cbn [vx vy vz fst snd along vsub]; unfold along, vsub; cbn [vx vy vz fst snd]; ring). }
  assert (Hq : forall e w, hgt T (along m e w) == e * vdot nT w /\ hgt U (along m e w) == e * vdot nU w).
  { intros e w. rewrite !hgt_along, Tm, Um. fold nT nU. split; ring. }
  assert (Start : forall x y z t V, same z (along x t (vsub y x)) -> t == 0 -> in_tri x V -> in_tri z V).
  { intros x y z t V (E1 & E2 & E3) Z0 I. apply (in_tri_same V x); [ | exact I ]. unfold same, along in *. cbn [vx vy vz fst snd] in *. rewrite E1, E2, E3, Z0. repeat split; ring. }
  assert (End : forall x y z t V, same z (along x t (vsub y x)) -> t == 1 -> in_tri y V -> in_tri z V).
  { intros x y z t V (E1 & E2 & E3) Z0 I. apply (in_tri_same V y); [ | exact I ]. unfold same, along, vsub in *. cbn [vx vy vz fst snd] in *. rewrite E1, E2, E3, Z0. repeat split; ring. }
  destruct (Qeq_dec dT 0) as [Z0 | Nz].
  - assert (Pos : 0 < vdot nU nT).
    { destruct (Qlt_le_dec 0 (vdot nU nT)) as [L | L]; [ exact L | exfalso ]. destruct (Qeq_dec (vdot nU nT) 0) as [E | E].
      - assert (Td : hgt T d == 0) by (pose proof (hgt_diff T m d); fold nT in H; fold dT in H; lra).
        destruct (hgt_corners a b c) as (Ha & Hb & _). apply (cross_zero nU nT (in_plane_parallel T b a d Hb Ha Td) E PU PT).
      - assert (L' : vdot nU nT < 0) by lra.
        (* then the faces overlap *)
        destruct (tri_vals a b c) as (_ & _ & (A1 & A2 & A3) & (B1 & B2 & B3) & (C1 & C2 & C3)). change (normal a b c) with nT in *. set (N := vdot nT nT) in *.
        set (g1 := through (vcross nT (vsub b a)) a) in *. set (g2 := through (vcross nT (vsub c b)) b) in *. set (g3 := through (vcross nT (vsub a c)) c) in *.
        assert (M : forall g, aev g m == (1 # 2) * aev g a + (1 # 2) * aev g b) by (intro g; rewrite (aev_segment g m a b (1 # 2)) by apply same_refl; ring).
        assert (G1 : vdot (ak g1) (vsub d m) == - vdot nU nT) by (unfold g1, nU, nT, T, U, m, mid; cbn [tri_normal]; crush; ring).
        assert (P2 := ev_pos (aev g2 m) (vdot (ak g2) (vsub d m)) ltac:(rewrite M, B1, B2; lra)). assert (P3 := ev_pos (aev g3 m) (vdot (ak g3) (vsub d m)) ltac:(rewrite M, C1, C2; lra)).
        destruct (ev_witness _ (ev_and _ _ ev_one (ev_and _ _ P2 P3))) as (e & E0 & E1 & E2 & E3).
        destruct (Open e E0 E1) as (_ & Oq). apply (ApU _ Oq), in_on_tri. cbn [in_tri]. apply vals_open; [ exact NT | | | | ].
        + rewrite <- hgt_aev. change (hgt (a, b, c)) with (hgt T). rewrite (proj1 (Hq e _)). fold dT. rewrite Z0. ring.
        + change (0 < aev g1 (along m e (vsub d m))). rewrite aev_along, M, A1, A2, G1. assert (0 < e * - vdot nU nT) by (apply Qmult_lt_0_compat; lra). lra.
        + change (0 < aev g2 (along m e (vsub d m))). rewrite aev_along. exact E2.
        + change (0 < aev g3 (along m e (vsub d m))). rewrite aev_along. exact E3. }
    exists nT. apply (ev_mono (fun e => e < 1)); [ | exact ev_one ]. intros e E0 E1. cbv zeta. destruct (Open e E0 E1) as (Oq & Oq').
    set (q := along m e (vsub c m)) in *. set (q' := along m e (vsub d m)) in *. set (y := along m e nT).
    assert (Tq : hgt T q == 0) by (apply in_hgt, Oq). assert (Uq : hgt U q == 0) by (unfold q; rewrite (proj2 (Hq e _)), D, Z0; ring).
    assert (Uq' : hgt U q' == 0) by (apply in_hgt, Oq'). assert (Tq' : hgt T q' == 0) by (unfold q'; rewrite (proj1 (Hq e _)); fold dT; rewrite Z0; ring).
    assert (Ty : 0 < hgt T y) by (unfold y; rewrite (proj1 (Hq e _)); apply Qmult_lt_0_compat; assumption). assert (Uy : 0 < hgt U y) by (unfold y; rewrite (proj2 (Hq e _)); apply Qmult_lt_0_compat; assumption).
    split; [ exact Oq | ]. split; [ exact Oq' | ]. split; [ | split ].
    + intros z [ (t & Ht & E) | (t & Ht & E) ].
      * assert (K : forall V, hgt V q == 0 -> 0 < hgt V y -> on_tri z V -> t == 0).
        { intros V V0 V1 O. apply on_hgt in O. rewrite (hgt_segment V z q y t E), V0 in O. assert (O' : t * hgt V y == 0) by lra. apply Qmult_integral in O'. destruct O' as [O' | O']; [ exact O' | exfalso; lra ]. }
        split; intro S; assert (O := side_on _ _ S).
        -- assert (I : in_tri z T) by (eapply Start; [ exact E | exact (K T Tq Ty O) | exact Oq ]). exact (open_not_side T z NT I S).
        -- assert (I : in_tri z T) by (eapply Start; [ exact E | exact (K U Uq Uy O) | exact Oq ]). exact (ApT z I O).
      * assert (K : forall V, hgt V q' == 0 -> 0 < hgt V y -> on_tri z V -> t == 1).
        { intros V V0 V1 O. apply on_hgt in O. rewrite (hgt_segment V z y q' t E), V0 in O. assert (O' : (1 - t) * hgt V y == 0) by lra. apply Qmult_integral in O'. destruct O' as [O' | O']; [ lra | exfalso; lra ]. }
        split; intro S; assert (O := side_on _ _ S).
        -- assert (I : in_tri z U) by (eapply End; [ exact E | exact (K T Tq' Ty O) | exact Oq' ]). exact (ApU z I O).
        -- assert (I : in_tri z U) by (eapply End; [ exact E | exact (K U Uq' Uy O) | exact Oq' ]). exact (open_not_side U z NU I S).
    + rewrite !cc_front by lra. reflexivity.
    + rewrite !cc_front by lra. reflexivity.
  - exists (vsub d m). apply (ev_mono (fun e => e < 1)); [ | exact ev_one ]. intros e E0 E1. cbv zeta. destruct (Open e E0 E1) as (Oq & Oq').
    set (q := along m e (vsub c m)) in *. set (q' := along m e (vsub d m)) in *.
    assert (Tq : hgt T q == 0) by (apply in_hgt, Oq). assert (Uq : hgt U q == e * dT) by (unfold q; rewrite (proj2 (Hq e _)), D; reflexivity).
    assert (Uq' : hgt U q' == 0) by (apply in_hgt, Oq'). assert (Tq' : hgt T q' == e * dT) by (unfold q'; rewrite (proj1 (Hq e _)); reflexivity).
    assert (Ne : ~ e * dT == 0) by (intro E; apply Qmult_integral in E; destruct E as [E | E]; [ lra | contradiction ]).
    split; [ exact Oq | ]. split; [ exact Oq' | ]. split; [ | split ].
    + intros z [ (t & Ht & E) | (t & Ht & E) ].
      * split; intro S; assert (O := on_hgt _ _ (side_on _ _ S)).
        -- rewrite (hgt_segment T z q q' t E), Tq, Tq' in O. assert (O' : t * (e * dT) == 0) by lra. apply Qmult_integral in O'. destruct O' as [O' | O']; [ | contradiction ].
           apply (open_not_side T z NT); [ eapply Start; [ exact E | exact O' | exact Oq ] | exact S ].
        -- rewrite (hgt_segment U z q q' t E), Uq, Uq' in O. assert (O' : (1 - t) * (e * dT) == 0) by lra. apply Qmult_integral in O'. destruct O' as [O' | O']; [ | contradiction ].
           apply (open_not_side U z NU); [ eapply End; [ exact E | lra | exact Oq' ] | exact S ].
      * assert (I : in_tri z U) by (apply (in_convex U q' q' z NU Oq' Oq'); exists t; split; assumption).
        split; intro S; [ exact (ApU z I (side_on _ _ S)) | exact (open_not_side U z NU I S) ].
    + destruct (Qlt_le_dec (e * dT) 0) as [L | L].
      * rewrite (cc_leave T q q' NT (in_on_tri _ _ Oq) ltac:(lra)), (cc_enter U q q' NU ltac:(lra) (in_on_tri _ _ Oq')). reflexivity.
      * rewrite !cc_front by lra. reflexivity.
    + rewrite !cc_still. reflexivity.
Qed.
