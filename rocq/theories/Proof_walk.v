(** * Walking through the arrangement of two solids *)
From Coq Require Import List Arith QArith Qabs Qminmax Lqa Lia Bool.
From Verif Require Import Model_base Model_soup Model_geometry Model_boolean Model_side.
From Verif Require Import Spec_candidates Spec_side Spec_solid Spec_boolean Proof_affine Proof_clip Proof_small.
Import ListNotations.
Local Open Scope Q_scope.

(** ** Sets *)
Lemma set_of_member : forall op (A B : vec3 -> Prop) x (a b : bool),
  (A x <-> a = true) -> (B x <-> b = true) -> (set_of op A B x <-> member op (a, b) = true).
Proof.
  intros op A B x a b Ha Hb.
  assert (Ha' : if a then A x else ~ A x) by (destruct a; [ apply Ha; reflexivity | intro K; apply Ha in K; discriminate ]).
  assert (Hb' : if b then B x else ~ B x) by (destruct b; [ apply Hb; reflexivity | intro K; apply Hb in K; discriminate ]).
  clear Ha Hb. destruct op, a, b; cbn; (split; [ intro K; try reflexivity; exfalso; tauto | intro K; try discriminate K; tauto ]).
Qed.

(** ** Triangles *)
Lemma on_tri_iff : forall T x, ~ flat T -> (on_tri x T <-> sat (let '(a, b, c) := T in tri_cons a b c) x).
Proof. intros [ [a b] c] x H. apply tri_iff. exact H. Qed.

Lemma on_tri_dec : forall T x, ~ flat T -> on_tri x T \/ ~ on_tri x T.
Proof.
  intros T x H. destruct (sat_dec (let '(a, b, c) := T in tri_cons a b c) x) as [S | S];
    [ left | right ]; rewrite (on_tri_iff T x H); exact S.
Qed.

Lemma on_tri_same : forall T x y, same x y -> on_tri x T -> on_tri y T.
Proof. intros [ [a b] c] x y H. apply in_triangle_same. exact H. Qed.

Lemma in_tri_same : forall T x y, same x y -> in_tri x T -> in_tri y T.
Proof.
  intros [ [a b] c] x y (E1 & E2 & E3) (u & v & w & Hu & Hv & Hw & Hs & Hx & Hy & Hz).
  exists u, v, w. repeat split; auto; [ rewrite <- E1 | rewrite <- E2 | rewrite <- E3 ]; assumption.
Qed.

Lemma in_on_tri : forall x T, in_tri x T -> on_tri x T.
Proof. intros x [ [a b] c]. apply in_open_in. Qed.

Definition flip_tri (T : tri3) : tri3 := let '(a, b, c) := T in (a, c, b).

Lemma on_flip : forall x T, on_tri x (flip_tri T) <-> on_tri x T.
Proof.
  intros x [ [a b] c]. cbn. split; intros (u & v & w & Hu & Hv & Hw & Hs & Hx & Hy & Hz); exists u, w, v; repeat split; auto; lra.
Qed.
Lemma in_flip : forall x T, in_tri x (flip_tri T) <-> in_tri x T.
Proof.
  intros x [ [a b] c]. cbn. split; intros (u & v & w & Hu & Hv & Hw & Hs & Hx & Hy & Hz); exists u, w, v; repeat split; auto; lra.
Qed.
Lemma normal_flip : forall T, same (tri_normal (flip_tri T)) (scaled (-1) (tri_normal T)).
Proof. intros [ [a b] c]. unfold flip_tri, tri_normal, scaled. crush. unfold same. cbn [vx vy vz fst snd]. repeat split; ring. Qed.
Lemma flat_flip : forall T, ~ flat T -> ~ flat (flip_tri T).
Proof.
  intros [ [a b] c] H K. apply H. unfold flat, degenerate, flip_tri in *. clear H. unfold same in *. crush.
  destruct K as (K1 & K2 & K3). repeat split; lra.
Qed.

Lemma vdot_scaled : forall k n v, vdot (scaled k n) v == k * vdot n v.
Proof. unfold scaled. crush. ring. Qed.
Lemma vdot_same_l : forall a b v, same a b -> vdot a v == vdot b v.
Proof. intros a b v (H1 & H2 & H3). unfold vdot. rewrite H1, H2, H3. reflexivity. Qed.

Lemma aligned_dot : forall T U v, aligned T U -> exists k, 0 < k /\ vdot (tri_normal T) v == k * vdot (tri_normal U) v.
Proof. intros T U v (k & Hk & E). exists k. split; [ exact Hk | ]. rewrite (vdot_same_l _ _ v E). apply vdot_scaled. Qed.
Lemma against_dot : forall T U v, against T U -> exists k, 0 < k /\ vdot (tri_normal T) v == - (k * vdot (tri_normal U) v).
Proof.
  intros T U v (k & Hk & E). exists (- k). split; [ lra | ]. rewrite (vdot_same_l _ _ v E), vdot_scaled. ring.
Qed.

(** A point of a triangle that is on none of its sides. *)
Definition sides (T : tri3) : list (vec3 * vec3) := let '(a, b, c) := T in [(a, b); (b, c); (c, a)].

Lemma off_sides : forall T x, on_tri x T -> (forall s, In s (sides T) -> ~ in_segment x (fst s) (snd s)) -> in_tri x T.
Proof.
  intros [ [a b] c] x (u & v & w & Hu & Hv & Hw & Hs & Hx & Hy & Hz) H. cbn [sides] in H.
  assert (Pu : 0 < u).
  { destruct (Qlt_le_dec 0 u); auto. exfalso. assert (E : u == 0) by lra. assert (Ev : v == 1 - w) by lra.
    apply (H (b, c)); [ right; left; reflexivity | ]. exists w. split; [ lra | ]. unfold same, along, vsub. cbn [fst snd vx vy vz] in *.
    rewrite Hx, Hy, Hz, E, Ev. repeat split; ring. }
  assert (Pv : 0 < v).
  { destruct (Qlt_le_dec 0 v); auto. exfalso. assert (E : v == 0) by lra. assert (Ev : w == 1 - u) by lra.
    apply (H (c, a)); [ right; right; left; reflexivity | ]. exists u. split; [ lra | ]. unfold same, along, vsub. cbn [fst snd vx vy vz] in *.
    rewrite Hx, Hy, Hz, E, Ev. repeat split; ring. }
  assert (Pw : 0 < w).
  { destruct (Qlt_le_dec 0 w); auto. exfalso. assert (E : w == 0) by lra. assert (Ev : u == 1 - v) by lra.
    apply (H (a, b)); [ left; reflexivity | ]. exists v. split; [ lra | ]. unfold same, along, vsub. cbn [fst snd vx vy vz] in *.
    rewrite Hx, Hy, Hz, E, Ev. repeat split; ring. }
  exists u, v, w. repeat split; auto.
Qed.

(** ** Segments *)
Lemma in_segment_same : forall x y a b, same x y -> in_segment x a b -> in_segment y a b.
Proof. intros x y a b H (t & Ht & E). exists t. split; auto. eapply same_trans; [ apply same_sym; exact H | exact E ]. Qed.

Lemma in_segment_start : forall a b, in_segment a a b.
Proof. intros a b. exists 0. split; [ lra | ]. unfold same, along. cbn [vx vy vz fst snd]. repeat split; ring. Qed.
Lemma in_segment_end : forall a b, in_segment b a b.
Proof.
  intros a b. exists 1. split; [ lra | ]. unfold same, along, vsub. cbn [vx vy vz fst snd]. repeat split; ring.
Qed.
Lemma in_segment_sym : forall x a b, in_segment x a b -> in_segment x b a.
Proof.
  intros x a b (t & (T0 & T1) & (E1 & E2 & E3)). exists (1 - t). split; [ lra | ].
  unfold same, along, vsub in *. cbn [vx vy vz fst snd] in *. rewrite E1, E2, E3. repeat split; ring.
Qed.

(** The points of a line. *)
Lemma sub_segment : forall x d s u z, s <= u -> in_segment z (along x s d) (along x u d) ->
  exists t, s <= t /\ t <= u /\ same z (along x t d).
Proof.
  intros x d s u z Hsu (t & (T0 & T1) & E). exists (s + t * (u - s)).
  assert (0 <= t * (u - s)) by (apply Qmult_le_0_compat; lra).
  assert (t * (u - s) <= u - s) by nra. split; [ lra | ]. split; [ lra | ].
  eapply same_trans; [ exact E | ]. unfold same, along, vsub. cbn [vx vy vz fst snd]. repeat split; ring.
Qed.

(** Two segments with a common point, one of them moved. *)
Lemma same_cross : forall a b c, same a b -> same (vcross a c) (vcross b c).
Proof.
  intros a b c (H1 & H2 & H3). unfold same, vcross. cbn [vx vy vz fst snd]. rewrite H1, H2, H3. repeat split; reflexivity.
Qed.

Lemma ev_edge : forall x y p q w, let d := vsub y x in let n := vcross d (vsub q p) in
  (same n zero3 \/ ~ vdot n w == 0) -> ~ same (vcross w d) zero3 ->
  eventually (fun e => forall z, in_segment z (along x e w) (along y e w) -> ~ in_segment z p q).
Proof.
  intros x y p q w d n Hn Hw.
  (* at a common point: x + t d + e w = p + s (q - p) *)
  assert (C : forall e z, in_segment z (along x e w) (along y e w) -> in_segment z p q ->
    exists t s, same (along (along (vsub x p) e w) t d) (scaled s (vsub q p))).
  { intros e z (t & _ & (E1 & E2 & E3)) (s & _ & (F1 & F2 & F3)). exists t, s.
    rewrite F1 in E1. rewrite F2 in E2. rewrite F3 in E3.
    unfold d, same, along, vsub, scaled in *. cbn [vx vy vz fst snd] in *. clear - E1 E2 E3.
    repeat split; lra. }
  destruct Hn as [Hn | Hn].
  - (* parallel *)
    assert (K : forall e t s, same (along (along (vsub x p) e w) t d) (scaled s (vsub q p)) ->
      same (along (vcross (vsub x p) d) e (vcross w d)) zero3).
    { intros e t s (E1 & E2 & E3). destruct Hn as (N1 & N2 & N3).
      unfold n, vcross, zero3 in N1, N2, N3. cbn [vx vy vz fst snd] in N1, N2, N3.
      unfold along, scaled, vcross, zero3, same in *. cbn [vx vy vz fst snd] in *.
      clear - N1 N2 N3 E1 E2 E3.
      set (a1 := vx (vsub x p)) in *. set (a2 := vy (vsub x p)) in *. set (a3 := vz (vsub x p)) in *.
      set (k1 := vx (vsub q p)) in *. set (k2 := vy (vsub q p)) in *. set (k3 := vz (vsub q p)) in *.
      set (d1 := vx d) in *. set (d2 := vy d) in *. set (d3 := vz d) in *.
      set (w1 := vx w) in *. set (w2 := vy w) in *. set (w3 := vz w) in *. clearbody a1 a2 a3 k1 k2 k3 d1 d2 d3 w1 w2 w3.
      assert (X1 : a1 + e * w1 == s * k1 - t * d1) by lra.
      assert (X2 : a2 + e * w2 == s * k2 - t * d2) by lra.
      assert (X3 : a3 + e * w3 == s * k3 - t * d3) by lra.
      repeat split.
      - setoid_replace (a2 * d3 - a3 * d2 + e * (w2 * d3 - w3 * d2)) with ((a2 + e * w2) * d3 - (a3 + e * w3) * d2) by ring.
        rewrite X2, X3. setoid_replace ((s * k2 - t * d2) * d3 - (s * k3 - t * d3) * d2) with (- s * (d2 * k3 - d3 * k2)) by ring.
        rewrite N1. ring.
      - setoid_replace (a3 * d1 - a1 * d3 + e * (w3 * d1 - w1 * d3)) with ((a3 + e * w3) * d1 - (a1 + e * w1) * d3) by ring.
        rewrite X1, X3. setoid_replace ((s * k3 - t * d3) * d1 - (s * k1 - t * d1) * d3) with (- s * (d3 * k1 - d1 * k3)) by ring.
        rewrite N2. ring.
      - setoid_replace (a1 * d2 - a2 * d1 + e * (w1 * d2 - w2 * d1)) with ((a1 + e * w1) * d2 - (a2 + e * w2) * d1) by ring.
        rewrite X1, X2. setoid_replace ((s * k1 - t * d1) * d2 - (s * k2 - t * d2) * d1) with (- s * (d1 * k2 - d2 * k1)) by ring.
        rewrite N3. ring. }
    set (c := vcross (vsub x p) d) in *. set (k := vcross w d) in *.
    assert (EV : eventually (fun e => ~ same (along c e k) zero3)).
    { destruct (Qeq_dec (vx k) 0) as [Z1 | Z1].
      - destruct (Qeq_dec (vy k) 0) as [Z2 | Z2].
        + assert (Z3 : ~ vz k == 0).
          { intro Z3. apply Hw. unfold same, zero3. cbn [vx vy vz fst snd]. auto. }
          generalize (ev_nonzero (vz c) (vz k) (or_introl Z3)). apply ev_mono. intros e _ H (_ & _ & H'). apply H. exact H'.
        + generalize (ev_nonzero (vy c) (vy k) (or_introl Z2)). apply ev_mono. intros e _ H (_ & H' & _). apply H. exact H'.
      - generalize (ev_nonzero (vx c) (vx k) (or_introl Z1)). apply ev_mono. intros e _ H (H' & _). apply H. exact H'. }
    revert EV. apply ev_mono. intros e _ H z Hz Hz'. destruct (C e z Hz Hz') as (t & s & E). apply H. exact (K e t s E).
  - (* the planes are crossed once *)
    generalize (ev_nonzero (vdot n (vsub x p)) (vdot n w) (or_introl Hn)). apply ev_mono.
    intros e _ H z Hz Hz'. destruct (C e z Hz Hz') as (t & s & E). apply H.
    apply (vdot_same n) in E. rewrite !vdot_add_r in E.
    assert (N1 : vdot n d == 0) by (unfold n; generalize (vsub q p); generalize d; clear; crush; ring).
    assert (N2 : vdot n (scaled s (vsub q p)) == 0).
    { unfold n, scaled. generalize (vsub q p). generalize d. clear. crush. ring. }
    rewrite N1, N2 in E. lra.
Qed.

(** ** How a segment meets a triangle *)

(** Affine functions that are positive at [t] and not all positive at 1: the first that
    becomes zero. *)
Lemma first_exit : forall (fs : list (Q * Q)) t, t < 1 -> (forall f, In f fs -> 0 < fst f + t * snd f) ->
  (exists f, In f fs /\ fst f + 1 * snd f < 0) ->
  exists s, t < s /\ s < 1 /\ (forall f, In f fs -> 0 <= fst f + s * snd f) /\ exists f, In f fs /\ fst f + s * snd f == 0.
Proof.
  intros fs t Ht. 
  assert (Z : forall f : Q * Q, 0 < fst f + t * snd f -> fst f + 1 * snd f < 0 ->
    exists s, t < s /\ s < 1 /\ fst f + s * snd f == 0 /\ forall r, r <= s -> 0 <= fst f + r * snd f).
  { intros [a b] Hp Hn. cbn [fst snd] in *. assert (Hb : b < 0) by nra. exists (- a / b).
    assert (E : a + - a / b * b == 0) by (field; lra).
    assert (N : forall r, r <= - a / b -> 0 <= a + r * b) by (intros r Hr; apply upper_ok; assumption).
    split; [ | split ].
    - destruct (Qlt_le_dec t (- a / b)); auto. exfalso. assert ((t - (- a / b)) * b <= 0) by nra. lra.
    - destruct (Qlt_le_dec (- a / b) 1); auto. exfalso. specialize (N 1 q). lra.
    - split; [ exact E | exact N ]. }
  assert (G : (forall f, In f fs -> 0 < fst f + t * snd f) ->
     (forall f, In f fs -> 0 <= fst f + 1 * snd f) \/
     exists s, t < s /\ s < 1 /\ (forall f, In f fs -> 0 <= fst f + s * snd f) /\ exists f, In f fs /\ fst f + s * snd f == 0).
  { induction fs as [ | f fs IH]; intro Hp; [ left; intros ? [] | ].
    destruct IH as [IH | (s & S0 & S1 & Sa & g & Hg & Eg)]; [ intros; apply Hp; right; assumption | | ].
    - destruct (Qlt_le_dec (fst f + 1 * snd f) 0) as [L | L].
      + destruct (Z f (Hp f (or_introl eq_refl)) L) as (s & S0 & S1 & E & N).
        right. exists s. split; [ exact S0 | ]. split; [ exact S1 | ]. split; [ | exists f; split; [ left; reflexivity | exact E ] ].
        intros g [<- | Hg]; [ apply N; lra | ].
        assert (P := Hp g (or_intror Hg)). assert (P1 := IH g Hg).
        destruct (Qlt_le_dec (snd g) 0); nra.
      + left. intros g [<- | Hg]; auto.
    - destruct (Qlt_le_dec (fst f + s * snd f) 0) as [L | L].
      + assert (P := Hp f (or_introl eq_refl)).
        assert (L1 : fst f + 1 * snd f < 0) by nra.
        destruct (Z f P L1) as (s' & S0' & S1' & E & N).
        assert (s' < s) by (destruct (Qlt_le_dec s' s); auto; exfalso; specialize (N s q); lra).
        right. exists s'. split; [ exact S0' | ]. split; [ exact S1' | ]. split; [ | exists f; split; [ left; reflexivity | exact E ] ].
        intros h [<- | Hh]; [ apply N; lra | ].
        assert (Ph := Hp h (or_intror Hh)). assert (Ps := Sa h Hh).
        destruct (Qlt_le_dec (snd h) 0); nra.
      + right. exists s. split; [ exact S0 | ]. split; [ exact S1 | ].
        split; [ intros h [<- | Hh]; auto | exists g; split; [ right; exact Hg | exact Eg ] ]. }
  intros Hp (f & Hf & Hn). destruct (G Hp) as [G' | G']; [ exfalso; specialize (G' f Hf); lra | exact G' ].
Qed.

Lemma on_line : forall x y t, same (along x t (vsub y x)) (along x t (vsub y x)).
Proof. intros. apply same_refl. Qed.

(** A segment that avoids the sides of a triangle, and ends off it, crosses it once or
    not at all. *)
Lemma crossing : forall T x y, ~ flat T -> ~ on_tri y T ->
  (forall s z, In s (sides T) -> in_segment z x y -> ~ in_segment z (fst s) (snd s)) ->
  (forall z, in_segment z x y -> ~ on_tri z T) \/
  exists t, 0 <= t /\ t <= 1 /\ in_tri (along x t (vsub y x)) T /\ ~ vdot (tri_normal T) (vsub y x) == 0 /\
    forall s, on_tri (along x s (vsub y x)) T -> s == t.
Proof.
  intros T x y HT Hy Hs. set (d := vsub y x). destruct T as [ [a b] c].
  destruct (helly (map (fun g => (aev g x, vdot (ak g) d)) (tri_cons a b c))) as [ (t & T0 & T1 & Ht) | Hex].
  - right. exists t.
    assert (Hsat : sat (tri_cons a b c) (along x t d)).
    { unfold sat. apply Forall_forall. intros g Hg. rewrite aev_along.
      exact (Ht (aev g x, vdot (ak g) d) (in_map (fun g => (aev g x, vdot (ak g) d)) _ g Hg)). }
    assert (Hon : on_tri (along x t d) (a, b, c)) by (apply on_tri_iff; assumption).
    assert (Hsg : forall s, 0 <= s -> s <= 1 -> in_segment (along x s d) x y).
    { intros s S0 S1. exists s. split; [ lra | apply same_refl ]. }
    assert (Hin : in_tri (along x t d) (a, b, c)).
    { apply off_sides; [ exact Hon | ]. intros s Hin. apply Hs; [ exact Hin | apply Hsg; assumption ]. }
    assert (Hnd : ~ vdot (tri_normal (a, b, c)) d == 0).
    { intro E. cbn [tri_normal] in E.
      assert (t < 1).
      { destruct (Qlt_le_dec t 1); auto. exfalso. apply Hy. apply (on_tri_same _ (along x t d)); [ | exact Hon ].
        assert (Et : t == 1) by lra. unfold d, same, along, vsub. cbn [vx vy vz fst snd]. rewrite Et. repeat split; ring. }
      (* the three inequalities of the sides, along the line *)
      set (n := normal a b c) in *.
      set (g1 := through (vcross n (vsub b a)) a). set (g2 := through (vcross n (vsub c b)) b). set (g3 := through (vcross n (vsub a c)) c).
      assert (HN := nondeg_pos a b c HT). fold n in HN.
      assert (Pos : 0 < aev g1 (along x t d) /\ 0 < aev g2 (along x t d) /\ 0 < aev g3 (along x t d)).
      { destruct (tri_vals a b c) as (_ & _ & V1 & V2 & V3). cbv zeta in V1, V2, V3. fold n in V1, V2, V3. fold g1 g2 g3 in V1, V2, V3.
        destruct Hin as (u & v & w & Hu & Hv & Hw & Hsum & Hx & Hyy & Hz).
        rewrite !(aev_bary _ (along x t d) a b c u v w Hsum Hx Hyy Hz).
        destruct V1 as (-> & -> & ->). destruct V2 as (-> & -> & ->). destruct V3 as (-> & -> & ->).
        pose proof (Qmult_lt_0_compat _ _ Hu HN). pose proof (Qmult_lt_0_compat _ _ Hv HN). pose proof (Qmult_lt_0_compat _ _ Hw HN).
        repeat split; lra. }
      assert (Ey : forall g, aev g y == aev g x + 1 * vdot (ak g) d).
      { intro g. rewrite <- aev_along. apply aev_same. unfold d, same, along, vsub. cbn [vx vy vz fst snd]. repeat split; ring. }
      assert (Pl : forall s, aev (through n a) (along x s d) == 0 /\ aev (through (vsub (0, 0, 0) n) a) (along x s d) == 0).
      { intro s. assert (P0 := in_plane a b c _ Hon). fold n in P0. rewrite aev_neg, aev_along in *. cbn [ak through] in *.
        rewrite E in *. split; lra. }
      destruct (first_exit [(aev g1 x, vdot (ak g1) d); (aev g2 x, vdot (ak g2) d); (aev g3 x, vdot (ak g3) d)] t) as (s & S0 & S1 & Sa & f & Hf & Ef).
      - assumption.
      - destruct Pos as (P1 & P2 & P3). rewrite aev_along in P1, P2, P3.
        intros f [<- | [<- | [<- | []] ] ]; cbn [fst snd]; assumption.
      - assert (Ny : ~ sat (tri_cons a b c) y) by (intro K; apply Hy; apply on_tri_iff; assumption).
        destruct (sat_not _ _ Ny) as (g & Hg & Hneg).
        destruct (Pl 1) as (Q1 & Q2). rewrite aev_along, <- Ey in Q1, Q2.
        unfold tri_cons in Hg. cbv zeta in Hg. fold n in Hg. fold g1 g2 g3 in Hg.
        destruct Hg as [<- | [<- | [<- | [<- | [<- | []] ] ] ] ]; [ lra | lra | | | ]; rewrite Ey in Hneg.
        + exists (aev g1 x, vdot (ak g1) d). split; [ left; reflexivity | exact Hneg ].
        + exists (aev g2 x, vdot (ak g2) d). split; [ right; left; reflexivity | exact Hneg ].
        + exists (aev g3 x, vdot (ak g3) d). split; [ right; right; left; reflexivity | exact Hneg ].
      - (* at s the segment is on a side *)
        assert (A1 : 0 <= aev g1 (along x s d)) by (rewrite aev_along; apply (Sa (aev g1 x, vdot (ak g1) d)); left; reflexivity).
        assert (A2 : 0 <= aev g2 (along x s d)) by (rewrite aev_along; apply (Sa (aev g2 x, vdot (ak g2) d)); right; left; reflexivity).
        assert (A3 : 0 <= aev g3 (along x s d)) by (rewrite aev_along; apply (Sa (aev g3 x, vdot (ak g3) d)); right; right; left; reflexivity).
        assert (Hsat' : sat (tri_cons a b c) (along x s d)).
        { destruct (Pl s) as (Q1 & Q2). unfold sat, tri_cons. cbv zeta. fold n. fold g1 g2 g3.
          repeat apply Forall_cons; try apply Forall_nil; try assumption; lra. }
        assert (Hon' : on_tri (along x s d) (a, b, c)) by (apply on_tri_iff; assumption).
        assert (Hin' : in_tri (along x s d) (a, b, c)).
        { apply off_sides; [ exact Hon' | ]. intros e He. apply Hs; [ exact He | apply Hsg; lra ]. }
        assert (Pos' : 0 < aev g1 (along x s d) /\ 0 < aev g2 (along x s d) /\ 0 < aev g3 (along x s d)).
        { destruct (tri_vals a b c) as (_ & _ & V1 & V2 & V3). cbv zeta in V1, V2, V3. fold n in V1, V2, V3. fold g1 g2 g3 in V1, V2, V3.
          destruct Hin' as (u & v & w & Hu & Hv & Hw & Hsum & Hx & Hyy & Hz).
          rewrite !(aev_bary _ (along x s d) a b c u v w Hsum Hx Hyy Hz).
          destruct V1 as (-> & -> & ->). destruct V2 as (-> & -> & ->). destruct V3 as (-> & -> & ->).
          pose proof (Qmult_lt_0_compat _ _ Hu HN). pose proof (Qmult_lt_0_compat _ _ Hv HN). pose proof (Qmult_lt_0_compat _ _ Hw HN).
          repeat split; lra. }
        destruct Pos' as (P1 & P2 & P3). rewrite aev_along in P1, P2, P3.
        destruct Hf as [<- | [<- | [<- | []] ] ]; cbn [fst snd] in Ef; lra. }
    split; [ exact T0 | ]. split; [ exact T1 | ]. split; [ exact Hin | ]. split; [ exact Hnd | ].
    intros s Hs'. assert (P1 := in_plane a b c _ Hs'). assert (P2 := in_plane a b c _ Hon).
    rewrite aev_along in P1, P2. cbn [ak through tri_normal] in *.
    assert (X : (s - t) * vdot (normal a b c) d == 0) by lra.
    apply Qmult_integral in X. destruct X as [X | X]; [ lra | contradiction ].
  - left. intros z (t & (T0 & T1) & Hz) Hon. apply (on_tri_same _ _ _ Hz) in Hon.
    apply (proj1 (on_tri_iff _ _ HT)) in Hon. destruct Hex as (p & q & k & m & Hp & Hq & Hk & Hm & E & N).
    assert (V : forall p : Q * Q, In p ((0, 1) :: (1, -1) :: map (fun g => (aev g x, vdot (ak g) d)) (tri_cons a b c)) ->
      0 <= fst p + t * snd p).
    { intros r [<- | [<- | Hr] ]; cbn [fst snd]; [ lra | lra | ].
      apply in_map_iff in Hr. destruct Hr as (g & <- & Hg). cbn [fst snd]. rewrite <- aev_along.
      exact (proj1 (Forall_forall _ _) Hon g Hg). }
    assert (V1 := V p Hp). assert (V2 := V q Hq).
    pose proof (Qmult_le_0_compat _ _ Hk V1) as X1. pose proof (Qmult_le_0_compat _ _ Hm V2) as X2.
    assert (Z : k * (fst p + t * snd p) + m * (fst q + t * snd q) == (k * fst p + m * fst q) + t * (k * snd p + m * snd q)) by ring.
    rewrite E in Z. lra.
Qed.
