(** * The triangles around a segment, in the plane orthogonal to it *)
From Coq Require Import List Arith Bool Lia QArith Lqa.
From Verif Require Import Model_base Model_soup Model_geometry Model_local Model_side.
From Verif Require Import Spec_candidates Spec_side Spec_solid Spec_open Proof_open.
From Verif Require Import Proof_affine Proof_small Proof_walk Proof_radial Proof_edge Proof_turn.
Import ListNotations.
Local Open Scope Q_scope.

Lemma segment_same_l : forall x x' y z, same x x' -> in_segment z x y -> in_segment z x' y.
Proof.
  intros x x' y z (H1 & H2 & H3) (t & T & (E1 & E2 & E3)). exists t. split; [ exact T | ].
  unfold same, along, vsub in *. cbn [vx vy vz fst snd] in *. rewrite <- H1, <- H2, <- H3. auto.
Qed.

Lemma alg_vv : forall n u, vdot (vcross n u) (vcross n u) == vdot n n * vdot u u - vdot u n * vdot u n.
Proof. crush. ring. Qed.
Lemma alg_uv : forall n u, vdot u (vcross n u) == 0.
Proof. crush. ring. Qed.
Lemma alg_nv : forall n u, vdot n (vcross n u) == 0.
Proof. crush. ring. Qed.
Lemma alg_triple : forall n z,
  vdot n n * vx z == vdot z n * vx n + (vy n * vz (vcross z n) - vz n * vy (vcross z n)) /\
  vdot n n * vy z == vdot z n * vy n + (vz n * vx (vcross z n) - vx n * vz (vcross z n)) /\
  vdot n n * vz z == vdot z n * vz n + (vx n * vy (vcross z n) - vy n * vx (vcross z n)).
Proof. crush. repeat split; ring. Qed.
Lemma alg_sub : forall z w k, vdot (vsub z w) k == vdot z k - vdot w k.
Proof. crush. ring. Qed.
Lemma alg_at : forall m t l k, vdot (vsub (along m t l) m) k == t * vdot l k.
Proof. crush. ring. Qed.
Lemma alg_between : forall m x y s z k, same z (along x s (vsub y x)) ->
  vdot (vsub z m) k == (1 - s) * vdot (vsub x m) k + s * vdot (vsub y m) k.
Proof.
  intros m x y s z k (E1 & E2 & E3). unfold along, vsub, vdot in *. cbn [vx vy vz fst snd] in *. rewrite E1, E2, E3. ring.
Qed.
Lemma alg_aff : forall g x y, vdot (ak g) (vsub y x) == aev g y - aev g x.
Proof. intros [gk gc]. crush. ring. Qed.
Lemma alg_anti : forall n w, vx (vcross w n) == 0 -> vy (vcross w n) == 0 -> vz (vcross w n) == 0 -> same (vcross n w) (0, 0, 0).
Proof. unfold same. crush. repeat split; lra. Qed.

Section Fan.
  Variables pa pb u v : vec3.
  Let n : vec3 := vsub pb pa.
  Hypothesis Hn : ~ same n zero3.
  Hypothesis Hun : vdot u n == 0.
  Hypothesis Huu : 0 < vdot u u.
  Hypothesis Hv : v = vcross n u.

  Definition proj (z : vec3) : vec2 := (vdot z u, vdot z v).
  Definition lift (p : vec2) : vec3 :=
    (fst p / vdot u u * vx u + snd p / vdot v v * vx v,
     fst p / vdot u u * vy u + snd p / vdot v v * vy v,
     fst p / vdot u u * vz u + snd p / vdot v v * vz v).
  Definition middle : vec3 := along pa (1 # 2) n.

  Lemma nn_pos : 0 < vdot n n.
  Proof.
    destruct (Qlt_le_dec 0 (vdot n n)) as [L | L]; auto. exfalso. apply Hn. apply vdot_self_zero.
    pose proof (vdot_self n). lra.
  Qed.
  Lemma vv : vdot v v == vdot n n * vdot u u.
  Proof.
    rewrite Hv. assert (E : vdot (vcross n u) (vcross n u) == vdot n n * vdot u u - vdot u n * vdot u n).
    { apply alg_vv. }
    rewrite E, Hun. ring.
  Qed.
  Lemma vv_pos : 0 < vdot v v.
  Proof. rewrite vv. apply Qmult_lt_0_compat; [ exact nn_pos | exact Huu ]. Qed.
  Lemma uv : vdot u v == 0.
  Proof. rewrite Hv. apply alg_uv. Qed.
  Lemma nv : vdot n v == 0.
  Proof. rewrite Hv. apply alg_nv. Qed.

  Lemma lift_u : forall p, vdot (lift p) u == fst p.
  Proof.
    intros p. assert (E : vdot (lift p) u == fst p / vdot u u * vdot u u + snd p / vdot v v * vdot u v).
    { unfold lift. set (k := fst p / vdot u u). set (l := snd p / vdot v v). unfold vdot. cbn [vx vy vz fst snd]. ring. }
    rewrite E, uv. rewrite Qmult_0_r, Qplus_0_r. pose proof Huu as H0. revert H0. generalize (vdot u u). intros k Hk. field. lra.
  Qed.
  Lemma lift_v : forall p, vdot (lift p) v == snd p.
  Proof.
    intros p. assert (E : vdot (lift p) v == fst p / vdot u u * vdot u v + snd p / vdot v v * vdot v v).
    { unfold lift. set (k := fst p / vdot u u). set (l := snd p / vdot v v). unfold vdot. cbn [vx vy vz fst snd]. ring. }
    rewrite E, uv. rewrite Qmult_0_r, Qplus_0_l. pose proof vv_pos as H0. revert H0. generalize (vdot v v). intros k Hk. field. lra.
  Qed.

  (** A vector without components in the plane is along the segment. *)
  Lemma parallel : forall z, vdot z u == 0 -> vdot z v == 0 ->
    exists k, vx z == k * vx n /\ vy z == k * vy n /\ vz z == k * vz n.
  Proof.
    intros z Hz1 Hz2. rewrite Hv in Hz2. pose proof nn_pos as Np.
    destruct (projection_nonzero u n z Hun Huu Hz1 Hz2) as (C1 & C2 & C3).
    exists (vdot z n / vdot n n).
    pose proof (alg_triple n z) as I.
    destruct I as (I1 & I2 & I3). rewrite C1, C2, C3 in *.
    assert (N0 : ~ vdot n n == 0) by lra.
    repeat split; [ apply (Qmult_inj_l _ _ (vdot n n) N0); rewrite I1
                  | apply (Qmult_inj_l _ _ (vdot n n) N0); rewrite I2
                  | apply (Qmult_inj_l _ _ (vdot n n) N0); rewrite I3 ]; field; exact N0.
  Qed.

  Lemma lift_proj : forall z, exists k, vx z == vx (lift (proj z)) + k * vx n /\
    vy z == vy (lift (proj z)) + k * vy n /\ vz z == vz (lift (proj z)) + k * vz n.
  Proof.
    intros z. set (w := lift (proj z)).
    assert (E1 : vdot (vsub z w) u == 0).
    { rewrite alg_sub. unfold w. rewrite lift_u. unfold proj. cbn [fst]. ring. }
    assert (E2 : vdot (vsub z w) v == 0).
    { rewrite alg_sub. unfold w. rewrite lift_v. unfold proj. cbn [snd]. ring. }
    destruct (parallel _ E1 E2) as (k & K1 & K2 & K3). exists k. unfold vsub in K1, K2, K3. cbn [vx vy vz fst snd] in K1, K2, K3.
    repeat split; lra.
  Qed.

  (** The point over [p] at height [t]. *)
  Definition at_ (t : Q) (p : vec2) : vec3 := along middle t (lift p).

  Lemma at_proj : forall t p, vdot (vsub (at_ t p) middle) u == t * fst p /\ vdot (vsub (at_ t p) middle) v == t * snd p.
  Proof.
    intros t p.
    assert (X : forall k, vdot (vsub (at_ t p) middle) k == t * vdot (lift p) k).
    { intro k. unfold at_. apply alg_at. }
    rewrite !X, lift_u, lift_v. split; reflexivity.
  Qed.

  Lemma segment_proj : forall t p t' p' z, in_segment z (at_ t p) (at_ t' p') ->
    exists s, 0 <= s /\ s <= 1 /\ vdot (vsub z middle) u == (1 - s) * (t * fst p) + s * (t' * fst p') /\
      vdot (vsub z middle) v == (1 - s) * (t * snd p) + s * (t' * snd p') /\
      forall g, aev g z == (1 - s) * aev g (at_ t p) + s * aev g (at_ t' p').
  Proof.
    intros t p t' p' z (s & (S0 & S1) & E). exists s. split; [ exact S0 | ]. split; [ exact S1 | ].
    assert (X : forall k, vdot (vsub z middle) k == (1 - s) * vdot (vsub (at_ t p) middle) k + s * vdot (vsub (at_ t' p') middle) k).
    { intro k. apply alg_between. exact E. }
    destruct (at_proj t p) as (A1 & A2). destruct (at_proj t' p') as (B1 & B2).
    rewrite !X, A1, A2, B1, B2. split; [ reflexivity | ]. split; [ reflexivity | ].
    intro g. rewrite (aev_same g _ _ E), aev_along.
    rewrite alg_aff. ring.
  Qed.

  Lemma triangle_proj : forall pr z, in_triangle z pa pb pr ->
    exists l, 0 <= l /\ vdot (vsub z middle) u == l * fst (proj (vsub pr pa)) /\
      vdot (vsub z middle) v == l * snd (proj (vsub pr pa)).
  Proof.
    intros pr z (a & b & c & Ha & Hb & Hc & Hs & E1 & E2 & E3). exists c. split; [ exact Hc | ].
    assert (X : forall k, vdot n k == 0 -> vdot (vsub z middle) k == c * vdot (vsub pr pa) k).
    { intros k Hk. assert (Ea : a == 1 - b - c) by lra.
      assert (Y : vdot (vsub z middle) k == c * vdot (vsub pr pa) k + (b - (1 # 2)) * vdot n k).
      { unfold middle, n, vdot, vsub, along. cbn [vx vy vz fst snd]. rewrite E1, E2, E3, Ea. ring. }
      rewrite Y, Hk. ring. }
    unfold proj. cbn [fst snd]. split; apply X; [ rewrite vdot_comm; exact Hun | exact nv ].
  Qed.

  (** Close to the middle, the points over the direction of a triangle are in it. *)
  Lemma over_face : forall pr, eventually (fun t => in_open_triangle (at_ t (proj (vsub pr pa))) pa pb pr).
  Proof.
    intros pr. set (d := proj (vsub pr pa)).
    destruct (lift_proj (vsub pr pa)) as (k & K1 & K2 & K3). fold d in K1, K2, K3.
    generalize (ev_and _ _ (ev_pos (1 # 2) (k - 1) ltac:(lra)) (ev_pos (1 # 2) (- k) ltac:(lra))). apply ev_mono.
      intros t Ht (A1 & A2). exists ((1 # 2) + t * (k - 1)), ((1 # 2) + t * - k), t.
      repeat split; try assumption; try ring; unfold at_, middle, along, n, vsub in *; cbn [vx vy vz fst snd] in *.
      - setoid_replace (vx (lift d)) with (vx pr - vx pa - k * (vx pb - vx pa)) by (rewrite K1; ring). ring.
      - setoid_replace (vy (lift d)) with (vy pr - vy pa - k * (vy pb - vy pa)) by (rewrite K2; ring). ring.
      - setoid_replace (vz (lift d)) with (vz pr - vz pa - k * (vz pb - vz pa)) by (rewrite K3; ring). ring.
  Qed.

  (** *** The set of points and its boundary *)
  Variable X : vec3 -> Prop.
  Variable Bd : vec3 -> Prop.
  Variable Ts : list tri3.
  Variable fan : list (vec3 * bool).
  (** All of this happens in a convex set around the middle. *)
  Variable Dom : vec3 -> Prop.
  Hypothesis HK : open_convex Dom.
  Hypothesis Mid : Dom middle.
  Hypothesis Xdec : forall x, Dom x -> X x \/ ~ X x.
  Hypothesis Xwalk : forall x y, Dom x -> Dom y -> (forall z, in_segment z x y -> ~ Bd z) -> (X x <-> X y).
  Hypothesis Bd_tri : forall z, Bd z -> exists T, In T Ts /\ on_tri z T.
  Hypothesis Ts_flat : forall T, In T Ts -> ~ flat T.
  Hypothesis Ts_fan : forall T, In T Ts -> on_tri middle T ->
    exists pr c, In (pr, c) fan /\ forall x, on_tri x T -> in_triangle x pa pb pr.
  Hypothesis fan_flat : forall pr c, In (pr, c) fan -> ~ degenerate pa pb pr.
  Hypothesis fan_face : forall pr c y w, In (pr, c) fan -> in_open_triangle y pa pb pr ->
    ~ vdot (normal pa pb pr) w == 0 ->
    eventually (fun e => X (along y e w) <->
      (if c then vdot (normal pa pb pr) w < 0 else 0 < vdot (normal pa pb pr) w)).

  Definition rays : list (vec2 * bool) := map (fun f => (proj (vsub (fst f) pa), snd f)) fan.
  Definition chi (p : vec2) : Prop := eventually (fun t => X (at_ t p)).

  Lemma in_rays : forall r c, In (r, c) rays <-> exists pr, In (pr, c) fan /\ r = proj (vsub pr pa).
  Proof.
    intros r c. unfold rays. rewrite in_map_iff. split.
    - intros ((pr, c') & E & H). cbn [fst snd] in E. injection E as <- <-. eauto.
    - intros (pr & H & ->). exists (pr, c). auto.
  Qed.

  Lemma rays_nonzero : forall r c, In (r, c) rays -> nonzero r.
  Proof.
    intros r c H. apply in_rays in H. destruct H as (pr & H & ->). intros (Z1 & Z2). unfold proj in Z1, Z2. cbn [fst snd] in Z1, Z2.
    apply (fan_flat pr c H). rewrite Hv in Z2.
    destruct (projection_nonzero u n _ Hun Huu Z1 Z2) as (C1 & C2 & C3).
    exact (alg_anti n (vsub pr pa) C1 C2 C3).
  Qed.

  Definition near_cons (T : tri3) : list aff := let '(a, b, c) := T in tri_cons a b c.

  (** Walking along a segment that avoids the rays and the other triangles. *)
  Lemma avoid : forall t p t' p',
    (forall r c s l, In (r, c) rays -> 0 <= s -> s <= 1 -> 0 <= l ->
      ~ ((1 - s) * (t * fst p) + s * (t' * fst p') == l * fst r /\ (1 - s) * (t * snd p) + s * (t' * snd p') == l * snd r)) ->
    (forall T, In T Ts -> ~ on_tri middle T -> exists g, In g (near_cons T) /\ aev g (at_ t p) < 0 /\ aev g (at_ t' p') < 0) ->
    forall z, in_segment z (at_ t p) (at_ t' p') -> ~ Bd z.
  Proof.
    intros t p t' p' HA HB z Hz HBd. destruct (Bd_tri z HBd) as (T & HT & Ho).
    destruct (segment_proj t p t' p' z Hz) as (s & S0 & S1 & E1 & E2 & G).
    destruct (on_tri_dec T middle (Ts_flat T HT)) as [M | M].
    - destruct (Ts_fan T HT M) as (pr & c & Hf & Hin).
      destruct (triangle_proj pr z (Hin z Ho)) as (l & L0 & F1 & F2).
      apply (HA (proj (vsub pr pa)) c s l); auto; [ apply in_rays; eauto | ].
      rewrite <- E1, <- E2. auto.
    - destruct (HB T HT M) as (g & Hg & G1 & G2).
      rewrite (on_tri_iff T z (Ts_flat T HT)) in Ho. change (sat (near_cons T) z) in Ho.
      unfold sat in Ho. rewrite Forall_forall in Ho. specialize (Ho g Hg). rewrite G in Ho.
      destruct (Qlt_le_dec 0 s) as [L | L].
      + assert (0 <= (1 - s) * - aev g (at_ t p)) by (apply Qmult_le_0_compat; lra).
        assert (0 < s * - aev g (at_ t' p')) by (apply Qmult_lt_0_compat; lra). lra.
      + assert (Z : s == 0) by lra. rewrite Z in Ho. lra.
  Qed.

  (** The other triangles are not met close to the middle. *)
  Lemma others : forall p, eventually (fun t => forall T, In T Ts -> ~ on_tri middle T ->
    exists g, In g (near_cons T) /\ aev g middle < 0 /\ aev g (at_ t p) < 0).
  Proof.
    intros p. apply ev_list. intros T HT. destruct (on_tri_dec T middle (Ts_flat T HT)) as [M | M].
    - apply ev_true. intros t _ K. contradiction.
    - assert (N := M). rewrite (on_tri_iff T middle (Ts_flat T HT)) in N. change (~ sat (near_cons T) middle) in N.
      destruct (sat_not _ _ N) as (g & Hg & Hneg).
      generalize (ev_neg (aev g middle) (vdot (ak g) (lift p)) Hneg). apply ev_mono. intros t _ Ht _.
      exists g. split; [ exact Hg | ]. split; [ exact Hneg | ]. unfold at_. rewrite aev_along. exact Ht.
  Qed.

  (** Both inequalities at once need the same violated side. *)
  Lemma others2 : forall p p', eventually (fun t => forall T, In T Ts -> ~ on_tri middle T ->
    exists g, In g (near_cons T) /\ aev g (at_ t p) < 0 /\ aev g (at_ t p') < 0).
  Proof.
    intros p p'. apply ev_list. intros T HT. destruct (on_tri_dec T middle (Ts_flat T HT)) as [M | M].
    - apply ev_true. intros t _ K. contradiction.
    - assert (N := M). rewrite (on_tri_iff T middle (Ts_flat T HT)) in N. change (~ sat (near_cons T) middle) in N.
      destruct (sat_not _ _ N) as (g & Hg & Hneg).
      generalize (ev_and _ _ (ev_neg (aev g middle) (vdot (ak g) (lift p)) Hneg) (ev_neg (aev g middle) (vdot (ak g) (lift p')) Hneg)).
      apply ev_mono. intros t _ (H1 & H2) _.
      exists g. split; [ exact Hg | ]. unfold at_. rewrite !aev_along. auto.
  Qed.

  Lemma near_in : forall p, eventually (fun t => Dom (at_ t p)).
  Proof. intro p. exact (ev_in Dom HK middle (lift p) Mid). Qed.
  Lemma closer_in : forall p t0 t, 0 < t -> t <= t0 -> Dom (at_ t0 p) -> Dom (at_ t p).
  Proof.
    intros p t0 t H1 H2 H. apply (oc_convex _ HK middle (at_ t0 p)); [ exact Mid | exact H | ]. exists (t / t0). split.
    - split; [ apply Qle_shift_div_l; lra | apply Qle_shift_div_r; lra ].
    - unfold at_, same, along, vsub. cbn [vx vy vz fst snd]. repeat split; field; lra.
  Qed.

  Lemma fan_walk : forall p q, free rays p q -> (chi p <-> chi q).
  Proof.
    intros p q Hf.
    assert (G : eventually (fun t => X (at_ t p) <-> X (at_ t q))).
    { generalize (ev_and _ _ (ev_and _ _ (near_in p) (near_in q)) (others2 p q)). apply ev_mono. intros t Ht ((Kp & Kq) & HB). apply Xwalk; [ exact Kp | exact Kq | ]. apply avoid; [ | exact HB ].
      intros r c s l Hr S0 S1 L0 (E1 & E2). apply (Hf r c s (l / t) Hr S0 S1).
      - apply Qle_shift_div_l; lra.
      - split; apply (Qmult_inj_l _ _ t); try lra.
        + setoid_replace (t * (l / t * fst r)) with (l * fst r) by (field; lra). rewrite <- E1. ring.
        + setoid_replace (t * (l / t * snd r)) with (l * snd r) by (field; lra). rewrite <- E2. ring. }
    split; intro H.
    - generalize (ev_and _ _ G H). apply ev_mono. intros t _ (A & B). tauto.
    - generalize (ev_and _ _ G H). apply ev_mono. intros t _ (A & B). tauto.
  Qed.

  (** Along a direction off the rays. *)
  Definition clear_of (p : vec2) : Prop := forall r c l, In (r, c) rays -> 0 <= l -> ~ (fst p == l * fst r /\ snd p == l * snd r).

  Lemma along_ray : forall p t0, 0 < t0 -> clear_of p ->
    (forall T, In T Ts -> ~ on_tri middle T -> exists g, In g (near_cons T) /\ aev g middle < 0 /\ aev g (at_ t0 p) < 0) ->
    forall t t', 0 < t -> t <= t0 -> 0 < t' -> t' <= t0 ->
    forall z, in_segment z (at_ t p) (at_ t' p) -> ~ Bd z.
  Proof.
    intros p t0 T0 Hc Ho t t' H1 H2 H3 H4. apply avoid.
    - intros r c s l Hr S0 S1 L0 (E1 & E2).
      assert (P : 0 < (1 - s) * t + s * t').
      { destruct (Qlt_le_dec 0 s) as [L | L].
        - assert (0 <= (1 - s) * t) by (apply Qmult_le_0_compat; lra). assert (0 < s * t') by (apply Qmult_lt_0_compat; lra). lra.
        - assert (Z : s == 0) by lra. rewrite Z. lra. }
      set (k := (1 - s) * t + s * t') in *.
      apply (Hc r c (l / k) Hr); [ apply Qle_shift_div_l; lra | ].
      split; apply (Qmult_inj_l _ _ k); try lra.
      + setoid_replace (k * (l / k * fst r)) with (l * fst r) by (field; lra). rewrite <- E1. unfold k. ring.
      + setoid_replace (k * (l / k * snd r)) with (l * snd r) by (field; lra). rewrite <- E2. unfold k. ring.
    - intros T HT M. destruct (Ho T HT M) as (g & Hg & G1 & G2). exists g. split; [ exact Hg | ].
      unfold at_ in *. rewrite aev_along in *. rewrite aev_along. set (x := aev g middle) in *. set (y := vdot (ak g) (lift p)) in *.
      clear - G1 G2 H1 H2 H3 H4 T0.
      assert (K : forall w, 0 < w -> w <= t0 -> x + w * y < 0).
      { intros w W1 W2. destruct (Qlt_le_dec 0 y) as [L | L]; nra. }
      split; apply K; assumption.
  Qed.

  Lemma chi_dec : forall p, clear_of p -> chi p \/ ~ chi p.
  Proof.
    intros p Hc. destruct (ev_witness _ (ev_and _ _ (near_in p) (others p))) as (t0 & T0 & K0 & Ho).
    assert (G : forall t, 0 < t -> t <= t0 -> (X (at_ t p) <-> X (at_ t0 p))).
    { intros t H1 H2. apply Xwalk; [ exact (closer_in p t0 t H1 H2 K0) | exact K0 | ]. apply (along_ray p t0 T0 Hc Ho t t0); auto; lra. }
    destruct (Xdec (at_ t0 p) K0) as [Y | Y].
    - left. exists t0. split; [ exact T0 | ]. intros t H1 H2. now apply G.
    - right. intros K.
      assert (Z : eventually (fun t => t <= t0 /\ X (at_ t p))).
      { apply ev_and; [ exists t0; split; auto | exact K ]. }
      destruct (ev_witness _ Z) as (t & H1 & H2 & H3). apply Y. now apply (G t).
  Qed.

  (** Just beside a ray. *)
  Lemma beside : forall pr c w, In (pr, c) fan -> ~ det2 (proj (vsub pr pa)) w == 0 ->
    eventually (fun e => let d := proj (vsub pr pa) in
      chi (fst d + e * fst w, snd d + e * snd w) <-> (if c then det2 d w < 0 else 0 < det2 d w)).
  Proof.
    intros pr c w Hf Hdet. set (d := proj (vsub pr pa)) in *.
    (* a point of the face over d, close to the middle *)
    pose proof (over_face pr) as O. fold d in O.
    destruct (ev_witness _ (ev_and _ _ (near_in d) (ev_and _ _ O (others d)))) as (t0 & T0 & Kd & Hy & Ho).
    (* beside it *)
    assert (Sgn : det2 d w == vdot u u * vdot (normal pa pb pr) (lift w)).
    { pose proof (side_identity n (vsub pr pa) (lift w) u Hun) as I. cbn zeta in I. rewrite <- Hv in I.
      fold n in I. change (vdot (normal pa pb pr) (lift w)) with (vdot (vcross n (vsub pr pa)) (lift w)). rewrite <- I.
      unfold det2, d, proj. cbn [fst snd]. rewrite lift_u, lift_v. reflexivity. }
    assert (NZ : ~ vdot (normal pa pb pr) (lift w) == 0).
    { intro Z. apply Hdet. rewrite Sgn, Z. ring. }
    pose proof (fan_face pr c (at_ t0 d) (lift w) Hf Hy NZ) as HX.
    (* the same points, seen from the middle *)
    set (p := fun e : Q => (fst d + e * fst w, snd d + e * snd w) : vec2).
    assert (Same : forall e, same (along (at_ t0 d) (t0 * e) (lift w)) (at_ t0 (p e))).
    { intro e. unfold at_, same, along, lift, p, middle. cbn [vx vy vz fst snd]. pose proof vv_pos.
      repeat split; field; split; lra. }
    assert (E0 : eventually (fun e => X (along (at_ t0 d) (t0 * e) (lift w)) <->
        (if c then vdot (normal pa pb pr) (lift w) < 0 else 0 < vdot (normal pa pb pr) (lift w)))).
    { destruct HX as (b & Hb & HX). exists (b / t0). split; [ apply Qlt_shift_div_l; lra | ].
      intros e H1 H2. apply HX; [ apply Qmult_lt_0_compat; assumption | ].
      apply (Qmult_le_l _ _ t0) in H2; [ | exact T0 ]. setoid_replace (t0 * (b / t0)) with b in H2 by (field; lra). exact H2. }
    assert (EK : eventually (fun e => Dom (along (at_ t0 d) (t0 * e) (lift w)))).
    { destruct (ev_in Dom HK (at_ t0 d) (lift w) Kd) as (b & Hb & HD). exists (b / t0). split; [ apply Qlt_shift_div_l; lra | ].
      intros e H1 H2. apply HD; [ apply Qmult_lt_0_compat; assumption | ].
      apply (Qmult_le_l _ _ t0) in H2; [ | exact T0 ]. setoid_replace (t0 * (b / t0)) with b in H2 by (field; lra). exact H2. }
    (* off the rays *)
    assert (E1 : eventually (fun e => clear_of (p e))).
    { assert (Y : eventually (fun e => forall rc, In rc rays -> ~ det2 (fst rc) d + e * det2 (fst rc) w == 0)).
      { apply ev_list. intros (r & c') Hr. cbn [fst]. apply ev_nonzero.
        destruct (Qeq_dec (det2 r d) 0) as [Z | Z]; [ left | right; exact Z ].
        (* r is a multiple of d *)
        intro Z'. apply Hdet. pose proof (rays_nonzero r c' Hr) as Nr.
        unfold det2 in *. destruct (Qeq_dec (fst r) 0) as [R | R].
        - assert (R' : ~ snd r == 0) by (intro; apply Nr; auto). rewrite R in Z, Z'.
          assert (D0 : fst d == 0). { assert (Q0 : snd r * fst d == 0) by lra. apply Qmult_integral in Q0. tauto. }
          assert (W0 : fst w == 0). { assert (Q0 : snd r * fst w == 0) by lra. apply Qmult_integral in Q0. tauto. }
          rewrite D0, W0. ring.
        - apply (Qmult_inj_l _ _ (fst r) R).
          setoid_replace (fst r * (fst d * snd w - snd d * fst w)) with (fst d * (fst r * snd w) - (fst r * snd d) * fst w) by ring.
          assert (Q1 : fst r * snd d == snd r * fst d) by lra. assert (Q2 : fst r * snd w == snd r * fst w) by lra.
          rewrite Q1, Q2. ring. }
      revert Y. apply ev_mono. intros e _ Y r c' l Hr L0 (F1 & F2). apply (Y (r, c') Hr). cbn [fst].
      assert (Q : det2 r (p e) == 0) by (unfold det2; rewrite F1, F2; ring).
      rewrite <- Q. unfold det2, p. cbn [fst snd]. ring. }
    (* still off the other triangles *)
    assert (E2 : eventually (fun e => forall T, In T Ts -> ~ on_tri middle T ->
        exists g, In g (near_cons T) /\ aev g middle < 0 /\ aev g (at_ t0 (p e)) < 0)).
    { apply ev_list. intros T HT. destruct (on_tri_dec T middle (Ts_flat T HT)) as [M | M].
      - apply ev_true. intros e _ K. contradiction.
      - destruct (Ho T HT M) as (g & Hg & G1 & G2).
        generalize (ev_neg _ (t0 * vdot (ak g) (lift w)) G2). apply ev_mono. intros e _ Q _. exists g. split; [ exact Hg | ].
        split; [ exact G1 | ]. rewrite <- (aev_same g _ _ (Same e)), aev_along.
        setoid_replace (t0 * e * vdot (ak g) (lift w)) with (e * (t0 * vdot (ak g) (lift w))) by ring. exact Q. }
    generalize (ev_and _ _ EK (ev_and _ _ E0 (ev_and _ _ E1 E2))). apply ev_mono. intros e _ (Ke & H0 & H1 & H2).
    assert (S2 : (if c then det2 d w < 0 else 0 < det2 d w) <->
                 (if c then vdot (normal pa pb pr) (lift w) < 0 else 0 < vdot (normal pa pb pr) (lift w))).
    { clear - Sgn Huu. set (y := vdot (normal pa pb pr) (lift w)) in *. set (s := vdot u u) in *.
      destruct c; rewrite Sgn; split; intro; nra. }
    cbn zeta. rewrite S2, <- H0. clear S2 H0.
    assert (G : forall t, 0 < t -> t <= t0 -> (X (at_ t (p e)) <-> X (along (at_ t0 d) (t0 * e) (lift w)))).
    { intros t A1 A2. symmetry. apply Xwalk; [ exact Ke | exact (closer_in (p e) t0 t A1 A2 (oc_same _ HK _ _ (Same e) Ke)) | ]. intros z Hz.
      apply (segment_same_l _ _ _ _ (Same e)) in Hz. revert z Hz.
      apply (along_ray (p e) t0 T0 H1 H2); auto; lra. }
    unfold chi. change (fst d + e * fst w, snd d + e * snd w) with (p e). split; intro K.
    - assert (Z : eventually (fun t => t <= t0 /\ X (at_ t (p e)))) by (apply ev_and; [ exists t0; split; auto | exact K ]).
      destruct (ev_witness _ Z) as (t & A1 & A2 & A3). now apply (G t).
    - exists t0. split; [ exact T0 | ]. intros t A1 A2. now apply G.
  Qed.

  Lemma beside_ray : forall d c, In (d, c) rays ->
    eventually (fun e => (chi (aft d e) <-> c = false) /\ (chi (bef d e) <-> c = true)).
  Proof.
    intros d c H. pose proof (rays_nonzero d c H) as Nd. apply in_rays in H. destruct H as (pr & H & E).
    pose proof (square_pos d Nd) as Sq.
    assert (D1 : det2 d (- snd d, fst d) == fst d * fst d + snd d * snd d) by (unfold det2; cbn [fst snd]; ring).
    assert (D2 : det2 d (snd d, - fst d) == - (fst d * fst d + snd d * snd d)) by (unfold det2; cbn [fst snd]; ring).
    pose proof (beside pr c (- snd d, fst d) H) as B1. pose proof (beside pr c (snd d, - fst d) H) as B2.
    rewrite <- E in B1, B2. specialize (B1 ltac:(intro K; rewrite D1 in K; lra)). specialize (B2 ltac:(intro K; rewrite D2 in K; lra)). cbn zeta in B1, B2. cbn [fst snd] in B1, B2.
    generalize (ev_and _ _ B1 B2). apply ev_mono. intros e _ (X1 & X2). unfold aft, bef. rewrite X1, X2.
    destruct c; split; split; intro K; first [ discriminate | reflexivity | lra | exfalso; lra ].
  Qed.
End Fan.
