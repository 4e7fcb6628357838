(** * A ray clipped by a triangle

    An exact intersection of a ray and a triangle, to show that the
    specification of CGAL::intersection used in Spec_side can be met. *)
From Coq Require Import List Arith Bool QArith Qminmax Lqa Lia.
From Verif Require Import Model_base Model_soup Model_geometry Model_aabb Spec_candidates Model_side Spec_side Proof_affine.
Import ListNotations.
Local Open Scope Q_scope.

(** [None] empty, [Some (lo, None)] unbounded above. *)
Definition interval : Type := option (Q * option Q).
Definition in_iv (t : Q) (i : interval) : Prop :=
  match i with
  | None => False
  | Some (lo, None) => lo <= t
  | Some (lo, Some hi) => lo <= t /\ t <= hi
  end.

(** The part where [x + t k] is not negative. *)
Definition clip1 (x k : Q) (i : interval) : interval :=
  match i with
  | None => None
  | Some (lo, hi) =>
      match k ?= 0 with
      | Gt => Some (Qmax lo (- x / k), hi)
      | Lt => Some (lo, Some (match hi with None => - x / k | Some h => Qmin h (- x / k) end))
      | Eq => if Qle_bool 0 x then Some (lo, hi) else None
      end
  end.

Lemma div_pos : forall x k t : Q, 0 < k -> (- x / k <= t <-> 0 <= x + t * k).
Proof.
  intros x k t Hk. split.
  - intro H. assert (X : (- x / k) * k <= t * k) by (apply Qmult_le_compat_r; lra).
    assert (E : (- x / k) * k == - x) by (field; lra). lra.
  - intro H. apply Qle_shift_div_r; [ exact Hk | lra ].
Qed.

Lemma div_neg : forall x k t : Q, k < 0 -> (t <= - x / k <-> 0 <= x + t * k).
Proof.
  intros x k t Hk. assert (E : - x / k == x / (- k)) by (field; lra). rewrite E. split.
  - intro H. assert (X : t * (- k) <= (x / - k) * (- k)) by (apply Qmult_le_compat_r; lra).
    assert (E' : (x / - k) * (- k) == x) by (field; lra). lra.
  - intro H. apply Qle_shift_div_l; lra.
Qed.

Lemma clip1_ok : forall x k i t, in_iv t (clip1 x k i) <-> (in_iv t i /\ 0 <= x + t * k).
Proof.
  intros x k [ [lo hi] | ] t; [ | cbn; tauto ]. unfold clip1. destruct (k ?= 0) eqn:E.
  - apply Qeq_alt in E. assert (X : x + t * k == x) by (rewrite E; ring).
    destruct (Qle_bool 0 x) eqn:B.
    + apply Qle_bool_iff in B. split; [ intro H; split; [ exact H | lra ] | tauto ].
    + split; [ intros [] | ]. intros [_ H]. assert (0 <= x) by lra.
      apply Qle_bool_iff in H0. congruence.
  - apply Qlt_alt in E. rewrite <- (div_neg x k t E).
    destruct hi as [hi | ]; cbn [in_iv]; [ | tauto ].
    rewrite Q.min_glb_iff. tauto.
  - apply Qgt_alt in E. rewrite <- (div_pos x k t E).
    destruct hi as [hi | ]; cbn [in_iv]; rewrite Q.max_lub_iff; tauto.
Qed.

Fixpoint clip (l : list (Q * Q)) (i : interval) : interval :=
  match l with
  | [] => i
  | (x, k) :: r => clip r (clip1 x k i)
  end.

Lemma clip_ok : forall l i t, in_iv t (clip l i) <-> (in_iv t i /\ Forall (fun xk => 0 <= fst xk + t * snd xk) l).
Proof.
  induction l as [ | [x k] l IH]; intros i t; cbn [clip].
  - split; [ auto | tauto ].
  - rewrite IH, clip1_ok, Forall_cons_iff. cbn [fst snd]. tauto.
Qed.

Definition ray_interval (a b c p r : vec3) : interval :=
  clip (map (fun g => (aev g p, vdot (ak g) (vsub r p))) (tri_cons a b c)) (Some (0, None)).

Definition clip_ray (tri : vec3 * vec3 * vec3) (p r : vec3) : hit :=
  let '(a, b, c) := tri in
  match ray_interval a b c p r with
  | Some (lo, Some hi) =>
      match lo ?= hi with
      | Lt => HSegment (along p lo (vsub r p)) (along p hi (vsub r p))
      | Eq => HPoint (along p lo (vsub r p))
      | Gt => HNone
      end
  | _ => HNone
  end.

Lemma ray_interval_ok : forall a b c p r t, ~ degenerate a b c ->
  (in_iv t (ray_interval a b c p r) <-> (0 <= t /\ in_triangle (along p t (vsub r p)) a b c)).
Proof.
  intros a b c p r t Hd. unfold ray_interval. rewrite clip_ok. cbn [in_iv]. rewrite (tri_iff a b c _ Hd).
  unfold sat. rewrite Forall_map. cbn [fst snd].
  assert (E : forall l, Forall (fun g => 0 <= aev g p + t * vdot (ak g) (vsub r p)) l <->
    Forall (fun g => 0 <= aev g (along p t (vsub r p))) l).
  { intro l. split; apply Forall_impl; intros g Hg; [ rewrite aev_along | rewrite aev_along in Hg ]; exact Hg. }
  rewrite E. tauto.
Qed.

Lemma in_triangle_bound : forall k x a b c, in_triangle x a b c ->
  vdot k x <= Qmax (vdot k a) (Qmax (vdot k b) (vdot k c)).
Proof.
  intros k x a b c (u & v & w & Hu & Hv & Hw & Hs & Hx & Hy & Hz).
  assert (E : aev (mk_aff k 0) x == u * aev (mk_aff k 0) a + v * aev (mk_aff k 0) b + w * aev (mk_aff k 0) c).
  { apply aev_bary; assumption. }
  unfold aev in E. cbn [ak ac] in E. set (M := Qmax (vdot k a) (Qmax (vdot k b) (vdot k c))).
  assert (Ha : vdot k a <= M) by apply Q.le_max_l.
  assert (Hb : vdot k b <= M) by (eapply Qle_trans; [ apply Q.le_max_l | apply Q.le_max_r ]).
  assert (Hc : vdot k c <= M) by (eapply Qle_trans; [ apply Q.le_max_r | apply Q.le_max_r ]).
  assert (0 <= u * (M - vdot k a)) by (apply Qmult_le_0_compat; lra).
  assert (0 <= v * (M - vdot k b)) by (apply Qmult_le_0_compat; lra).
  assert (0 <= w * (M - vdot k c)) by (apply Qmult_le_0_compat; lra).
  assert (S : u * (M - vdot k a) + v * (M - vdot k b) + w * (M - vdot k c) ==
    (u + v + w) * M - (u * vdot k a + v * vdot k b + w * vdot k c)) by ring.
  rewrite Hs in S. lra.
Qed.

Lemma dir_pos : forall p r, ~ same p r -> 0 < vdot (vsub r p) (vsub r p).
Proof.
  intros p r H. destruct (Qlt_le_dec 0 (vdot (vsub r p) (vsub r p))) as [L | L]; auto. exfalso. apply H.
  pose proof (vdot_self (vsub r p)). assert (Z : vdot (vsub r p) (vsub r p) == 0) by lra.
  destruct (vdot_self_zero _ Z) as (A & B & C). unfold vsub in A, B, C. cbn [vx vy vz fst snd] in A, B, C.
  repeat split; lra.
Qed.

Lemma ray_interval_bounded : forall a b c p r lo, ~ degenerate a b c -> ~ same p r ->
  ray_interval a b c p r <> Some (lo, None).
Proof.
  intros a b c p r lo Hd Hpr E. set (d := vsub r p). assert (Hk := dir_pos p r Hpr). fold d in Hk.
  set (M := Qmax (vdot d a) (Qmax (vdot d b) (vdot d c))).
  set (t := Qmax lo ((M - vdot d p) / vdot d d + 1)).
  assert (Hin : in_iv t (ray_interval a b c p r)) by (rewrite E; apply Q.le_max_l).
  apply ray_interval_ok in Hin; [ | exact Hd ]. destruct Hin as [_ Hin].
  apply (in_triangle_bound d) in Hin. fold M d in Hin.
  assert (Ea : vdot d (along p t d) == vdot d p + t * vdot d d).
  { unfold vdot, along. cbn [vx vy vz fst snd]. ring. }
  assert (Ht : (M - vdot d p) / vdot d d + 1 <= t) by apply Q.le_max_r.
  assert (X : ((M - vdot d p) / vdot d d + 1) * vdot d d <= t * vdot d d) by (apply Qmult_le_compat_r; lra).
  assert (Y : ((M - vdot d p) / vdot d d + 1) * vdot d d == M - vdot d p + vdot d d) by (field; lra).
  lra.
Qed.

Lemma in_triangle_same : forall x y a b c, same x y -> in_triangle x a b c -> in_triangle y a b c.
Proof.
  intros x y a b c (E1 & E2 & E3) (u & v & w & Hu & Hv & Hw & Hs & Hx & Hy & Hz).
  exists u, v, w. repeat split; auto; [ rewrite <- E1 | rewrite <- E2 | rewrite <- E3 ]; assumption.
Qed.

Theorem clip_ray_exact : exact_intersection clip_ray.
Proof.
  intros a b c p r Hd Hpr. unfold clip_ray. assert (HI := fun t => ray_interval_ok a b c p r t Hd).
  assert (HB := fun lo => ray_interval_bounded a b c p r lo Hd Hpr).
  set (d := vsub r p) in *. set (I := ray_interval a b c p r) in *.
  assert (G : forall x, in_ray x p r /\ in_triangle x a b c <-> exists t, in_iv t I /\ same x (along p t d)).
  { intro x. split.
    - intros [ [t [Ht Hx] ] Hin]. exists t. fold d in Hx. split; [ | exact Hx ]. apply HI.
      split; [ exact Ht | ]. exact (in_triangle_same _ _ _ _ _ Hx Hin).
    - intros [t [Ht Hx] ]. apply HI in Ht. destruct Ht as [Ht Hin].
      split; [ exists t; auto | ]. exact (in_triangle_same _ _ _ _ _ (same_sym _ _ Hx) Hin). }
  destruct I as [ [lo [hi | ] ] | ].
  - assert (Inj : forall s t, same (along p s d) (along p t d) -> s == t).
    { intros s t (A & B & C). assert (Hk := dir_pos p r Hpr). fold d in Hk.
      unfold along in A, B, C. cbn [vx vy vz fst snd] in A, B, C.
      assert (E : (s - t) * vdot d d == 0).
      { unfold vdot.
        assert (E1 : (s - t) * (vx d * vx d + vy d * vy d + vz d * vz d) ==
          (s * vx d - t * vx d) * vx d + (s * vy d - t * vy d) * vy d + (s * vz d - t * vz d) * vz d) by ring.
        assert (X : s * vx d - t * vx d == 0) by lra. assert (Y : s * vy d - t * vy d == 0) by lra.
        assert (Z : s * vz d - t * vz d == 0) by lra. rewrite E1, X, Y, Z. ring. }
      apply Qmult_integral in E. destruct E as [E | E]; lra. }
    assert (Sm : forall s t, s == t -> same (along p s d) (along p t d)).
    { intros s t E. unfold along. repeat split; cbn [vx vy vz fst snd]; rewrite E; reflexivity. }
    destruct (lo ?= hi) eqn:E.
    + apply Qeq_alt in E. intro x. rewrite G. cbn [in_iv]. split.
      * intros [t [Ht Hx] ]. apply (same_trans _ _ _ Hx). apply Sm. lra.
      * intro Hx. exists lo. split; [ lra | exact Hx ].
    + apply Qlt_alt in E. split; [ intro X; apply Inj in X; lra | ]. intro x. rewrite G. cbn [in_iv].
      assert (L : forall l, same (along (along p lo d) l (vsub (along p hi d) (along p lo d)))
                   (along p (lo + l * (hi - lo)) d)).
      { intro l. unfold along, vsub. repeat split; cbn [vx vy vz fst snd]; ring. }
      split.
      * intros [t [Ht Hx] ]. exists ((t - lo) / (hi - lo)). split.
        -- split; [ apply Qle_shift_div_l; lra | apply Qle_shift_div_r; lra ].
        -- apply (same_trans _ _ _ Hx). apply (same_trans _ (along p (lo + (t - lo) / (hi - lo) * (hi - lo)) d)).
           ++ apply Sm. field. lra.
           ++ apply same_sym, L.
      * intros [l [Hl Hx] ]. exists (lo + l * (hi - lo)). split.
        -- assert (0 <= l * (hi - lo)) by (apply Qmult_le_0_compat; lra).
           assert (0 <= (1 - l) * (hi - lo)) by (apply Qmult_le_0_compat; lra). lra.
        -- exact (same_trans _ _ _ Hx (L l)).
    + apply Qgt_alt in E. intros x Hx Hin. destruct (proj1 (G x) (conj Hx Hin)) as [t [Ht _] ].
      cbn [in_iv] in Ht. lra.
  - exfalso. exact (HB lo eq_refl).
  - intros x Hx Hin. destruct (proj1 (G x) (conj Hx Hin)) as [t [ [] _] ].
Qed.
