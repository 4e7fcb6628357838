(** * Small perturbations over the rationals *)
From Coq Require Import List Arith QArith Qabs Qminmax Lqa Lia.
From Verif Require Import Model_base Model_soup Model_geometry Model_side.
From Verif Require Import Spec_candidates Spec_side Proof_affine.
Import ListNotations.
Local Open Scope Q_scope.

(** For all sufficiently small positive numbers. *)
Definition eventually (R : Q -> Prop) : Prop := exists e, 0 < e /\ forall t, 0 < t -> t <= e -> R t.

Lemma ev_true : forall (R : Q -> Prop), (forall t, 0 < t -> R t) -> eventually R.
Proof. intros R H. exists 1. split; [ lra | auto ]. Qed.

Lemma ev_mono : forall (R S : Q -> Prop), (forall t, 0 < t -> R t -> S t) -> eventually R -> eventually S.
Proof. intros R S H [e [He Hr] ]. exists e. split; auto. Qed.

Lemma ev_and : forall R S : Q -> Prop, eventually R -> eventually S -> eventually (fun t => R t /\ S t).
Proof.
  intros R S [e [He Hr] ] [f [Hf Hs] ]. exists (Qmin e f). split; [ apply Q.min_glb_lt; assumption | ].
  intros t Ht Hle. pose proof (Q.le_min_l e f). pose proof (Q.le_min_r e f). split; [ apply Hr | apply Hs ]; lra.
Qed.

Lemma ev_list : forall A (l : list A) (R : A -> Q -> Prop),
  (forall x, In x l -> eventually (R x)) -> eventually (fun t => forall x, In x l -> R x t).
Proof.
  intros A l R. induction l as [ | x l IH]; intro H.
  - apply ev_true. intros t _ x [].
  - assert (H1 := ev_and _ _ (H x (or_introl eq_refl)) (IH (fun y Hy => H y (or_intror Hy)))).
    revert H1. apply ev_mono. intros t _ [Ha Hb] y [<- | Hy]; auto.
Qed.

Lemma ev_witness : forall R : Q -> Prop, eventually R -> exists t, 0 < t /\ R t.
Proof. intros R [e [He Hr] ]. exists e. split; [ exact He | apply Hr; lra ]. Qed.

Lemma ev_below : forall (R : Q -> Prop) b, 0 < b -> eventually R -> eventually (fun t => t < b /\ R t).
Proof.
  intros R b Hb H. apply ev_and; [ | exact H ]. exists (b / 2).
  assert (E : b / 2 == b * (1 # 2)) by (field). split; [ rewrite E; lra | intros t _ Ht; rewrite E in Ht; lra ].
Qed.

Lemma ev_neg : forall a b : Q, a < 0 -> eventually (fun t => a + t * b < 0).
Proof. intros a b H. destruct (stays_negative a b H) as [e [He Hr] ]. exists e. auto. Qed.

Lemma ev_pos : forall a b : Q, 0 < a -> eventually (fun t => 0 < a + t * b).
Proof.
  intros a b H. generalize (ev_neg (- a) (- b) ltac:(lra)). apply ev_mono. intros t _ Ht. lra.
Qed.

Lemma ev_nonzero : forall a b : Q, ~ b == 0 \/ ~ a == 0 -> eventually (fun t => ~ a + t * b == 0).
Proof.
  intros a b H. destruct (Qlt_le_dec a 0) as [L | L].
  - generalize (ev_neg a b L). apply ev_mono. intros t _ Ht. lra.
  - destruct (Qlt_le_dec 0 a) as [L' | L'].
    + generalize (ev_pos a b L'). apply ev_mono. intros t _ Ht. lra.
    + assert (E : a == 0) by lra. destruct H as [H | H]; [ | contradiction ].
      apply ev_true. intros t Ht K. assert (K' : t * b == 0) by lra.
      apply Qmult_integral in K'. destruct K'; [ lra | contradiction ].
Qed.

(** ** Intervals: one variable *)

(** Two inequalities of [l] that exclude each other, whatever [t] is. *)
Definition excludes (l : list (Q * Q)) : Prop :=
  exists p q k m, In p l /\ In q l /\ 0 <= k /\ 0 <= m /\
    k * snd p + m * snd q == 0 /\ k * fst p + m * fst q < 0.

Lemma max_lower : forall (l : list (Q * Q)), exists p, In p ((0, 1) :: l) /\ 0 < snd p /\ 0 <= - fst p / snd p /\
  forall q, In q l -> 0 < snd q -> - fst q / snd q <= - fst p / snd p.
Proof.
  induction l as [ | q l IH].
  - exists (0, 1). cbn [fst snd In]. repeat split; auto; try lra; try (intros ? []). 
    assert (E : - 0 / 1 == 0) by field. rewrite E. lra.
  - destruct IH as (p & Hp & Hpos & H0 & Hmax).
    destruct (Qlt_le_dec 0 (snd q)) as [Lq | Lq].
    + destruct (Qlt_le_dec (- fst p / snd p) (- fst q / snd q)) as [L | L].
      * exists q. split; [ right; left; reflexivity | ]. split; [ exact Lq | ]. split; [ lra | ].
        intros r [<- | Hr] Hrp; [ lra | ]. specialize (Hmax r Hr Hrp). lra.
      * exists p. split; [ destruct Hp; [ left; assumption | right; right; assumption ] | ].
        split; [ exact Hpos | ]. split; [ exact H0 | ]. intros r [<- | Hr] Hrp; [ exact L | auto ].
    + exists p. split; [ destruct Hp; [ left; assumption | right; right; assumption ] | ].
      split; [ exact Hpos | ]. split; [ exact H0 | ]. intros r [<- | Hr] Hrp; [ lra | auto ].
Qed.

Lemma min_upper : forall (l : list (Q * Q)), exists p, In p ((1, -1) :: l) /\ snd p < 0 /\ - fst p / snd p <= 1 /\
  forall q, In q l -> snd q < 0 -> - fst p / snd p <= - fst q / snd q.
Proof.
  induction l as [ | q l IH].
  - exists (1, -1). cbn [fst snd In]. repeat split; auto; try lra; try (intros ? []).
    assert (E : - (1) / -1 == 1) by field. rewrite E. lra.
  - destruct IH as (p & Hp & Hpos & H0 & Hmax).
    destruct (Qlt_le_dec (snd q) 0) as [Lq | Lq].
    + destruct (Qlt_le_dec (- fst q / snd q) (- fst p / snd p)) as [L | L].
      * exists q. split; [ right; left; reflexivity | ]. split; [ exact Lq | ]. split; [ lra | ].
        intros r [<- | Hr] Hrp; [ lra | ]. specialize (Hmax r Hr Hrp). lra.
      * exists p. split; [ destruct Hp; [ left; assumption | right; right; assumption ] | ].
        split; [ exact Hpos | ]. split; [ exact H0 | ]. intros r [<- | Hr] Hrp; [ exact L | auto ].
    + exists p. split; [ destruct Hp; [ left; assumption | right; right; assumption ] | ].
      split; [ exact Hpos | ]. split; [ exact H0 | ]. intros r [<- | Hr] Hrp; [ lra | auto ].
Qed.

Lemma lower_ok : forall a b t : Q, 0 < b -> (- a / b <= t <-> 0 <= a + t * b).
Proof.
  intros a b t Hb. split; intro H.
  - apply (Qmult_le_compat_r _ _ b) in H; [ | lra ].
    setoid_replace (- a / b * b) with (- a) in H by (field; lra). lra.
  - apply Qle_shift_div_r; [ exact Hb | lra ].
Qed.
Lemma upper_ok : forall a b t : Q, b < 0 -> (t <= - a / b <-> 0 <= a + t * b).
Proof.
  intros a b t Hb. assert (E : - a / b == a / - b) by (field; lra). rewrite E. split; intro H.
  - apply (Qmult_le_compat_r _ _ (- b)) in H; [ | lra ].
    setoid_replace (a / - b * - b) with a in H by (field; lra). lra.
  - apply Qle_shift_div_l; [ lra | lra ].
Qed.

Lemma helly : forall (l : list (Q * Q)),
  (exists t, 0 <= t /\ t <= 1 /\ forall p, In p l -> 0 <= fst p + t * snd p) \/
  excludes ((0, 1) :: (1, -1) :: l).
Proof.
  intro l.
  assert (Z : (exists p, In p l /\ snd p == 0 /\ fst p < 0) \/ forall p, In p l -> snd p == 0 -> 0 <= fst p).
  { induction l as [ | q l IH]; [ right; intros p [] | ].
    destruct IH as [ (p & Hp & H1 & H2) | IH].
    - left. exists p. repeat split; auto. right; exact Hp.
    - destruct (Qeq_dec (snd q) 0) as [E | E].
      + destruct (Qlt_le_dec (fst q) 0) as [L | L].
        * left. exists q. repeat split; auto. left; reflexivity.
        * right. intros p [<- | Hp] K; auto.
      + right. intros p [<- | Hp] K; [ contradiction | auto ]. }
  destruct Z as [ (p & Hp & H1 & H2) | Z].
  - right. exists p, p, 1, 0. repeat split; try lra; right; right; exact Hp.
  - destruct (max_lower l) as (p & Hp & Pp & P0 & Pm). destruct (min_upper l) as (q & Hq & Pq & Q0 & Qm).
    destruct (Qlt_le_dec (- fst q / snd q) (- fst p / snd p)) as [L | L].
    + right. exists p, q, (- snd q), (snd p).
      split; [ destruct Hp; [ left; assumption | right; right; assumption ] | ].
      split; [ destruct Hq; [ right; left; assumption | right; right; assumption ] | ].
      split; [ lra | ]. split; [ lra | ]. split; [ ring | ].
      assert (N : ~ 0 <= fst q + - fst p / snd p * snd q).
      { intro K. apply upper_ok in K; [ | exact Pq ]. lra. }
      assert (E : - fst p / snd p * snd p == - fst p) by (field; lra).
      set (r := - fst p / snd p) in *. assert (N' : fst q + r * snd q < 0) by lra.
      assert (X : 0 < snd p * - (fst q + r * snd q)) by (apply Qmult_lt_0_compat; lra).
      assert (Y : snd p * (r * snd q) == - fst p * snd q).
      { rewrite <- E. ring. }
      assert (W : snd p * - (fst q + r * snd q) == - (snd p * fst q) - snd p * (r * snd q)) by ring.
      lra.
    + left. exists (- fst p / snd p). split; [ exact P0 | ]. split; [ lra | ].
      intros r Hr. destruct (Qlt_le_dec 0 (snd r)) as [Lr | Lr].
      * apply lower_ok; [ exact Lr | auto ].
      * destruct (Qlt_le_dec (snd r) 0) as [Lr' | Lr'].
        -- apply upper_ok; [ exact Lr' | ]. specialize (Qm r Hr Lr'). lra.
        -- assert (E : snd r == 0) by lra. rewrite E. specialize (Z r Hr E). lra.
Qed.

(** A segment that avoids a polytope still does when it is moved a little. *)
Lemma ev_segment : forall cs x y w,
  (forall z, in_segment z x y -> ~ sat cs z) ->
  eventually (fun e => forall z, in_segment z (along x e w) (along y e w) -> ~ sat cs z).
Proof.
  intros cs x y w H. set (d := vsub y x).
  destruct (helly (map (fun g => (aev g x, vdot (ak g) d)) cs)) as [ (t & H0 & H1 & Ht) | Hex].
  - exfalso. apply (H (along x t d)).
    + exists t. split; [ lra | ]. apply same_refl.
    + unfold sat. apply Forall_forall. intros g Hg. rewrite aev_along.
      exact (Ht (aev g x, vdot (ak g) d) (in_map (fun g => (aev g x, vdot (ak g) d)) cs g Hg)).
  - destruct Hex as (p & q & k & m & Hp & Hq & Hk & Hm & E & N).
    (* the value of the corresponding inequality at (t, e) *)
    assert (V : forall p : Q * Q, In p ((0, 1) :: (1, -1) :: map (fun g => (aev g x, vdot (ak g) d)) cs) ->
      exists c, forall e t z, 0 <= t -> t <= 1 -> same z (along (along x e w) t (vsub (along y e w) (along x e w))) ->
        sat cs z -> 0 <= fst p + t * snd p + e * c).
    { intros r [<- | [<- | Hr] ].
      - exists 0. intros e t z T0 T1 _ _. cbn [fst snd]. lra.
      - exists 0. intros e t z T0 T1 _ _. cbn [fst snd]. lra.
      - apply in_map_iff in Hr. destruct Hr as (g & <- & Hg). exists (vdot (ak g) w).
        intros e t z T0 T1 Hz Hs. cbn [fst snd].
        assert (G := proj1 (Forall_forall _ _) (sat_same _ _ _ Hz Hs) g Hg). cbv beta in G.
        assert (EE : aev g (along (along x e w) t (vsub (along y e w) (along x e w))) ==
          aev g x + t * vdot (ak g) d + e * vdot (ak g) w).
        { unfold d. clear. destruct g as [gk gc]. crush. ring. }
        rewrite EE in G. exact G. }
    destruct (V p Hp) as (c1 & V1). destruct (V q Hq) as (c2 & V2).
    generalize (ev_neg (k * fst p + m * fst q) (k * c1 + m * c2) N). apply ev_mono.
    intros e He Hneg z (t & (T0 & T1) & Hz) Hs.
    specialize (V1 e t z T0 T1 Hz Hs). specialize (V2 e t z T0 T1 Hz Hs).
    pose proof (Qmult_le_0_compat _ _ Hk V1) as X1. pose proof (Qmult_le_0_compat _ _ Hm V2) as X2.
    assert (Z : k * (fst p + t * snd p + e * c1) + m * (fst q + t * snd q + e * c2) ==
      (k * fst p + m * fst q + e * (k * c1 + m * c2)) + t * (k * snd p + m * snd q)) by ring.
    rewrite E in Z. lra.
Qed.

(** A point off a polytope: the way to the moved point avoids it. *)
Lemma ev_point : forall cs x w, ~ sat cs x ->
  eventually (fun e => forall z, in_segment z x (along x e w) -> ~ sat cs z).
Proof.
  intros cs x w H. destruct (sat_not cs x H) as (g & Hg & Hn).
  generalize (ev_neg (aev g x) (vdot (ak g) w) Hn). intros [e0 [He0 Hr] ]. exists e0. split; [ exact He0 | ].
  intros e He Hle z (t & (T0 & T1) & Hz) Hs.
  assert (G := proj1 (Forall_forall _ _) (sat_same _ _ _ Hz Hs) g Hg). cbv beta in G.
  assert (EE : aev g (along x t (vsub (along x e w) x)) == aev g x + (t * e) * vdot (ak g) w).
  { clear. destruct g as [gk gc]. crush. ring. }
  rewrite EE in G. destruct (Qlt_le_dec 0 t) as [L | L].
  - assert (0 < t * e) by (apply Qmult_lt_0_compat; lra).
    assert (t * e <= e0) by nra. specialize (Hr (t * e) ltac:(lra) ltac:(lra)). lra.
  - assert (E : t == 0) by lra. rewrite E in G. lra.
Qed.

(** ** A direction off finitely many planes *)
Definition zero3 : vec3 := (0, 0, 0).
Lemma vdot_comm : forall a b, vdot a b == vdot b a.
Proof. crush. ring. Qed.
Lemma vdot_add_r : forall k p t v, vdot k (along p t v) == vdot k p + t * vdot k v.
Proof. crush. ring. Qed.

Lemma generic : forall ns, (forall n, In n ns -> ~ same n zero3) ->
  exists w, forall n, In n ns -> ~ vdot n w == 0.
Proof.
  induction ns as [ | n ns IH]; intro H.
  - exists zero3. intros n [].
  - destruct IH as [w Hw]; [ intros; apply H; right; assumption | ].
    destruct (Qeq_dec (vdot n w) 0) as [E | E].
    + assert (EV : eventually (fun t => forall k, In k ns -> ~ vdot k w + t * vdot k n == 0)).
      { apply ev_list. intros k Hk. apply ev_nonzero. right. apply Hw, Hk. }
      destruct (ev_witness _ EV) as (t & Ht & Hk). exists (along w t n).
      intros k [<- | Hin]; rewrite vdot_add_r; [ | auto ]. rewrite E.
      intro K. assert (K' : t * vdot n n == 0) by lra. apply Qmult_integral in K'.
      destruct K' as [K' | K']; [ lra | ]. apply (H n); [ left; reflexivity | ]. apply vdot_self_zero, K'.
    + exists w. intros k [<- | Hin]; auto.
Qed.

(** A nonzero vector orthogonal to a given one. *)
Lemma orthogonal : forall d, exists m, ~ same m zero3 /\ vdot m d == 0.
Proof.
  intros d. destruct (Qeq_dec (vx d) 0) as [E | E].
  - exists (1, 0, 0). split.
    + intros (H & _). unfold zero3 in H. cbn [vx vy vz fst snd] in H. lra.
    + unfold vdot. cbn [vx vy vz fst snd]. rewrite E. ring.
  - exists (vy d, - vx d, 0). split.
    + intros (_ & H & _). unfold zero3 in H. cbn [vx vy vz fst snd] in H. apply E. lra.
    + unfold vdot. cbn [vx vy vz fst snd]. ring.
Qed.
