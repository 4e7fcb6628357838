From Coq Require Import QArith Reals Qreals Lia Lra.
From Verif Require Import Model_base Model_geometry Model_local Spec_radial Proof_radial.
Local Open Scope R_scope.

Lemma Q2R_0 : Q2R 0 = 0. Proof. unfold Q2R. simpl. lra. Qed.

Lemma Qpos_R : forall x : Q, (0 < x)%Q <-> 0 < Q2R x.
Proof.
  intros x. rewrite <- Q2R_0. split; [apply Qlt_Rlt|apply Rlt_Qlt].
Qed.
Lemma Qneg_R : forall x : Q, (x < 0)%Q <-> Q2R x < 0.
Proof.
  intros x. rewrite <- Q2R_0. split; [apply Qlt_Rlt|apply Rlt_Qlt].
Qed.
Lemma Qzero_R : forall x : Q, (x == 0)%Q <-> Q2R x = 0.
Proof.
  intros x. rewrite <- Q2R_0. split; [apply Qeq_eqR|apply eqR_Qeq].
Qed.

(** The angles of a bin. *)
Definition angle_region (b : nat) (t : R) : Prop :=
  match b with
  | 0%nat => t = 0
  | 1%nat => 0 < t < PI / 2
  | 2%nat => t = PI / 2
  | 3%nat => PI / 2 < t < PI
  | 4%nat => t = PI
  | 5%nat => PI < t < 3 * (PI / 2)
  | 6%nat => t = 3 * (PI / 2)
  | 7%nat => 3 * (PI / 2) < t < 2 * PI
  | _ => False
  end.

Lemma angle_cases : forall t, 0 <= t < 2 * PI -> exists b, (b <= 7)%nat /\ angle_region b t.
Proof.
  intros t Ht. pose proof PI_RGT_0 as HP.
  destruct (Rtotal_order t (PI / 2)) as [H|[H|H]].
  - destruct (Req_dec t 0) as [E|E]; [exists 0%nat|exists 1%nat]; (split; [lia|]); simpl; lra.
  - exists 2%nat. split; [lia|]. auto.
  - destruct (Rtotal_order t PI) as [H1|[H1|H1]].
    + exists 3%nat. split; [lia|]. simpl. lra.
    + exists 4%nat. split; [lia|]. auto.
    + destruct (Rtotal_order t (3 * (PI / 2))) as [H2|[H2|H2]];
      [exists 5%nat|exists 6%nat|exists 7%nat]; (split; [lia|]); simpl; lra.
Qed.

Definition trig_region (b : nat) (c s : R) : Prop :=
  match b with
  | 0%nat => 0 < c /\ s = 0
  | 1%nat => 0 < c /\ 0 < s
  | 2%nat => c = 0 /\ 0 < s
  | 3%nat => c < 0 /\ 0 < s
  | 4%nat => c < 0 /\ s = 0
  | 5%nat => c < 0 /\ s < 0
  | 6%nat => c = 0 /\ s < 0
  | 7%nat => 0 < c /\ s < 0
  | _ => False
  end.

Lemma cos_4th : forall t, 3 * (PI / 2) < t < 2 * PI -> 0 < cos t.
Proof.
  intros t Ht. replace t with ((t - 2 * PI) + 2 * INR 1 * PI) by (simpl; lra).
  rewrite cos_period. apply cos_gt_0; lra.
Qed.

Lemma angle_trig : forall b t, angle_region b t -> trig_region b (cos t) (sin t).
Proof.
  intros b t. pose proof PI_RGT_0 as HP.
  destruct b as [|[|[|[|[|[|[|[|b]]]]]]]]; simpl; intros H; try contradiction; try subst t; split.
  - rewrite cos_0. lra.
  - apply sin_0.
  - apply cos_gt_0; lra.
  - apply sin_gt_0; lra.
  - apply cos_PI2.
  - rewrite sin_PI2. lra.
  - apply cos_lt_0; lra.
  - apply sin_gt_0; lra.
  - rewrite cos_PI. lra.
  - apply sin_PI.
  - apply cos_lt_0; lra.
  - apply sin_lt_0; lra.
  - apply cos_3PI2.
  - rewrite sin_3PI2. lra.
  - apply cos_4th; lra.
  - apply sin_lt_0; lra.
Qed.

Lemma scale_pos : forall a x r y, 0 < a -> 0 < r -> a * x = r * y ->
  (0 < x <-> 0 < y) /\ (x < 0 <-> y < 0) /\ (x = 0 <-> y = 0).
Proof.
  intros a x r y Ha Hr E.
  assert (Hx : x = (r / a) * y). { apply (Rmult_eq_reg_l a); [|lra]. rewrite E. field. lra. }
  assert (Hk : 0 < r / a) by (apply Rdiv_lt_0_compat; lra).
  set (k := r / a) in *. clearbody k. subst x. clear E.
  destruct (Rtotal_order y 0) as [H|[H|H]].
  - assert (k * y < 0) by (rewrite <- (Rmult_0_r k); apply Rmult_lt_compat_l; lra). lra.
  - subst y. rewrite Rmult_0_r. lra.
  - assert (0 < k * y) by (apply Rmult_lt_0_compat; lra). lra.
Qed.

Lemma bin_region_unique : forall b b' x y, bin_region b x y -> bin_region b' x y -> b = b'.
Proof.
  intros b b' x y H1 H2.
  apply (radial_bin_region (x, y) b) in H1. apply (radial_bin_region (x, y) b') in H2. congruence.
Qed.

Lemma angle_bin : forall al be f t, 0 < al -> 0 < be -> at_angle al be f t ->
  radial_bin_of (r_uv f) = Ok (radial_bin f) -> angle_region (radial_bin f) t.
Proof.
  intros al be f t Ha Hb (Ht & rho & Hr & Ex & Ey) Hbin.
  destruct (angle_cases t Ht) as (b & Hb7 & Hreg).
  enough (b = radial_bin f) by (subst b; auto).
  apply radial_bin_region in Hbin.
  apply (bin_region_unique b _ (fst (r_uv f)) (snd (r_uv f))); auto.
  apply angle_trig in Hreg.
  destruct (scale_pos _ _ _ _ Ha Hr Ex) as (X1 & X2 & X3).
  destruct (scale_pos _ _ _ _ Hb Hr Ey) as (Y1 & Y2 & Y3).
  destruct b as [|[|[|[|[|[|[|[|b]]]]]]]]; simpl in *; try contradiction;
    rewrite ?Qpos_R, ?Qneg_R, ?Qzero_R; tauto.
Qed.

Lemma region_order : forall b b' t t', angle_region b t -> angle_region b' t' -> (b < b')%nat -> t < t'.
Proof.
  intros b b' t t' H H' Hlt. pose proof PI_RGT_0 as HP.
  destruct b as [|[|[|[|[|[|[|[|b]]]]]]]]; try contradiction;
  destruct b' as [|[|[|[|[|[|[|[|b']]]]]]]]; try contradiction; try lia; simpl in H, H'; lra.
Qed.

Lemma region_close : forall b t t', angle_region b t -> angle_region b t' -> - (PI / 2) < t' - t < PI / 2.
Proof.
  intros b t t' H H'. pose proof PI_RGT_0 as HP.
  destruct b as [|[|[|[|[|[|[|[|b]]]]]]]]; try contradiction; simpl in H, H'; lra.
Qed.

Lemma sin_small : forall t, - (PI / 2) < t < PI / 2 -> (0 < sin t <-> 0 < t).
Proof.
  intros t Ht. pose proof PI_RGT_0 as HP. split; intros H.
  - destruct (Rtotal_order t 0) as [K|[K|K]]; auto.
    + exfalso. assert (sin t < 0); [|lra].
      rewrite <- (Ropp_involutive t), sin_neg. pose proof (sin_gt_0 (- t)). lra.
    + subst t. rewrite sin_0 in H. lra.
  - apply sin_gt_0; lra.
Qed.

Lemma det2_angle : forall al be f g t t', 0 < al -> 0 < be ->
  at_angle al be f t -> at_angle al be g t' ->
  ((0 < det2 (r_uv f) (r_uv g))%Q <-> 0 < sin (t' - t)).
Proof.
  intros al be f g t t' Ha Hb (_ & rho & Hr & Ex & Ey) (_ & rho' & Hr' & Ex' & Ey').
  rewrite Qpos_R. unfold det2.
  rewrite Q2R_minus, !Q2R_mult.
  set (x := Q2R (fst (r_uv f))) in *. set (y := Q2R (snd (r_uv f))) in *.
  set (x' := Q2R (fst (r_uv g))) in *. set (y' := Q2R (snd (r_uv g))) in *.
  rewrite sin_minus.
  apply (scale_pos (al * be) _ (rho * rho')).
  - now apply Rmult_lt_0_compat.
  - now apply Rmult_lt_0_compat.
  - replace (al * be * (x * y' - y * x')) with ((al * x) * (be * y') - (be * y) * (al * x')) by ring.
    rewrite Ex, Ey, Ex', Ey'. ring.
Qed.

Lemma radial_less_angle : forall (S : around -> Prop) al be f g t t',
  same_edge S -> 0 < al -> 0 < be -> S f -> S g ->
  at_angle al be f t -> at_angle al be g t' -> (radial_less f g = true <-> t < t').
Proof.
  intros S al be f g t t' HS Ha Hb Hf Hg Af Ag.
  rewrite (radial_less_iff S HS f g Hf Hg). unfold angle_less.
  rewrite (det2_angle al be f g t t' Ha Hb Af Ag).
  pose proof (angle_bin al be f t Ha Hb Af (proj1 HS f Hf)) as Rf.
  pose proof (angle_bin al be g t' Ha Hb Ag (proj1 HS g Hg)) as Rg.
  destruct (lt_eq_lt_dec (radial_bin f) (radial_bin g)) as [[H|H]|H].
  - pose proof (region_order _ _ _ _ Rf Rg H). split; auto.
  - rewrite H in Rf |- *. pose proof (region_close _ _ _ Rf Rg) as Hc.
    rewrite (sin_small _ Hc). split.
    + intros [K|(_ & K)]; [lia|lra].
    + intros K. right. split; auto. lra.
  - pose proof (region_order _ _ _ _ Rg Rf H). split; [intros [K|(K & _)]; lia|lra].
Qed.

Lemma polar : forall x y : R, x <> 0 \/ y <> 0 ->
  exists t rho, 0 <= t < 2 * PI /\ 0 < rho /\ x = rho * cos t /\ y = rho * sin t.
Proof.
  intros x y H. pose proof PI_RGT_0 as HP.
  assert (Hs : 0 < x * x + y * y).
  { destruct H as [H|H].
    - pose proof (Rsqr_pos_lt x H). pose proof (Rle_0_sqr y). unfold Rsqr in *. lra.
    - pose proof (Rsqr_pos_lt y H). pose proof (Rle_0_sqr x). unfold Rsqr in *. lra. }
  set (rho := sqrt (x * x + y * y)).
  assert (Hr : 0 < rho) by (apply sqrt_lt_R0; auto).
  assert (Hrr : rho * rho = x * x + y * y) by (apply sqrt_sqrt; lra).
  assert (Hc : (x / rho) * (x / rho) <= 1).
  { replace (x / rho * (x / rho)) with ((x * x) / (rho * rho)) by (field; lra). rewrite Hrr.
    apply (Rmult_le_reg_r (x * x + y * y)); auto. unfold Rdiv. rewrite Rmult_assoc, Rinv_l by lra.
    pose proof (Rle_0_sqr y). unfold Rsqr in *. lra. }
  assert (Hc1 : -1 <= x / rho <= 1).
  { split.
    - destruct (Rle_lt_dec (-1) (x / rho)); auto. exfalso.
      assert (1 < - (x / rho)) by lra.
      pose proof (Rmult_gt_0_lt_compat 1 (- (x / rho)) 1 (- (x / rho)) ltac:(lra) ltac:(lra) H0 H0). lra.
    - destruct (Rle_lt_dec (x / rho) 1); auto. exfalso.
      pose proof (Rmult_gt_0_lt_compat 1 (x / rho) 1 (x / rho) ltac:(lra) ltac:(lra) r r). lra. }
  set (t0 := acos (x / rho)).
  assert (B : 0 <= t0 <= PI) by apply acos_bound.
  assert (C : rho * cos t0 = x). { unfold t0. rewrite cos_acos by lra. field. lra. }
  assert (S0 : 0 <= sin t0) by (apply sin_ge_0; lra).
  assert (S2 : (rho * sin t0) * (rho * sin t0) = y * y).
  { pose proof (sin2_cos2 t0) as E. unfold Rsqr in E.
    replace (rho * sin t0 * (rho * sin t0)) with (rho * rho * (sin t0 * sin t0)) by ring.
    replace (sin t0 * sin t0) with (1 - cos t0 * cos t0) by lra.
    replace (rho * rho * (1 - cos t0 * cos t0)) with (rho * rho - (rho * cos t0) * (rho * cos t0)) by ring.
    rewrite C, Hrr. ring. }
  assert (S1 : 0 <= rho * sin t0) by (apply Rmult_le_pos; lra).
  destruct (Rle_lt_dec 0 y) as [Hy|Hy].
  - exists t0, rho. split; [lra|]. split; auto. split; auto.
    apply Rsqr_inj; auto.
  - exists (2 * PI - t0), rho.
    assert (E : rho * sin t0 = - y) by (apply Rsqr_inj; auto; [lra|unfold Rsqr; lra]).
    assert (t0 <> 0). { intros Q. rewrite Q, sin_0 in E. lra. }
    assert (Hcs : cos (2 * PI - t0) = cos t0 /\ sin (2 * PI - t0) = - sin t0).
    { rewrite cos_minus, sin_minus, cos_2PI, sin_2PI. split; ring. }
    destruct Hcs as (-> & ->). split; [lra|]. split; auto. split; [lra|]. lra.
Qed.

Lemma angle_exists : forall f, radial_bin_of (r_uv f) = Ok (radial_bin f) ->
  forall al be, 0 < al -> 0 < be -> exists t, at_angle al be f t.
Proof.
  intros f Hb al be Ha Hbe.
  destruct (polar (al * Q2R (fst (r_uv f))) (be * Q2R (snd (r_uv f)))) as (t & rho & H1 & H2 & H3 & H4).
  - apply radial_bin_region in Hb. apply (in_bin_axis (radial_bin f) (r_uv f)) in Hb.
    destruct (Req_dec (Q2R (fst (r_uv f))) 0) as [E1|E1].
    + right. intros K. apply Rmult_integral in K. destruct K as [K|K]; [lra|]. apply Hb.
      split; now apply Qzero_R.
    + left. intros K. apply Rmult_integral in K. destruct K; lra.
  - exists t. split; auto. exists rho. auto.
Qed.
