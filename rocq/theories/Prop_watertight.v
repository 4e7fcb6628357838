(** * C63: Results are watertight *)
From Coq Require Import List Arith Bool NArith ZArith QArith Qminmax Lqa Lia Permutation.
From Verif Require Import Model_base Proof_base Model_soup Model_geometry Spec_candidates Model_aabb Spec_aabb Model_parallel_do Model_boolean Model_candidates Model_classify Model_local Model_corefine Model_side Model_mix Model_schedule.
From Verif Require Import Model_defects Spec_defects Model_overlap Spec_ffi Spec_overlap.
From Verif Require Import Model_find Spec_boolean Spec_radial Spec_local Spec_conform Spec_mix Spec_cut Spec_side Spec_solid Spec_corefine Spec_whole Spec_delaunay Spec_again Spec_find Spec_visible Spec_balance Spec_watertight Proof_find.
From Verif Require Import Proof_fan Proof_extreme Proof_exact Proof_bridge Proof_cells Proof_hull Proof_planes Proof_clip Proof_pairs Proof_whole Proof_whole_ex Proof_again Prop_aabb Prop_local Prop_corefine Prop_cut Prop_side Prop_solid Prop_conform Prop_whole Prop_schedule Prop_again Prop_again_ex Prop_connected Prop_whole_ex.
From Verif Require Import Proof_affine Proof_small Proof_walk Proof_link Proof_winding Proof_hinge Proof_twosides Proof_oneset Proof_separate Proof_balance Proof_visible Proof_watertight.
From Verif Require Import Prop_defects Prop_find Prop_find_op Proof_defect_edges.
From Verif Require Import Spec_corefine Spec_side Spec_solid Spec_visible Spec_whole Spec_again Spec_watertight.
Import ListNotations.
Local Open Scope nat_scope.

Lemma counts_none : forall Q : nat -> Prop, (forall i, ~ Q i) -> counts Q 0.
Proof. intros Q H. exists []. split; [ apply NoDup_nil | ]. split; [ reflexivity | ]. intro i. split; [ intros [] | apply H ]. Qed.
Lemma in_or_not : forall {A} (x : A) l, (forall y : A, x = y \/ x <> y) -> In x l \/ ~ In x l.
Proof.
  intros A x l Hd. induction l as [ | y l IH]; [ right; intros [] | ]. destruct (Hd y) as [-> | N]; [ left; left; reflexivity | ].
  destruct IH as [J | J]; [ left; right; exact J | right; intros [-> | K]; [ exact (N eq_refl) | exact (J K) ] ].
Qed.
Lemma segment_or_not : forall m a b, in_segment m a b \/ ~ in_segment m a b.
Proof.
  intros m a b. destruct (Qeq_dec (vdot (vsub b a) (vsub b a)) 0) as [Z | N].
  - apply vdot_self_zero in Z. destruct Z as (Z1 & Z2 & Z3).
    assert (D : same m a \/ ~ same m a) by (unfold same; destruct (Qeq_dec (vx m) (vx a)), (Qeq_dec (vy m) (vy a)), (Qeq_dec (vz m) (vz a)); tauto).
    destruct D as [E | E]; [ left | right ].
    + exists 0%Q. split; [ lra | ]. destruct E as (E1 & E2 & E3). unfold same, along. cbn [vx vy vz fst snd]. rewrite E1, E2, E3. repeat split; ring.
    + intros (s & _ & S1 & S2 & S3). apply E. unfold same, along in *. cbn [vx vy vz fst snd] in *. rewrite Z1 in S1. rewrite Z2 in S2. rewrite Z3 in S3. repeat split; lra.
  - set (d := vsub b a) in *. set (t := (vdot (vsub m a) d / vdot d d)%Q).
    assert (D : same m (along a t d) \/ ~ same m (along a t d)) by (unfold same; destruct (Qeq_dec (vx m) (vx (along a t d))), (Qeq_dec (vy m) (vy (along a t d))), (Qeq_dec (vz m) (vz (along a t d))); tauto).
    assert (U : forall s, same m (along a s d) -> (s == t)%Q).
    { intros s E. assert (X : (vdot (vsub m a) d == s * vdot d d)%Q).
      { destruct E as (E1 & E2 & E3). unfold vdot at 1, vsub at 1 2 3. cbn [vx vy vz fst snd]. rewrite E1, E2, E3. unfold along, vdot. cbn [vx vy vz fst snd]. ring. }
      unfold t. rewrite X. field. exact N. }
    destruct D as [E | E].
    + destruct (Qlt_le_dec t 0) as [L | L]; [ right; intros (s & Hs & Es); specialize (U s Es); lra | ].
      destruct (Qlt_le_dec 1 t) as [L' | L']; [ right; intros (s & Hs & Es); specialize (U s Es); lra | ]. left. exists t. split; [ lra | exact E ].
    + right. intros (s & Hs & Es). apply E. pose proof (U s Es) as E'. apply (same_trans _ _ _ Es). unfold same, along. cbn [vx vy vz fst snd]. fold d. rewrite E'. repeat split; reflexivity.
Qed.

(** A mesh that bounds a set, and that has no degenerate faces, double faces or
    self-intersections, is watertight. *)
Theorem C63_boundaries_are_watertight : forall {P D} (coords : P -> vec3) (m : soup P D) S,
  (forall p q : P, p = q \/ p <> q) -> meets_conditions coords m -> solid (located coords m) S -> watertight m.
Proof.
  intros P D coords m S Hd Hm (Pf & (Wk & Fc) & Dc) p q.
  destruct (tabulate _ (fun i t => face_corners m i t) (num_faces m)) as (ts & L & Ts0).
  { intros i Hi. destruct Hm as (Pr & _). destruct (Pr i Hi) as (t & F & _). eauto. }
  assert (Ts : forall i t, nth_error ts i = Some t <-> face_corners m i t).
  { intros i t. split; [ apply Ts0 | ]. intro F. pose proof (face_range m i t F) as Hi. destruct (nth_error ts i) as [t' | ] eqn:E; [ | apply nth_error_None in E; lia ]. f_equal. eapply face_unique; [ exact (Ts0 i t' E) | exact F ]. }
  assert (Tri : forall t, Proof_winding.tri_of coords t = triangle_of coords t) by (intros [ [a b] c]; reflexivity).
  assert (Hfl : forall t, In t ts -> ~ flat (Proof_winding.tri_of coords t)).
  { intros t J. apply In_nth_error in J. destruct J as (i & E). rewrite Tri. apply nd_flat. exact (corners_nondegenerate coords m Hm i t (Ts0 i t E)). }
  assert (Hap : forall i j t u x, nth_error ts i = Some t -> nth_error ts j = Some u -> in_tri x (Proof_winding.tri_of coords t) -> on_tri x (Proof_winding.tri_of coords u) -> j = i).
  { intros i j t u x Ei Ej. rewrite !Tri. apply (faces_apart coords m Hm); [ apply Ts0, Ei | apply Ts0, Ej ]. }
  assert (Hdf : forall x y z, In (x, y, z) ts -> x <> y /\ y <> z /\ z <> x) by (intros x y z J; apply In_nth_error in J; destruct J as (i & E); exact (corners_differ coords m Hm i x y z (Ts0 _ _ E))).
  assert (Loc : forall i t, nth_error ts i = Some t -> soup_triangle (located coords m) i = Ok (Proof_winding.tri_of coords t)) by (intros i t E; rewrite Tri; apply located_corners; exists t; split; [ exact (Ts0 i t E) | reflexivity ]).
  assert (Cl : forall x, clear coords ts x -> ~ on_boundary (located coords m) x).
  { intros x C O. apply located_boundary in O. destruct O as (i & t & F & O). apply on_inside in O. apply Ts in F. apply (C t (nth_error_In _ _ F)). rewrite Tri. exact O. }
  assert (Ws : walks coords ts S) by (intros x y H; apply Wk; intros z Z; apply Cl, H, Z).
  assert (Fs : fits coords ts S).
  { intros i t z v E I _. pose proof (Loc i t E) as E'. destruct (Proof_winding.tri_of coords t) as [ [a b] c]. destruct (Fc i a b c z v E' I) as (b0 & B0 & Hb).
    exists ((1 # 2) * b0)%Q. split; [ lra | ]. intros e E0 E1. apply Hb. lra. }
  assert (Run : forall a b i, has_side m a b i <-> exists t, nth_error ts i = Some t /\ directed t a b) by (intros a b i; split; intros (t & F & Dt); exists t; (split; [ apply Ts, F | exact Dt ])).
  assert (Sides : forall a b, In (a, b) (all_sides ts) <-> exists i, has_side m a b i).
  { intros a b. unfold all_sides. rewrite in_flat_map. split.
    - intros (t & J & Js). apply In_nth_error in J. destruct J as (i & E). exists i. apply Run. exists t. split; [ exact E | apply listed_side, Js ].
    - intros (i & R). apply Run in R. destruct R as (t & E & Dt). exists t. split; [ eapply nth_error_In, E | apply listed_side, Dt ]. }
  assert (Hd2 : forall (s s' : P * P), s = s' \/ s <> s') by (intros [a b] [a' b']; destruct (Hd a a') as [-> | N], (Hd b b') as [-> | N']; [ left; reflexivity | right; congruence | right; congruence | right; congruence ]).
  assert (Any : (exists a b, ((a = p /\ b = q) \/ (a = q /\ b = p)) /\ In (a, b) (all_sides ts)) \/ (~ In (p, q) (all_sides ts) /\ ~ In (q, p) (all_sides ts))).
  { destruct (in_or_not (p, q) (all_sides ts) (Hd2 (p, q))) as [J | J]; [ left; exists p, q; auto | ]. destruct (in_or_not (q, p) (all_sides ts) (Hd2 (q, p))) as [K | K]; [ left; exists q, p; auto | right; auto ]. }
  destruct Any as [ (a0 & b0 & Hab & J0) | (N1 & N2) ].
  2: { exists 0. split; apply counts_none; intros i R; [ apply N1 | apply N2 ]; apply Sides; eauto. }
  apply Sides in J0. destruct J0 as (i0 & t0 & F0 & D0).
  assert (Hp : has_point t0 p /\ has_point t0 q) by (destruct t0 as [ [x y] z]; cbn [directed has_point] in *; destruct Hab as [ (-> & ->) | (-> & ->) ]; tauto). destruct Hp as (Hp & Hq).
  assert (Npq : p <> q) by (intros <-; destruct t0 as [ [x y] z]; destruct (corners_differ coords m Hm _ _ _ _ F0) as (D1 & D2 & D3); cbn [directed] in D0; intuition congruence).
  assert (Nd0 := corners_nondegenerate coords m Hm i0 t0 F0).
  set (c := mid (coords p) (coords q)).
  assert (O0 : on_tri c (triangle_of coords t0)).
  { apply side_on. assert (X : in_segment c (coords p) (coords q)) by (exists (1 # 2)%Q; split; [ lra | apply same_refl ]). assert (X' := in_segment_sym _ _ _ X).
    destruct t0 as [ [x y] z]. cbn [triangle_of side_in directed] in *. destruct Hab as [ (-> & ->) | (-> & ->) ]; destruct D0 as [ (-> & ->) | [ (-> & ->) | (-> & ->)] ]; auto. }
  apply on_inside in O0. apply inside_feature in O0. destruct O0 as (mi & O0).
  assert (K0 : forall z, In z (pick mi t0) <-> z = p /\ ~ ((1 # 2) == 1)%Q \/ z = q /\ ~ ((1 # 2) == 0)%Q).
  { apply (segment_feature coords t0 p q mi c (1 # 2) Nd0 Hp Hq ltac:(lra)); try exact O0; unfold c, mid, along, vsub; cbn [vx vy vz fst snd]; ring. }
  assert (Hpq : ~ same (coords p) (coords q)).
  { intro E. assert (c' : vec3) by exact c. assert (K1 : forall z, In z (pick mi t0) <-> z = p /\ ~ (0 == 1)%Q \/ z = q /\ ~ (0 == 0)%Q).
    { destruct E as (E1 & E2 & E3). apply (segment_feature coords t0 p q mi c 0 Nd0 Hp Hq ltac:(lra)); try exact O0; unfold c, mid, along, vsub; cbn [vx vy vz fst snd]; rewrite ?E1, ?E2, ?E3; ring. }
    assert (J : In q (pick mi t0)) by (apply K0; right; split; [ reflexivity | lra ]). apply K1 in J. destruct J as [ (J & _) | (_ & J) ]; [ congruence | apply J; reflexivity ]. }
  assert (Hedge : forall a b, In (a, b) (all_sides ts) -> in_segment c (coords a) (coords b) -> (a = p /\ b = q) \/ (a = q /\ b = p)).
  { intros a b J I. apply Sides in J. destruct J as (j & u & Fu & Du). assert (Nu := corners_nondegenerate coords m Hm j u Fu).
    assert (Ha : has_point u a /\ has_point u b) by (destruct u as [ [x y] z]; cbn [directed has_point] in *; tauto). destruct Ha as (Ha & Hb).
    assert (Ou : on_tri c (triangle_of coords u)).
    { apply side_on. destruct u as [ [x y] z]. cbn [triangle_of side_in directed] in *. destruct Du as [ (-> & ->) | [ (-> & ->) | (-> & ->)] ]; auto. }
    apply on_inside in Ou. apply inside_feature in Ou. destruct Ou as (mj & Ou). destruct I as (s & Hs & E1 & E2 & E3).
    assert (Ku : forall z, In z (pick mj u) <-> z = a /\ ~ (s == 1)%Q \/ z = b /\ ~ (s == 0)%Q).
    { apply (segment_feature coords u a b mj c s Nu Ha Hb Hs); try exact Ou; [ rewrite E1 | rewrite E2 | rewrite E3 ]; unfold along, vsub; cbn [vx vy vz fst snd]; ring. }
    destruct Hm as (_ & _ & Si). pose proof (Si i0 j t0 u mi mj c F0 Fu O0 Ou) as E.
    assert (Jp : In p (pick mj u)) by (apply E, K0; left; split; [ reflexivity | lra ]). assert (Jq : In q (pick mj u)) by (apply E, K0; right; split; [ reflexivity | lra ]).
    apply Ku in Jp, Jq. destruct Jp as [ (Jp & _) | (Jp & _) ], Jq as [ (Jq & _) | (Jq & _) ]; subst; auto; contradiction. }
  destruct (around_edge coords ts Hfl Hap S Ws Fs Dc p q Hpq Npq Hdf Hedge) as (f & Sum & Hf).
  { intros a b _. apply segment_or_not. }
  rewrite zsum_picked in Sum by (intros t J; destruct (Hf t J) as [ (-> & _) | [ (-> & _) | (-> & _) ] ]; auto).
  assert (Excl : forall t, In t ts -> directed t p q -> directed t q p -> False).
  { intros [ [x y] z] J A B. destruct (Hdf x y z J) as (D1 & D2 & D3). cbn [directed] in *. intuition congruence. }
  exists (length (picked f 1 ts)). split.
  - exists (picked f 1 ts). split; [ apply picked_nodup | ]. split; [ reflexivity | ]. intro i. rewrite picked_in, Run. split; intros (t & E & H); exists t; (split; [ exact E | ]); pose proof (nth_error_In _ _ E) as J; destruct (Hf t J) as [ (V & A) | [ (V & A) | (V & A & B) ] ]; try assumption; try lia; exfalso; eauto.
  - exists (picked f (-1) ts). split; [ apply picked_nodup | ]. split; [ lia | ]. intro i. rewrite picked_in, Run. split; intros (t & E & H); exists t; (split; [ exact E | ]); pose proof (nth_error_In _ _ E) as J; destruct (Hf t J) as [ (V & A) | [ (V & A) | (V & A & B) ] ]; try assumption; try lia; exfalso; eauto.
Qed.
Print Assumptions C63_boundaries_are_watertight.

(** So is the boundary of a region that represents a set. *)
Theorem C63_regions : forall {P D} (coords : P -> vec3) (r : region P D) S,
  (forall p q : P, p = q \/ p <> q) -> meets_conditions coords (boundary r) -> represents coords r S -> watertight (boundary r).
Proof.
  intros P D coords r S Hd Hm (W & R). unfold wf_region in W. destruct (kind r).
  1,2: rewrite W; intros p q; exists 0; split; apply counts_none; intros i (t & (a & b & c & x & y & z & E & _) & _); destruct i; discriminate E.
  exact (C63_boundaries_are_watertight coords _ S Hd Hm R).
Qed.
Print Assumptions C63_regions.

(** ** What Find_defects reports on it *)
Lemma filter_counts : forall (g : nat * nat * nat -> bool) (l : list (nat * nat * nat)), counts (fun k => exists f, nth_error l k = Some f /\ g f = true) (length (filter g l)).
Proof.
  intros g l. set (h := fun f : nat * nat * nat => if g f then 1%Z else 0%Z). exists (picked h 1 l). split; [ apply picked_nodup | ]. split.
  - induction l as [ | f l IH] using rev_ind; [ reflexivity | ]. rewrite picked_snoc, IH, filter_app, app_length. f_equal. unfold h. cbn [filter]. destruct (g f); reflexivity.
  - intro i. rewrite picked_in. unfold h. split; intros (f & E & H); exists f; (split; [ exact E | ]); destruct (g f); try reflexivity; discriminate.
Qed.

Lemma users_even : forall {P D} (m : soup P D), NoDup (points m) -> valid_faces m -> (forall f, In f (faces m) -> Spec_defects.proper f) -> watertight m ->
  forall i j, i <> j -> users_along m i j = users_along m j i.
Proof.
  intros P D m Np V Pr W i j Nij.
  assert (Z : forall a b, nth_error (points m) a = None \/ nth_error (points m) b = None -> users_along m a b = 0).
    { intros a b H. unfold users_along. destruct (filter (fun f => properb f && Spec_defects.runs f a b) (faces m)) as [ | f l] eqn:E; [ reflexivity | exfalso ].
      assert (J : In f (filter (fun f => properb f && Spec_defects.runs f a b) (faces m))) by (rewrite E; left; reflexivity). apply filter_In in J. destruct J as (J & R). apply andb_true_iff in R. destruct R as (_ & R).
      pose proof (proj1 (Forall_forall _ _) V _ J) as Vf. destruct f as [ [u v] w]. cbn [Spec_defects.runs] in R. rewrite !orb_true_iff, !andb_true_iff, !Nat.eqb_eq in R. destruct Vf as (U & V' & W').
      rewrite !nth_error_None in H. unfold num_vertices in *. lia. }
  destruct (nth_error (points m) i) as [p | ] eqn:Ei, (nth_error (points m) j) as [q | ] eqn:Ej.
  - assert (Same : forall a b p q, nth_error (points m) a = Some p -> nth_error (points m) b = Some q -> (a = b <-> p = q)).
    { intros a b x y A B. split; [ intros ->; congruence | ]. intros ->. apply (proj1 (NoDup_nth_error (points m)) Np); [ apply nth_error_Some; congruence | congruence ]. }
    assert (G : forall a b x y, nth_error (points m) a = Some x -> nth_error (points m) b = Some y -> forall n, counts (has_side m x y) n -> n = users_along m a b).
    { intros a b x y A B n C. unfold users_along. destruct (filter_counts (fun f => properb f && Spec_defects.runs f a b) (faces m)) as (l & Nl & Ll & Hl). change (n = length (filter (fun f : nat * nat * nat => properb f && Spec_defects.runs f a b) (faces m))). rewrite <- Ll.
      apply (counts_unique _ _ l C Nl). intro k. rewrite Hl. split.
      - intros ([ [u v] w] & E & H). apply andb_true_iff in H. destruct H as (_ & H). pose proof (proj1 (Forall_forall _ _) V _ (nth_error_In _ _ E)) as (U & V' & W').
        destruct (nth_error (points m) u) as [pu | ] eqn:Eu; [ | apply nth_error_None in Eu; unfold num_vertices in *; lia ]. destruct (nth_error (points m) v) as [pv | ] eqn:Ev; [ | apply nth_error_None in Ev; unfold num_vertices in *; lia ].
        destruct (nth_error (points m) w) as [pw | ] eqn:Ew; [ | apply nth_error_None in Ew; unfold num_vertices in *; lia ]. exists (pu, pv, pw). split; [ exists u, v, w, pu, pv, pw; auto 8 | ].
        cbn [Spec_defects.runs directed] in *. rewrite !orb_true_iff, !andb_true_iff, !Nat.eqb_eq in H.
        rewrite <- (Same _ _ _ _ A Eu), <- (Same _ _ _ _ A Ev), <- (Same _ _ _ _ A Ew), <- (Same _ _ _ _ B Eu), <- (Same _ _ _ _ B Ev), <- (Same _ _ _ _ B Ew). tauto.
      - intros (t & (u & v & w & pu & pv & pw & E & Eu & Ev & Ew & ->) & Dt). exists (u, v, w). split; [ exact E | ].
        pose proof (Pr _ (nth_error_In _ _ E)) as (N1 & N2 & N3). apply Nat.eqb_neq in N1, N2, N3. apply andb_true_iff. split; [ cbn [properb]; rewrite N1, N2, N3; reflexivity | ].
        cbn [Spec_defects.runs directed] in *. rewrite !orb_true_iff, !andb_true_iff, !Nat.eqb_eq.
        rewrite (Same _ _ _ _ A Eu), (Same _ _ _ _ A Ev), (Same _ _ _ _ A Ew), (Same _ _ _ _ B Eu), (Same _ _ _ _ B Ev), (Same _ _ _ _ B Ew). tauto. }
    destruct (W p q) as (n & C1 & C2). rewrite <- (G i j p q Ei Ej n C1), <- (G j i q p Ej Ei n C2). reflexivity.
  - rewrite !Z; auto.
  - rewrite !Z; auto.
  - rewrite !Z; auto.
Qed.

(** On the boundary of a region that represents a set (without degenerate or double faces
    and self-intersections), Find_defects reports no boundary edge and no inconsistent edge,
    no degenerate and no overlapping faces.  What it may report is edges with four, six, ...
    faces, and non-manifold vertices. *)
Theorem C63_find_defects : forall {P D} (P_eqb : P -> P -> bool) (d0 : D) coords pbox longest_axis sort_by nth_element_by num_threads (r : region P D) S o,
  (forall p q, P_eqb p q = true <-> p = q) -> (forall p, in_box (coords p) (pbox p)) -> rearranges sort_by nth_element_by ->
  represents coords r S -> meets_conditions coords (boundary r) -> (N.of_nat (num_faces (boundary r)) < 2 ^ 32)%N -> 1 <= num_threads ->
  find_defects P_eqb d0 coords pbox longest_axis sort_by nth_element_by num_threads (boundary r) o ->
  exists d, o = Ok d /\ d_boundary d = [] /\ d_inconsistent d = [] /\ d_trivial d = [] /\ d_flat d = [] /\ d_overlapping d = [] /\
    forall i j, In (i, j) (d_edges d) -> exists n, 2 <= n /\ users (d_mesh d) i j = n + n.
Proof.
  intros P D P_eqb d0 coords pbox la sb ne nt r S o He Hb Hre Rp Hm Hn Hnt R. set (m := boundary r) in *.
  assert (V : valid_faces m).
  { destruct Hm as (Pr & _). apply Forall_forall. intros f J. apply In_nth_error in J. destruct J as (i & E). destruct (Pr i) as (t & (a & b & c & p & q & s & Ef & A & B & C & _) & _); [ apply nth_error_Some; congruence | ].
    rewrite E in Ef. injection Ef as ->. unfold num_vertices. repeat split; apply nth_error_Some; congruence. }
  destruct (C57_find_defects_decides P_eqb d0 coords pbox la sb ne nt m _ He Hb Hre V Hn Hnt R) as (d & -> & Co & _). exists d. split; [ reflexivity | ].
  destruct (proj2 Co Hm) as (T1 & T2 & T3).
  assert (Wt : watertight m) by (apply (C63_regions coords r S); [ intros p q; destruct (P_eqb p q) eqn:E; [ left; apply He, E | right; intro X; apply He in X; congruence ] | exact Hm | exact Rp ]).
  destruct (C42_merge P D P_eqb d0 m He V) as (m' & E1 & Dp & Ip & Nf & _ & V' & Fc).
  destruct (C32_edges P D m') as (hes & Eh & He3). destruct (C33_trivial P D m') as (triv & Et & _ & Ht).
  inversion R as [ m1 iso1 vis1 hes1 triv1 flat ov o1 o2 o3 Ef1 Pm1 Pm2 Pm3 Rf Ro Ed | o' Fl | m1 iso1 vis1 hes1 triv1 flat x Ef1 Rf Ed | m1 iso1 vis1 hes1 triv1 flat ov x Ef1 Rf Ro Ed ]; subst.
  2: { exfalso. destruct (find_first P_eqb d0 m); cbn in Fl; [ exact Fl | discriminate Fl | discriminate Fl ]. }
  2, 3: exfalso; destruct x; discriminate Ed.
  unfold find_first in Ef1. rewrite E1 in Ef1. cbn [bind] in Ef1. destruct (isolated_vertices m') as [iso | | ]; try discriminate Ef1. cbn [bind] in Ef1. destruct (non_manifold_vertices m') as [vis | | ]; try discriminate Ef1. cbn [bind] in Ef1.
  rewrite Eh in Ef1. cbn [bind] in Ef1. rewrite Et in Ef1. cbn [bind] in Ef1. injection Ef1 as <- <- <- <- <-.
  cbn [d_trivial d_flat d_overlapping d_boundary d_inconsistent d_edges d_mesh] in *. subst triv.
  assert (Pf : forall f, In f (faces m') -> Spec_defects.proper f).
  { intros f If. destruct (properb f) eqn:Pb.
    - destruct f as [ [a b] c]. cbn [Spec_defects.proper properb] in *. rewrite !andb_true_iff, !negb_true_iff, !Nat.eqb_neq in Pb. tauto.
    - exfalso. apply In_nth_error in If. destruct If as (i & Hi). apply (proj2 (Ht i)). exists f. split; [ exact Hi | ]. destruct f as [ [a b] c].
      intros (N1 & N2 & N3). apply Nat.eqb_neq in N1, N2, N3. cbn [properb] in Pb. rewrite N1, N2, N3 in Pb. discriminate. }
  assert (Wt' : watertight m').
  { intros p q. destruct (Wt p q) as (n & C1 & C2). assert (G : forall a b, counts (has_side m a b) n -> counts (has_side m' a b) n).
    { intros a b (l & Nl & Ll & Hl). exists l. split; [ exact Nl | ]. split; [ exact Ll | ]. intro i. rewrite Hl. split; intros (t & F & Dt); exists t; (split; [ apply Fc, F | exact Dt ]). }
    exists n. auto. }
  assert (Ev := users_even m' Dp V' Pf Wt').
  assert (Nil : forall l : list (nat * nat), (forall i j, ~ In (i, j) l) -> l = []) by (intros [ | [i j] l] X; [ reflexivity | exfalso; apply (X i j); left; reflexivity ]).
  destruct (He3 o1 Pm1) as ((_ & B1) & _). destruct (He3 o2 Pm2) as (_ & (_ & I2) & _). destruct (He3 o3 Pm3) as (_ & _ & (_ & M3)).
  split; [ | split ].
  - apply Nil. intros i j J. apply B1 in J. destruct J as (L & U). rewrite users_split, (Ev i j) in U by lia. lia.
  - apply Nil. intros i j J. apply I2 in J. destruct J as (L & U & U'). rewrite users_split, (Ev i j) in U by lia. rewrite (Ev i j) in U' by lia. lia.
  - split; [ reflexivity | ]. split; [ exact T2 | ]. split; [ exact T3 | ]. intros i j J. apply M3 in J. destruct J as (L & U). exists (users_along m' i j). rewrite users_split, (Ev i j) in * by lia. lia.
Qed.
Print Assumptions C63_find_defects.

(** ** Results of Boolean operations *)

(** If the evaluation of an expression over regions that meet the conditions ends without an
    exception, the boundary of its result is watertight, and Find_defects reports no boundary
    edge, no inconsistent edge, no degenerate and no overlapping faces on it. *)
Theorem C63_expressions : forall {P D} P_eqb coords pbox longest_axis sort_by nth_element_by cll cpl accepts cdt_faces
    base1 base2 sort_around centroid side_of num_threads (d0 : D) (e : expression P D) r w,
  right_oracles P_eqb coords pbox sort_by nth_element_by cll cpl accepts base1 base2 sort_around centroid num_threads ->
  let evaluates := evaluates P_eqb coords pbox longest_axis sort_by nth_element_by cll cpl accepts cdt_faces base1 base2 sort_around centroid
    side_of num_threads d0 in
  all_given (fun r A => represents coords r A /\ meets_conditions coords (boundary r)) e ->
  all_operands evaluates (can_be_mixed P_eqb coords pbox longest_axis sort_by nth_element_by cll cpl accepts cdt_faces side_of num_threads) e ->
  evaluates e (Ok (r, w)) ->
  watertight (boundary r) /\
  forall num_threads' o, (N.of_nat (num_faces (boundary r)) < 2 ^ 32)%N -> 1 <= num_threads' ->
    find_defects P_eqb d0 coords pbox longest_axis sort_by nth_element_by num_threads' (boundary r) o ->
    exists d, o = Ok d /\ d_boundary d = [] /\ d_inconsistent d = [] /\ d_trivial d = [] /\ d_flat d = [] /\ d_overlapping d = [].
Proof.
  intros P D P_eqb coords pbox la sb nb cll cpl accepts cdt_faces base1 base2 sa centroid side_of nt d0 e r w Hor ev G M H.
  destruct (C52_expressions _ _ _ _ _ _ _ _ _ _ _ _ _ _ _ _ _ e _ Hor G M H) as [ (q & E & Cm & _ & S & R & _) | (E & _) ]; [ injection E as <- _ | discriminate E ].
  pose proof (proj1 Hor) as K. split.
  - apply (C63_regions coords r S); [ | exact Cm | exact R ]. pose proof (ek_eqb _ _ _ _ _ _ _ K) as He. intros p q. destruct (P_eqb p q) eqn:E; [ left; apply He, E | right; intro X; apply He in X; congruence ].
  - intros nt' o Hn Hnt F. destruct (C63_find_defects P_eqb d0 coords pbox la sb nb nt' r S o) as (d & E & B1 & B2 & B3 & B4 & B5 & _); try assumption; try apply K. exists d. auto 8.
Qed.
Print Assumptions C63_expressions.

(** The same with the rays of Side_of_triangle_soup. *)
Theorem C63_expressions_with_rays : forall {P D} P_eqb coords pbox longest_axis sort_by nth_element_by cll cpl accepts cdt_faces
    base1 base2 sort_around centroid pbox3 ray_triangle ray_meets_box partial_sort2 tree_of num_threads (d0 : D) (e : expression P D) r w,
  right_oracles P_eqb coords pbox sort_by nth_element_by cll cpl accepts base1 base2 sort_around centroid num_threads ->
  (forall x, in_box x (pbox3 x)) -> exact_intersection ray_triangle -> sound_box_test ray_meets_box -> sorts_two partial_sort2 ->
  let evaluates := evaluates P_eqb coords pbox longest_axis sort_by nth_element_by cll cpl accepts cdt_faces base1 base2 sort_around centroid
    (shoot coords ray_triangle ray_meets_box partial_sort2 tree_of) num_threads d0 in
  all_given (fun r A => represents coords r A /\ meets_conditions coords (boundary r)) e ->
  all_operands evaluates
    (can_be_mixed_with_rays P_eqb coords pbox longest_axis sort_by nth_element_by cll cpl accepts cdt_faces pbox3 tree_of num_threads) e ->
  evaluates e (Ok (r, w)) ->
  watertight (boundary r) /\
  forall num_threads' o, (N.of_nat (num_faces (boundary r)) < 2 ^ 32)%N -> 1 <= num_threads' ->
    find_defects P_eqb d0 coords pbox longest_axis sort_by nth_element_by num_threads' (boundary r) o ->
    exists d, o = Ok d /\ d_boundary d = [] /\ d_inconsistent d = [] /\ d_trivial d = [] /\ d_flat d = [] /\ d_overlapping d = [].
Proof.
  intros P D P_eqb coords pbox la sb nb cll cpl accepts cdt_faces base1 base2 sa centroid pbox3 rt rm ps tree_of nt d0 e r w Hor Hpb3 Hrt Hrm Hps ev G M H.
  destruct (C52_expressions_with_rays _ _ _ _ _ _ _ _ _ _ _ _ _ _ _ _ _ _ _ _ _ e _ Hor Hpb3 Hrt Hrm Hps G M H) as [ (q & E & Cm & _ & S & R & _) | (E & _) ]; [ injection E as <- -> | discriminate E ].
  pose proof (proj1 Hor) as K. split.
  - apply (C63_regions coords r S); [ | exact Cm | exact R ]. pose proof (ek_eqb _ _ _ _ _ _ _ K) as He. intros p q. destruct (P_eqb p q) eqn:E; [ left; apply He, E | right; intro X; apply He in X; congruence ].
  - intros nt' o Hn Hnt F. destruct (C63_find_defects P_eqb d0 coords pbox la sb nb nt' r S o) as (d & E & B1 & B2 & B3 & B4 & B5 & _); try assumption; try apply K. exists d. auto 8.
Qed.
Print Assumptions C63_expressions_with_rays.

(** If no two faces run along an edge in the same direction, the mesh is closed in the sense
    of C57, so that Find_defects finds nothing at all that stands in the way of another operation. *)
Theorem C63_closed : forall {P D} (m : soup P D), watertight m ->
  (forall i j p q, has_side m p q i -> has_side m p q j -> i = j) -> closed_mesh m.
Proof.
  intros P D m W U. split.
  - intros i j t u p q Fi Fj Dt Du. apply (U i j p q); [ exists t | exists u ]; auto.
  - intros i t p q Fi Dt. destruct (W p q) as (n & (l & Nl & Ll & Hl) & (l' & _ & Ll' & Hl')).
    assert (J : In i l) by (apply Hl; exists t; auto). destruct l' as [ | j l']; [ destruct l; [ destruct J | cbn in *; lia ] | ].
    destruct (proj1 (Hl' j) (or_introl eq_refl)) as (u & Fu & Du). exists j, u. auto.
Qed.
Print Assumptions C63_closed.
