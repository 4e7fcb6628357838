(** * The faces around an edge where the two solids meet *)
From Coq Require Import List Arith Bool Lia QArith Lqa.
From Verif Require Import Model_base Model_soup Model_mesh Model_geometry Model_boolean Model_classify Model_local Model_side.
From Verif Require Import Spec_boolean Spec_candidates Spec_side Spec_solid Spec_mesh Spec_classify Spec_radial Spec_local Spec_conform Spec_open.
From Verif Require Import Proof_base Proof_affine Proof_small Proof_walk Proof_arranged Proof_solid.
From Verif Require Import Proof_radial Proof_edge Proof_turn Proof_wedge Proof_sectors Proof_conform.
Import ListNotations.
Local Open Scope Q_scope.

Lemma at_scale : forall pa pb u v t l p q, fst p == l * fst q -> snd p == l * snd q ->
  same (at_ pa pb u v t p) (at_ pa pb u v (t * l) q).
Proof.
  intros pa pb u v t l p q E1 E2. unfold same, at_, along, lift. cbn [vx vy vz fst snd]. unfold Qdiv.
  rewrite E1, E2. repeat split; ring.
Qed.

Lemma in_tri_same : forall T x y, same x y -> in_tri x T -> in_tri y T.
Proof.
  intros [ [a b] c] x y (E1 & E2 & E3) (u & v & w & H1 & H2 & H3 & H4 & H5 & H6 & H7).
  exists u, v, w. rewrite <- E1, <- E2, <- E3. repeat split; assumption.
Qed.

Section Border.
  Context {D : Type}.
  Variables (L R : soup vec3 D) (A B : vec3 -> Prop) (m : soup vec3 (mixed_data D)) (border : list edge).
  Variable Dom : vec3 -> Prop.
  Hypothesis HK : open_convex Dom.
  Hypothesis HA : solid_in Dom L A.
  Hypothesis HB : solid_in Dom R B.
  Hypothesis C : conforming L R m border.
  Notation part := (part m).
  Notation bd s := (on_boundary (operand L R s)).
  Notation mem s := (member_of A B s).
  Notation says := (says L R A B m).
  Variable truth : nat -> face_tag.
  Hypothesis Htruth : forall i s T, part i s T -> says s (truth i) T.

  (** A mesh with the same faces. *)
  Variable mm : mesh vec3 (mixed_data D).
  Hypothesis Hpts : m_points mm = points m.
  Hypothesis Hfcs : m_faces mm = faces m.
  Hypothesis Hleft : forall i s T, part i s T -> operand_of mm i = s.

  Variables a b : nat.
  Variables pa pb u v : vec3.
  Variable i0 : nat.
  Hypothesis Nab : a <> b.
  Hypothesis Ia : incident (faces m) i0 a.
  Hypothesis Ib : incident (faces m) i0 b.
  Hypothesis Ha : nth_error (points m) a = Some pa.
  Hypothesis Hb : nth_error (points m) b = Some pb.
  Notation n := (vsub pb pa).
  Hypothesis Hmid : Dom (along pa (1 # 2) n).
  Hypothesis Hn : ~ same n zero3.
  Hypothesis Hun : vdot u n == 0.
  Hypothesis Huu : 0 < vdot u u.
  Hypothesis Hv : v = vcross n u.
  Variable fs : list around.
  Hypothesis Harr : arrangement mm a b u v fs.
  Notation left := (operand_of mm).

  (** What is known about a face around the edge. *)
  Lemma around_face : forall f, In f fs -> exists s T pr, part (fi f) s T /\ left (fi f) = s /\
    nth_error (points m) (vi_r f) = Some pr /\
    (if ccw (orient f) then rot3 T pa pb pr else rot3 T pb pa pr) /\
    r_uv f = proj u v (vsub pr pa) /\ radial_bin_of (r_uv f) = Ok (radial_bin f) /\
    exists t, nth_error (faces m) (fi f) = Some t /\
      (if ccw (orient f) then rotation t a b (vi_r f) else rotation t b a (vi_r f)).
  Proof.
    intros f Hf. destruct Harr as (_ & _ & H & _). destruct (H f Hf) as (t & pa' & pr & H1 & H2 & H3 & H4 & H5 & H6).
    rewrite Hpts in H3, H4. rewrite Hfcs in H1. rewrite Ha in H3. injection H3 as <-.
    destruct (face_part L R m border C (fi f)) as (s & T & HT); [ apply nth_error_Some; congruence | ].
    exists s, T, pr. split; [ exact HT | ]. split; [ exact (Hleft _ _ _ HT) | ]. split; [ exact H4 | ]. split.
    - destruct H2 as [ (E & Hr) | (E & Hr) ]; rewrite E; cbn [ccw].
      + exact (rot_part m (fi f) s T t a b (vi_r f) pa pb pr HT H1 Hr Ha Hb H4).
      + exact (rot_part m (fi f) s T t b a (vi_r f) pb pa pr HT H1 Hr Hb Ha H4).
    - split; [ exact H5 | ]. split; [ exact H6 | ]. exists t. split; [ exact H1 | ].
      destruct H2 as [ (E & Hr) | (E & Hr) ]; rewrite E; exact Hr.
  Qed.

  Lemma ccw_on : forall (c : bool) T pr x, (if c then rot3 T pa pb pr else rot3 T pb pa pr) -> (on_tri x T <-> in_triangle x pa pb pr).
  Proof.
    intros [ | ] T pr x H.
    - exact (rot_on T pa pb pr x H).
    - rewrite (rot_on T pb pa pr x H). apply swap_on.
  Qed.
  Lemma ccw_in : forall (c : bool) T pr x, (if c then rot3 T pa pb pr else rot3 T pb pa pr) -> (in_tri x T <-> in_open_triangle x pa pb pr).
  Proof.
    intros [ | ] T pr x H.
    - exact (rot_in T pa pb pr x H).
    - rewrite (rot_in T pb pa pr x H). apply swap_in.
  Qed.
  Lemma ccw_normal : forall (c : bool) T pr w, (if c then rot3 T pa pb pr else rot3 T pb pa pr) ->
    vdot (tri_normal T) w == (if c then 1 else -1) * vdot (normal pa pb pr) w.
  Proof.
    intros [ | ] T pr w H; apply rot_normal in H; rewrite (vdot_same_l _ _ w H).
    - ring.
    - rewrite (vdot_same_l _ _ w (swap_normal pa pb pr)), vdot_scaled. reflexivity.
  Qed.

  Definition pt (r : nat) : vec3 := nth r (points m) zero3.
  Lemma pt_eq : forall r pr, nth_error (points m) r = Some pr -> pt r = pr.
  Proof. intros r pr H. unfold pt. exact (nth_error_nth _ _ _ H). Qed.

  Definition fan (s : bool) : list (vec3 * bool) :=
    map (fun f => (pt (vi_r f), ccw (orient f))) (filter (fun f => Bool.eqb (left (fi f)) s) fs).
  Lemma in_fan : forall s pr c, In (pr, c) (fan s) <->
    exists f, In f fs /\ left (fi f) = s /\ pt (vi_r f) = pr /\ ccw (orient f) = c.
  Proof.
    intros s pr c. unfold fan. rewrite in_map_iff. split.
    - intros (f & E & H). apply filter_In in H. destruct H as (H1 & H2). apply Bool.eqb_prop in H2. injection E as E1 E2. eauto.
    - intros (f & H1 & H2 & H3 & H4). exists f. split; [ congruence | ]. apply filter_In. split; [ exact H1 | ]. rewrite H2. apply Bool.eqb_reflx.
  Qed.

  Definition pieces_of (s : bool) : list tri3 := flat_map (fun i =>
    match soup_triangle m i, nth_error (face_data m) i with
    | Ok T, Some md => if Bool.eqb (from_left md) s then [T] else [] | _, _ => [] end) (seq 0 (length (faces m))).
  Lemma in_pieces_of : forall s T, In T (pieces_of s) <-> exists i, part i s T.
  Proof.
    intros s T. unfold pieces_of. rewrite in_flat_map. split.
    - intros (i & _ & H). exists i. destruct (soup_triangle m i) as [ U | | ] eqn:E1; try contradiction.
      destruct (nth_error (face_data m) i) as [ md | ] eqn:E2; [ | contradiction ].
      destruct (Bool.eqb (from_left md) s) eqn:E3; [ | contradiction ]. apply Bool.eqb_prop in E3.
      destruct H as [ <- | [] ]. split; [ exact E1 | ]. exists md. auto.
    - intros (i & H). exists i. split; [ apply in_seq; pose proof (part_range m i s T H); lia | ].
      destruct H as (E1 & md & E2 & E3). rewrite E1, E2, E3, Bool.eqb_reflx. now left.
  Qed.

  Lemma flat_ccw : forall (c : bool) T pr, (if c then rot3 T pa pb pr else rot3 T pb pa pr) -> degenerate pa pb pr -> flat T.
  Proof.
    intros c T pr H (E1 & E2 & E3). assert (Z : same (tri_normal T) zero3).
    { destruct c; apply rot_normal in H; destruct H as (H1 & H2 & H3).
      - unfold same, zero3. rewrite H1, H2, H3. auto.
      - destruct (swap_normal pa pb pr) as (S1 & S2 & S3). unfold same, zero3. rewrite H1, H2, H3, S1, S2, S3.
        unfold scaled. cbn [vx vy vz fst snd] in *. fold (vx (normal pa pb pr)) (vy (normal pa pb pr)) (vz (normal pa pb pr)).
        rewrite E1, E2, E3. repeat split; reflexivity. }
    destruct T as [ [x y] z]. exact Z.
  Qed.

  Lemma fan_flat_ : forall s pr c, In (pr, c) (fan s) -> ~ degenerate pa pb pr.
  Proof.
    intros s pr c H K. apply in_fan in H. destruct H as (f & Hf & _ & <- & _).
    destruct (around_face f Hf) as (s' & T & pr & HT & _ & Hp & Hr & _). rewrite (pt_eq _ _ Hp) in K.
    exact (cf_nondegenerate _ _ _ _ C _ _ _ HT (flat_ccw _ T pr Hr K)).
  Qed.

  Lemma middle_segment : in_open_segment (middle pa pb) pa pb.
  Proof. exact (middle_open pa pb). Qed.

  Lemma Ts_fan_ : forall s T, In T (pieces_of s) -> on_tri (middle pa pb) T ->
    exists pr c, In (pr, c) (fan s) /\ forall x, on_tri x T -> in_triangle x pa pb pr.
  Proof.
    intros s T H Ho. apply in_pieces_of in H. destruct H as (i & HT).
    destruct (cf_edge _ _ _ _ C i0 i a b pa pb _ s T Nab Ia Ib Ha Hb middle_segment HT Ho) as (I1 & I2).
    assert (G : In i (map fi fs)). { destruct Harr as (_ & K & _). apply K. rewrite Hfcs. auto. }
    apply in_map_iff in G. destruct G as (f & <- & Hf).
    destruct (around_face f Hf) as (s' & T' & pr & HT' & Hl & Hp & Hr & _).
    destruct (part_fun m _ _ _ _ _ HT HT') as (<- & <-).
    exists pr, (ccw (orient f)). split.
    - apply in_fan. exists f. repeat split; auto. exact (pt_eq _ _ Hp).
    - intros x Hx. exact (proj1 (ccw_on _ T pr x Hr) Hx).
  Qed.

  Lemma fan_face_ : forall s pr c y w, In (pr, c) (fan s) -> in_open_triangle y pa pb pr ->
    ~ vdot (normal pa pb pr) w == 0 ->
    eventually (fun e => mem s (along y e w) <->
      (if c then vdot (normal pa pb pr) w < 0 else 0 < vdot (normal pa pb pr) w)).
  Proof.
    intros s pr c y w H Hy Hw. apply in_fan in H. destruct H as (f & Hf & Hl & Ep & <-).
    destruct (around_face f Hf) as (s' & T & pr' & HT & Hl' & Hp & Hr & _).
    assert (Es : s' = s) by congruence. rewrite Es in HT. rewrite (pt_eq _ _ Hp) in Ep. subst pr'.
    destruct (cf_part _ _ _ _ C _ _ _ HT) as (k & U & HU & Al & Sub).
    destruct (aligned_dot T U w Al) as (l & Hl0 & El). rewrite (ccw_normal _ T pr w Hr) in El.
    apply (ccw_in _ T pr y Hr) in Hy. apply (proj2 (Sub y)) in Hy.
    destruct U as [ [x1 x2] x3]. cbn [in_tri] in Hy.
    destruct (bi_face _ _ _ (op_bounds L R A B Dom HA HB s) k x1 x2 x3 y w HU Hy) as (bound & B0 & HBd).
    exists (bound / 2). split; [ apply Qlt_shift_div_l; lra | ]. intros e E0 E1.
    assert (E2 : e < bound). { apply Qle_lt_trans with (bound / 2); [ exact E1 | ]. apply Qlt_shift_div_r; lra. }
    destruct (HBd e (conj E0 E2)) as (K1 & K2). cbn [tri_normal] in El. clear - El K1 K2 Hw Hl0.
    set (q := vdot (normal x1 x2 x3) w) in *. set (p := vdot (normal pa pb pr) w) in *. clearbody p q.
    assert (S1 : 0 < q -> 0 < l * q) by (intro; apply Qmult_lt_0_compat; assumption).
    assert (S2 : q < 0 -> l * q < 0). { intro Z. assert (0 < l * - q) by (apply Qmult_lt_0_compat; lra). lra. }
    assert (NZ : ~ q == 0). { intro Z. rewrite Z in El. apply Hw. destruct (ccw (orient f)); lra. }
    destruct (Q_dec q 0) as [ [ Z | Z ] | Z ]; [ | | contradiction ].
    - specialize (K1 Z). specialize (S2 Z). destruct (ccw (orient f)); split; intro; auto; lra.
    - specialize (K2 Z). specialize (S1 Z). destruct (ccw (orient f)); split; intro K; try contradiction; exfalso; lra.
  Qed.

  Notation chi_ s := (chi pa pb u v (mem s)).
  Notation rays_ s := (rays pa u v (fan s)).

  Lemma same_edge_ : same_edge (fun f => In f fs).
  Proof.
    split.
    - intros f Hf. destruct (around_face f Hf) as (s & T & pr & _ & _ & _ & _ & _ & E & _). exact E.
    - intros f g Hf Hg E. destruct (around_face f Hf) as (s & T & pr & _ & _ & Hp & _ & -> & _).
      destruct (around_face g Hg) as (s' & T' & pr' & _ & _ & Hp' & _ & -> & _). rewrite E in Hp. congruence.
  Qed.

  Lemma positions : forall i j f g, nth_error fs i = Some f -> nth_error fs j = Some g -> fi f = fi g -> i = j.
  Proof.
    intros i j f g Hf Hg E. destruct Harr as (N & _). apply (proj1 (NoDup_nth_error (map fi fs)) N).
    - rewrite map_length. apply nth_error_Some. congruence.
    - rewrite !nth_error_map, Hf, Hg. cbn [option_map]. congruence.
  Qed.

  Lemma no_duplicates_ : no_duplicates left fs.
  Proof.
    intros i j f g N Hf Hg E K. apply N. apply (positions i j f g Hf Hg).
    destruct (around_face f (nth_error_In _ _ Hf)) as (s & T & pr & HT & Hl & Hp & Hr & _).
    destruct (around_face g (nth_error_In _ _ Hg)) as (s' & T' & pr' & HT' & Hl' & Hp' & Hr' & _).
    assert (Es : s' = s) by congruence. rewrite Es in HT'. rewrite E in Hp. assert (pr' = pr) by congruence. subst pr'.
    destruct (inner_point T) as (q & Hq).
    apply (cf_apart _ _ _ _ C _ _ _ T' T q HT' HT).
    - apply (ccw_in _ T' pr q Hr'). exact (proj1 (ccw_in _ T pr q Hr) Hq).
    - exact (in_on_tri q T Hq).
  Qed.

  (** The third vertex determines the face up to its orientation. *)
  Lemma third_vertex : forall f j t, In f fs -> nth_error (faces m) j = Some t -> same_corners m (fi f) j ->
    exists g, In g fs /\ fi g = j /\ vi_r g = vi_r f.
  Proof.
    intros f j t Hf Hj (t1 & t2 & H1 & H2 & H3). assert (t2 = t) by congruence. subst t2.
    destruct (around_face f Hf) as (s & T & pr & HT & Hl & Hp & Hr & _ & _ & t1' & Ht1 & Hrot).
    assert (t1' = t1) by congruence. subst t1'.
    destruct (face_part L R m border C j) as (s' & U & HU); [ apply nth_error_Some; congruence | ].
    destruct t1 as [ [x y] z]. pose proof (corners_distinct L R m border C _ _ _ x y z HT Ht1) as (N1 & N2 & N3).
    assert (V : forall w, has_vertex (x, y, z) w <-> w = a \/ w = b \/ w = vi_r f).
    { intro w. unfold has_vertex. destruct (ccw (orient f)); destruct Hrot as [ E | [ E | E ] ]; injection E as -> -> ->; tauto. }
    assert (Nr : a <> b /\ vi_r f <> a /\ vi_r f <> b).
    { destruct (ccw (orient f)); destruct Hrot as [ E | [ E | E ] ]; injection E as -> -> ->; auto. }
    assert (G : In j (map fi fs)).
    { destruct Harr as (_ & K & _). apply K. rewrite Hfcs. split; exists t; split; auto; apply H3, V; auto. }
    apply in_map_iff in G. destruct G as (g & <- & Hg). exists g. split; [ exact Hg | ]. split; [ reflexivity | ].
    destruct (around_face g Hg) as (s2 & T2 & pr2 & HT2 & _ & _ & _ & _ & _ & t2 & Ht2 & Hrot2).
    assert (t2 = t) by congruence. subst t2. destruct t as [ [x' y'] z'].
    pose proof (corners_distinct L R m border C _ _ _ x' y' z' HT2 Ht2) as (M1 & M2 & M3).
    assert (W : has_vertex (x', y', z') (vi_r g) /\ vi_r g <> a /\ vi_r g <> b).
    { unfold has_vertex. destruct (ccw (orient g)); destruct Hrot2 as [ E | [ E | E ] ]; injection E as -> -> ->; auto. }
    destruct W as (W1 & W2 & W3). apply H3, V in W1. destruct W1 as [ W1 | [ W1 | W1 ] ]; congruence.
  Qed.

  Lemma no_partial_overlap_ : no_partial_overlap fs.
  Proof.
    intros f g Hf Hg (l & Hl & E1 & E2).
    destruct (around_face f Hf) as (s & T & pr & HT & Hs & Hp & Hr & Er & _).
    destruct (around_face g Hg) as (s' & T' & pr' & HT' & Hs' & Hp' & Hr' & Er' & _ & t' & Ht' & _).
    pose proof (over_face pa pb u v Hn Hun Huu Hv pr) as O. rewrite <- Er in O.
    pose proof (over_face pa pb u v Hn Hun Huu Hv pr') as O'. rewrite <- Er' in O'.
    assert (O2 : eventually (fun t => in_open_triangle (at_ pa pb u v t (r_uv f)) pa pb pr')).
    { destruct O' as (bb & B0 & O'). exists (bb / l). split; [ apply Qlt_shift_div_l; lra | ]. intros t T0 T1.
      apply (in_tri_same (pa, pb, pr') _ _ (same_sym _ _ (at_scale pa pb u v t l _ _ E1 E2))).
      apply O'; [ apply Qmult_lt_0_compat; assumption | ].
      apply (Qmult_le_r _ _ l Hl) in T1. setoid_replace (bb / l * l) with bb in T1 by (field; lra). exact T1. }
    destruct (ev_witness _ (ev_and _ _ O O2)) as (t & T0 & Q1 & Q2).
    apply (ccw_in _ T pr _ Hr) in Q1. apply (ccw_in _ T' pr' _ Hr') in Q2.
    destruct (Bool.bool_dec s' s) as [ -> | Ns ].
    - pose proof (cf_apart _ _ _ _ C _ _ _ T T' _ HT HT' Q1 (in_on_tri _ _ Q2)) as E.
      apply In_nth_error in Hf, Hg. destruct Hf as (i & Hf). destruct Hg as (j & Hg).
      assert (i = j) by (apply (positions i j f g Hf Hg); auto). subst j. congruence.
    - apply opposite_of in Ns. rewrite Ns in HT'.
      pose proof (cf_open _ _ _ _ C _ _ _ T T' _ HT HT' Q1 (in_on_tri _ _ Q2)) as E.
      destruct (third_vertex f (fi g) t' Hf Ht' E) as (g' & Hg' & E' & V).
      apply In_nth_error in Hg', Hg. destruct Hg' as (i & Hg'). destruct Hg as (j & Hg).
      assert (i = j) by (apply (positions i j g' g Hg' Hg); auto). subst j. congruence.
  Qed.

  Lemma Hrays_ : forall s r c, In (r, c) (rays_ s) <->
    exists f, In f fs /\ left (fi f) = s /\ r_uv f = r /\ ccw (orient f) = c.
  Proof.
    intros s r c. rewrite in_rays. split.
    - intros (pr & H & ->). apply in_fan in H. destruct H as (f & Hf & H2 & H3 & H4). exists f. repeat split; auto.
      destruct (around_face f Hf) as (s' & T & pr' & _ & _ & Hp & _ & -> & _). rewrite (pt_eq _ _ Hp) in H3. congruence.
    - intros (f & Hf & H2 & H3 & H4). exists (pt (vi_r f)). split; [ apply in_fan; eauto | ].
      destruct (around_face f Hf) as (s' & T & pr' & _ & _ & Hp & _ & Er & _). rewrite (pt_eq _ _ Hp). congruence.
  Qed.

  Lemma solid_edge_ : exists inside, solid_edge left truth fs inside.
  Proof.
    assert (F0 : forall s x y, Dom x -> Dom y -> (forall z, in_segment z x y -> ~ bd s z) -> (mem s x <-> mem s y))
      by (intros s; exact (bi_walk _ _ _ (op_bounds L R A B Dom HA HB s))).
    assert (F1 : forall s z, bd s z -> exists T, In T (pieces_of s) /\ on_tri z T).
    { intros s z H. apply (boundary_part L R m border C) in H. destruct H as (i & T & H1 & H2). exists T. split; [ apply in_pieces_of; eauto | exact H2 ]. }
    assert (F2 : forall s T, In T (pieces_of s) -> ~ flat T).
    { intros s T H. apply in_pieces_of in H. destruct H as (i & H). exact (cf_nondegenerate _ _ _ _ C _ _ _ H). }
    destruct (sectors fs left same_edge_ (proj2 (proj2 (proj2 Harr))) no_duplicates_ no_partial_overlap_
      (fun s => rays_ s) (fun s => chi_ s) Hrays_) as (inside & W & I).
    - intros s p q. exact (fan_walk pa pb u v Hn Hun Huu Hv (mem s) (bd s) (pieces_of s) (fan s) Dom HK Hmid (F0 s) (F1 s) (F2 s) (Ts_fan_ s) p q).
    - intros s d c. exact (beside_ray pa pb u v Hn Hun Huu Hv (mem s) (bd s) (pieces_of s) (fan s) Dom HK Hmid
        (F0 s) (F1 s) (F2 s) (Ts_fan_ s) (fan_flat_ s) (fan_face_ s) d c).
    - intros s f Hf N.
      apply (chi_dec pa pb u v Hn Hun Huu Hv (mem s) (bd s) (pieces_of s) (fan s) Dom HK Hmid (op_dec L R A B Dom HA HB s)
        (F0 s) (F1 s) (F2 s) (Ts_fan_ s)).
      intros r c l Hr L0 (E1 & E2).
      assert (Nz : nonzero (r_uv f)).
      { apply (in_bin_nonzero (radial_bin f)). apply radial_bin_region. exact (proj1 same_edge_ f Hf). }
      destruct (Qlt_le_dec 0 l) as [ Lp | Ln ].
      + apply (N r c Hr). apply eq2_sym. apply (multiple_eq2 _ _ l); auto.
        exact (rays_nonzero pa pb u v Hun Huu Hv (fan s) (fan_flat_ s) r c Hr).
      + assert (Z : l == 0) by lra. apply Nz. rewrite E1, E2, Z. split; ring.
    - exists inside. split; [ exact W | ]. split; [ exact no_duplicates_ | ]. split; [ exact no_partial_overlap_ | ].
      intros i f t Hf Ht. pose proof (nth_error_In _ _ Hf) as If.
      destruct (around_face f If) as (s & T & pr & HT & Hl & Hp & Hr & Er & _ & t1 & Ht1 & Hrot1).
      pose proof (Htruth _ _ _ HT) as Hsay.
      destruct Ht as [ (f' & j & g & Hf' & Nj & Hg & Ev & T1 & T2) | (f' & Hf' & No & T1 & T2) ];
        assert (f' = f) by congruence; subst f'.
      + pose proof (nth_error_In _ _ Hg) as Ig.
        destruct (around_face g Ig) as (s' & U & pr' & HU & Hl' & Hp' & Hr' & _).
        assert (Ns : s' = negb s).
        { apply opposite_of. intro E. apply (no_duplicates_ i j f g (not_eq_sym Nj) Hf Hg (eq_sym Ev)). congruence. }
        rewrite Ns in HU. rewrite Ev in Hp'. assert (pr' = pr) by congruence. subst pr'.
        apply (says_fun L R A B m border C (fi f) s T); auto.
        assert (G : orient g = orient f \/ orient g <> orient f) by (destruct (orient g), (orient f); auto; right; discriminate).
        destruct G as [ G | G ].
        * rewrite (T1 G). exists (fi g), U. split; [ exact HU | ]. rewrite G in Hr'.
          destruct (ccw (orient f)); eapply rot_aligned; eassumption.
        * rewrite (T2 G). exists (fi g), U. split; [ exact HU | ].
          destruct (orient f), (orient g); try (now elim G); cbn [ccw] in Hr, Hr'; eapply rot_against; eassumption.
      + specialize (I i f Hf No). rewrite Hl in I, T1, T2.
        assert (NT : ~ (truth (fi f) = COPLANAR \/ truth (fi f) = OPPOSITE)).
        { intro K. apply (twin_tag L R A B m border C (fi f) s T _ HT Hsay) in K. destruct K as (j & U & HU & HC).
          destruct (part_face m j _ U HU) as (x & y & z & _ & _ & _ & Hj & _).
          destruct (third_vertex f j _ If Hj HC) as (g & Hg & Eg & Vg). apply In_nth_error in Hg. destruct Hg as (k & Hg).
          apply No. exists f, k, g. repeat split; auto. intros ->. assert (g = f) by congruence. subst g.
          rewrite Eg in HT. destruct (part_fun m _ _ _ _ _ HT HU) as (E & _). destruct s; discriminate. }
        pose proof (over_face pa pb u v Hn Hun Huu Hv pr) as O. rewrite <- Er in O.
        assert (NU : truth (fi f) <> UNKNOWN). { intro K. rewrite K in Hsay. exact Hsay. }
        assert (Say : forall x, in_tri x T -> (mem (negb s) x <-> truth (fi f) = INTERIOR)).
        { intros x Hx. destruct (truth (fi f)); try (exfalso; tauto); destruct (Hsay x Hx); split; intro; auto; try contradiction; discriminate. }
        assert (CI : chi_ (negb s) (r_uv f) <-> truth (fi f) = INTERIOR).
        { split; intro K.
          - destruct (ev_witness _ (ev_and _ _ O K)) as (t0 & _ & Q1 & Q2). apply (ccw_in _ T pr _ Hr) in Q1. exact (proj1 (Say _ Q1) Q2).
          - generalize O. apply ev_mono. intros t0 _ Q1. apply (ccw_in _ T pr _ Hr) in Q1. exact (proj2 (Say _ Q1) K). }
        destruct (inside (negb s) i).
        * rewrite (T1 eq_refl). symmetry. apply CI, I. reflexivity.
        * rewrite (T2 eq_refl). assert (K : truth (fi f) <> INTERIOR) by (intro K; apply CI, I in K; discriminate).
          destruct (truth (fi f)); try tauto; congruence.
  Qed.
End Border.
