(** * One edge against one face: the reports *)
From Coq Require Import List Arith Bool NArith QArith Lqa Lia Setoid.
From Verif Require Import Model_base Proof_base Model_geometry Model_region Model_points Model_ffi.
From Verif Require Import Spec_defects Spec_ffi Proof_extreme Proof_hull Proof_ffi_orient Proof_ffi_calls Proof_ffi_plane Proof_pairs.
Import ListNotations.
Local Open Scope nat_scope.

Lemma grow_grow : forall left mE mV st c1 c2 o1 o2,
  grow left mE mV (grow left mE mV st c1 o1) c2 o2 = grow left mE mV st c2 (o1 ++ o2).
Proof. intros. unfold grow. cbn [ffi_inters]. rewrite map_app, app_assoc. reflexivity. Qed.
Lemma ee_keys : forall left kE kV a0 a1 a2 b0 b1 b2 o k, ee_spec left kE kV a0 a1 a2 b0 b1 b2 o k -> k = kE \/ k = kV.
Proof. intros left kE kV a0 a1 a2 b0 b1 b2 o k [ (_ & -> & _) | [ (_ & -> & _) | (_ & -> & _) ] ]; auto. Qed.
Lemma same_side_ok : forall s a0 a1 a2, s <> Eq -> (a0 + a1 + a2 == 1)%Q ->
  (same_side (smul s (sign a2)) (smul s (sign a0)) (smul s (sign a1)) = true <-> (0 < a0 /\ 0 < a1 /\ 0 < a2)%Q).
Proof.
  intros s a0 a1 a2 Hs S. unfold same_side. rewrite !smul_assoc_s by exact Hs. rewrite !andb_true_iff, !is_pos_mul. split.
  - intros [ [H1 H2] H3]. assert (K : (0 < a0 \/ a0 <= 0)%Q) by (destruct (Qlt_le_dec 0 a0); auto). destruct K as [K | K].
    + repeat split; nra.
    + exfalso. assert (a2 <= 0)%Q by nra. assert (a1 <= 0)%Q by nra. lra.
  - intros (H1 & H2 & H3). repeat split; nra.
Qed.
Lemma distinct_corners : forall p q r, nondegenerate (p, q, r) -> ~ same_point p q /\ ~ same_point q r /\ ~ same_point r p.
Proof.
  intros p q r N. pose proof (nondegenerate_normal _ N) as Z. repeat split; intros (X & Y & W); apply Z; unfold normal, zero3;
    destruct p as [ [p0 p1] p2], q as [ [q0 q1] q2], r as [ [r0 r1] r2]; pts; rewrite ?X, ?Y, ?W; repeat split; ring.
Qed.

Section Edge.
  Context {P : Type}.
  Variable coords : P -> vec3.
  Variable points : list P.
  Notation pt := (at_ coords points).
  Variables (left : bool) (mE mV : mask) (ia ib ip iq ir : nat).
  Hypothesis He : edge_of mE mV.
  Hypothesis La : ia < length points.
  Hypothesis Lb : ib < length points.
  Hypothesis Lp : ip < length points.
  Hypothesis Lq : iq < length points.
  Hypothesis Lr : ir < length points.
  Notation T := (pt ip, pt iq, pt ir).
  Hypothesis N : nondegenerate T.
  Hypothesis Nab : ~ same_point (pt ia) (pt ib).
  Notation face := (side (negb left) (true, true, true)).

  (** The three tests against the edges. *)
  Lemma three_edges : forall st s a0 a1 a2 b0 b1 b2, s <> Eq -> (a0 + a1 + a2 == 1)%Q -> (b0 + b1 + b2 == 1)%Q ->
    ~ (a0 == b0 /\ a1 == b1 /\ a2 == b2)%Q -> same_point (pt ia) (comb T a0 a1 a2) ->
    exists out, bind (edge_edge_2d coords points st (side left mE) ia ib (side (negb left) (true, true, false)) ip iq
        (smul s (sign (a1 * b2 - a2 * b1)%Q)) (smul s (sign (a2 * b0 - a0 * b2)%Q)) (smul s (sign a2)) (smul s (sign b2))) (fun st =>
      bind (edge_edge_2d coords points st (side left mE) ia ib (side (negb left) (false, true, true)) iq ir
        (smul s (sign (a2 * b0 - a0 * b2)%Q)) (smul s (sign (a0 * b1 - a1 * b0)%Q)) (smul s (sign a0)) (smul s (sign b0))) (fun st =>
      edge_edge_2d coords points st (side left mE) ia ib (side (negb left) (true, false, true)) ir ip
        (smul s (sign (a0 * b1 - a1 * b0)%Q)) (smul s (sign (a1 * b2 - a2 * b1)%Q)) (smul s (sign a1)) (smul s (sign b1)))) =
      Ok (grow left mE mV st (ffi_cache st) out) /\ NoDup out /\
      forall o k, In (o, k) out <->
        ee_spec left (true, true, false) (true, false, false) a0 a1 a2 b0 b1 b2 o k \/
        ee_spec left (false, true, true) (false, true, false) a1 a2 a0 b1 b2 b0 o k \/
        ee_spec left (true, false, true) (false, false, true) a2 a0 a1 b2 b0 b1 o k.
  Proof.
    intros st s a0 a1 a2 b0 b1 b2 Hs Sa Sb Nc A. destruct (distinct_corners _ _ _ N) as (Npq & Nqr & Nrp).
    assert (L : forall x y u v w, ~ same_point (pt x) (pt y) -> x < length points -> y < length points -> (u + v + w == 1)%Q ->
      ((w == 0)%Q -> (vx (pt ia) == u * vx (pt x) + v * vx (pt y) /\ vy (pt ia) == u * vy (pt x) + v * vy (pt y) /\ vz (pt ia) == u * vz (pt x) + v * vz (pt y))%Q) ->
      exists s', s' <> Eq /\ ((w == 0)%Q -> orientation2 coords points ia x = Ok (smul s' (sign v)) /\ orientation2 coords points ia y = Ok (CompOpp (smul s' (sign u))))).
    { intros x y u v w Nxy Lx Ly S H. destruct (Qeq_dec w 0) as [E | E]; [ | exists s; tauto ]. destruct (H E) as (X & Y & Z).
      destruct (lex_edge (pt x) (pt y) (pt ia) u v) as (s' & Ns & C1 & C2); try assumption; [ lra | ].
      exists s'. split; [ exact Ns | ]. intros _. rewrite !orientation2_ok, C1, C2 by assumption. auto. }
    destruct A as (A0 & A1 & A2).
    destruct (L ip iq a0 a1 a2 Npq Lp Lq Sa) as (s1 & Ns1 & L1).
    { intro E. destruct (pt ia) as [ [? ?] ?], (pt ip) as [ [? ?] ?], (pt iq) as [ [? ?] ?], (pt ir) as [ [? ?] ?]. pts. rewrite E in A0, A1, A2. repeat split; lra. }
    destruct (L iq ir a1 a2 a0 Nqr Lq Lr ltac:(lra)) as (s2 & Ns2 & L2).
    { intro E. destruct (pt ia) as [ [? ?] ?], (pt ip) as [ [? ?] ?], (pt iq) as [ [? ?] ?], (pt ir) as [ [? ?] ?]. pts. rewrite E in A0, A1, A2. repeat split; lra. }
    destruct (L ir ip a2 a0 a1 Nrp Lr Lp ltac:(lra)) as (s3 & Ns3 & L3).
    { intro E. destruct (pt ia) as [ [? ?] ?], (pt ip) as [ [? ?] ?], (pt iq) as [ [? ?] ?], (pt ir) as [ [? ?] ?]. pts. rewrite E in A0, A1, A2. repeat split; lra. }
    destruct (ee_ok coords points st left mE mV (true, true, false) (true, false, false) ia ib ip iq s s1 a0 a1 a2 b0 b1 b2 He edge_01 Hs Ns1 Sa Sb Nc L1) as (o1 & E1 & D1 & I1).
    rewrite E1. cbn [bind]. set (st1 := grow left mE mV st (ffi_cache st) o1).
    destruct (ee_ok coords points st1 left mE mV (false, true, true) (false, true, false) ia ib iq ir s s2 a1 a2 a0 b1 b2 b0 He edge_12 Hs Ns2 ltac:(lra) ltac:(lra) ltac:(tauto) L2) as (o2 & E2 & D2 & I2).
    rewrite E2. cbn [bind]. set (st2 := grow left mE mV st1 (ffi_cache st1) o2).
    destruct (ee_ok coords points st2 left mE mV (true, false, true) (false, false, true) ia ib ir ip s s3 a2 a0 a1 b2 b0 b1 He edge_20 Hs Ns3 ltac:(lra) ltac:(lra) ltac:(tauto) L3) as (o3 & E3 & D3 & I3).
    rewrite E3. exists ((o1 ++ o2) ++ o3). split; [ unfold st2, st1; rewrite !grow_grow, app_assoc; reflexivity | ]. split.
    - apply NoDup_app_disjoint; [ apply NoDup_app_disjoint | | ]; try assumption.
      + intros [o k] H K. apply I1, ee_keys in H. apply I2, ee_keys in K. destruct H as [-> | ->], K as [K | K]; discriminate.
      + intros [o k] H K. apply I3, ee_keys in K. apply in_app_iff in H. destruct H as [H | H]; [ apply I1, ee_keys in H | apply I2, ee_keys in H ];
          destruct H as [-> | ->], K as [K | K]; discriminate.
    - intros o k. rewrite !in_app_iff, I1, I2, I3. tauto.
  Qed.

  Lemma edge_face_2d_ok : forall st, (det3 (pt ia) (pt ip) (pt iq) (pt ir) == 0)%Q -> (det3 (pt ib) (pt ip) (pt iq) (pt ir) == 0)%Q ->
    exists out, edge_face_2d coords points st (side left mE) ia ib face ip iq ir = Ok (grow left mE mV st (ffi_cache st) out) /\ NoDup out /\
      forall o k, In (o, k) out <-> crossing left (pt ia) (pt ib) T o k.
  Proof.
    intros st Ha Hb. destruct (side_edge left mE mV He) as (wE & EV & BE & BV).
    destruct (plane_coords _ _ _ _ N Ha) as (a0 & a1 & a2 & Sa & A). destruct (plane_coords _ _ _ _ N Hb) as (b0 & b1 & b2 & Sb & B).
    assert (Nc : ~ (a0 == b0 /\ a1 == b1 /\ a2 == b2)%Q).
    { intros (E0 & E1 & E2). apply Nab. eapply same_trans; [ exact A | ]. eapply same_trans; [ apply comb_same; eassumption | ]. apply same_sym. exact B. }
    set (s := coplanar_orientation (pt ip) (pt iq) (pt ir)). assert (Hs : s <> Eq) by (apply coplanar_orientation_nonzero; exact N).
    unfold edge_face_2d. rewrite EV. cbn [bind]. rewrite !orientation3_ok by assumption. cbn [bind].
    pose proof (coplanar_bary (pt ip) (pt iq) (pt ir)) as CB.
    assert (Cp : same_point (pt ip) (cmb T (1, 0, 0)%Q)) by (unfold cmb; destruct (pt ip) as [ [x y] z], (pt iq) as [ [? ?] ?], (pt ir) as [ [? ?] ?]; pts; repeat split; ring).
    assert (Cq : same_point (pt iq) (cmb T (0, 1, 0)%Q)) by (unfold cmb; destruct (pt ip) as [ [x y] z], (pt iq) as [ [? ?] ?], (pt ir) as [ [? ?] ?]; pts; repeat split; ring).
    assert (Cr : same_point (pt ir) (cmb T (0, 0, 1)%Q)) by (unfold cmb; destruct (pt ip) as [ [x y] z], (pt iq) as [ [? ?] ?], (pt ir) as [ [? ?] ?]; pts; repeat split; ring).
    assert (O1 : one (1, 0, 0)%Q) by reflexivity. assert (O2 : one (0, 1, 0)%Q) by reflexivity. assert (O3 : one (0, 0, 1)%Q) by reflexivity.
    assert (Oa : one (a0, a1, a2)) by exact Sa. assert (Ob : one (b0, b1, b2)) by exact Sb.
    assert (A' : same_point (pt ia) (cmb T (a0, a1, a2))) by exact A. assert (B' : same_point (pt ib) (cmb T (b0, b1, b2))) by exact B.
    assert (apq : coplanar_orientation (pt ia) (pt ip) (pt iq) = smul s (sign a2)) by (rewrite (CB _ _ _ _ _ _ Oa O1 O2 A' Cp Cq); f_equal; apply sign_ext; cbn; ring).
    assert (aqr : coplanar_orientation (pt ia) (pt iq) (pt ir) = smul s (sign a0)) by (rewrite (CB _ _ _ _ _ _ Oa O2 O3 A' Cq Cr); f_equal; apply sign_ext; cbn; ring).
    assert (arp : coplanar_orientation (pt ia) (pt ir) (pt ip) = smul s (sign a1)) by (rewrite (CB _ _ _ _ _ _ Oa O3 O1 A' Cr Cp); f_equal; apply sign_ext; cbn; ring).
    assert (bpq : coplanar_orientation (pt ib) (pt ip) (pt iq) = smul s (sign b2)) by (rewrite (CB _ _ _ _ _ _ Ob O1 O2 B' Cp Cq); f_equal; apply sign_ext; cbn; ring).
    assert (bqr : coplanar_orientation (pt ib) (pt iq) (pt ir) = smul s (sign b0)) by (rewrite (CB _ _ _ _ _ _ Ob O2 O3 B' Cq Cr); f_equal; apply sign_ext; cbn; ring).
    assert (brp : coplanar_orientation (pt ib) (pt ir) (pt ip) = smul s (sign b1)) by (rewrite (CB _ _ _ _ _ _ Ob O3 O1 B' Cr Cp); f_equal; apply sign_ext; cbn; ring).
    assert (abp : coplanar_orientation (pt ia) (pt ib) (pt ip) = smul s (sign (a1 * b2 - a2 * b1)%Q)) by (rewrite (CB _ _ _ _ _ _ Oa Ob O1 A' B' Cp); f_equal; apply sign_ext; cbn; ring).
    assert (abq : coplanar_orientation (pt ia) (pt ib) (pt iq) = smul s (sign (a2 * b0 - a0 * b2)%Q)) by (rewrite (CB _ _ _ _ _ _ Oa Ob O2 A' B' Cq); f_equal; apply sign_ext; cbn; ring).
    assert (abr : coplanar_orientation (pt ia) (pt ib) (pt ir) = smul s (sign (a0 * b1 - a1 * b0)%Q)) by (rewrite (CB _ _ _ _ _ _ Oa Ob O3 A' B' Cr); f_equal; apply sign_ext; cbn; ring).
    rewrite apq, aqr, arp, bpq, bqr, brp.
    pose proof (same_side_ok s a0 a1 a2 Hs Sa) as InA. pose proof (same_side_ok s b0 b1 b2 Hs Sb) as InB.
    assert (FE : face_edges face = Ok (side (negb left) (true, true, false), side (negb left) (false, true, true), side (negb left) (true, false, true))) by (destruct left; reflexivity).
    rewrite FE, abp, abq, abr. cbn [bind].
    set (ina := same_side (smul s (sign a2)) (smul s (sign a0)) (smul s (sign a1))) in *.
    set (inb := same_side (smul s (sign b2)) (smul s (sign b0)) (smul s (sign b1))) in *. cbn [fst].
    destruct (ina && inb) eqn:EI.
    - (* both strictly inside *)
      apply andb_true_iff in EI. destruct EI as [EA EB]. rewrite EA. destruct InA as [InA _], InB as [InB _]. specialize (InA EA). specialize (InB EB).
      exists [(true, (true, true, true))]. rewrite <- insert_ok by (try assumption; cbn; lia). split; [ reflexivity | ].
      split; [ repeat constructor; intros [ ] | ]. intros o k. rewrite (crossing_coords left T _ _ _ _ o k N Oa Ob A' B'), cover_2d by assumption.
      assert (E2 : forall x y, (0 < x -> 0 < y -> ~ exists t, 0 < t /\ t < 1 /\ (1 - t) * x + t * y == 0)%Q).
      { intros x y Hx Hy (t & T0 & T1 & E). assert (0 < (1 - t) * x)%Q by nra. assert (0 < t * y)%Q by nra. lra. }
      split.
      + intros [H | [ ] ]. injection H as <- <-. left. cbn. repeat split; lra.
      + intros [H | H].
        * cbn in H. destruct H as (-> & -> & _). left. reflexivity.
        * exfalso. destruct H as [H | [H | H] ]; destruct H as [ (_ & _ & _ & X & _) | [ (_ & _ & X & _) | (_ & _ & _ & _ & t & T0 & T1 & X & _) ] ]; try lra;
            (eapply E2; [ | | exists t; split; [ exact T0 | split; [ exact T1 | exact X ] ] ]; lra).
    - set (st0 := if ina then insert_inter st (side left mV) face else st).
      destruct (three_edges st0 s a0 a1 a2 b0 b1 b2 Hs Sa Sb Nc A) as (out & E & D & I). rewrite E.
      set (o0 := if ina then [(true, (true, true, true))] else []).
      assert (E0 : st0 = grow left mE mV st (ffi_cache st) o0).
      { unfold st0, o0. destruct ina; [ | rewrite grow_nil; reflexivity ]. rewrite <- insert_ok by (try assumption; cbn; lia). reflexivity. }
      exists (o0 ++ out). split; [ rewrite E0, grow_grow; reflexivity | ].
      assert (I0 : forall o k, In (o, k) o0 <-> face_spec (a0, a1, a2) o k).
      { intros o k. unfold o0. cbn [face_spec]. destruct ina.
        - cbn [In]. split; [ intros [H | [ ] ]; injection H as <- <-; split; [ reflexivity | split; [ reflexivity | apply InA; reflexivity ] ] | intros (-> & -> & _); left; reflexivity ].
        - split; [ intros [ ] | intros (_ & _ & H) ]. apply InA in H. discriminate. }
      split.
      + apply NoDup_app_disjoint; [ | exact D | ].
        * unfold o0. destruct ina; [ repeat constructor; intros [ ] | constructor ].
        * intros [o k] H K. apply I0 in H. destruct H as (_ & -> & _). apply I in K. destruct K as [K | [K | K] ]; apply ee_keys in K; destruct K; discriminate.
      + intros o k. rewrite (crossing_coords left T _ _ _ _ o k N Oa Ob A' B'), cover_2d by assumption. rewrite in_app_iff, I0, I. tauto.
  Qed.

  (** The edge crosses the plane of the face. *)
  Let DA : Q := det3 (pt ia) (pt ip) (pt iq) (pt ir).
  Let DB : Q := det3 (pt ib) (pt ip) (pt iq) (pt ir).
  Let w0 : Q := det3 (pt ia) (pt ib) (pt iq) (pt ir).
  Let w1 : Q := det3 (pt ia) (pt ib) (pt ir) (pt ip).
  Let w2 : Q := det3 (pt ia) (pt ib) (pt ip) (pt iq).
  Lemma w_sum : (w0 + w1 + w2 == DA - DB)%Q.
  Proof.
    unfold w0, w1, w2, DA, DB. destruct (pt ia) as [ [? ?] ?], (pt ib) as [ [? ?] ?], (pt ip) as [ [? ?] ?], (pt iq) as [ [? ?] ?], (pt ir) as [ [? ?] ?]. pts. ring.
  Qed.
  Lemma w_comb : forall f : vec3 -> Q, f = vx \/ f = vy \/ f = vz ->
    (w0 * f (pt ip) + w1 * f (pt iq) + w2 * f (pt ir) == DA * f (pt ib) - DB * f (pt ia))%Q.
  Proof.
    intros f F. unfold w0, w1, w2, DA, DB.
    destruct (pt ia) as [ [? ?] ?], (pt ib) as [ [? ?] ?], (pt ip) as [ [? ?] ?], (pt iq) as [ [? ?] ?], (pt ir) as [ [? ?] ?].
    destruct F as [-> | [-> | ->] ]; pts; ring.
  Qed.
  Lemma det_mix : forall t, (det3 (mix (pt ia) (pt ib) t) (pt ip) (pt iq) (pt ir) == (1 - t) * DA + t * DB)%Q.
  Proof.
    intro t. unfold DA, DB. destruct (pt ia) as [ [? ?] ?], (pt ib) as [ [? ?] ?], (pt ip) as [ [? ?] ?], (pt iq) as [ [? ?] ?], (pt ir) as [ [? ?] ?]. pts. ring.
  Qed.
  Lemma det_plane : forall x u v w, (u + v + w == 1)%Q -> same_point x (comb T u v w) -> (det3 x (pt ip) (pt iq) (pt ir) == 0)%Q.
  Proof.
    intros x u v w S (X & Y & Z). assert (E : (u == 1 - v - w)%Q) by lra.
    destruct x as [ [? ?] ?], (pt ip) as [ [? ?] ?], (pt iq) as [ [? ?] ?], (pt ir) as [ [? ?] ?]. pts. rewrite X, Y, Z, E. ring.
  Qed.
  Lemma cross_coords : ~ (DA - DB == 0)%Q ->
    exists u v w, (u + v + w == 1)%Q /\ same_point (mix (pt ia) (pt ib) (DA / (DA - DB))) (comb T u v w) /\
      (u * (DA - DB) == w0 /\ v * (DA - DB) == w1 /\ w * (DA - DB) == w2)%Q.
  Proof.
    intro NZ. set (W := (DA - DB)%Q) in *. exists (w0 / W)%Q, (w1 / W)%Q, (w2 / W)%Q. split; [ | split ].
    - setoid_replace (w0 / W + w1 / W + w2 / W)%Q with ((w0 + w1 + w2) / W)%Q by (field; exact NZ). rewrite w_sum. fold W. field. exact NZ.
    - assert (K : forall f : vec3 -> Q, f = vx \/ f = vy \/ f = vz ->
        ((1 - DA / W) * f (pt ia) + DA / W * f (pt ib) == w0 / W * f (pt ip) + w1 / W * f (pt iq) + w2 / W * f (pt ir))%Q).
      { intros f F. setoid_replace (w0 / W * f (pt ip) + w1 / W * f (pt iq) + w2 / W * f (pt ir))%Q with ((w0 * f (pt ip) + w1 * f (pt iq) + w2 * f (pt ir)) / W)%Q by (field; exact NZ).
        rewrite (w_comb f F). assert (E : (DB == DA - W)%Q) by (unfold W; ring). rewrite E. field. exact NZ. }
      unfold same_point, mix, comb. cbn [vx vy vz fst snd]. repeat split; apply K; auto.
    - repeat split; field; exact NZ.
  Qed.

  Lemma edge_face_ok : forall st, cache_ok coords points (ffi_cache st) ->
    exists out cache, edge_face coords points st (side left mE) ia ib face ip iq ir (sign DA) (sign DB) = Ok (grow left mE mV st cache out) /\
      cache_ok coords points cache /\ NoDup out /\ forall o k, In (o, k) out <-> crossing left (pt ia) (pt ib) T o k.
  Proof.
    intros st Hc. destruct (side_edge left mE mV He) as (wE & EV & BE & BV).
    assert (Mix0 : same_point (pt ia) (mix (pt ia) (pt ib) 0)) by (destruct (pt ia) as [ [? ?] ?], (pt ib) as [ [? ?] ?]; pts; repeat split; ring).
    unfold edge_face. destruct (is_pos (smul (sign DA) (sign DB))) eqn:B1.
    { apply is_pos_mul in B1. exists [], (ffi_cache st). rewrite grow_nil. split; [ reflexivity | ]. split; [ exact Hc | ]. split; [ constructor | ].
      intros o k. split; [ intros [ ] | ]. intros [ (_ & H & _) | (_ & _ & _ & (t & T0 & T1 & H) & _) ].
      - apply feature_inside in H. destruct H as (u & v & w & (_ & _ & _ & S) & X). apply det_plane in X; [ | exact S ]. fold DA in X. rewrite X in B1. lra.
      - apply feature_inside in H. destruct H as (u & v & w & (_ & _ & _ & S) & X). apply det_plane in X; [ | exact S ]. rewrite det_mix in X.
        assert (K : (0 < DA \/ DA <= 0)%Q) by (destruct (Qlt_le_dec 0 DA); auto). destruct K as [K | K].
        + assert (0 < DB)%Q by nra. nra.
        + assert (DA < 0)%Q by nra. assert (DB < 0)%Q by nra. nra. }
    rewrite <- not_true_iff_false, is_pos_mul in B1.
    destruct (is_zero (sign DA) && is_zero (sign DB)) eqn:B2.
    { apply andb_true_iff in B2. rewrite !is_zero_sign in B2. destruct B2 as [Za Zb].
      destruct (edge_face_2d_ok st Za Zb) as (out & E & D & I). exists out, (ffi_cache st). auto. }
    assert (NZ : ~ (DA == 0 /\ DB == 0)%Q).
    { intros [X Y]. apply is_zero_sign in X. apply is_zero_sign in Y. rewrite X, Y in B2. discriminate. }
    assert (NW : ~ (DA - DB == 0)%Q).
    { intro E. apply NZ. assert (E' : (DA == DB)%Q) by lra. rewrite E' in B1. assert (DB == 0)%Q by nra. split; lra. }
    destruct (cross_coords NW) as (u & v & w & S & X & E0 & E1 & E2). set (t0 := (DA / (DA - DB))%Q) in *.
    assert (Et : (t0 * (DA - DB) == DA)%Q) by (unfold t0; field; exact NW).
    destruct (orientation4_ok coords points st ia ib ip iq Hc La Lb Lp Lq) as (c1 & Q1 & K1). rewrite Q1. cbn [bind].
    destruct (orientation4_ok coords points (mk_ffi (ffi_inters st) c1) ia ib iq ir K1 La Lb Lq Lr) as (c2 & Q2 & K2). rewrite Q2. cbn [bind ffi_inters].
    destruct (orientation4_ok coords points (mk_ffi (ffi_inters st) c2) ia ib ir ip K2 La Lb Lr Lp) as (c3 & Q3 & K3). cbn [ffi_inters] in Q3. rewrite Q3. cbn [bind].
    change (O4 coords points ia ib ip iq) with (sign w2). change (O4 coords points ia ib iq ir) with (sign w0). change (O4 coords points ia ib ir ip) with (sign w1).
    set (st3 := mk_ffi (ffi_inters st) c3).
    (* the crossing point is unique *)
    assert (TU : forall t k, in_feature T k (mix (pt ia) (pt ib) t) -> (t == t0)%Q).
    { intros t k H. apply feature_inside in H. destruct H as (u' & v' & w' & (_ & _ & _ & S') & X'). apply det_plane in X'; [ | exact S' ]. rewrite det_mix in X'.
      assert (Y : ((DA - DB) * (t - t0) == 0)%Q) by lra. apply mult_zero in Y; [ lra | exact NW ]. }
    assert (FC : forall k t, (t == t0)%Q -> (in_feature T k (mix (pt ia) (pt ib) t) <-> weights k (u, v, w))).
    { intros k t E. apply feature_coords; [ exact N | exact S | ]. eapply same_trans; [ | exact X ].
      destruct (pt ia) as [ [? ?] ?], (pt ib) as [ [? ?] ?]. pts. rewrite E. repeat split; reflexivity. }
    assert (FA : forall k, in_feature T k (pt ia) <-> (DA == 0)%Q /\ weights k (u, v, w)).
    { intro k. split.
      - intro H. assert (H' : in_feature T k (mix (pt ia) (pt ib) 0)).
        { destruct k as [ [k0 k1] k2]. destruct H as (u' & v' & w' & H & Y). exists u', v', w'. split; [ exact H | ]. eapply same_trans; [ apply same_sym; exact Mix0 | exact Y ]. }
        pose proof (TU 0%Q k H') as E. split; [ rewrite <- Et, <- E; ring | ]. apply (FC k 0%Q E). exact H'.
      - intros [Z H]. assert (E : (0 == t0)%Q) by (assert (Y : ((DA - DB) * t0 == 0)%Q) by lra; apply mult_zero in Y; [ lra | exact NW ]).
        apply (FC k 0%Q E) in H. destruct k as [ [k0 k1] k2]. destruct H as (u' & v' & w' & H & Y). exists u', v', w'. split; [ exact H | ]. eapply same_trans; [ exact Mix0 | exact Y ]. }
    assert (Tr : forall k c, dir T k (scale c (vsub (pt ib) (pt ia))) -> (c == 0)%Q).
    { intros [ [k0 k1] k2] c (u' & v' & w' & (_ & _ & _ & S') & Y).
      assert (Z : (c * (DA - DB) == 0)%Q).
      { unfold DA, DB. assert (Eu : (u' == - v' - w')%Q) by lra.
        transitivity (- det3 (pt ip) (pt iq) (pt ir) (mix (pt ip) (pt ip) 0) + vdot (scale c (vsub (pt ib) (pt ia))) (normal T))%Q.
        - unfold normal. destruct (pt ia) as [ [? ?] ?], (pt ib) as [ [? ?] ?], (pt ip) as [ [? ?] ?], (pt iq) as [ [? ?] ?], (pt ir) as [ [? ?] ?]. pts. ring.
        - destruct Y as (Y0 & Y1 & Y2). unfold vdot. rewrite Y0, Y1, Y2. unfold normal.
          destruct (pt ip) as [ [? ?] ?], (pt iq) as [ [? ?] ?], (pt ir) as [ [? ?] ?]. pts. rewrite Eu. ring. }
      rewrite Qmult_comm in Z. apply mult_zero in Z; [ exact Z | exact NW ]. }
    (* inside the closed triangle *)
    set (sep := is_neg (smul (sign w2) (sign w0)) || is_neg (smul (sign w0) (sign w1)) || is_neg (smul (sign w1) (sign w2))).
    assert (PosW : (0 < (DA - DB) * (DA - DB))%Q) by nra.
    assert (Sep : sep = false <-> (0 <= u /\ 0 <= v /\ 0 <= w)%Q).
    { unfold sep. rewrite !orb_false_iff, <- !not_true_iff_false, !is_neg_mul, <- E0, <- E1, <- E2.
      assert (A1 : (w * (DA - DB) * (u * (DA - DB)) == (w * u) * ((DA - DB) * (DA - DB)))%Q) by ring.
      assert (A2 : (u * (DA - DB) * (v * (DA - DB)) == (u * v) * ((DA - DB) * (DA - DB)))%Q) by ring.
      assert (A3 : (v * (DA - DB) * (w * (DA - DB)) == (v * w) * ((DA - DB) * (DA - DB)))%Q) by ring.
      rewrite A1, A2, A3. set (W2 := ((DA - DB) * (DA - DB))%Q) in *. split.
      - intros [ [H1 H2] H3]. assert (G1 : (0 <= w * u)%Q) by nra. assert (G2 : (0 <= u * v)%Q) by nra. assert (G3 : (0 <= v * w)%Q) by nra.
        repeat split; apply Qnot_lt_le; intro L.
        + assert (w <= 0)%Q by nra. assert (v <= 0)%Q by nra. lra.
        + assert (u <= 0)%Q by nra. assert (w <= 0)%Q by nra. lra.
        + assert (u <= 0)%Q by nra. assert (v <= 0)%Q by nra. lra.
      - intros (H1 & H2 & H3). assert (G1 : (0 <= w * u)%Q) by nra. assert (G2 : (0 <= u * v)%Q) by nra. assert (G3 : (0 <= v * w)%Q) by nra.
        repeat split; intro L; nra. }
    destruct sep eqn:EqSep.
    { exists [], c3. split; [ f_equal; unfold grow, st3; cbn [map]; rewrite app_nil_r; reflexivity | ]. split; [ exact K3 | ]. split; [ constructor | ].
      assert (Out : forall k, ~ weights k (u, v, w)).
      { intros [ [k0 k1] k2] (W0 & W1 & W2). assert (K : forall m k, weight m k -> (0 <= k)%Q) by (intros [ | ] k H; cbn in H; lra).
        assert (Y : true = false) by (apply Sep; repeat split; eapply K; eassumption). discriminate. }
      intros o k. split; [ intros [ ] | ]. intros [ (_ & H & _) | (_ & _ & _ & (t & T0 & T1 & H) & _) ].
      - apply FA in H. apply (Out k). tauto.
      - pose proof (TU t k H) as E. apply (FC k t E) in H. exact (Out k H). }
    assert (In3 : (0 <= u /\ 0 <= v /\ 0 <= w)%Q) by (apply Sep; reflexivity). clear Sep.
    rewrite EV.
    assert (FE : face_edges face = Ok (side (negb left) (true, true, false), side (negb left) (false, true, true), side (negb left) (true, false, true))) by (destruct left; reflexivity).
    assert (FV : face_vertices face = Ok (side (negb left) (true, false, false), side (negb left) (false, true, false), side (negb left) (false, false, true))) by (destruct left; reflexivity).
    rewrite FE, FV. cbn [bind fst].
    (* the mask of the crossing point *)
    assert (Zs : forall x y, (x * (DA - DB) == y)%Q -> (is_zero (sign y) = negb (match sign x with Eq => false | _ => true end))).
    { intros x y E. destruct (sign x) eqn:Sx; cbn [negb].
      - rewrite sign_zero in Sx. apply is_zero_sign. rewrite <- E, Sx. ring.
      - rewrite sign_neg in Sx. apply is_zero_nsign. rewrite <- E. apply mult_nonzero; [ lra | exact NW ].
      - rewrite sign_pos in Sx. apply is_zero_nsign. rewrite <- E. apply mult_nonzero; [ lra | exact NW ]. }
    set (nz := fun x : Q => match sign x with Eq => false | _ => true end). rewrite (Zs u w0 E0), (Zs v w1 E1), (Zs w w2 E2). fold (nz u) (nz v) (nz w).
    assert (Wnz : forall x m, (0 <= x)%Q -> (weight m x <-> m = nz x)).
    { intros x m Hx. unfold nz. destruct (sign x) eqn:Sx.
      - rewrite sign_zero in Sx. destruct m; cbn; split; intro H; try discriminate; try reflexivity; try lra.
      - rewrite sign_neg in Sx. lra.
      - rewrite sign_pos in Sx. destruct m; cbn; split; intro H; try discriminate; try reflexivity; try lra. }
    set (kx := (nz u, nz v, nz w)).
    assert (Wk : forall k, weights k (u, v, w) <-> k = kx).
    { intros [ [k0 k1] k2]. cbn. rewrite !Wnz by tauto. unfold kx. split; [ intros (-> & -> & ->); reflexivity | intro H; injection H as -> -> ->; auto ]. }
    assert (Sec : (if negb (nz w) && negb (nz u) then side (negb left) (false, true, false)
      else if negb (nz u) && negb (nz v) then side (negb left) (false, false, true)
      else if negb (nz v) && negb (nz w) then side (negb left) (true, false, false)
      else if negb (nz w) then side (negb left) (true, true, false)
      else if negb (nz u) then side (negb left) (false, true, true)
      else if negb (nz v) then side (negb left) (true, false, true) else face) = side (negb left) kx /\ bits kx <> 0).
    { assert (NN : ~ (nz u = false /\ nz v = false /\ nz w = false)).
      { intros (X1 & X2 & X3). symmetry in X1, X2, X3. apply (Wnz u false) in X1; [ | tauto ]. apply (Wnz v false) in X2; [ | tauto ]. apply (Wnz w false) in X3; [ | tauto ].
        cbn in X1, X2, X3. lra. }
      unfold kx. destruct (nz u), (nz v), (nz w); cbn; split; try reflexivity; try lia; exfalso; apply NN; auto. }
    destruct Sec as [-> Bk].
    assert (CR : forall o k, crossing left (pt ia) (pt ib) T o k <->
      k = kx /\ ((o = true /\ (DA == 0)%Q /\ (bits k = 1 -> left = true)) \/ (o = false /\ (0 < t0 /\ t0 < 1)%Q /\ 2 <= bits k /\ (bits k = 2 -> left = true)))).
    { intros o k. unfold crossing. rewrite FA, Wk. split.
      - intros [ (-> & (H1 & ->) & H2) | (-> & H1 & H2 & (t & T0 & T1 & H3) & _) ]; [ tauto | ]. pose proof (TU t k H3) as E.
        apply (FC k t E), Wk in H3. split; [ exact H3 | ]. right. split; [ reflexivity | ]. split; [ rewrite <- E; auto | auto ].
      - intros (-> & [ (-> & H1 & H2) | (-> & H1 & H2 & H3) ]); [ left; auto | right ]. repeat split; try assumption.
        + exists t0. split; [ tauto | ]. split; [ tauto | ]. apply FC; [ reflexivity | ]. apply Wk. reflexivity.
        + intros c. apply Tr. }
    assert (Gr : forall out, grow left mE mV st3 (ffi_cache st3) out = grow left mE mV st c3 out) by reflexivity.
    assert (None : (forall o k, ~ crossing left (pt ia) (pt ib) T o k) -> exists out cache, Ok st3 = Ok (grow left mE mV st cache out) /\
      cache_ok coords points cache /\ NoDup out /\ forall o k, In (o, k) out <-> crossing left (pt ia) (pt ib) T o k).
    { intro H. exists [], c3. rewrite <- Gr, grow_nil. repeat split; [ exact K3 | constructor | intros [ ] | intro Y; exfalso; exact (H _ _ Y) ]. }
    assert (Some : forall o : bool, (forall o' k, crossing left (pt ia) (pt ib) T o' k <-> o' = o /\ k = kx) ->
      exists out cache, Ok (insert_inter st3 (if o then side left mV else side left mE) (side (negb left) kx)) = Ok (grow left mE mV st cache out) /\
      cache_ok coords points cache /\ NoDup out /\ forall o k, In (o, k) out <-> crossing left (pt ia) (pt ib) T o k).
    { intros o H. exists [(o, kx)], c3. rewrite <- Gr, <- insert_ok by assumption. split; [ destruct o; reflexivity | ]. split; [ exact K3 | ].
      split; [ repeat constructor; intros [ ] | ]. intros o' k. rewrite H. cbn. split; [ intros [Y | [ ] ]; injection Y as <- <-; auto | intros [-> ->]; auto ]. }
    destruct (is_zero (sign DA)) eqn:ZA.
    - apply is_zero_sign in ZA. cbn [negb andb]. rewrite !side_dim, BV, side_left by (try assumption; lia). cbn [bind Nat.sub Nat.eqb andb].
      assert (T00 : (t0 == 0)%Q) by (assert (Y : ((DA - DB) * t0 == 0)%Q) by lra; apply mult_zero in Y; [ lra | exact NW ]).
      destruct (bits kx - 1) as [ | n] eqn:Bk1; cbn [Nat.eqb andb].
      + destruct left eqn:EL; cbn [negb].
        * apply (Some true). intros o' k. rewrite CR. split; [ intros (-> & [ (-> & _) | (_ & Y & _) ]); [ auto | lra ] | intros [-> ->]; auto ].
        * apply None. intros o' k H. apply CR in H. destruct H as (-> & [ (_ & _ & H) | (_ & Y & _) ]); [ | lra ]. assert (Z : false = true) by (apply H; lia). discriminate.
      + apply (Some true). intros o' k. rewrite CR. split; [ intros (-> & [ (-> & _) | (_ & Y & _) ]); [ auto | lra ] | intros [-> ->] ].
        split; [ reflexivity | ]. left. split; [ reflexivity | ]. split; [ exact ZA | ]. intro Y. lia.
    - apply is_zero_nsign in ZA. cbn [negb andb]. destruct (is_zero (sign DB)) eqn:ZB; cbn [andb].
      + apply is_zero_sign in ZB. apply None. intros o' k H. apply CR in H. destruct H as (_ & [ (_ & H & _) | (_ & (_ & H) & _) ]); [ tauto | ].
        assert (Y : ((DA - DB) * (t0 - 1) == 0)%Q) by lra. apply mult_zero in Y; [ lra | exact NW ].
      + apply is_zero_nsign in ZB. rewrite !side_dim, BE, side_left by (try assumption; lia). cbn [bind Nat.sub Nat.eqb andb].
        assert (T01 : (0 < t0 /\ t0 < 1)%Q).
        { assert (Y : ~ (DA * DB == 0)%Q) by (apply mult_nonzero; assumption). assert (Y' : (DA * DB < 0)%Q) by lra.
          destruct (Qlt_le_dec 0 DA); [ assert (DB < 0)%Q by nra | assert (0 < DB)%Q by nra ]; nra. }
        destruct (bits kx - 1) as [ | [ | n] ] eqn:Bk1; cbn [Nat.eqb andb].
        * apply None. intros o' k H. apply CR in H. destruct H as (-> & [ (_ & H & _) | (_ & _ & H & _) ]); [ tauto | lia ].
        * destruct left eqn:EL; cbn [negb].
          -- apply (Some false). intros o' k. rewrite CR. split; [ intros (-> & [ (_ & Y & _) | (-> & _) ]); [ tauto | auto ] | intros [-> ->] ].
             split; [ reflexivity | ]. right. repeat split; try tauto. lia.
          -- apply None. intros o' k H. apply CR in H. destruct H as (-> & [ (_ & H & _) | (_ & _ & _ & H) ]); [ tauto | ]. assert (Z : false = true) by (apply H; lia). discriminate.
        * apply (Some false). intros o' k. rewrite CR. split; [ intros (-> & [ (_ & Y & _) | (-> & _) ]); [ tauto | auto ] | intros [-> ->] ].
          split; [ reflexivity | ]. right. repeat split; try tauto; lia.
  Qed.
End Edge.
