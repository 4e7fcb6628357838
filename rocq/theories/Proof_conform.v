(** * What is true of the faces of a conforming mesh *)
From Coq Require Import List Arith Bool Lia QArith Lqa.
From Verif Require Import Model_base Model_soup Model_mesh Model_geometry Model_boolean Model_classify Model_local Model_side.
From Verif Require Import Spec_boolean Spec_candidates Spec_side Spec_solid Spec_mesh Spec_classify Spec_radial Spec_local Spec_conform Spec_open.
From Verif Require Import Proof_base Proof_affine Proof_small Proof_walk Proof_arranged Proof_solid.
From Verif Require Import Proof_radial Proof_turn Proof_wedge Proof_sectors.
Import ListNotations.
Local Open Scope Q_scope.

(** ** Rotated triangles *)
Definition rot3 (T : tri3) (a b c : vec3) : Prop := T = (a, b, c) \/ T = (b, c, a) \/ T = (c, a, b).

Lemma rot_on : forall T a b c x, rot3 T a b c -> (on_tri x T <-> in_triangle x a b c).
Proof.
  intros T a b c x [ -> | [ -> | -> ] ]; cbn; split; try tauto;
    intros (u & v & w & H1 & H2 & H3 & H4 & H5 & H6 & H7).
  - exists w, u, v. repeat split; auto; lra.
  - exists v, w, u. repeat split; auto; lra.
  - exists v, w, u. repeat split; auto; lra.
  - exists w, u, v. repeat split; auto; lra.
Qed.
Lemma rot_in : forall T a b c x, rot3 T a b c -> (in_tri x T <-> in_open_triangle x a b c).
Proof.
  intros T a b c x [ -> | [ -> | -> ] ]; cbn; split; try tauto;
    intros (u & v & w & H1 & H2 & H3 & H4 & H5 & H6 & H7).
  - exists w, u, v. repeat split; auto; lra.
  - exists v, w, u. repeat split; auto; lra.
  - exists v, w, u. repeat split; auto; lra.
  - exists w, u, v. repeat split; auto; lra.
Qed.
Lemma rot_normal : forall T a b c, rot3 T a b c -> same (tri_normal T) (normal a b c).
Proof.
  intros T a b c [ -> | [ -> | -> ] ]; cbn [tri_normal]; unfold same; crush; repeat split; ring.
Qed.
Lemma swap_on : forall a b c x, in_triangle x b a c <-> in_triangle x a b c.
Proof. intros a b c x. split; intros (u & v & w & H1 & H2 & H3 & H4 & H5 & H6 & H7); exists v, u, w; repeat split; auto; lra. Qed.
Lemma swap_in : forall a b c x, in_open_triangle x b a c <-> in_open_triangle x a b c.
Proof. intros a b c x. split; intros (u & v & w & H1 & H2 & H3 & H4 & H5 & H6 & H7); exists v, u, w; repeat split; auto; lra. Qed.
Lemma swap_normal : forall a b c, same (normal b a c) (scaled (-1) (normal a b c)).
Proof. unfold same, scaled. crush. repeat split; ring. Qed.

Lemma rot_aligned : forall T U a b c, rot3 T a b c -> rot3 U a b c -> same_triangle T U /\ aligned T U.
Proof.
  intros T U a b c HT HU. split.
  - intro x. rewrite (rot_on T a b c x HT), (rot_on U a b c x HU), (rot_in T a b c x HT), (rot_in U a b c x HU). tauto.
  - exists 1. split; [ lra | ]. apply rot_normal in HT. apply rot_normal in HU.
    destruct HT as (T1 & T2 & T3). destruct HU as (U1 & U2 & U3).
    unfold same, scaled. cbn [vx vy vz fst snd]. repeat split; [ rewrite T1, U1 | rewrite T2, U2 | rewrite T3, U3 ]; ring.
Qed.
Lemma rot_against : forall T U a b c, rot3 T a b c -> rot3 U b a c -> same_triangle T U /\ against T U.
Proof.
  intros T U a b c HT HU. split.
  - intro x. rewrite (rot_on T a b c x HT), (rot_on U b a c x HU), (rot_in T a b c x HT), (rot_in U b a c x HU).
    rewrite swap_on, swap_in. tauto.
  - exists (-1). split; [ lra | ]. apply rot_normal in HT. apply rot_normal in HU. pose proof (swap_normal a b c) as S.
    destruct HT as (T1 & T2 & T3). destruct HU as (U1 & U2 & U3). destruct S as (S1 & S2 & S3).
    unfold same, scaled in *. cbn [vx vy vz fst snd] in *.
    repeat split; [ rewrite T1, U1, S1 | rewrite T2, U2, S2 | rewrite T3, U3, S3 ]; ring.
Qed.

Lemma aligned_against : forall T U, ~ flat T -> aligned T U -> against T U -> False.
Proof.
  intros T U F (k & Hk & K1 & K2 & K3) (l & Hl & L1 & L2 & L3). apply F.
  assert (E : same (tri_normal T) (0, 0, 0)).
  { unfold same, scaled in *. cbn [vx vy vz fst snd] in *.
    set (a := vx (tri_normal T)) in *. set (b := vy (tri_normal T)) in *. set (c := vz (tri_normal T)) in *.
    assert (G : forall x y : Q, x == k * y -> x == l * y -> x == 0).
    { clear - Hk Hl. intros x y E1 E2. assert (E : (k - l) * y == 0) by (rewrite E1 in E2; lra).
      apply Qmult_integral in E. destruct E as [ E | E ]; [ lra | ]. rewrite E1, E. ring. }
    repeat split; eapply G; eassumption. }
  destruct T as [ [a b] c]. exact E.
Qed.

Lemma choice_fin : forall A (P : nat -> A -> Prop) (d : A) n, (forall i, (i < n)%nat -> exists b, P i b) ->
  exists f : nat -> A, forall i, (i < n)%nat -> P i (f i).
Proof.
  intros A P d n. induction n as [ | n IH ]; intros H.
  - exists (fun _ => d). intros i Hi. lia.
  - destruct IH as (f & Hf); [ intros i Hi; apply H; lia | ]. destruct (H n ltac:(lia)) as (b & Hb).
    exists (fun i => if (i =? n)%nat then b else f i). intros i Hi. destruct (Nat.eqb_spec i n) as [ -> | N ]; [ exact Hb | ].
    apply Hf. lia.
Qed.

Definition same_set (f g : face) : bool :=
  let '(a, b, c) := f in let '(a', b', c') := g in
  let has := fun (x y z v : nat) => (v =? x)%nat || (v =? y)%nat || (v =? z)%nat in
  has a' b' c' a && has a' b' c' b && has a' b' c' c && has a b c a' && has a b c b' && has a b c c'.

Lemma same_set_spec : forall f g, same_set f g = true <-> forall v, has_vertex f v <-> has_vertex g v.
Proof.
  intros [ [a b] c] [ [a' b'] c']. unfold same_set, has_vertex.
  rewrite !andb_true_iff, !orb_true_iff, !Nat.eqb_eq. split.
  - intros (((((H1 & H2) & H3) & H4) & H5) & H6) v.
    split; (intros [ -> | [ -> | -> ] ]); apply or_assoc; assumption.
  - intros H. repeat split; apply or_assoc; apply H; auto.
Qed.

Lemma opposite_of : forall s s' : bool, s' <> s -> s' = negb s.
Proof. intros [ | ] [ | ] H; try reflexivity; now elim H. Qed.

Section Conform.
  Context {D : Type}.
  Variables (L R : soup vec3 D) (A B : vec3 -> Prop) (m : soup vec3 (mixed_data D)) (border : list edge).
  Variable Dom : vec3 -> Prop.
  Hypothesis HK : open_convex Dom.
  Hypothesis HA : solid_in Dom L A.
  Hypothesis HB : solid_in Dom R B.
  Hypothesis C : conforming L R m border.
  Notation part := (part m).
  Notation bd s := (on_boundary (operand L R s)).
  Notation mem s := (member_of A B s).
  Notation says := (says L R A B m).

  Lemma op_bounds : forall s, bounds_in Dom (operand L R s) (mem s).
  Proof. intros [ | ]; [ exact (proj1 (proj2 HA)) | exact (proj1 (proj2 HB)) ]. Qed.
  Lemma op_dec : forall s x, Dom x -> mem s x \/ ~ mem s x.
  Proof. intros [ | ]; [ exact (proj1 (proj2 (proj2 HA))) | exact (proj1 (proj2 (proj2 HB))) ]. Qed.
  Lemma part_in : forall i s T x, part i s T -> in_tri x T -> Dom x.
  Proof.
    intros i s T x H Hx. destruct (cf_part _ _ _ _ C i s T H) as (fi & [ [a b] c] & HU & _ & Hin). apply (proj2 (Hin x)) in Hx.
    destruct s; [ exact (proj2 (proj2 (proj2 HA)) fi a b c x HU Hx) | exact (proj2 (proj2 (proj2 HB)) fi a b c x HU Hx) ].
  Qed.

  Lemma part_face : forall i s T, part i s T -> exists a b c pa pb pc,
    nth_error (faces m) i = Some (a, b, c) /\ nth_error (points m) a = Some pa /\
    nth_error (points m) b = Some pb /\ nth_error (points m) c = Some pc /\ T = (pa, pb, pc).
  Proof.
    intros i s T (H & _). apply triangle_tri_of in H. destruct H as ([ [a b] c] & Hf & HT). unfold tri_of in HT.
    destruct (nth_error (points m) a) as [ pa | ] eqn:Ea; [ | discriminate ].
    destruct (nth_error (points m) b) as [ pb | ] eqn:Eb; [ | discriminate ].
    destruct (nth_error (points m) c) as [ pc | ] eqn:Ec; [ | discriminate ].
    exists a, b, c, pa, pb, pc. repeat split; auto. congruence.
  Qed.

  Lemma face_part : forall i, (i < length (faces m))%nat -> exists s T, part i s T.
  Proof.
    intros i Hi. destruct (cf_valid _ _ _ _ C) as (V & E). destruct (triangle_exists _ _ m i V Hi) as (T & HT).
    destruct (nth_error (face_data m) i) as [ md | ] eqn:Ed; [ | apply nth_error_None in Ed; lia ].
    exists (from_left md), T. split; [ exact HT | ]. exists md. auto.
  Qed.

  Lemma part_range : forall i s T, part i s T -> (i < length (faces m))%nat.
  Proof.
    intros i s T H. destruct (part_face i s T H) as (a & b & c & _ & _ & _ & E & _). apply nth_error_Some. congruence.
  Qed.

  Lemma part_fun : forall i s s' T T', part i s T -> part i s' T' -> s = s' /\ T = T'.
  Proof.
    intros i s s' T T' (H1 & md & H2 & H3) (K1 & md' & K2 & K3). rewrite K1 in H1. injection H1 as <-.
    rewrite K2 in H2. injection H2 as <-. split; congruence.
  Qed.

  Lemma boundary_part : forall s x, bd s x <-> exists i T, part i s T /\ on_tri x T.
  Proof.
    intros s x. split; [ apply (cf_cover _ _ _ _ C) | ]. intros (i & T & H & Ho).
    destruct (cf_part _ _ _ _ C i s T H) as (fi & U & HU & _ & K). exists fi. destruct U as [ [a b] c].
    exists a, b, c. split; [ exact HU | ]. exact (proj1 (K x) Ho).
  Qed.

  Lemma corners_distinct : forall i s T a b c, part i s T -> nth_error (faces m) i = Some (a, b, c) -> a <> b /\ b <> c /\ c <> a.
  Proof.
    intros i s T a b c H Hf. destruct (part_face i s T H) as (a' & b' & c' & pa & pb & pc & Hf' & Ha & Hb & Hc & ->).
    rewrite Hf in Hf'. injection Hf' as <- <- <-.
    pose proof (cf_nondegenerate _ _ _ _ C i s _ H) as F. cbn [flat] in F.
    assert (Z : forall x y, degenerate x x y /\ degenerate x y y /\ degenerate x y x).
    { unfold degenerate, same. crush. repeat split; ring. }
    split; [ | split ]; intros ->; apply F.
    - assert (pb = pa) by congruence. subst. apply (Z pa pc).
    - assert (pc = pb) by congruence. subst. apply (Z pa pb).
    - assert (pc = pa) by congruence. subst. apply (Z pa pb).
  Qed.

  Lemma twin_dec : forall i s T, part i s T -> (exists j U, part j (negb s) U /\ same_corners m i j) \/
    (forall j U, part j (negb s) U -> ~ same_corners m i j).
  Proof.
    intros i s T H. destruct (part_face i s T H) as (a & b & c & pa & pb & pc & Hf & _).
    set (ok := fun j => match nth_error (faces m) j, nth_error (face_data m) j with
      | Some g, Some md => same_set (a, b, c) g && Bool.eqb (from_left md) (negb s) | _, _ => false end).
    destruct (existsb ok (seq 0 (length (faces m)))) eqn:E.
    - left. apply existsb_exists in E. destruct E as (j & Hj & Ej). apply in_seq in Hj.
      unfold ok in Ej. destruct (nth_error (faces m) j) as [ g | ] eqn:Eg; [ | discriminate ].
      destruct (nth_error (face_data m) j) as [ md | ] eqn:Ed; [ | discriminate ].
      apply andb_true_iff in Ej. destruct Ej as (E1 & E2). apply Bool.eqb_prop in E2.
      destruct (face_part j ltac:(lia)) as (s' & U & HU). exists j, U. split.
      + destruct HU as (HU & md' & K1 & K2). split; [ exact HU | ]. exists md. auto.
      + exists (a, b, c), g. split; auto. split; auto. now apply same_set_spec.
    - right. intros j U HU (f & g & H1 & H2 & H3). assert (f = (a, b, c)) by congruence. subst f.
      assert (K : existsb ok (seq 0 (length (faces m))) = true).
      { apply existsb_exists. exists j. split; [ apply in_seq; pose proof (part_range _ _ _ HU); lia | ].
        unfold ok. rewrite H2. destruct HU as (_ & md & E1 & E2). rewrite E1, E2, Bool.eqb_reflx, andb_true_r.
        now apply same_set_spec. }
      congruence.
  Qed.

  (** The triangle of a face with the given vertices. *)
  Lemma rot_part : forall i s T t a b c pa pb pc, part i s T -> nth_error (faces m) i = Some t -> rotation t a b c ->
    nth_error (points m) a = Some pa -> nth_error (points m) b = Some pb -> nth_error (points m) c = Some pc -> rot3 T pa pb pc.
  Proof.
    intros i s T t a b c pa pb pc H Ht Hr Ha Hb Hc.
    destruct (part_face i s T H) as (x & y & z & px & py & pz & Hf & Hx & Hy & Hz & ->). rewrite Hf in Ht. injection Ht as <-.
    destruct Hr as [ E | [ E | E ] ]; injection E as -> -> ->; unfold rot3;
      assert (EE : forall p q : vec3, Some p = Some q -> p = q) by congruence.
    - left. rewrite Hx in Ha. rewrite Hy in Hb. rewrite Hz in Hc. congruence.
    - right. left. rewrite Hx in Hb. rewrite Hy in Hc. rewrite Hz in Ha. congruence.
    - right. right. rewrite Hx in Hc. rewrite Hy in Ha. rewrite Hz in Hb. congruence.
  Qed.

  Lemma same_corners_rot : forall i j s T U, part i s T -> part j (negb s) U -> same_corners m i j ->
    same_triangle T U /\ (aligned T U \/ against T U).
  Proof.
    intros i j s T U HT HU (f & g & Hf & Hg & Hv). destruct f as [ [a b] c].
    pose proof (corners_distinct i s T a b c HT Hf) as (N1 & N2 & N3).
    destruct g as [ [a' b'] c']. pose proof (corners_distinct j (negb s) U a' b' c' HU Hg) as (N4 & N5 & N6).
    destruct (part_face i s T HT) as (x & y & z & pa & pb & pc & Hf' & Ha & Hb & Hc & ET). rewrite Hf in Hf'. injection Hf' as <- <- <-.
    assert (RT : rot3 T pa pb pc) by (left; exact ET).
    assert (G : rotation (a', b', c') a b c \/ rotation (a', b', c') b a c).
    { unfold rotation.
      assert (Wa : a = a' \/ a = b' \/ a = c') by (apply (proj1 (Hv a)); unfold has_vertex; auto).
      assert (Wb : b = a' \/ b = b' \/ b = c') by (apply (proj1 (Hv b)); unfold has_vertex; auto).
      assert (Wc : c = a' \/ c = b' \/ c = c') by (apply (proj1 (Hv c)); unfold has_vertex; auto).
      clear - N1 N2 N3 Wa Wb Wc.
      destruct Wa as [ -> | [ -> | -> ] ], Wb as [ -> | [ -> | -> ] ], Wc as [ -> | [ -> | -> ] ]; try congruence; auto. }
    destruct G as [ G | G ].
    - pose proof (rot_part j (negb s) U _ a b c pa pb pc HU Hg G Ha Hb Hc) as RU.
      destruct (rot_aligned T U pa pb pc RT RU); auto.
    - pose proof (rot_part j (negb s) U _ b a c pb pa pc HU Hg G Hb Ha Hc) as RU.
      destruct (rot_against T U pa pb pc RT RU); auto.
  Qed.

  (** Without a twin the points of the face are off the other operand. *)
  Lemma no_twin_off : forall i s T, part i s T -> (forall j U, part j (negb s) U -> ~ same_corners m i j) ->
    forall x, in_tri x T -> ~ bd (negb s) x.
  Proof.
    intros i s T H N x Hx Hb. apply boundary_part in Hb. destruct Hb as (j & U & HU & Ho).
    exact (N j U HU (cf_open _ _ _ _ C i j s T U x H HU Hx Ho)).
  Qed.

  Lemma in_tri_segment : forall T x y z, in_tri x T -> in_tri y T -> in_segment z x y -> in_tri z T.
  Proof.
    intros [ [a b] c] x y z (u & v & w & H1 & H2 & H3 & H4 & H5 & H6 & H7) (u' & v' & w' & K1 & K2 & K3 & K4 & K5 & K6 & K7)
      (t & (T0 & T1) & (E1 & E2 & E3)).
    assert (P : forall p q : Q, 0 < p -> 0 < q -> 0 < (1 - t) * p + t * q).
    { clear - T0 T1. intros p q Hp Hq. destruct (Qlt_le_dec 0 t).
      - assert (0 <= (1 - t) * p) by (apply Qmult_le_0_compat; lra). assert (0 < t * q) by (apply Qmult_lt_0_compat; lra). lra.
      - assert (Z : t == 0) by lra. rewrite Z. lra. }
    exists ((1 - t) * u + t * u'), ((1 - t) * v + t * v'), ((1 - t) * w + t * w').
    split; [ apply P; assumption | ]. split; [ apply P; assumption | ]. split; [ apply P; assumption | ].
    split; [ setoid_replace ((1 - t) * u + t * u' + ((1 - t) * v + t * v') + ((1 - t) * w + t * w')) with
      ((1 - t) * (u + v + w) + t * (u' + v' + w')) by ring; rewrite H4, K4; ring | ].
    unfold along, vsub in E1, E2, E3. cbn [vx vy vz fst snd] in E1, E2, E3.
    repeat split; [ rewrite E1, H5, K5 | rewrite E2, H6, K6 | rewrite E3, H7, K7 ]; ring.
  Qed.

  (** Whether the points of the face are inside the other operand. *)
  Lemma open_constant : forall i s T, part i s T -> (forall x, in_tri x T -> ~ bd (negb s) x) ->
    forall x y, in_tri x T -> in_tri y T -> (mem (negb s) x <-> mem (negb s) y).
  Proof.
    intros i s T H N x y Hx Hy. apply (bi_walk _ _ _ (op_bounds (negb s)) x y (part_in i s T x H Hx) (part_in i s T y H Hy)). intros z Hz. apply N.
    exact (in_tri_segment T x y z Hx Hy Hz).
  Qed.

  Lemma truth_exists : forall i s T, part i s T -> exists t, says s t T.
  Proof.
    intros i s T H. destruct (twin_dec i s T H) as [ (j & U & HU & HC) | N ].
    - destruct (same_corners_rot i j s T U H HU HC) as (S & [ K | K ]); [ exists COPLANAR | exists OPPOSITE ]; exists j, U; auto.
    - pose proof (no_twin_off i s T H N) as O. destruct (inner_point T) as (q & Hq).
      destruct (op_dec (negb s) q (part_in i s T q H Hq)) as [ K | K ]; [ exists INTERIOR | exists EXTERIOR ]; intros x Hx; split; auto;
        pose proof (open_constant i s T H O x q Hx Hq); tauto.
  Qed.

  Lemma twin_tag : forall i s T t, part i s T -> says s t T -> (t = COPLANAR \/ t = OPPOSITE) <->
    exists j U, part j (negb s) U /\ same_corners m i j.
  Proof.
    intros i s T t H HS. destruct (inner_point T) as (q & Hq). split.
    - intros K. assert (G : exists j U, part j (negb s) U /\ same_triangle T U).
      { destruct K as [ -> | -> ]; destruct HS as (j & U & H1 & H2 & _); eauto. }
      destruct G as (j & U & HU & S). exists j, U. split; [ exact HU | ].
      apply (cf_open _ _ _ _ C i j s T U q H HU Hq). apply in_on_tri. now apply S.
    - intros (j & U & HU & HC). destruct (same_corners_rot i j s T U H HU HC) as (S & _).
      assert (O : bd (negb s) q). { apply boundary_part. exists j, U. split; auto. apply in_on_tri. now apply S. }
      destruct t; auto; cbn [Spec_conform.says] in HS; try contradiction; destruct (HS q Hq); contradiction.
  Qed.

  Lemma says_fun : forall i s T t t', part i s T -> says s t T -> says s t' T -> t = t'.
  Proof.
    intros i s T t t' H H1 H2. pose proof (twin_tag i s T t H H1) as K1. pose proof (twin_tag i s T t' H H2) as K2.
    destruct (inner_point T) as (q & Hq).
    assert (G : forall j U j' U', part j (negb s) U -> same_triangle T U -> part j' (negb s) U' -> same_triangle T U' -> U = U').
    { intros j U j' U' P1 S1 P2 S2. assert (E : j' = j).
      { apply (cf_apart _ _ _ _ C j j' (negb s) U U' q P1 P2); [ now apply S1 | apply in_on_tri; now apply S2 ]. }
      subst j'. exact (proj2 (part_fun _ _ _ _ _ P1 P2)). }
    pose proof (cf_nondegenerate _ _ _ _ C i s T H) as F.
    destruct t, t'; auto; cbn [Spec_conform.says] in H1, H2; try contradiction.
    - destruct (H1 q Hq), (H2 q Hq). contradiction.
    - exfalso. assert (X : EXTERIOR = COPLANAR \/ EXTERIOR = OPPOSITE) by tauto. destruct X; discriminate.
    - exfalso. assert (X : EXTERIOR = COPLANAR \/ EXTERIOR = OPPOSITE) by tauto. destruct X; discriminate.
    - destruct (H1 q Hq), (H2 q Hq). contradiction.
    - exfalso. assert (X : INTERIOR = COPLANAR \/ INTERIOR = OPPOSITE) by tauto. destruct X; discriminate.
    - exfalso. assert (X : INTERIOR = COPLANAR \/ INTERIOR = OPPOSITE) by tauto. destruct X; discriminate.
    - exfalso. assert (X : EXTERIOR = COPLANAR \/ EXTERIOR = OPPOSITE) by tauto. destruct X; discriminate.
    - exfalso. assert (X : INTERIOR = COPLANAR \/ INTERIOR = OPPOSITE) by tauto. destruct X; discriminate.
    - exfalso. destruct H1 as (j & U & P1 & S1 & A1). destruct H2 as (j' & U' & P2 & S2 & A2).
      rewrite <- (G _ _ _ _ P1 S1 P2 S2) in A2. exact (aligned_against T U F A1 A2).
    - exfalso. assert (X : EXTERIOR = COPLANAR \/ EXTERIOR = OPPOSITE) by tauto. destruct X; discriminate.
    - exfalso. assert (X : INTERIOR = COPLANAR \/ INTERIOR = OPPOSITE) by tauto. destruct X; discriminate.
    - exfalso. destruct H1 as (j & U & P1 & S1 & A1). destruct H2 as (j' & U' & P2 & S2 & A2).
      rewrite <- (G _ _ _ _ P1 S1 P2 S2) in A2. exact (aligned_against T U F A2 A1).
  Qed.

  (** *** Across an edge that is not a border edge *)

  (** The middle of a side, and the points of the face on the way to it. *)
  Lemma side_middle : forall i s T a b, part i s T -> side_of (faces m) i a b ->
    exists pa pb, nth_error (points m) a = Some pa /\ nth_error (points m) b = Some pb /\
      let q := along pa (1 # 2) (vsub pb pa) in
      on_tri q T /\ exists y, in_tri y T /\ forall z, in_segment z y q -> in_tri z T \/ same z q.
  Proof.
    intros i s T a b H (t & Ht & Hs). destruct t as [ [x y] z].
    destruct (part_face i s T H) as (x' & y' & z' & px & py & pz & Hf & Hx & Hy & Hz & ET). rewrite Ht in Hf. injection Hf as <- <- <-.
    assert (G : exists pa pb pc, nth_error (points m) a = Some pa /\ nth_error (points m) b = Some pb /\ rot3 T pa pb pc).
    { destruct Hs as [ (-> & ->) | [ (-> & ->) | (-> & ->) ] ].
      - exists px, py, pz. repeat split; auto. left; exact ET.
      - exists py, pz, px. repeat split; auto. right; right; exact ET.
      - exists pz, px, py. repeat split; auto. right; left; exact ET. }
    destruct G as (pa & pb & pc & Ha & Hb & HR). exists pa, pb. split; [ exact Ha | ]. split; [ exact Hb | ].
    cbn zeta. set (q := along pa (1 # 2) (vsub pb pa)). split.
    - rewrite (rot_on T pa pb pc q HR). exists (1 # 2), (1 # 2), 0. unfold q, along, vsub. cbn [vx vy vz fst snd].
      repeat split; try lra; try ring.
    - set (y0 := ((1 # 3) * vx pa + (1 # 3) * vx pb + (1 # 3) * vx pc, (1 # 3) * vy pa + (1 # 3) * vy pb + (1 # 3) * vy pc,
        (1 # 3) * vz pa + (1 # 3) * vz pb + (1 # 3) * vz pc) : vec3).
      exists y0. split.
      + rewrite (rot_in T pa pb pc y0 HR). exists (1 # 3), (1 # 3), (1 # 3). repeat split; reflexivity.
      + intros w (t & (T0 & T1) & (E1 & E2 & E3)). destruct (Qlt_le_dec t 1) as [ Lt | Lt ].
        * left. rewrite (rot_in T pa pb pc w HR).
          exists ((1 # 3) + t * (1 # 6)), ((1 # 3) + t * (1 # 6)), ((1 # 3) * (1 - t)).
          unfold along, vsub, y0, q in E1, E2, E3. cbn [vx vy vz fst snd] in E1, E2, E3. unfold along, vsub in E1, E2, E3. cbn [vx vy vz fst snd] in E1, E2, E3.
          repeat split; lra.
        * right. assert (Z : t == 1) by lra. unfold along, vsub in E1, E2, E3. cbn [vx vy vz fst snd] in E1, E2, E3.
          rewrite Z in E1, E2, E3. repeat split; [ rewrite E1 | rewrite E2 | rewrite E3 ]; ring.
  Qed.

  Lemma middle_open : forall pa pb, in_open_segment (along pa (1 # 2) (vsub pb pa)) pa pb.
  Proof. intros pa pb. exists (1 # 2). repeat split; reflexivity. Qed.

  Lemma on_boundary_same : forall s x y, same x y -> bd s x -> bd s y.
  Proof.
    intros s x y E H. apply boundary_part in H. apply boundary_part. destruct H as (i & T & H1 & H2). exists i, T.
    split; auto. exact (on_tri_same T x y E H2).
  Qed.

  Lemma make_edge_sym : forall a b, make_edge a b = make_edge b a.
  Proof.
    intros a b. unfold make_edge. destruct (Nat.ltb_spec a b), (Nat.ltb_spec b a); try reflexivity; try lia.
    assert (a = b) by lia. subst. reflexivity.
  Qed.

  Lemma incident_side : forall g s U a b, part g s U -> a <> b -> incident (faces m) g a -> incident (faces m) g b ->
    side_of (faces m) g a b \/ side_of (faces m) g b a.
  Proof.
    intros g s U a b H N (t & Ht & Ha) (t' & Ht' & Hb). assert (t' = t) by congruence. subst t'.
    destruct t as [ [x y] z]. unfold has_vertex in Ha, Hb.
    assert (G : (a = x /\ b = y \/ a = y /\ b = z \/ a = z /\ b = x) \/ (b = x /\ a = y \/ b = y /\ a = z \/ b = z /\ a = x)).
    { destruct Ha as [ -> | [ -> | -> ] ], Hb as [ -> | [ -> | -> ] ]; try congruence; auto. }
    destruct G as [ G | G ]; [ left | right ]; exists (x, y, z); split; auto.
  Qed.

  (** The side of the middle of a side of a face without twin. *)
  Lemma side_member : forall i s T a b pa pb x, part i s T -> side_of (faces m) i a b ->
    Dom (along pa (1 # 2) (vsub pb pa)) -> ~ bd (negb s) (along pa (1 # 2) (vsub pb pa)) -> nth_error (points m) a = Some pa -> nth_error (points m) b = Some pb -> in_tri x T ->
    (forall y, in_tri y T -> ~ bd (negb s) y) /\ (mem (negb s) x <-> mem (negb s) (along pa (1 # 2) (vsub pb pa))).
  Proof.
    intros i s T a b pa pb x H Hs Kq O Ha Hb Hx.
    destruct (side_middle i s T a b H Hs) as (pa' & pb' & Ha' & Hb' & Hq). rewrite Ha in Ha'. injection Ha' as <-.
    rewrite Hb in Hb'. injection Hb' as <-. cbn zeta in Hq. destruct Hq as (Hq & y & Hy & Hyz).
    assert (N : forall j U, part j (negb s) U -> ~ same_corners m i j).
    { intros j U HU HC. apply O. apply boundary_part. exists j, U. split; auto.
      destruct (same_corners_rot i j s T U H HU HC) as (S & _). now apply S. }
    pose proof (no_twin_off i s T H N) as Off. split; [ exact Off | ].
    rewrite (open_constant i s T H Off x y Hx Hy).
    apply (bi_walk _ _ _ (op_bounds (negb s)) y _ (part_in i s T y H Hy) Kq). intros z Hz K. destruct (Hyz z Hz) as [ Z | Z ].
    - exact (Off z Z K).
    - apply O. exact (on_boundary_same _ _ _ Z K).
  Qed.

  Lemma along_middle_sym : forall pa pb, same (along pa (1 # 2) (vsub pb pa)) (along pb (1 # 2) (vsub pa pb)).
  Proof. intros pa pb. unfold same, along, vsub. cbn [vx vy vz fst snd]. repeat split; ring. Qed.

  (** The tag is the same on both sides of an edge off the other operand. *)
  Lemma truth_constant_off : forall f g s T s' U t t' a b pa pb, side_of (faces m) f a b ->
    incident (faces m) g a -> incident (faces m) g b ->
    nth_error (points m) a = Some pa -> nth_error (points m) b = Some pb ->
    part f s T -> part g s' U -> Dom (along pa (1 # 2) (vsub pb pa)) -> ~ bd (negb s) (along pa (1 # 2) (vsub pb pa)) -> says s t T -> says s' t' U -> t = t'.
  Proof.
    intros f g s T s' U t t' a b pa pb Hs Hga Hgb Ha Hb HT HU Kq Off St St'.
    assert (Nab : a <> b).
    { destruct Hs as ([ [x y] z] & Ht & Hs). destruct (corners_distinct f s T x y z HT Ht) as (N1 & N2 & N3).
      destruct Hs as [ (-> & ->) | [ (-> & ->) | (-> & ->) ] ]; auto. }
    assert (Es : s' = s).
    { destruct (Bool.bool_dec s' s) as [ E | E ]; auto. exfalso. apply opposite_of in E. subst s'.
      apply Off. apply boundary_part. exists g, U. split; auto.
      destruct (incident_side g (negb s) U a b HU Nab Hga Hgb) as [ K | K ].
      - destruct (side_middle g _ U a b HU K) as (pa' & pb' & Ha' & Hb' & Hq' & _).
        rewrite Ha in Ha'. injection Ha' as <-. rewrite Hb in Hb'. injection Hb' as <-. exact Hq'.
      - destruct (side_middle g _ U b a HU K) as (pb' & pa' & Hb' & Ha' & Hq' & _).
        rewrite Ha in Ha'. injection Ha' as <-. rewrite Hb in Hb'. injection Hb' as <-.
        exact (on_tri_same U _ _ (same_sym _ _ (along_middle_sym pa pb)) Hq'). }
    subst s'.
    destruct (inner_point T) as (x & Hx). destruct (inner_point U) as (y & Hy).
    destruct (side_member f s T a b pa pb x HT Hs Kq Off Ha Hb Hx) as (O1 & M1).
    assert (G : (forall y, in_tri y U -> ~ bd (negb s) y) /\ (mem (negb s) y <-> mem (negb s) (along pa (1 # 2) (vsub pb pa)))).
    { destruct (incident_side g s U a b HU Nab Hga Hgb) as [ K | K ].
      - exact (side_member g s U a b pa pb y HU K Kq Off Ha Hb Hy).
      - assert (Off' : ~ bd (negb s) (along pb (1 # 2) (vsub pa pb))).
        { intro Z. apply Off. revert Z. apply on_boundary_same. apply same_sym. apply along_middle_sym. }
        pose proof (oc_same _ HK _ _ (along_middle_sym pa pb) Kq) as Kq'.
        destruct (side_member g s U b a pb pa y HU K Kq' Off' Hb Ha Hy) as (O2 & M2).
        split; [ exact O2 | ]. rewrite M2. apply (bi_walk _ _ _ (op_bounds (negb s)) _ _ Kq' Kq).
        intros z (k & (K0 & K1) & (E1 & E2 & E3)) Kb.
        apply Off'. revert Kb. apply on_boundary_same.
        unfold same, along, vsub in *. cbn [vx vy vz fst snd] in *. repeat split; [ rewrite E1 | rewrite E2 | rewrite E3 ]; ring. }
    destruct G as (O2 & M2).
    assert (Eq : mem (negb s) x <-> mem (negb s) y) by (rewrite M1, M2; tauto). clear M1 M2.
    assert (NT : ~ (exists j V, part j (negb s) V /\ same_corners m f j)).
    { intros (j & V & HV & HC). apply (O1 x Hx). apply boundary_part. exists j, V. split; auto.
      destruct (same_corners_rot f j s T V HT HV HC) as (S & _). apply in_on_tri. now apply S. }
    assert (NU : ~ (exists j V, part j (negb s) V /\ same_corners m g j)).
    { intros (j & V & HV & HC). apply (O2 y Hy). apply boundary_part. exists j, V. split; auto.
      destruct (same_corners_rot g j s U V HU HV HC) as (S & _). apply in_on_tri. now apply S. }
    pose proof (twin_tag f s T t HT St) as K1. pose proof (twin_tag g s U t' HU St') as K2.
    destruct t, t'; auto; cbn [Spec_conform.says] in St, St'; try contradiction; try (exfalso; tauto);
      destruct (St x Hx), (St' y Hy); tauto.
  Qed.
End Conform.
