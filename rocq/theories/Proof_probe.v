(** * Proofs about Side_of_triangle_soup *)
From Coq Require Import List Arith Bool QArith Qabs Qminmax Lqa Lia Permutation.
From Verif Require Import Model_base Proof_base Model_soup Model_geometry Model_aabb Model_classify.
From Verif Require Import Model_candidates Spec_aabb Spec_candidates Proof_aabb Prop_aabb.
From Verif Require Import Proof_pairs Model_side Spec_side Spec_open Proof_affine Proof_side.
Import ListNotations.
Local Open Scope Q_scope.

Lemma same_dec : forall a b, {same a b} + {~ same a b}.
Proof.
  intros a b. destruct (point_eqb a b) eqn:E; [ left; apply point_eqb_same | right; apply point_eqb_false ]; exact E.
Qed.

Lemma along_same : forall p s t d, s == t -> same (along p s d) (along p t d).
Proof. intros p s t d E. unfold along. repeat split; cbn [vx vy vz fst snd]; rewrite E; reflexivity. Qed.

Lemma along_along : forall p s t d, same (along (along p s d) t d) (along p (s + t) d).
Proof. intros. unfold along. repeat split; cbn [vx vy vz fst snd]; ring. Qed.

Lemma along_zero : forall p t d, t == 0 -> same (along p t d) p.
Proof. intros p t d E. unfold along. repeat split; cbn [vx vy vz fst snd]; rewrite E; ring. Qed.

Lemma vsub_nonzero : forall p r, ~ same p r -> 0 < vdot (vsub r p) (vsub r p).
Proof.
  intros p r H. destruct (Qlt_le_dec 0 (vdot (vsub r p) (vsub r p))) as [L | L]; auto. exfalso. apply H.
  pose proof (vdot_self (vsub r p)). assert (Z : vdot (vsub r p) (vsub r p) == 0) by lra.
  destruct (vdot_self_zero _ Z) as (A & B & C). unfold vsub in A, B, C. cbn [vx vy vz fst snd] in A, B, C.
  repeat split; lra.
Qed.

Lemma along_inj : forall p r s t, ~ same p r -> same (along p s (vsub r p)) (along p t (vsub r p)) -> s == t.
Proof.
  intros p r s t Hn (A & B & C). assert (Hp := vsub_nonzero p r Hn). set (d := vsub r p) in *.
  unfold along in A, B, C. cbn [vx vy vz fst snd] in A, B, C.
  assert (E : (s - t) * vdot d d == 0).
  { unfold vdot.
    assert (E1 : (s - t) * (vx d * vx d + vy d * vy d + vz d * vz d) ==
      (s * vx d - t * vx d) * vx d + (s * vy d - t * vy d) * vy d + (s * vz d - t * vz d) * vz d) by ring.
    assert (X : s * vx d - t * vx d == 0) by lra. assert (Y : s * vy d - t * vy d == 0) by lra.
    assert (Z : s * vz d - t * vz d == 0) by lra. rewrite E1, X, Y, Z. ring. }
  apply Qmult_integral in E. destruct E as [E | E]; lra.
Qed.

Lemma sqd_along : forall p q t d, same q (along p t d) -> squared_distance p q == t * t * vdot d d.
Proof.
  intros p q t d (A & B & C). unfold squared_distance, vdot, vsub. cbn [vx vy vz fst snd].
  rewrite A, B, C. unfold along. cbn [vx vy vz fst snd]. ring.
Qed.

Lemma sq_le : forall s t k : Q, 0 <= s -> 0 <= t -> 0 < k -> s * s * k <= t * t * k -> s <= t.
Proof.
  intros s t k Hs Ht Hk H. destruct (Qlt_le_dec t s) as [L | L]; auto. exfalso.
  assert (t * t < s * s) by nra.
  assert (t * t * k < s * s * k) by (apply Qmult_lt_compat_r; assumption). lra.
Qed.

Lemma sq_le' : forall s t k : Q, 0 <= s -> 0 <= t -> 0 < k -> s <= t -> s * s * k <= t * t * k.
Proof.
  intros s t k Hs Ht Hk H. apply Qmult_le_compat_r; [ nra | lra ].
Qed.

Section Probe.
  Context {D : Type} (m : soup vec3 D) (inside : vec3 -> Prop).
  Variable pbox : vec3 -> box.
  Variable longest_axis : option box -> nat.
  Variable sort_by : nat -> list (box * nat) -> list (box * nat).
  Variable nth_element_by : nat -> nat -> list (box * nat) -> list (box * nat).
  Variable ray_triangle : vec3 * vec3 * vec3 -> vec3 -> vec3 -> hit.
  Variable ray_meets_box : vec3 -> vec3 -> box -> bool.
  Variable partial_sort2 : list (Q * nat) -> list (Q * nat).
  Hypothesis Hre : rearranges sort_by nth_element_by.
  Hypothesis Hpbox : forall p, in_box p (pbox p).
  Hypothesis Hray : exact_intersection ray_triangle.
  Hypothesis Hmeets : sound_box_test ray_meets_box.
  Hypothesis Hsort : sorts_two partial_sort2.
  Hypothesis Hp : proper_faces m.
  Variable Dom : vec3 -> Prop.
  Hypothesis HK : open_convex Dom.
  Variable t : tree (box * nat).
  Hypothesis Htree : aabb_tree pbox longest_axis sort_by nth_element_by m t.

  Lemma triangle_exists : forall fi, (fi < num_faces m)%nat -> exists a b c, soup_triangle m fi = Ok (a, b, c).
  Proof.
    intros fi Hi. destruct (valid_corners m fi (pf_valid _ Hp) Hi) as (v0 & v1 & v2 & p0 & p1 & p2 & Hf & H0 & H1 & H2).
    exists p0, p1, p2. unfold soup_triangle, soup_face, soup_point, vec_at. rewrite Hf. cbn [bind].
    rewrite H0, H1, H2. reflexivity.
  Qed.

  Lemma on_face_box : forall fi x, on_face m fi x -> in_box x (the_box pbox m fi).
  Proof.
    intros fi x (p0 & p1 & p2 & Ht & (u & v & w & Hu & Hv' & Hw & Hs & Ex & Ey & Ez)).
    assert (C : forall u v w a b c m : Q, 0 <= u -> 0 <= v -> 0 <= w -> u + v + w == 1 ->
      m <= a -> m <= b -> m <= c -> m <= u * a + v * b + w * c).
    { clear. intros u v w a b c m Hu Hv Hw Hs Ha Hb Hc.
      assert (0 <= u * (a - m)) by (apply Qmult_le_0_compat; lra).
      assert (0 <= v * (b - m)) by (apply Qmult_le_0_compat; lra).
      assert (0 <= w * (c - m)) by (apply Qmult_le_0_compat; lra).
      assert (E : u * a + v * b + w * c == u * (a - m) + v * (b - m) + w * (c - m) + (u + v + w) * m) by ring.
      rewrite E, Hs. lra. }
    assert (C' : forall u v w a b c m : Q, 0 <= u -> 0 <= v -> 0 <= w -> u + v + w == 1 ->
      a <= m -> b <= m -> c <= m -> u * a + v * b + w * c <= m).
    { clear - C. intros u v w a b c m Hu Hv Hw Hs Ha Hb Hc.
      assert (X := C u v w (-a) (-b) (-c) (-m) Hu Hv Hw Hs). lra. }
    unfold the_box, face_bbox. rewrite Ht. cbn [bind].
    destruct (Hpbox p0) as (a1 & a2 & a3), (Hpbox p1) as (b1 & b2 & b3), (Hpbox p2) as (c1 & c2 & c3).
    assert (J1 := box_join_l (box_join (pbox p0) (pbox p1)) (pbox p2)).
    assert (J2 := box_join_r (box_join (pbox p0) (pbox p1)) (pbox p2)).
    assert (J3 := box_in_trans _ _ _ (box_join_l (pbox p0) (pbox p1)) J1).
    assert (J4 := box_in_trans _ _ _ (box_join_r (pbox p0) (pbox p1)) J1).
    destruct J2 as (d1 & d2 & d3 & d4 & d5 & d6), J3 as (f1 & f2 & f3 & f4 & f5 & f6),
      J4 as (g1 & g2 & g3 & g4 & g5 & g6).
    generalize dependent (box_join (box_join (pbox p0) (pbox p1)) (pbox p2)). intros bx; intros.
    split; [ | split ].
    - rewrite Ex. split; [ apply C | apply C' ]; lra.
    - rewrite Ey. split; [ apply C | apply C' ]; lra.
    - rewrite Ez. split; [ apply C | apply C' ]; lra.
  Qed.

  (** ** One ray *)
  Section Ray.
    Variables p r : vec3.
    Hypothesis Hpr : ~ same p r.
    Let d := vsub r p.
    Let at_ (s : Q) := along p s d.

    Definition kind_of (fi : nat) : hit :=
      match soup_triangle m fi with Ok tri => ray_triangle tri p r | _ => HNone end.

    Lemma in_ray_at : forall s, 0 <= s -> in_ray (at_ s) p r.
    Proof. intros s H. exists s. split; [ exact H | apply same_refl ]. Qed.

    Lemma kind_none : forall F, kind_of F = HNone -> forall s, 0 <= s -> ~ on_face m F (at_ s).
    Proof.
      intros F Hk s Hs (a & b & c & E & Hin). unfold kind_of in Hk. rewrite E in Hk.
      pose proof (Hray a b c p r (pf_nondegenerate _ Hp F a b c E) Hpr) as H. rewrite Hk in H.
      exact (H _ (in_ray_at s Hs) Hin).
    Qed.

    Lemma kind_point : forall F q, kind_of F = HPoint q ->
      exists s, 0 <= s /\ same q (at_ s) /\ forall x, 0 <= x -> (on_face m F (at_ x) <-> x == s).
    Proof.
      intros F q Hk. unfold kind_of in Hk.
      destruct (soup_triangle m F) as [ [ [a b] c] | | ] eqn:E; try discriminate.
      pose proof (Hray a b c p r (pf_nondegenerate _ Hp F a b c E) Hpr) as H. rewrite Hk in H.
      destruct (proj2 (H q) (same_refl q)) as [ [s [Hs Hq] ] Hin]. fold d in Hq. fold (at_ s) in Hq.
      exists s. split; [ exact Hs | split; [ exact Hq | ] ]. intros x Hx. split.
      - intros (a' & b' & c' & E' & Hin'). rewrite E in E'. injection E' as <- <- <-.
        assert (X := proj1 (H (at_ x)) (conj (in_ray_at x Hx) Hin')).
        apply (along_inj p r x s Hpr). exact (same_trans _ _ _ X Hq).
      - intro Ex. apply (on_face_same m Hp F q).
        + apply (same_trans _ _ _ Hq). apply along_same. symmetry. exact Ex.
        + exists a, b, c. auto.
    Qed.

    Lemma kind_segment : forall F u v, kind_of F = HSegment u v ->
      exists lo hi, 0 <= lo /\ lo < hi /\
        ((same u (at_ lo) /\ same v (at_ hi)) \/ (same v (at_ lo) /\ same u (at_ hi))) /\
        forall x, 0 <= x -> (on_face m F (at_ x) <-> lo <= x <= hi).
    Proof.
      intros F u v Hk. unfold kind_of in Hk.
      destruct (soup_triangle m F) as [ [ [a b] c] | | ] eqn:E; try discriminate.
      pose proof (Hray a b c p r (pf_nondegenerate _ Hp F a b c E) Hpr) as H. rewrite Hk in H.
      destruct H as [Hne H].
      assert (Hu : in_segment u u v).
      { exists 0. split; [ lra | ]. apply same_sym, along_zero. reflexivity. }
      assert (Hv : in_segment v u v).
      { exists 1. split; [ lra | ]. unfold along, vsub. repeat split; cbn [vx vy vz fst snd]; ring. }
      destruct (proj2 (H u) Hu) as [ [su [Hsu Eu] ] _]. destruct (proj2 (H v) Hv) as [ [sv [Hsv Ev] ] _].
      fold d in Eu, Ev. fold (at_ su) in Eu. fold (at_ sv) in Ev.
      assert (Hon : forall x, 0 <= x -> (on_face m F (at_ x) <-> in_segment (at_ x) u v)).
      { intros x Hx. rewrite <- H. split.
        - intros (a' & b' & c' & E' & Hin'). rewrite E in E'. injection E' as <- <- <-.
          split; [ apply in_ray_at; exact Hx | exact Hin' ].
        - intros [_ Hin']. exists a, b, c. auto. }
      assert (Hseg : forall x, in_segment (at_ x) u v <-> exists l, 0 <= l <= 1 /\ x == su + l * (sv - su)).
      { intro x.
        assert (G : forall l, same (along u l (vsub v u)) (at_ (su + l * (sv - su)))).
        { intro l. destruct Eu as (e1 & e2 & e3), Ev as (f1 & f2 & f3). unfold along, vsub.
          repeat split; cbn [vx vy vz fst snd].
          - rewrite e1, f1. unfold at_, along. cbn [vx vy vz fst snd]. ring.
          - rewrite e2, f2. unfold at_, along. cbn [vx vy vz fst snd]. ring.
          - rewrite e3, f3. unfold at_, along. cbn [vx vy vz fst snd]. ring. }
        split.
        - intros [l [Hl Hx] ]. exists l. split; [ exact Hl | ].
          apply (along_inj p r _ _ Hpr). exact (same_trans _ _ _ Hx (G l)).
        - intros [l [Hl Hx] ]. exists l. split; [ exact Hl | ].
          apply (same_trans _ (at_ (su + l * (sv - su)))); [ apply along_same; exact Hx | apply same_sym, G ]. }
      assert (Hsv_ne : ~ su == sv).
      { intro X. apply Hne. apply (same_trans _ _ _ Eu). apply (same_trans _ (at_ sv)); [ apply along_same; exact X | ].
        apply same_sym. exact Ev. }
      assert (Hint : forall x y z : Q, x < y ->
        ((exists l, 0 <= l <= 1 /\ z == x + l * (y - x)) <-> x <= z <= y)).
      { intros x y z L. split.
        - intros [l [Hl Hz] ]. rewrite Hz.
          assert (0 <= l * (y - x)) by (apply Qmult_le_0_compat; lra).
          assert (0 <= (1 - l) * (y - x)) by (apply Qmult_le_0_compat; lra).
          assert (X : (1 - l) * (y - x) == y - x - l * (y - x)) by ring. lra.
        - intros [H1 H2]. exists ((z - x) / (y - x)). split; [ | field; lra ].
          split; [ apply Qle_shift_div_l; lra | apply Qle_shift_div_r; lra ]. }
      destruct (Qlt_le_dec su sv) as [L | L].
      - exists su, sv. split; [ exact Hsu | split; [ exact L | split; [ left; auto | ] ] ].
        intros x Hx. rewrite (Hon x Hx), Hseg. apply Hint. exact L.
      - exists sv, su. split; [ exact Hsv | split; [ lra | split; [ right; auto | ] ] ].
        intros x Hx. rewrite (Hon x Hx), Hseg, <- (Hint sv su x ltac:(lra)).
        split; intros [l [Hl Hx'] ]; exists (1 - l); (split; [ lra | rewrite Hx'; ring ]).
    Qed.

    (** ** The scan of the leaves *)
    Definition bad (F : nat) : bool :=
      match kind_of F with
      | HNone => false
      | HPoint q => point_eqb q p
      | HSegment s e => point_eqb s p || point_eqb e p
      end.
    Definition pts (F : nat) : list (Q * nat) :=
      match kind_of F with HPoint q => [(squared_distance p q, F)] | _ => [] end.

    Lemma scan_ok : forall found leaves acc,
      Forall2 (fun i l => nth_error (t_leaves t) i = Some l) found leaves ->
      (forall l, In l leaves -> (snd l < num_faces m)%nat) ->
      scan ray_triangle m t p r found acc =
        Ok (if existsb bad (map snd leaves) then None else Some (acc ++ flat_map pts (map snd leaves))).
    Proof.
      intros found leaves acc H. revert acc. induction H as [ | i l found leaves Hi H IH]; intros acc Hl.
      - cbn. rewrite app_nil_r. reflexivity.
      - cbn [scan]. rewrite Hi. cbv zeta.
        destruct (triangle_exists (snd l) (Hl l (or_introl eq_refl))) as (a & b & c & E).
        rewrite E. cbn [bind map existsb flat_map].
        assert (K : kind_of (snd l) = ray_triangle (a, b, c) p r) by (unfold kind_of; rewrite E; reflexivity).
        unfold bad at 1, pts at 1. rewrite K.
        destruct (ray_triangle (a, b, c) p r) as [ | q | s e].
        + apply IH. intros; apply Hl; right; assumption.
        + destruct (point_eqb q p); [ reflexivity | ]. cbn [orb].
          rewrite IH by (intros; apply Hl; right; assumption). rewrite <- app_assoc. reflexivity.
        + destruct (point_eqb s p || point_eqb e p); [ reflexivity | ]. cbn [orb app].
          apply IH. intros; apply Hl; right; assumption.
    Qed.

    Lemma bad_on : forall F, bad F = true -> on_face m F p.
    Proof.
      intros F Hbad. unfold bad in Hbad. destruct (kind_of F) as [ | q | u v] eqn:K; [ discriminate | | ].
      - destruct (kind_point F q K) as (s & Hs & Hq & Hon). apply point_eqb_same in Hbad.
        apply (on_face_same m Hp F (at_ s)); [ | apply Hon; [ exact Hs | reflexivity ] ].
        exact (same_trans _ _ _ (same_sym _ _ Hq) Hbad).
      - destruct (kind_segment F u v K) as (lo & hi & Hlo & Hlh & Hends & Hon).
        apply orb_true_iff in Hbad. rewrite !point_eqb_same in Hbad.
        assert (Hl : on_face m F (at_ lo)) by (apply Hon; lra).
        assert (Hh : on_face m F (at_ hi)) by (apply Hon; lra).
        destruct Hbad as [Hb | Hb], Hends as [ [E1 E2] | [E1 E2] ].
        + exact (on_face_same m Hp F _ _ (same_trans _ _ _ (same_sym _ _ E1) Hb) Hl).
        + exact (on_face_same m Hp F _ _ (same_trans _ _ _ (same_sym _ _ E2) Hb) Hh).
        + exact (on_face_same m Hp F _ _ (same_trans _ _ _ (same_sym _ _ E2) Hb) Hh).
        + exact (on_face_same m Hp F _ _ (same_trans _ _ _ (same_sym _ _ E1) Hb) Hl).
    Qed.

    Lemma good_off : forall F, bad F = false -> ~ on_face m F p.
    Proof.
      intros F Hbad Hon0. unfold bad in Hbad.
      assert (H0 : on_face m F (at_ 0)).
      { apply (on_face_same m Hp F p); [ apply same_sym, along_zero; reflexivity | exact Hon0 ]. }
      destruct (kind_of F) as [ | q | u v] eqn:K.
      - exact (kind_none F K 0 ltac:(lra) H0).
      - destruct (kind_point F q K) as (s & Hs & Hq & Hon). apply Hon in H0; [ | lra ].
        apply point_eqb_false in Hbad. apply Hbad. apply (same_trans _ _ _ Hq). apply along_zero. lra.
      - destruct (kind_segment F u v K) as (lo & hi & Hlo & Hlh & Hends & Hon). apply Hon in H0; [ | lra ].
        apply orb_false_iff in Hbad. rewrite !point_eqb_false in Hbad. destruct Hbad as [B1 B2].
        destruct Hends as [ [E1 E2] | [E1 E2] ].
        + apply B1. apply (same_trans _ _ _ E1). apply along_zero. lra.
        + apply B2. apply (same_trans _ _ _ E1). apply along_zero. lra.
    Qed.

    (** ** The first hit *)
    Lemma face_first : forall F, (exists s, 0 <= s /\ on_face m F (at_ s)) ->
      exists lo, 0 <= lo /\ on_face m F (at_ lo) /\ forall s, 0 <= s -> on_face m F (at_ s) -> lo <= s.
    Proof.
      intros F [s [Hs Hon] ]. destruct (kind_of F) as [ | q | u v] eqn:K.
      - exfalso. exact (kind_none F K s Hs Hon).
      - destruct (kind_point F q K) as (lo & Hlo & _ & H). exists lo. split; [ exact Hlo | ]. split.
        + apply H; [ exact Hlo | reflexivity ].
        + intros x Hx Hx'. apply H in Hx'; lra.
      - destruct (kind_segment F u v K) as (lo & hi & Hlo & Hlh & _ & H). exists lo. split; [ exact Hlo | ]. split.
        + apply H; lra.
        + intros x Hx Hx'. apply H in Hx'; lra.
    Qed.

    Lemma face_hit_dec : forall F, (exists s, 0 <= s /\ on_face m F (at_ s)) \/
      (forall s, 0 <= s -> ~ on_face m F (at_ s)).
    Proof.
      intro F. destruct (kind_of F) as [ | q | u v] eqn:K.
      - right. exact (kind_none F K).
      - left. destruct (kind_point F q K) as (lo & Hlo & _ & H). exists lo. split; [ exact Hlo | ].
        apply H; [ exact Hlo | reflexivity ].
      - left. destruct (kind_segment F u v K) as (lo & hi & Hlo & Hlh & _ & H). exists lo. split; [ exact Hlo | ].
        apply H; lra.
    Qed.

    Lemma faces_hit_dec : forall n, (exists F s, (F < n)%nat /\ 0 <= s /\ on_face m F (at_ s)) \/
      forall F s, (F < n)%nat -> 0 <= s -> ~ on_face m F (at_ s).
    Proof.
      induction n as [ | k IHk]; [ right; intros; lia | ].
      destruct (face_hit_dec k) as [ [s [Hs Ho] ] | Hno].
      - left. exists k, s. auto.
      - destruct IHk as [ [F [s [HF H] ] ] | H].
        + left. exists F, s. split; [ lia | exact H ].
        + right. intros F s HF Hs Ho. destruct (Nat.eq_dec F k) as [-> | N]; [ exact (Hno s Hs Ho) | ].
          exact (H F s ltac:(lia) Hs Ho).
    Qed.

    Lemma first_hit : (exists F s, 0 <= s /\ on_face m F (at_ s)) ->
      exists F0 t0, 0 <= t0 /\ on_face m F0 (at_ t0) /\ forall F s, 0 <= s -> on_face m F (at_ s) -> t0 <= s.
    Proof.
      intros [F [s [Hs Hon] ] ].
      assert (G : forall n, (exists F s, (F < n)%nat /\ 0 <= s /\ on_face m F (at_ s)) ->
        exists F0 t0, 0 <= t0 /\ on_face m F0 (at_ t0) /\
          forall F s, (F < n)%nat -> 0 <= s -> on_face m F (at_ s) -> t0 <= s).
      { clear F s Hs Hon. induction n as [ | n IH]; intros [F [s [HF [Hs Hon] ] ] ]; [ lia | ].
        destruct (face_hit_dec n) as [Hn | Hn].
        - destruct (face_first n Hn) as (lo & Hlo & Honl & Hmin).
          destruct (Nat.eq_dec F n) as [-> | NF].
          + (* maybe an earlier face *)
            assert (Dec : (exists F s, (F < n)%nat /\ 0 <= s /\ on_face m F (at_ s)) \/
              forall F s, (F < n)%nat -> 0 <= s -> ~ on_face m F (at_ s)).
            { exact (faces_hit_dec n). }
            destruct Dec as [Dec | Dec].
            * destruct (IH Dec) as (F0 & t0 & Ht0 & H0 & Hm). destruct (Qlt_le_dec t0 lo) as [L | L].
              -- exists F0, t0. split; [ exact Ht0 | split; [ exact H0 | ] ]. intros G x HG Hx Ho.
                 destruct (Nat.eq_dec G n) as [-> | N].
                 ++ pose proof (Hmin x Hx Ho). lra.
                 ++ apply (Hm G x); auto. lia.
              -- exists n, lo. split; [ exact Hlo | split; [ exact Honl | ] ]. intros G x HG Hx Ho.
                 destruct (Nat.eq_dec G n) as [-> | N].
                 ++ exact (Hmin x Hx Ho).
                 ++ pose proof (Hm G x ltac:(lia) Hx Ho). lra.
            * exists n, lo. split; [ exact Hlo | split; [ exact Honl | ] ]. intros G x HG Hx Ho.
              destruct (Nat.eq_dec G n) as [-> | N]; [ exact (Hmin x Hx Ho) | ].
              exfalso. exact (Dec G x ltac:(lia) Hx Ho).
          + assert (Dec : exists F s, (F < n)%nat /\ 0 <= s /\ on_face m F (at_ s)).
            { exists F, s. split; [ lia | auto ]. }
            destruct (IH Dec) as (F0 & t0 & Ht0 & H0 & Hm). destruct (Qlt_le_dec t0 lo) as [L | L].
            * exists F0, t0. split; [ exact Ht0 | split; [ exact H0 | ] ]. intros G x HG Hx Ho.
              destruct (Nat.eq_dec G n) as [-> | N].
              -- pose proof (Hmin x Hx Ho). lra.
              -- apply (Hm G x); auto. lia.
            * exists n, lo. split; [ exact Hlo | split; [ exact Honl | ] ]. intros G x HG Hx Ho.
              destruct (Nat.eq_dec G n) as [-> | N].
              -- exact (Hmin x Hx Ho).
              -- pose proof (Hm G x ltac:(lia) Hx Ho). lra.
        - assert (Dec : exists F s, (F < n)%nat /\ 0 <= s /\ on_face m F (at_ s)).
          { exists F, s. split; [ | auto ]. destruct (Nat.eq_dec F n) as [-> | N]; [ | lia ].
            exfalso. exact (Hn s Hs Hon). }
          destruct (IH Dec) as (F0 & t0 & Ht0 & H0 & Hm).
          exists F0, t0. split; [ exact Ht0 | split; [ exact H0 | ] ]. intros G x HG Hx Ho.
          destruct (Nat.eq_dec G n) as [-> | N]; [ exfalso; exact (Hn x Hx Ho) | ].
          apply (Hm G x); auto. lia. }
      destruct (G (num_faces m)) as (F0 & t0 & Ht0 & H0 & Hm).
      - exists F, s. split; [ exact (on_face_lt m _ _ Hon) | auto ].
      - exists F0, t0. split; [ exact Ht0 | split; [ exact H0 | ] ]. intros G' x Hx Ho.
        apply (Hm G' x); auto. exact (on_face_lt m _ _ Ho).
    Qed.

    Section Hit.
      Hypothesis Hb : bounds_in Dom m inside.
      Hypothesis Hinner : forall fi a b c q, soup_triangle m fi = Ok (a, b, c) -> in_open_triangle q a b c -> Dom q.
      Hypothesis Kp : Dom p.
      Hypothesis Hoff : ~ on_boundary m p.
      Variables (F0 : nat) (t0 : Q).
      Hypothesis Ht0 : 0 <= t0.
      Hypothesis HF0 : on_face m F0 (at_ t0).
      Hypothesis Hmin : forall F s, 0 <= s -> on_face m F (at_ s) -> t0 <= s.
      Hypothesis Kq : Dom (at_ t0).

      Lemma back_dom : Dom (along (at_ t0) (- t0) d).
      Proof.
        apply (oc_same _ HK p); [ | exact Kp ]. apply same_sym. eapply same_trans; [ apply along_along | ]. apply along_zero. ring.
      Qed.

      Lemma t0_pos : 0 < t0.
      Proof.
        destruct (Qlt_le_dec 0 t0) as [L | L]; auto. exfalso. apply Hoff. exists F0.
        apply (on_face_same m Hp F0 (at_ t0)); [ apply along_zero; lra | exact HF0 ].
      Qed.

      Lemma before : forall e, 0 < e -> e <= t0 -> ~ on_boundary m (along (at_ t0) (- e) d).
      Proof.
        intros e He Hle [F HF].
        assert (X : on_face m F (at_ (t0 + - e))) by exact (on_face_same m Hp F _ _ (along_along p t0 (- e) d) HF).
        assert (t0 <= t0 + - e) by (apply (Hmin F); [ lra | exact X ]). lra.
      Qed.

      (** Faces that the ray meets in a segment go on behind the first hit. *)
      Lemma goes_on : forall F u v, kind_of F = HSegment u v -> on_face m F (at_ t0) ->
        exists s, 0 < s /\ on_face m F (along (at_ t0) s d).
      Proof.
        intros F u v K HF. destruct (kind_segment F u v K) as (lo & hi & Hlo & Hlh & _ & Hon).
        assert (L : t0 <= lo) by (apply (Hmin F); [ exact Hlo | apply Hon; lra ]).
        apply Hon in HF; [ | exact Ht0 ].
        exists (hi - t0). split; [ lra | ].
        apply (on_face_same m Hp F (at_ hi)).
        - apply same_sym. eapply same_trans; [ apply along_along | ]. apply along_same. ring.
        - apply Hon; lra.
      Qed.

      Lemma segment_in_plane : forall F u v a b c, kind_of F = HSegment u v ->
        soup_triangle m F = Ok (a, b, c) -> vdot (normal a b c) d == 0.
      Proof.
        intros F u v a b c K E. destruct (kind_segment F u v K) as (lo & hi & Hlo & Hlh & _ & Hon).
        assert (Hl : on_face m F (at_ lo)) by (apply Hon; lra).
        assert (Hh : on_face m F (at_ hi)) by (apply Hon; lra).
        destruct Hl as (a1 & b1 & c1 & E1 & I1), Hh as (a2 & b2 & c2 & E2 & I2).
        rewrite E in E1, E2. injection E1 as <- <- <-. injection E2 as <- <- <-.
        apply in_plane in I1, I2. unfold at_ in I1, I2. rewrite aev_along in I1, I2. cbn [ak through] in I1, I2.
        assert (Z : (hi - lo) * vdot (normal a b c) d == 0) by lra.
        apply Qmult_integral in Z. destruct Z as [Z | Z]; lra.
      Qed.

      (** Some face is met first in a single point. *)
      Lemma some_point : exists A q, kind_of A = HPoint q /\ on_face m A (at_ t0).
      Proof.
        assert (Dec : (exists A q, kind_of A = HPoint q /\ on_face m A (at_ t0)) \/
          forall A q, (A < num_faces m)%nat -> kind_of A = HPoint q -> ~ on_face m A (at_ t0)).
        { induction (num_faces m) as [ | n IH]; [ right; intros; lia | ].
          destruct IH as [IH | IH]; [ left; exact IH | ].
          destruct (kind_of n) as [ | q | u v] eqn:K.
          - right. intros A q HA KA. destruct (Nat.eq_dec A n) as [-> | N]; [ congruence | ].
            apply (IH A q); [ lia | exact KA ].
          - destruct (sat_dec (cons_of m n) (at_ t0)) as [Hs | Hs].
            + left. exists n, q. split; [ exact K | ]. apply (on_face_sat m Hp). exact Hs.
            + right. intros A q' HA KA. destruct (Nat.eq_dec A n) as [-> | N].
              * intro Hon. apply Hs. apply (on_face_sat m Hp). exact Hon.
              * apply (IH A q'); [ lia | exact KA ].
          - right. intros A q HA KA. destruct (Nat.eq_dec A n) as [-> | N]; [ congruence | ].
            apply (IH A q); [ lia | exact KA ]. }
        destruct Dec as [Dec | Dec]; [ exact Dec | ]. exfalso.
        assert (Seg : forall F, on_face m F (at_ t0) -> exists u v, kind_of F = HSegment u v).
        { intros F HF. destruct (kind_of F) as [ | q | u v] eqn:K; eauto.
          - exfalso. exact (kind_none F K t0 Ht0 HF).
          - exfalso. exact (Dec F q (on_face_lt m _ _ HF) K HF). }
        destruct (Seg F0 HF0) as (u & v & K). assert (HF0' := HF0).
        destruct HF0' as (a & b & c & E & Hin).
        apply (grazing m inside Hp Dom HK Hb Hinner (at_ t0) d t0 F0 a b c t0_pos E Hin before Kq back_dom).
        - intros F NF HF. destruct (Seg F HF) as (u' & v' & K'). exact (goes_on F u' v' K' HF).
        - exact (segment_in_plane F0 u v a b c K E).
      Qed.

      (** Only one face is met first in a single point: it decides. *)
      Lemma decides : forall A q a b c, kind_of A = HPoint q -> on_face m A (at_ t0) ->
        soup_triangle m A = Ok (a, b, c) ->
        (forall B q', B <> A -> kind_of B = HPoint q' -> ~ on_face m B (at_ t0)) ->
        (orientation a b c p = POSITIVE_SIDE /\ ~ inside p) \/
        (orientation a b c p = NEGATIVE_SIDE /\ inside p).
      Proof.
        intros A q a b c K HA E Honly.
        assert (Hin : in_triangle (at_ t0) a b c).
        { destruct HA as (a' & b' & c' & E' & Hin). rewrite E in E'. injection E' as <- <- <-. exact Hin. }
        assert (Hothers : forall F, F <> A -> on_face m F (at_ t0) ->
          exists s, 0 < s /\ on_face m F (along (at_ t0) s d)).
        { intros F NF HF. destruct (kind_of F) as [ | q' | u v] eqn:KF.
          - exfalso. exact (kind_none F KF t0 Ht0 HF).
          - exfalso. exact (Honly F q' NF KF HF).
          - exact (goes_on F u v KF HF). }
        assert (Hnd : ~ vdot (normal a b c) d == 0).
        { intro Z. exact (grazing m inside Hp Dom HK Hb Hinner (at_ t0) d t0 A a b c t0_pos E Hin before Kq back_dom Hothers Z). }
        destruct (crossing m inside Hp Dom HK Hb Hinner (at_ t0) d t0 A a b c t0_pos E Hin before Kq back_dom Hothers Hnd) as [C1 C2].
        assert (Back : same (along (at_ t0) (- t0) d) p).
        { eapply same_trans; [ apply along_along | ]. apply along_zero. ring. }
        assert (Hoff' : ~ on_boundary m (along (at_ t0) (- t0) d)).
        { apply before; [ exact t0_pos | lra ]. }
        assert (W := inside_same m inside Hp Dom HK Hb _ _ Back back_dom Hoff').
        assert (V : vdot (normal a b c) (vsub p a) == - (t0 * vdot (normal a b c) d)).
        { apply in_plane in Hin. unfold at_ in Hin. rewrite aev_along in Hin. cbn [ak through] in Hin.
          unfold aev in Hin. cbn [ak ac through] in Hin. rewrite vdot_vsub. lra. }
        assert (T0 := t0_pos).
        unfold orientation, sign. fold (normal a b c). destruct (Qlt_le_dec 0 (vdot (normal a b c) d)) as [L | L].
        - right. split; [ | apply W, C1; exact L ].
          assert (0 < t0 * vdot (normal a b c) d) by (apply Qmult_lt_0_compat; assumption).
          assert (N : vdot (normal a b c) (vsub p a) < 0) by lra.
          rewrite (proj1 (Qlt_alt _ _) N). reflexivity.
        - left. split; [ | intro Hi; apply (C2 ltac:(lra)), W, Hi ].
          assert (0 < t0 * - vdot (normal a b c) d) by (apply Qmult_lt_0_compat; lra).
          assert (N : 0 < vdot (normal a b c) (vsub p a)) by lra.
          rewrite (proj1 (Qgt_alt _ _) N). reflexivity.
      Qed.
    End Hit.
  End Ray.

  Definition answer_right (s : oriented_side) (p : vec3) : Prop :=
    match s with
    | ON_BOUNDARY => on_boundary m p
    | POSITIVE_SIDE => ~ on_boundary m p /\ ~ inside p
    | NEGATIVE_SIDE => ~ on_boundary m p /\ inside p
    end.

  Lemma leaves_found : forall p r, exists found leaves,
    get_intersecting_leaves (@fst box nat) (ray_meets_box p r) t = Ok found /\
    Forall2 (fun i l => nth_error (t_leaves t) i = Some l) found leaves /\
    NoDup (map snd leaves) /\
    (forall l, In l leaves -> (snd l < num_faces m)%nat) /\
    (forall F x, on_face m F x -> in_ray x p r -> In F (map snd leaves)).
  Proof.
    intros p r. inversion Htree as [limit ls t' Hls Hsteps]; subst t'.
    rewrite (leaves_ok pbox m (pf_valid _ Hp)) in Hls. injection Hls as <-.
    destruct (C23_query_exact _ _ _ _ _ limit _ t (ray_meets_box p r) Hre Hsteps (proj1 Hmeets p r))
      as (found & leaves & Hq & _ & Hf2 & Hperm).
    exists found, leaves. split; [ exact Hq | split; [ exact Hf2 | ] ].
    assert (E : forall l, map snd (filter (fun l : box * nat => ray_meets_box p r (fst l))
        (map (fun fi => (the_box pbox m fi, fi)) l)) =
      filter (fun fi => ray_meets_box p r (the_box pbox m fi)) l).
    { induction l as [ | x l IH]; [ reflexivity | ]. cbn [map filter fst].
      destruct (ray_meets_box p r (the_box pbox m x)); cbn [map snd]; rewrite IH; reflexivity. }
    assert (Hpm : Permutation (map snd leaves)
      (filter (fun fi => ray_meets_box p r (the_box pbox m fi)) (seq 0 (num_faces m)))).
    { rewrite <- E. apply Permutation_map. exact Hperm. }
    split; [ | split ].
    - eapply Permutation_NoDup; [ apply Permutation_sym; exact Hpm | ]. apply NoDup_filter, seq_NoDup.
    - intros l Hl. assert (X : In (snd l) (map snd leaves)) by (apply in_map; exact Hl).
      apply (Permutation_in _ Hpm) in X. apply filter_In in X. destruct X as [X _].
      apply in_seq in X. lia.
    - intros F x HF Hx. apply (Permutation_in _ (Permutation_sym Hpm)). apply filter_In. split.
      + apply in_seq. pose proof (on_face_lt m _ _ HF). lia.
      + apply (proj2 Hmeets p r _ x Hx). apply on_face_box. exact HF.
  Qed.

  Lemma in_pts : forall p r fs x, In x (flat_map (pts p r) fs) <->
    exists q, In (snd x) fs /\ kind_of p r (snd x) = HPoint q /\ fst x = squared_distance p q.
  Proof.
    intros p r fs x. rewrite in_flat_map. unfold pts. split.
    - intros [F [HF Hx] ]. destruct (kind_of p r F) as [ | q | u v] eqn:K; [ destruct Hx | | destruct Hx ].
      destruct Hx as [Hx | []]. subst x. exists q. auto.
    - intros (q & HF & K & E). exists (snd x). split; [ exact HF | ]. rewrite K. left.
      rewrite <- E. destruct x; reflexivity.
  Qed.

  Lemma NoDup_pts : forall p r fs, NoDup fs -> NoDup (map snd (flat_map (pts p r) fs)).
  Proof.
    intros p r fs H. induction H as [ | F fs Hn H IH]; [ constructor | ]. cbn [flat_map].
    rewrite map_app. unfold pts at 1. destruct (kind_of p r F) as [ | q | u v]; cbn [map app snd]; auto.
    constructor; [ | exact IH ]. intro Hin. apply Hn. apply in_map_iff in Hin.
    destruct Hin as [x [E Hx] ]. apply in_pts in Hx. destruct Hx as (q' & Hx & _). rewrite <- E. exact Hx.
  Qed.

  Lemma probe_ok : bounds_in Dom m inside -> (forall fi a b c q, soup_triangle m fi = Ok (a, b, c) -> in_open_triangle q a b c -> Dom q) ->
    forall p fi, Dom p -> (fi < num_faces m)%nat ->
    exists o, probe ray_triangle ray_meets_box partial_sort2 m t p fi = Ok o /\
      match o with Some s => answer_right s p | None => ambiguous m p fi end.
  Proof.
    intros Hb Hinner p fi Kp Hfi. destruct (triangle_exists fi Hfi) as (a & b & c & E).
    unfold probe, face_centroid. rewrite E. cbn [bind]. set (r := centroid a b c).
    destruct (point_eqb p r) eqn:Epr.
    { exists (Some ON_BOUNDARY). split; [ reflexivity | ]. apply point_eqb_same in Epr. exists fi.
      apply (on_face_same m Hp fi r); [ apply same_sym; exact Epr | ]. exists a, b, c.
      split; [ exact E | apply centroid_in ]. }
    apply point_eqb_false in Epr.
    destruct (leaves_found p r) as (found & leaves & Hq & Hf2 & Hnd & Hlt & Hall). rewrite Hq. cbn [bind].
    rewrite (scan_ok p r found leaves [] Hf2 Hlt). cbn [bind app].
    set (fs := map snd leaves) in *.
    destruct (existsb (bad p r) fs) eqn:Ebad.
    { exists (Some ON_BOUNDARY). split; [ reflexivity | ]. apply existsb_exists in Ebad.
      destruct Ebad as [F [_ HF] ]. exists F. exact (bad_on p r Epr F HF). }
    assert (Hoff : ~ on_boundary m p).
    { intros [F HF]. assert (Hin : In F fs).
      { apply (Hall F p HF). exists 0. split; [ lra | ]. apply same_sym, along_zero. reflexivity. }
      apply (good_off p r Epr F); [ | exact HF ].
      destruct (bad p r F) eqn:B; [ | reflexivity ].
      assert (X : existsb (bad p r) fs = true) by (apply existsb_exists; eauto). congruence. }
    assert (Htrg : on_face m fi (along p 1 (vsub r p))).
    { apply (on_face_same m Hp fi r).
      - unfold along, vsub. repeat split; cbn [vx vy vz fst snd]; ring.
      - exists a, b, c. split; [ exact E | apply centroid_in ]. }
    destruct (first_hit p r Epr) as (F0 & t0 & Ht0 & HF0 & Hmin).
    { exists fi, 1. split; [ lra | exact Htrg ]. }
    assert (Ht1 : t0 <= 1) by (apply (Hmin fi); [ lra | exact Htrg ]).
    assert (Kq : Dom (along p t0 (vsub r p))).
    { apply (oc_convex _ HK p r); [ exact Kp | exact (Hinner fi a b c r E (centroid_open a b c)) | ]. exists t0. split; [ lra | apply same_refl ]. }
    assert (Hk := vsub_nonzero p r Epr). set (d := vsub r p) in *.
    set (L := flat_map (pts p r) fs).
    (* every entry: a point hit, its distance *)
    assert (HL : forall x, In x L -> exists q s, kind_of p r (snd x) = HPoint q /\ 0 <= s /\ t0 <= s /\
      fst x == s * s * vdot d d /\ on_face m (snd x) (along p s d) /\
      (forall y, 0 <= y -> on_face m (snd x) (along p y d) -> y == s)).
    { intros x Hx. apply in_pts in Hx. destruct Hx as (q & _ & K & Ex).
      destruct (kind_point p r Epr (snd x) q K) as (s & Hs & Hqs & Hon). fold d in Hqs, Hon.
      assert (Hons : on_face m (snd x) (along p s d)) by (apply Hon; [ exact Hs | reflexivity ]).
      exists q, s. split; [ exact K | split; [ exact Hs | split; [ exact (Hmin _ s Hs Hons) | ] ] ].
      split; [ rewrite Ex; apply sqd_along; exact Hqs | ]. split; [ exact Hons | ].
      intros y Hy Hy'. apply Hon; assumption. }
    assert (Lin : forall F q, kind_of p r F = HPoint q -> In F fs -> In (squared_distance p q, F) L).
    { intros F q K HF. apply in_pts. exists q. auto. }
    assert (Hpt : forall F q, kind_of p r F = HPoint q -> on_face m F (along p t0 d) ->
      exists x, In x L /\ snd x = F /\ fst x == t0 * t0 * vdot d d).
    { intros F q K HF. destruct (kind_point p r Epr F q K) as (s & Hs & Hqs & Hon). fold d in Hqs, Hon.
      exists (squared_distance p q, F). split; [ | split; [ reflexivity | ] ].
      - apply (Lin F q K). apply (Hall F _ HF). exists t0. split; [ exact Ht0 | apply same_refl ].
      - cbn [fst]. apply Hon in HF; [ | exact Ht0 ]. rewrite HF. apply sqd_along. exact Hqs. }
    destruct (some_point p r Epr Hb Hinner Kp Hoff F0 t0 Ht0 HF0 Hmin Kq) as (A & qA & KA & HA).
    destruct (Hpt A qA KA HA) as (xA & HxA & ExA & DxA).
    (* the nearest entry is at t0 *)
    assert (Hnear : forall x, In x L -> fst x <= fst xA -> on_face m (snd x) (along p t0 d)).
    { intros x Hx Hle. destruct (HL x Hx) as (q & s & K & Hs & Hts & Dx & Hon & _).
      apply (on_face_same m Hp _ (along p s d)); [ | exact Hon ]. apply along_same.
      assert (s <= t0) by (apply (sq_le s t0 (vdot d d)); auto; lra). lra. }
    assert (Decide : forall x, In x L -> (forall y, In y L -> snd y <> snd x -> fst x < fst y) ->
      exists s, oriented_side_of_face_supporting_plane m (snd x) p = Ok s /\ answer_right s p).
    { intros x Hx Hlt'.
      assert (Hle : fst x <= fst xA).
      { destruct (Nat.eq_dec (snd xA) (snd x)) as [Es | Es].
        - destruct (HL x Hx) as (q1 & s1 & K1 & Hs1 & Hts1 & D1 & _ & U1).
          assert (X : t0 == s1) by (apply U1; [ exact Ht0 | ]; rewrite <- Es, ExA; exact HA).
          rewrite DxA, D1, X. lra.
        - apply Qlt_le_weak. apply Hlt'; assumption. }
      assert (Hxon := Hnear x Hx Hle). destruct (HL x Hx) as (q & s & K & _).
      destruct (triangle_exists (snd x) (on_face_lt m _ _ Hxon)) as (a' & b' & c' & E').
      unfold oriented_side_of_face_supporting_plane. rewrite E'. cbn [bind].
      exists (orientation a' b' c' p). split; [ reflexivity | ].
      destruct (decides p r Epr Hb Hinner Kp Hoff F0 t0 Ht0 HF0 Hmin Kq (snd x) q a' b' c' K Hxon E') as [ [-> X] | [-> X] ].
      - intros B qB NB KB HB. destruct (Hpt B qB KB HB) as (xB & HxB & EB & DB).
        assert (fst x < fst xB) by (apply Hlt'; [ exact HxB | rewrite EB; exact NB ]).
        assert (D2 : fst x < fst xA) by lra.
        destruct (HL x Hx) as (_ & s2 & _ & Hs2 & Hts2 & Dx2 & _).
        assert (t0 * t0 * vdot d d <= s2 * s2 * vdot d d) by (apply sq_le'; auto). lra.
      - split; [ exact Hoff | exact X ].
      - split; [ exact Hoff | exact X ]. }
    assert (HndL : NoDup (map snd L)) by (apply NoDup_pts; exact Hnd).
    destruct L as [ | x [ | y rest] ] eqn:EL.
    - destruct HxA.
    - destruct (Decide x (or_introl eq_refl)) as (s & Es & Hs).
      { intros y [<- | []] N. congruence. }
      rewrite Es. cbn [bind]. exists (Some s). split; [ reflexivity | exact Hs ].
    - rewrite <- EL in *. destruct (Hsort L) as [Hperm Hs2].
      destruct (partial_sort2 L) as [ | x' [ | y' rest'] ] eqn:Es.
      { apply Permutation_length in Hperm. rewrite EL in Hperm. discriminate. }
      { apply Permutation_length in Hperm. rewrite EL in Hperm. discriminate. }
      destruct (Hs2 x' y' rest' eq_refl) as [Hxy Hyr].
      assert (Hx' : In x' L) by (apply (Permutation_in _ (Permutation_sym Hperm)); left; reflexivity).
      assert (Hy' : In y' L) by (apply (Permutation_in _ (Permutation_sym Hperm)); right; left; reflexivity).
      assert (Hle : forall z, In z L -> fst x' <= fst z).
      { intros z Hz. apply (Permutation_in _ Hperm) in Hz. destruct Hz as [<- | [<- | Hz] ]; [ lra | lra | ].
        pose proof (Hyr z Hz). lra. }
      destruct (Qeq_bool (fst x') (fst y')) eqn:Eq.
      + exists None. split; [ reflexivity | ]. apply Qeq_bool_iff in Eq.
        assert (Hx'A := Hle xA HxA).
        exists a, b, c, (along p t0 d), (snd x'), (snd y').
        split; [ exact E | ]. split.
        { apply (Permutation_map snd) in Hperm. apply (Permutation_NoDup Hperm) in HndL.
          cbn [map] in HndL. inversion HndL as [ | ? ? Hn _]; subst. intro X. apply Hn. left. auto. }
        split; [ exists t0; split; [ lra | apply same_refl ] | ].
        split; [ apply Hnear; auto | ]. split; [ apply Hnear; [ exact Hy' | lra ] | ].
        intros z [l [Hl Hz] ] [F HF].
        assert (Ez : same z (along p (l * t0) d)).
        { eapply same_trans; [ exact Hz | ]. unfold along, vsub. repeat split; cbn [vx vy vz fst snd]; ring. }
        assert (HF' := on_face_same m Hp F _ _ Ez HF).
        assert (0 <= l * t0) by (apply Qmult_le_0_compat; lra).
        assert (t0 <= l * t0) by (apply (Hmin F); assumption).
        eapply same_trans; [ exact Ez | ]. apply along_same.
        assert (0 <= (1 - l) * t0) by (apply Qmult_le_0_compat; lra). lra.
      + apply Qeq_bool_neq in Eq. destruct (Decide x' Hx') as (s & Eo & Hs).
        { intros z Hz N. apply (Permutation_in _ Hperm) in Hz.
          destruct Hz as [<- | [<- | Hz] ]; [ congruence | lra | ]. pose proof (Hyr z Hz). lra. }
        rewrite Eo. cbn [bind]. exists (Some s). split; [ reflexivity | exact Hs ].
  Qed.

  Lemma side_loop_ok : bounds_in Dom m inside -> (forall fi a b c q, soup_triangle m fi = Ok (a, b, c) -> in_open_triangle q a b c -> Dom q) ->
    forall p l, Dom p -> (forall fi, In fi l -> (fi < num_faces m)%nat) ->
    (exists s, side_loop ray_triangle ray_meets_box partial_sort2 m t p l = Ok s /\ answer_right s p) \/
    (side_loop ray_triangle ray_meets_box partial_sort2 m t p l = Throw RuntimeError /\
     forall fi, In fi l -> ambiguous m p fi).
  Proof.
    intros Hb Hinner p l Kp. induction l as [ | fi l IH]; intro Hl.
    - right. split; [ reflexivity | intros fi [] ].
    - cbn [side_loop]. destruct (probe_ok Hb Hinner p fi Kp (Hl fi (or_introl eq_refl))) as (o & -> & Ho). cbn [bind].
      destruct o as [s | ]; [ left; exists s; auto | ].
      destruct (IH (fun f H => Hl f (or_intror H))) as [IH' | [IH' Ha] ]; [ left; exact IH' | right ].
      split; [ exact IH' | ]. intros f [<- | Hf]; auto.
  Qed.
End Probe.
