(** * The ids of the points of records *)
From Coq Require Import List Arith NArith Bool QArith Lqa Lia Permutation.
From Verif Require Import Model_base Proof_base Model_geometry Model_soup Model_region Model_points Model_ffi Model_corefine.
From Verif Require Import Spec_points Spec_defects Spec_ffi Spec_corefine Proof_extreme Proof_hull Proof_ffi_orient Proof_ffi_calls Proof_ffi_edge
  Proof_ffi_plane Proof_ffi_all Prop_ffi Prop_points Proof_corefine_geo.
Import ListNotations.
Local Open Scope nat_scope.

Section Point.
  Context {P : Type}.
  Variable coords : P -> vec3.
  Lemma pick_points : forall points a b c T m l ps, triangle_at coords points a b c T ->
    Permutation (pick m (a, b, c)) l -> points_of points l ps ->
    exists ps', Permutation ps' ps /\ pick m T = map coords ps'.
  Proof.
    intros points a b c T m l ps (pa & pb & pc & A & B & C & ->) Pl Fp.
    assert (G : points_of points (pick m (a, b, c)) (pick m (pa, pb, pc))).
    { destruct m as [ [ [ | ] [ | ] ] [ | ] ]; cbn; repeat constructor; assumption. }
    exists (pick m (pa, pb, pc)). split; [ | apply pick_map ].
    revert ps Fp. generalize dependent (pick m (pa, pb, pc)). induction Pl as [ | x l l' Pl IH | x y l | l l' l'' P1 IH1 P2 IH2]; intros qs G ps Fp.
    - inversion G. inversion Fp. constructor.
    - inversion G as [ | ? q ? qs' E1 G']; subst. inversion Fp as [ | ? p ? ps' E2 F']; subst. rewrite E1 in E2. injection E2 as <-. constructor. apply IH; assumption.
    - inversion G as [ | ? q ? qs' E1 G']; subst. inversion G' as [ | ? q' ? qs'' E1' G'']; subst.
      inversion Fp as [ | ? p ? ps' E2 F']; subst. inversion F' as [ | ? p' ? ps'' E2' F'']; subst.
      rewrite E1 in E2'. injection E2' as <-. rewrite E1' in E2. injection E2 as <-.
      assert (qs'' = ps''); [ | subst; constructor ].
      clear - G'' F''. revert ps'' F''. induction G'' as [ | x q l qs E G IH]; intros ps F; inversion F as [ | ? p ? ps' E' F']; subst; [ reflexivity | ].
      rewrite E in E'. injection E' as <-. f_equal. apply IH. exact F'.
    - assert (exists ms, points_of points l' ms) as (ms & Hm).
      { clear - P1 G. revert qs G. induction P1 as [ | x l l' Pl IH | x y l | l l1 l2 Q1 IH1 Q2 IH2]; intros qs G.
        - exists []. constructor.
        - inversion G as [ | ? q ? qs' E1 G']; subst. destruct (IH _ G') as (ms & H). exists (q :: ms). constructor; assumption.
        - inversion G as [ | ? q ? qs' E1 G']; subst. inversion G' as [ | ? q' ? qs'' E1' G'']; subst. exists (q' :: q :: qs''). repeat constructor; assumption.
        - destruct (IH1 _ G) as (ms & H). exact (IH2 _ H). }
      eapply Permutation_trans; [ apply (IH1 _ G _ Hm) | apply (IH2 _ Hm _ Fp) ].
  Qed.

  Lemma aff_line : forall points a b c T m i j pi pj y, triangle_at coords points a b c T ->
    Permutation (pick m (a, b, c)) [i; j] -> points_of points [i; j] [pi; pj] ->
    (aff T m y <-> line (coords pi) (coords pj) y).
  Proof.
    intros points a b c T m i j pi pj y HT Pm Fp.
    assert (Hb : bits m = 2) by (rewrite <- (pick_length m (a, b, c)); apply Permutation_length in Pm; exact Pm).
    destruct (pick_points points a b c T m _ _ HT Pm Fp) as (ps & Pp & E). destruct T as [ [A B] C].
    destruct (edge_aff A B C m y Hb) as (p & q & E' & H). rewrite E in E'.
    apply Permutation_sym, Permutation_length_2_inv in Pp. destruct Pp as [-> | ->]; cbn [map] in E'; injection E' as <- <-; rewrite H; split; auto using line_sym.
  Qed.

  Lemma aff_plane : forall points a b c T m i j k pi pj pk y, triangle_at coords points a b c T ->
    Permutation (pick m (a, b, c)) [i; j; k] -> points_of points [i; j; k] [pi; pj; pk] ->
    (aff T m y <-> plane (coords pi) (coords pj) (coords pk) y).
  Proof.
    intros points a b c T m i j k pi pj pk y HT Pm Fp.
    assert (Hb : bits m = 3) by (rewrite <- (pick_length m (a, b, c)); apply Permutation_length in Pm; exact Pm). apply bits_3 in Hb. subst m.
    destruct (pick_points points a b c T _ _ _ HT Pm Fp) as (ps & Pp & E). destruct T as [ [A B] C]. rewrite face_aff.
    cbn [pick app] in E.
    assert (Sw : forall p q r, plane p q r y -> plane q p r y /\ plane p r q y) by (intros; apply plane_swap; assumption).
    assert (G : forall p q r, (plane p q r y <-> plane q p r y) /\ (plane p q r y <-> plane p r q y)).
    { intros p q r. split; split; intro H; apply Sw in H; tauto. }
    destruct ps as [ | x [ | x0 [ | x1 [ | ] ] ] ]; cbn [map] in E; try discriminate. injection E as -> -> ->.
    clear - Pp G. apply Permutation_sym in Pp.
    assert (Q : [x; x0; x1] = [pi; pj; pk] \/ [x; x0; x1] = [pi; pk; pj] \/ [x; x0; x1] = [pj; pi; pk] \/ [x; x0; x1] = [pj; pk; pi] \/ [x; x0; x1] = [pk; pi; pj] \/ [x; x0; x1] = [pk; pj; pi]).
    { clear G. destruct (in_split pi [x; x0; x1]) as (l1 & l2 & El); [ eapply Permutation_in; [ exact Pp | left; reflexivity ] | ].
      rewrite El in Pp. apply Permutation_cons_app_inv in Pp. apply Permutation_length_2_inv in Pp.
      destruct l1 as [ | y1 [ | y2 [ | y3 l1] ] ]; cbn [app] in *; injection El; intros; subst.
      - destruct Pp as [Pp | Pp]; injection Pp as -> ->; tauto.
      - destruct Pp as [Pp | Pp]; injection Pp as -> ->; tauto.
      - destruct Pp as [Pp | Pp]; injection Pp as -> ->; tauto.
      - destruct l1; discriminate. }
    destruct Q as [Q | [Q | [Q | [Q | [Q | Q] ] ] ] ]; injection Q as -> -> ->.
    - tauto.
    - apply G.
    - apply G.
    - rewrite (proj2 (G _ _ _)). apply G.
    - rewrite (proj1 (G _ _ _)). apply G.
    - rewrite (proj1 (G (coords pk) _ _)), (proj2 (G _ _ _)), (proj1 (G _ _ _)). tauto.
  Qed.

  Lemma line_ends : forall points a b c T m i j pi pj, triangle_at coords points a b c T -> nondegenerate T ->
    Permutation (pick m (a, b, c)) [i; j] -> points_of points [i; j] [pi; pj] -> ~ same_point (coords pi) (coords pj).
  Proof.
    intros points a b c T m i j pi pj HT NT Pm Fp.
    destruct (pick_points points a b c T m _ _ HT Pm Fp) as (ps & Pp & E). destruct T as [ [A B] C]. destruct (distinct_corners _ _ _ NT) as (X & Y & Z).
    assert (X' : ~ same_point B A) by (intro H; apply X, same_sym, H). assert (Y' : ~ same_point C B) by (intro H; apply Y, same_sym, H). assert (Z' : ~ same_point A C) by (intro H; apply Z, same_sym, H).
    apply Permutation_sym, Permutation_length_2_inv in Pp. destruct Pp as [-> | ->]; destruct m as [ [ [ | ] [ | ] ] [ | ] ]; cbn [map pick app] in E; try discriminate; injection E as <- <-; assumption.
  Qed.
  Lemma plane_corners : forall points a b c T m i j k pi pj pk, triangle_at coords points a b c T -> nondegenerate T ->
    Permutation (pick m (a, b, c)) [i; j; k] -> points_of points [i; j; k] [pi; pj; pk] -> nondegenerate (coords pi, coords pj, coords pk).
  Proof.
    intros points a b c T m i j k pi pj pk HT NT Pm Fp.
    destruct (pick_points points a b c T m _ _ HT Pm Fp) as (ps & Pp & E). destruct T as [ [A B] C]. intros (o & d & H1 & H2 & H3). apply NT. exists o, d.
    assert (G : forall x, In x (pick m (A, B, C)) -> on_line o d x).
    { intros x J. rewrite E in J. apply in_map_iff in J. destruct J as (p & <- & J). eapply Permutation_in in J; [ | exact Pp ]. destruct J as [<- | [<- | [<- | [ ] ] ] ]; assumption. }
    assert (m = (true, true, true)) by (apply bits_3; rewrite <- (pick_length m (a, b, c)); apply Permutation_length in Pm; exact Pm). subst m.
    repeat split; apply G; cbn; auto.
  Qed.

  Lemma vertex_point : forall points a b c T m x id, triangle_at coords points a b c T -> in_feature T m x ->
    pick m (a, b, c) = [id] -> exists p, nth_error points id = Some p /\ same_point (coords p) x.
  Proof.
    intros points a b c T [ [m0 m1] m2] x id (pa & pb & pc & A & B & C & ->) (u & v & w & (W0 & W1 & W2 & S) & X) E.
    destruct m0, m1, m2; cbn in E, W0, W1, W2; try discriminate; injection E as <-; eexists; (split; [ eassumption | ]);
      apply same_sym; (eapply same_trans; [ exact X | ]); unfold same_point, comb.
    - assert (Eu : (u == 1)%Q) by lra. cbn [fst snd vx vy vz]. unfold vx, vy, vz. cbn [fst snd]. rewrite Eu, W1, W2. repeat split; ring.
    - assert (Eu : (v == 1)%Q) by lra. unfold vx, vy, vz. cbn [fst snd]. rewrite Eu, W0, W2. repeat split; ring.
    - assert (Eu : (w == 1)%Q) by lra. unfold vx, vy, vz. cbn [fst snd]. rewrite Eu, W0, W1. repeat split; ring.
  Qed.

  Variable P_eqb : P -> P -> bool.
  Variable cll : P -> P -> P -> P -> P.
  Variable cpl : P -> P -> P -> P -> P -> P.
  Hypothesis Hll : ll_correct coords cll.
  Hypothesis Hpl : pl_correct coords cpl.

  Lemma answer_point : forall pl rqs st ids n a b c p q r T U m k x id,
    pl_check pl = false -> Forall (valid_request (length (pl_points pl))) rqs ->
    in_run P_eqb cll cpl (in_new pl) rqs = Ok (st, ids) ->
    triangle_at coords (pl_points pl) a b c T -> triangle_at coords (pl_points pl) p q r U ->
    nondegenerate T -> nondegenerate U -> meet T U m k -> in_feature T m x -> in_feature U k x ->
    nth_error rqs n = Some (req m a b c k p q r) -> nth_error ids n = Some id ->
    exists y, nth_error (pl_points (in_points st)) id = Some y /\ same_point (coords y) x.
  Proof.
    intros pl rqs st ids n a b c p q r T U m k x id Hc Hv Hrun HT HU NT NU M F G Hn Hid.
    destruct (C20_one_id_per_feature_partial P P_eqb cll cpl pl rqs Hc Hv) as (st' & ids' & E & _ & Av & _ & _ & _ & (new & En)).
    rewrite Hrun in E. injection E as <- <-.
    assert (Keep : forall i y, nth_error (pl_points pl) i = Some y -> nth_error (pl_points (in_points st)) i = Some y).
    { intros i y H. rewrite En. rewrite nth_error_app1; [ exact H | apply nth_error_Some; congruence ]. }
    assert (at_vertex (req m a b c k p q r) \/ ~ at_vertex (req m a b c k p q r)) as [V | V].
    { unfold at_vertex. destruct (Nat.eq_dec (length (left_vertices (req m a b c k p q r))) 1); [ auto | ].
      destruct (Nat.eq_dec (length (right_vertices (req m a b c k p q r))) 1); [ auto | ]. right. tauto. }
    - specialize (Av _ _ _ Hn Hid V). rewrite req_left, req_right in Av. destruct Av as [Av | Av].
      + destruct (vertex_point _ _ _ _ _ _ _ _ HT F Av) as (y & Y & S). eauto.
      + destruct (vertex_point _ _ _ _ _ _ _ _ HU G Av) as (y & Y & S). eauto.
    - assert (C := C20_id_is_the_construction P P_eqb cll cpl pl rqs st ids Hc Hv Hrun n _ id Hn Hid V). rewrite req_left, req_right in C.
      assert (Un : forall y, aff T m y -> aff U k y -> same_point x y).
      { intros y Y1 Y2. eapply aff_unique; [ exact (proj2 M) | apply feature_aff; exact F | apply feature_aff; exact G | exact Y1 | exact Y2 ]. }
      assert (X1 := feature_aff _ _ _ F). assert (X2 := feature_aff _ _ _ G).
      destruct C as [ (l & r' & i & j & i' & j' & pi & pj & pi' & pj' & O & Pl & Pr & Fp & E) | (l & r' & i & j & h & i' & j' & pi & pj & ph & pi' & pj' & O & Pl & Pr & Fp & E) ].
      + unfold pl_at in E. assert (Ey := proj1 (vec_at_ok _ _ _ _) E). exists (cll pi pj pi' pj').
        assert (Fp1 : points_of (pl_points pl) [i; j] [pi; pj] /\ points_of (pl_points pl) [i'; j'] [pi'; pj']).
        { repeat match goal with H : points_of _ _ _ |- _ => inversion H; subst; clear H | H : Forall2 _ _ _ |- _ => inversion H; subst; clear H end. split; repeat constructor; assumption. }
        destruct Fp1 as [F1 F2]. split; [ exact Ey | ]. destruct O as [O | O]; injection O as -> ->.
        * assert (A1 := fun y => aff_line _ _ _ _ _ _ _ _ _ _ y HT Pl F1). assert (A2 := fun y => aff_line _ _ _ _ _ _ _ _ _ _ y HU Pr F2).
          apply (Hll pi pj pi' pj' x); [ eapply line_ends; [ | | exact Pl | exact F1 ]; eassumption | eapply line_ends; [ | | exact Pr | exact F2 ]; eassumption | split; [ apply A1 | apply A2 ]; assumption | ]. intros y [Y1 Y2]. apply Un; [ apply A1 | apply A2 ]; assumption.
        * assert (A1 := fun y => aff_line _ _ _ _ _ _ _ _ _ _ y HU Pl F1). assert (A2 := fun y => aff_line _ _ _ _ _ _ _ _ _ _ y HT Pr F2).
          apply (Hll pi pj pi' pj' x); [ eapply line_ends; [ | | exact Pl | exact F1 ]; eassumption | eapply line_ends; [ | | exact Pr | exact F2 ]; eassumption | split; [ apply A1 | apply A2 ]; assumption | ]. intros y [Y1 Y2]. apply Un; [ apply A2 | apply A1 ]; assumption.
      + unfold pl_at in E. assert (Ey := proj1 (vec_at_ok _ _ _ _) E). exists (cpl pi pj ph pi' pj').
        assert (Fp1 : points_of (pl_points pl) [i; j; h] [pi; pj; ph] /\ points_of (pl_points pl) [i'; j'] [pi'; pj']).
        { repeat match goal with H : points_of _ _ _ |- _ => inversion H; subst; clear H | H : Forall2 _ _ _ |- _ => inversion H; subst; clear H end. split; repeat constructor; assumption. }
        destruct Fp1 as [F1 F2]. split; [ exact Ey | ]. destruct O as [O | O]; injection O as -> ->.
        * assert (A1 := fun y => aff_plane _ _ _ _ _ _ _ _ _ _ _ _ y HT Pl F1). assert (A2 := fun y => aff_line _ _ _ _ _ _ _ _ _ _ y HU Pr F2).
          apply (Hpl pi pj ph pi' pj' x); [ eapply plane_corners; [ | | exact Pl | exact F1 ]; eassumption | eapply line_ends; [ | | exact Pr | exact F2 ]; eassumption | split; [ apply A1 | apply A2 ]; assumption | ]. intros y [Y1 Y2]. apply Un; [ apply A1 | apply A2 ]; assumption.
        * assert (A1 := fun y => aff_plane _ _ _ _ _ _ _ _ _ _ _ _ y HU Pl F1). assert (A2 := fun y => aff_line _ _ _ _ _ _ _ _ _ _ y HT Pr F2).
          apply (Hpl pi pj ph pi' pj' x); [ eapply plane_corners; [ | | exact Pl | exact F1 ]; eassumption | eapply line_ends; [ | | exact Pr | exact F2 ]; eassumption | split; [ apply A1 | apply A2 ]; assumption | ]. intros y [Y1 Y2]. apply Un; [ apply A2 | apply A1 ]; assumption.
  Qed.
End Point.
