(** * C61: Intersections of convex bodies are convex, and chains of them do not fail *)
From Coq Require Import List Arith Bool NArith ZArith QArith Qminmax Lqa Lia Permutation.
From Verif Require Import Model_base Proof_base Model_soup Model_geometry Spec_candidates Model_aabb Spec_aabb Model_parallel_do Model_boolean Model_candidates Model_classify Model_local Model_corefine Model_side Model_mix Model_schedule.
From Verif Require Import Model_defects Spec_defects Model_overlap Spec_ffi Spec_overlap.
From Verif Require Import Model_find Spec_boolean Spec_radial Spec_local Spec_conform Spec_mix Spec_cut Spec_side Spec_solid Spec_corefine Spec_whole Spec_delaunay Spec_again Spec_find Spec_visible Spec_meet Proof_find.
From Verif Require Import Proof_fan Proof_extreme Proof_exact Proof_bridge Proof_planes Proof_clip Proof_pairs Proof_whole Proof_whole_ex Prop_aabb Prop_local Prop_corefine Prop_cut Prop_side Prop_solid Prop_conform Prop_whole Prop_schedule Prop_delaunay Prop_again Prop_find_op Prop_connected Prop_balance Prop_end Proof_fan Prop_whole_ex Prop_delaunay_ex Proof_delaunay_ex Proof_link Proof_visible Proof_meet Prop_visible.
From Verif Require Import Spec_corefine Spec_side Spec_solid Spec_visible.
Import ListNotations.
Local Open Scope nat_scope.

(** The mesh with its faces turned around if it bounds a hole. *)
Definition turned_if {D} (s : bool) (m : soup vec3 D) : soup vec3 D := if s then turned_soup m else m.
Lemma turned_if_boundary : forall D s (m : soup vec3 D) x, on_boundary (turned_if s m) x <-> on_boundary m x.
Proof. intros D [] m x; [ apply turned_boundary | reflexivity ]. Qed.
Lemma turned_if_bounds : forall D s (m : soup vec3 D) A, bounds m A -> bounds (turned_if s m) (part s A).
Proof. intros D [] m A H; [ apply (turned_bounds _ _ A H) | exact H ]. Qed.
Lemma turned_if_height : forall D s (m : soup vec3 D), convex_part s m -> forall fi T x, soup_triangle (turned_if s m) fi = Ok T -> on_boundary (turned_if s m) x -> (Proof_link.hgt T x <= 0)%Q.
Proof.
  intros D s m H fi [ [a b] c] x J O. change (height a b c x <= 0)%Q. apply (proj1 (turned_if_boundary _ _ _ _)) in O. destruct s; cbn [turned_if] in J.
  - apply (proj1 (turned_triangle _ _ _ _ _ _)) in J. specialize (H fi a c b x J O). cbn in H. rewrite turned_height in H. lra.
  - exact (H fi a b c x J O).
Qed.
Lemma turned_if_flat : forall D s (m : soup vec3 D), (forall fi a b c, soup_triangle m fi = Ok (a, b, c) -> ~ degenerate a b c) -> forall fi a b c, soup_triangle (turned_if s m) fi = Ok (a, b, c) -> ~ degenerate a b c.
Proof. intros D [] m H; [ exact (turned_flat _ m H) | exact H ]. Qed.

Lemma represents_decides : forall {P D} coords (a : region P D) A, represents coords a A -> forall x, A x \/ ~ A x.
Proof. intros P D coords a A (_ & R) x. destruct (kind a); [ right; apply R | left; apply R | apply R ]. Qed.

Lemma region_body : forall {P D} coords (a : region P D) A s, represents coords a A -> convex_part s (located coords (boundary a)) ->
  let m := turned_if s (located coords (boundary a)) in
  (forall fi T, soup_triangle m fi = Ok T -> ~ flat T) /\
  (forall x, off_planes m x -> part s A x -> below m x) /\
  (forall x y, part s A x -> below m y -> part s A y).
Proof.
  intros P D coords a A s (W & R) C m. unfold wf_region in W.
  assert (None : boundary a = empty_soup -> forall fi T, soup_triangle m fi <> Ok T) by (intros E fi T J; unfold m in J; rewrite E in J; destruct s, fi; discriminate J).
  destruct (kind a).
  - specialize (None W). repeat split.
    + intros fi T J. destruct (None _ _ J).
    + intros x _ _ fi T J. destruct (None _ _ J).
    + intros x y Ax _. destruct s; cbn [part] in *; [ apply R | destruct (R x Ax) ].
  - specialize (None W). repeat split.
    + intros fi T J. destruct (None _ _ J).
    + intros x _ _ fi T J. destruct (None _ _ J).
    + intros x y Ax _. destruct s; cbn [part] in *; [ destruct (Ax (R x)) | apply R ].
  - clear None. destruct R as (Pf & Bd & _). destruct W as (V & Ne). pose proof (turned_if_bounds _ s _ _ Bd) as Bd'. pose proof (turned_if_height _ s _ C) as C'. fold m in Bd', C'. repeat split.
    + intros fi [ [p q] r] J. exact (turned_if_flat _ s _ (pf_nondegenerate _ Pf) fi p q r J).
    + exact (body_below _ _ Bd' C').
    + intros x y _. assert (L : exists T, soup_triangle m 0 = Ok T).
      { destruct (valid_triangle _ _ 0 (pf_valid _ Pf)) as ([ [p q] r] & J).
        - unfold num_faces, located. cbn [faces]. destruct (faces (boundary a)); [ congruence | cbn; lia ].
        - unfold m. destruct s; [ exists (p, r, q); apply turned_triangle; exact J | exists (p, q, r); exact J ]. }
      destruct L as (T & J). exact (behind_in _ _ Bd' C' 0 T y J).
Qed.

(** Bodies and holes combined by an operation that amounts to an intersection give a body or
    a hole. *)
Theorem C61_result_is_convex : forall {P D} coords op s1 s2 s (a b : region P D) A B r,
  represents coords a A -> represents coords b B ->
  convex_part s1 (located coords (boundary a)) -> convex_part s2 (located coords (boundary b)) -> amounts_to_intersection op s1 s2 s ->
  is_result coords op a b A B r -> convex_part s (located coords (boundary r)).
Proof.
  intros P D coords op s1 s2 s a b A B r RA RB CA CB Hop (_ & S & (W & RS) & HS). destruct (region_body coords a A s1 RA CA) as (Fa & A1 & A2). destruct (region_body coords b B s2 RB CB) as (Fb & B1 & B2).
  unfold wf_region in W. destruct (kind r); try (rewrite W; intros fi p q t x J; destruct fi; discriminate J).
  destruct RS as (Pf & Bd & _).
  assert (HS' : forall x, ~ on_boundary (turned_if s1 (located coords (boundary a))) x -> ~ on_boundary (turned_if s2 (located coords (boundary b))) x -> (part s S x <-> part s1 A x /\ part s2 B x)).
  { intros x Oa Ob. rewrite turned_if_boundary in Oa, Ob. rewrite <- (Hop A B x (represents_decides coords a A RA x) (represents_decides coords b B RB x)).
    specialize (HS x Oa Ob). destruct s; cbn [part]; tauto. }
  pose proof (meet_convex (turned_if s1 (located coords (boundary a))) (turned_if s2 (located coords (boundary b))) (turned_if s (located coords (boundary r))) (part s1 A) (part s2 B) (part s S) Fa Fb
    (turned_if_flat _ s _ (pf_nondegenerate _ Pf)) (turned_if_bounds _ s _ _ Bd) A1 B1 A2 B2 HS') as M.
  intros fi p q t x J O. pose proof (proj2 (turned_if_boundary _ s _ x) O) as O'. destruct s; cbn [turned_if] in M, O'.
  - specialize (M fi p t q x (proj2 (turned_triangle _ _ _ _ _ _) J) O'). change (height p t q x <= 0)%Q in M. rewrite turned_height in M. lra.
  - exact (M fi p q t x J O').
Qed.
Print Assumptions C61_result_is_convex.

(** The intersection of two convex bodies is a convex body. *)
Theorem C61_intersection_is_convex : forall {P D} coords (a b : region P D) A B r,
  represents coords a A -> represents coords b B ->
  convex_body (located coords (boundary a)) -> convex_body (located coords (boundary b)) ->
  is_result coords op_INTERSECTION a b A B r -> convex_body (located coords (boundary r)).
Proof. intros P D coords a b A B r RA RB CA CB Is. apply (C61_result_is_convex coords op_INTERSECTION false false false a b A B r RA RB CA CB); [ | exact Is ]. intros X Y x _ _. reflexivity. Qed.
Print Assumptions C61_intersection_is_convex.

(** Which operations amount to intersections, and how. *)
Theorem C61_operations : forall op s1 s2 s, amounts_to_intersection op s1 s2 s <->
  (op, s1, s2, s) = (opK, false, false, false) \/ (op, s1, s2, s) = (opD, false, false, true) \/
  (op, s1, s2, s) = (opL, false, true, false) \/ (op, s1, s2, s) = (opC, false, true, true) \/
  (op, s1, s2, s) = (opM, true, false, false) \/ (op, s1, s2, s) = (opB, true, false, true) \/
  (op, s1, s2, s) = (opX, true, true, false) \/ (op, s1, s2, s) = (opA, true, true, true).
Proof.
  intros op s1 s2 s. split.
  - intro H. pose (x := ((0, 0, 0)%Q : vec3)).
    pose proof (H (fun _ => True) (fun _ => True) x (or_introl I) (or_introl I)) as H11.
    pose proof (H (fun _ => True) (fun _ => False) x (or_introl I) (or_intror (fun f => f))) as H10.
    pose proof (H (fun _ => False) (fun _ => True) x (or_intror (fun f => f)) (or_introl I)) as H01.
    pose proof (H (fun _ => False) (fun _ => False) x (or_intror (fun f => f)) (or_intror (fun f => f))) as H00.
    clear H. destruct op, s1, s2, s; first [ solve [ auto 12 ] | exfalso; cbn [part set_of] in *; clear x; tauto ].
  - intros H A B x HA HB. repeat (destruct H as [H | H]); injection H as -> -> -> ->; cbn [part set_of]; tauto.
Qed.
Print Assumptions C61_operations.

Lemma part_convex : forall D s (m : soup vec3 D), convex_part s m -> convex_mesh m.
Proof. intros D [] m H; [ right | left ]; exact H. Qed.

(** An expression made of convex bodies and holes and of such operations never throws or warns:
    its evaluation ends with a convex body or hole that represents the set that the
    expression denotes and meets the conditions of README.md. *)
Theorem C61_convex_expressions : forall {P D} P_eqb coords pbox longest_axis sort_by nth_element_by cll cpl accepts cdt_faces
    base1 base2 sort_around centroid pbox3 ray_triangle ray_meets_box partial_sort2 tree_of num_threads (d0 : D) (e : expression P D) s o,
  right_oracles P_eqb coords pbox sort_by nth_element_by cll cpl accepts base1 base2 sort_around centroid num_threads ->
  (forall x, in_box x (pbox3 x)) -> exact_intersection ray_triangle -> sound_box_test ray_meets_box -> sorts_two partial_sort2 ->
  let evaluates := evaluates P_eqb coords pbox longest_axis sort_by nth_element_by cll cpl accepts cdt_faces base1 base2 sort_around centroid
    (shoot coords ray_triangle ray_meets_box partial_sort2 tree_of) num_threads d0 in
  convex_expression coords e s ->
  all_given (fun r A => represents coords r A /\ meets_conditions coords (boundary r)) e ->
  all_operands evaluates
    (can_be_mixed_with_rays P_eqb coords pbox longest_axis sort_by nth_element_by cll cpl accepts cdt_faces pbox3 tree_of num_threads) e ->
  evaluates e o ->
  exists r, o = Ok (r, 0%N) /\ meets_conditions coords (boundary r) /\ convex_part s (located coords (boundary r)) /\
    (forall x, on_surface coords r x -> on_given coords e x) /\
    exists S, represents coords r S /\ forall x, ~ on_given coords e x -> (S x <-> denotes e x).
Proof.
  intros P D P_eqb coords pbox la sb nb cll cpl accepts cdt_faces base1 base2 sa centroid pbox3 rt rm ps tree_of nt d0 e s o
    Hor Hpb3 Hrt Hrm Hps ev. revert s o. unfold ev; clear ev.
  assert (T : forall m S, solid (located coords m) S -> aabb_tree pbox3 la sb nb (located coords m) (tree_of m) ->
    tells_side coords (located coords m) S (shoot coords rt rm ps tree_of m) /\
    (gives_up coords (located coords m) (shoot coords rt rm ps tree_of m) ->
     exists x, ~ on_boundary (located coords m) (coords x) /\ all_ambiguous (located coords m) (coords x))).
  { intros m S HS Ht. apply (shoot_tells coords pbox3 la sb nb); auto. exact (ek_sort _ _ _ _ _ _ _ (proj1 Hor)). }
  assert (Never : forall (r : region P D) S, represents coords r S -> kind r = BOUNDARY_DEFINED -> convex_mesh (located coords (boundary r)) ->
    aabb_tree pbox3 la sb nb (located coords (boundary r)) (tree_of (boundary r)) ->
    ~ gives_up coords (located coords (boundary r)) (shoot coords rt rm ps tree_of (boundary r))).
  { intros r S (W & R) Kr C Ht G. unfold wf_region in W. rewrite Kr in W, R. destruct (proj2 (T _ S R Ht) G) as (x & Off & Am).
    assert (L : 0 < num_faces (located coords (boundary r))) by (unfold num_faces, located; cbn [faces]; destruct W as (_ & W); destruct (faces (boundary r)); [ congruence | cbn; lia ]).
    destruct (convex_sees D _ S (coords x) R C L Off) as (fi & Lf & Sf). exact (sees_clear D _ _ fi (proj1 R) Sf (Am fi Lf)). }
  induction e as [ r A | op pf e1 IH1 e2 IH2 ]; intros s o Hi Hg Hm H.
  - inversion H; subst. destruct Hg as (G1 & G2). inversion Hi as [r' A' s' G3 | ]; subst. exists r. split; [ reflexivity | ]. split; [ exact G2 | ]. split; [ exact G3 | ]. split; [ auto | ]. exists A. split; [ exact G1 | ]. intros x _. reflexivity.
  - inversion Hi as [ | op0 pf0 e10 e20 s1 s2 s0 I1 I2 Hop ]; subst. destruct Hg as (G1 & G2), Hm as (M1 & M2 & M).
    inversion H as [ | op' pf' e1' e2' a b w1 w2 mix H1 H2 Hmix | op' pf' e1' e2' o' r H1 F | op' pf' e1' e2' o' r H2 F ]; subst.
    + destruct (IH1 _ _ I1 G1 M1 H1) as (a' & E & Ca & Va & Oa & SA & Ra & Ea). injection E as <- ->.
      destruct (IH2 _ _ I2 G2 M2 H2) as (b' & E & Cb & Vb & Ob & SB & Rb & Eb). injection E as <- ->.
      specialize (M _ _ _ _ H1 H2).
      assert (M' : can_be_mixed P_eqb coords pbox la sb nb cll cpl accepts cdt_faces (shoot coords rt rm ps tree_of) nt a b).
      { intros Ka Kb. destruct (M Ka Kb) as (X1 & X2 & X3). split; [ | split; [ | exact X3 ] ]; intros S HS; apply (T _ S HS); assumption. }
      destruct (C52_result_meets_the_conditions _ _ _ _ _ _ _ _ _ _ _ _ _ _ _ _ d0 mix a b SA SB Hor Ra Rb Ca Cb M' Hmix) as [ (bd & Ebd & W & G) | (Ebd & Ka & Kb & G) ].
      * destruct (G op pf) as (r & Er & Is & Cr). pose proof (C61_result_is_convex coords op s1 s2 s a b SA SB r Ra Rb Va Vb Hop Is) as Vr.
        destruct Is as (On & S & Rs & Es). exists r. rewrite Ebd. cbn [bind]. rewrite Er. cbn [bind]. rewrite W.
        split; [ reflexivity | ]. split; [ exact Cr | ]. split; [ exact Vr | ]. cbn [on_given denotes]. split.
        -- intros x Hx. destruct (On x Hx) as [ Y | Y ]; [ left; now apply Oa | right; now apply Ob ].
        -- exists S. split; [ exact Rs | ]. intros x Nx. rewrite (Es x).
           ++ specialize (Ea x). specialize (Eb x). unfold set_of. destruct op; tauto.
           ++ intro Y. apply Nx. left. now apply Oa.
           ++ intro Y. apply Nx. right. now apply Ob.
      * exfalso. destruct (M Ka Kb) as (X1 & X2 & _). destruct G as [ G | G ]; [ exact (Never a SA Ra Ka (part_convex _ _ _ Va) X1 G) | exact (Never b SB Rb Kb (part_convex _ _ _ Vb) X2 G) ].
    + destruct (IH1 _ _ I1 G1 M1 H1) as (a' & -> & _). destruct F.
    + destruct (IH2 _ _ I2 G2 M2 H2) as (a' & -> & _). destruct F.
Qed.
Print Assumptions C61_convex_expressions.

(** An expression made of intersections of convex bodies never throws or warns: its evaluation
    ends with a convex body that represents the set that the expression denotes and
    meets the conditions of README.md. *)
Theorem C61_intersections : forall {P D} P_eqb coords pbox longest_axis sort_by nth_element_by cll cpl accepts cdt_faces
    base1 base2 sort_around centroid pbox3 ray_triangle ray_meets_box partial_sort2 tree_of num_threads (d0 : D) (e : expression P D) o,
  right_oracles P_eqb coords pbox sort_by nth_element_by cll cpl accepts base1 base2 sort_around centroid num_threads ->
  (forall x, in_box x (pbox3 x)) -> exact_intersection ray_triangle -> sound_box_test ray_meets_box -> sorts_two partial_sort2 ->
  let evaluates := evaluates P_eqb coords pbox longest_axis sort_by nth_element_by cll cpl accepts cdt_faces base1 base2 sort_around centroid
    (shoot coords ray_triangle ray_meets_box partial_sort2 tree_of) num_threads d0 in
  only_intersections e ->
  all_given (fun r A => represents coords r A /\ meets_conditions coords (boundary r) /\ convex_body (located coords (boundary r))) e ->
  all_operands evaluates
    (can_be_mixed_with_rays P_eqb coords pbox longest_axis sort_by nth_element_by cll cpl accepts cdt_faces pbox3 tree_of num_threads) e ->
  evaluates e o ->
  exists r, o = Ok (r, 0%N) /\ meets_conditions coords (boundary r) /\ convex_body (located coords (boundary r)) /\
    (forall x, on_surface coords r x -> on_given coords e x) /\
    exists S, represents coords r S /\ forall x, ~ on_given coords e x -> (S x <-> denotes e x).
Proof.
  intros P D P_eqb coords pbox la sb nb cll cpl accepts cdt_faces base1 base2 sa centroid pbox3 rt rm ps tree_of nt d0 e o
    Hor Hpb3 Hrt Hrm Hps ev Hi Hg Hm H.
  apply (C61_convex_expressions P_eqb coords pbox la sb nb cll cpl accepts cdt_faces base1 base2 sa centroid pbox3 rt rm ps tree_of nt d0 e false o); try assumption.
  - clear - Hi Hg. induction e as [ r A | op pf e1 IH1 e2 IH2 ].
    + apply ce_given. apply Hg.
    + destruct Hi as (-> & I1 & I2), Hg as (G1 & G2). apply (ce_combine _ _ _ _ _ false false); [ auto | auto | ]. intros X Y x _ _. reflexivity.
  - clear - Hg. induction e as [ r A | op pf e1 IH1 e2 IH2 ]; cbn in *; tauto.
Qed.
Print Assumptions C61_intersections.
