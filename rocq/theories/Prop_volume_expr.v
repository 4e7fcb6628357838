(** * C64: Volumes of expressions *)
From Coq Require Import List Arith Bool NArith QArith Lqa Lia.
From Verif Require Import Model_base Proof_base Model_soup Model_geometry Model_aabb Model_boolean Model_corefine Model_side Model_mix Model_schedule Model_local.
From Verif Require Import Spec_candidates Spec_boolean Spec_side Spec_solid Spec_conform Spec_corefine Spec_mix Spec_whole Spec_again Spec_same Spec_volume Spec_volume_expr.
From Verif Require Import Spec_aabb Prop_side Prop_whole Prop_aabb Proof_whole Prop_boolean Prop_corefine Prop_schedule Prop_again Prop_same Prop_volume Prop_volume_operands Prop_volume_sets.
From Verif Require Import Spec_boolean Spec_side Spec_solid Spec_again Spec_same Spec_volume Spec_volume_expr.
Import ListNotations.
Local Open Scope Q_scope.

(** The volume of an expression that denotes nothing is zero. *)
Lemma nothing_denoted : forall {P D} (coords : P -> vec3) (e : expression P D) (r : region P D) S,
  all_given (represents coords) e -> represents coords r S -> (forall x, ~ on_given coords e x -> (S x <-> denotes e x)) ->
  (forall x, ~ on_given coords e x -> ~ denotes e x) -> volume coords (boundary r) == 0.
Proof.
  intros P D coords e r S Hg RS HS No.
  assert (RE : represents coords (@region_empty P D) (fun _ => False)) by (split; [ reflexivity | intros x X; exact X ]).
  assert (Sm : same_region coords r region_empty).
  { apply (C62_same_sets coords e (Given region_empty (fun _ => False)) r region_empty S (fun _ => False)); try assumption.
    - intros x _. cbn [denotes]. tauto.
    - intros x Off _. cbn [denotes]. split; [ exact (No x Off) | contradiction ]. }
  destruct Sm as (Kd & _). destruct RS as (W & _). unfold wf_region in W. rewrite Kd in W. cbn in W. rewrite W. reflexivity.
Qed.

(** The volumes of the regions that evaluating the expression gives: whatever the schedules of
    the threads are at every operator, it is what the volumes of the given regions add up to. *)
Theorem C64_volumes_of_expressions : forall {P D} P_eqb coords pbox longest_axis sort_by nth_element_by cll cpl accepts cdt_faces
    base1 base2 sort_around centroid side_of num_threads (d0 : D) (e : expression P D) v (r : region P D) w,
  right_oracles P_eqb coords pbox sort_by nth_element_by cll cpl accepts base1 base2 sort_around centroid num_threads ->
  let evaluates := evaluates P_eqb coords pbox longest_axis sort_by nth_element_by cll cpl accepts cdt_faces base1 base2 sort_around centroid
    side_of num_threads d0 in
  let can_be_mixed := can_be_mixed P_eqb coords pbox longest_axis sort_by nth_element_by cll cpl accepts cdt_faces side_of num_threads in
  all_given (fun r A => represents coords r A /\ meets_conditions coords (boundary r)) e -> all_operands evaluates can_be_mixed e ->
  adds_up coords e v -> evaluates e (Ok (r, w)) -> volume coords (boundary r) == v.
Proof.
  intros P D P_eqb coords pbox la sb nb cll cpl accepts cdt_faces base1 base2 sa centroid side_of nt d0 e v r w Hor ev cm Hg Hm Hv. revert r w Hg Hm.
  assert (Gv : forall e : expression P D, all_given (fun r A => represents coords r A /\ meets_conditions coords (boundary r)) e -> all_given (represents coords) e)
    by (intro e0; induction e0 as [ r0 A0 | op0 pf0 e1 IH1 e2 IH2 ]; cbn [all_given]; [ tauto | intros (G1 & G2); auto ]).
  (* One operator, with the results of all the others by the same builder. *)
  assert (One : forall op pf (e1 e2 : expression P D) (r : region P D) w v1 v2,
    all_given (fun r A => represents coords r A /\ meets_conditions coords (boundary r)) (Combine op pf e1 e2) -> all_operands ev cm (Combine op pf e1 e2) -> ev (Combine op pf e1 e2) (Ok (r, w)) ->
    (forall (r : region P D) w, ev e1 (Ok (r, w)) -> volume coords (boundary r) == v1) -> (forall (r : region P D) w, ev e2 (Ok (r, w)) -> volume coords (boundary r) == v2) ->
    forall op', exists c e' : region P D, volume coords (boundary r) == takes op true false * v1 + takes op false true * v2 + takes op true true * volume coords (boundary c)
        - takes op true false * volume coords (boundary c) - takes op false true * volume coords (boundary c) + takes op false false * (volume coords (boundary c) - v1 - v2) /\
      ((forall x, ~ on_given coords e1 x -> ~ on_given coords e2 x -> ~ set_of op_INTERSECTION (denotes e1) (denotes e2) x) -> volume coords (boundary c) == 0) /\
      volume coords (boundary e') == takes op' true false * v1 + takes op' false true * v2 + takes op' true true * volume coords (boundary c)
        - takes op' true false * volume coords (boundary c) - takes op' false true * volume coords (boundary c) + takes op' false false * (volume coords (boundary c) - v1 - v2) /\
      ((forall x, ~ on_given coords e1 x -> ~ on_given coords e2 x -> ~ set_of op' (denotes e1) (denotes e2) x) -> volume coords (boundary e') == 0)).
  { intros op pf e1 e2 r w v1 v2 (G1 & G2) (M1 & M2 & M) H V1 V2 op'.
    inversion H as [ | op0 pf0 e10 e20 a b w1 w2 mix H1 H2 Hmix Q1 Q2 | op0 pf0 e10 e20 o' r' H1 F | op0 pf0 e10 e20 o' r' H2 F ]; subst;
      [ | exfalso; match goal with F : fails ?o _ |- _ => destruct o; cbn in F; congruence || discriminate F || contradiction end .. ].
    destruct (C52_expressions _ _ _ _ _ _ _ _ _ _ _ _ _ _ _ _ _ e1 _ Hor G1 M1 H1) as [ (a' & E & Ca & _ & SA & Ra & Ea) | (E & _) ]; [ injection E as <- -> | discriminate E ].
    destruct (C52_expressions _ _ _ _ _ _ _ _ _ _ _ _ _ _ _ _ _ e2 _ Hor G2 M2 H2) as [ (b' & E & Cb & _ & SB & Rb & Eb) | (E & _) ]; [ injection E as <- -> | discriminate E ].
    pose proof (M _ _ _ _ H1 H2) as Hab.
    destruct (C52_result_meets_the_conditions _ _ _ _ _ _ _ _ _ _ _ _ _ _ _ _ d0 mix a b SA SB Hor Ra Rb Ca Cb Hab Hmix) as [ (bd & Ebd & W & G) | (Ebd & _) ]; rewrite Ebd in Q2; cbn [bind] in Q2; [ | discriminate Q2 ].
    destruct (G op pf) as (r0 & Er & _). rewrite Er in Q2. cbn [bind] in Q2. injection Q2 as -> _.
    destruct (G op_INTERSECTION true) as (c & Ec & _), (G op' true) as (d & Ed & _). exists c, d.
    assert (No : forall op'' x', run d0 bd op'' true = Ok x' -> (forall x, ~ on_given coords e1 x -> ~ on_given coords e2 x -> ~ set_of op'' (denotes e1) (denotes e2) x) -> volume coords (boundary x') == 0).
    { intros op'' x' Hx N. assert (H' : ev (Combine op'' true e1 e2) (Ok (x', N.lor (N.lor 0 0) (Model_boolean.warnings bd)))).
      { pose proof (ev_combine P_eqb coords pbox la sb nb cll cpl accepts cdt_faces base1 base2 sa centroid side_of nt d0 op'' true e1 e2 a b 0%N 0%N mix H1 H2 Hmix) as X. rewrite Ebd in X. cbn [bind] in X. rewrite Hx in X. exact X. }
      assert (Gc : all_given (fun r A => represents coords r A /\ meets_conditions coords (boundary r)) (Combine op'' true e1 e2)) by (split; assumption).
      assert (Mc : all_operands ev cm (Combine op'' true e1 e2)) by (split; [ exact M1 | split; [ exact M2 | exact M ] ]).
      destruct (C52_expressions _ _ _ _ _ _ _ _ _ _ _ _ _ _ _ _ _ _ _ Hor Gc Mc H') as [ (y & E & _ & _ & S & RS & HS) | (E & _) ]; [ injection E as <- _ | discriminate E ].
      apply (nothing_denoted coords (Combine op'' true e1 e2) x' S (Gv _ Gc) RS HS). intros x Off. cbn [on_given] in Off. apply N; intro O; apply Off; [ left | right ]; exact O. }
    pose proof (C64_volumes_of_results _ _ _ _ _ _ _ _ _ _ _ _ _ _ _ _ d0 mix a b SA SB bd Hor Ra Rb Ca Cb Hab Hmix Ebd op pf r true c Er Ec) as Y.
    pose proof (C64_volumes_of_results _ _ _ _ _ _ _ _ _ _ _ _ _ _ _ _ d0 mix a b SA SB bd Hor Ra Rb Ca Cb Hab Hmix Ebd op' true d true c Ed Ec) as Z.
    pose proof (V1 _ _ H1) as X1. pose proof (V2 _ _ H2) as X2. cbv zeta in Y, Z. rewrite X1, X2 in Y, Z.
    split; [ rewrite Y; ring | ]. split; [ exact (No _ _ Ec) | ]. split; [ rewrite Z; ring | exact (No _ _ Ed) ]. }
  induction Hv as [ r0 A0 | pf e1 e2 v1 v2 Hv1 IH1 Hv2 IH2 Dis | pf e1 e2 v1 v2 Hv1 IH1 Hv2 IH2 Sub ]; intros r w Hg Hm H.
  - inversion H; subst. reflexivity.
  - destruct Hg as (G1 & G2). destruct (One op_UNION pf e1 e2 r w v1 v2 (conj G1 G2) Hm H (fun q u => IH1 q u G1 (proj1 Hm)) (fun q u => IH2 q u G2 (proj1 (proj2 Hm))) op_UNION) as (c & d & Vr & Z & _).
    specialize (Z Dis). rewrite Vr, Z. cbv [takes op_UNION op_INTERSECTION op_DIFFERENCE member Spec_boolean.denotes s_union s_inter s_minus s_symdiff s_compl s_all s_none fst snd andb orb negb xorb]. ring.
  - destruct Hg as (G1 & G2). destruct (One op_DIFFERENCE pf e1 e2 r w v1 v2 (conj G1 G2) Hm H (fun q u => IH1 q u G1 (proj1 Hm)) (fun q u => IH2 q u G2 (proj1 (proj2 Hm))) opM) as (c & d & Vr & _ & Vd & Z).
    assert (Z' : volume coords (boundary d) == 0) by (apply Z; intros x O1 O2 (X1 & X2); exact (X2 (Sub x O1 O2 X1))).
    rewrite Z' in Vd. cbv [takes op_UNION op_INTERSECTION op_DIFFERENCE member Spec_boolean.denotes s_union s_inter s_minus s_symdiff s_compl s_all s_none fst snd andb orb negb xorb] in Vr, Vd. lra.
Qed.
Print Assumptions C64_volumes_of_expressions.

(** ** With the side of a point found by shooting rays *)
Theorem C64_volumes_of_expressions_with_rays : forall {P D} P_eqb coords pbox longest_axis sort_by nth_element_by cll cpl accepts cdt_faces
    base1 base2 sort_around centroid pbox3 ray_triangle ray_meets_box partial_sort2 tree_of num_threads (d0 : D) (e : expression P D) v (r : region P D) w,
  right_oracles P_eqb coords pbox sort_by nth_element_by cll cpl accepts base1 base2 sort_around centroid num_threads ->
  (forall x, in_box x (pbox3 x)) -> exact_intersection ray_triangle -> sound_box_test ray_meets_box -> sorts_two partial_sort2 ->
  let evaluates := evaluates P_eqb coords pbox longest_axis sort_by nth_element_by cll cpl accepts cdt_faces base1 base2 sort_around centroid
    (shoot coords ray_triangle ray_meets_box partial_sort2 tree_of) num_threads d0 in
  let can_be_mixed := can_be_mixed_with_rays P_eqb coords pbox longest_axis sort_by nth_element_by cll cpl accepts cdt_faces pbox3 tree_of num_threads in
  all_given (fun r A => represents coords r A /\ meets_conditions coords (boundary r)) e -> all_operands evaluates can_be_mixed e ->
  adds_up coords e v -> evaluates e (Ok (r, w)) -> volume coords (boundary r) == v.
Proof.
  intros P D P_eqb coords pbox la sb nb cll cpl accepts cdt_faces base1 base2 sa centroid pbox3 rt rm ps tree_of nt d0 e v r w Hor Hpb3 Hrt Hrm Hps ev cm Hg Hm Hv H.
  refine (C64_volumes_of_expressions _ _ _ _ _ _ _ _ _ _ _ _ _ _ _ _ d0 e v r w Hor Hg _ Hv H).
  revert Hm. apply all_imp. intros a b X Ka Kb. destruct (X Ka Kb) as (X1 & X2 & X3).
  split; [ | split; [ | exact X3 ] ]; intros S HS; apply (shoot_tells coords pbox3 la sb nb); auto; exact (ek_sort _ _ _ _ _ _ _ (proj1 Hor)).
Qed.
Print Assumptions C64_volumes_of_expressions_with_rays.
