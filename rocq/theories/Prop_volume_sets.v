(** * C64: Volumes and sets *)
From Coq Require Import List Arith Bool NArith QArith Lqa Lia.
From Verif Require Import Model_base Proof_base Model_soup Model_geometry Model_aabb Model_boolean Model_corefine Model_side Model_mix Model_schedule Model_local.
From Verif Require Import Spec_candidates Spec_boolean Spec_side Spec_solid Spec_conform Spec_corefine Spec_mix Spec_whole Spec_again Spec_same Spec_volume.
From Verif Require Import Prop_boolean Prop_corefine Prop_schedule Prop_again Prop_same Prop_volume Prop_volume_operands.
From Verif Require Import Spec_boolean Spec_side Spec_solid Spec_again Spec_same Spec_volume.
Import ListNotations.
Local Open Scope Q_scope.

(** A region that represents the empty set off some boundaries has no boundary. *)
Lemma nothing_left : forall {P D} (coords : P -> vec3) op (a b : region P D) A B r,
  represents coords a A -> represents coords b B -> is_result coords op a b A B r ->
  (forall x, ~ on_surface coords a x -> ~ on_surface coords b x -> ~ set_of op A B x) -> volume coords (boundary r) == 0.
Proof.
  intros P D coords op a b A B r RA RB (_ & S & RS & HS) No.
  assert (RE : represents coords (@region_empty P D) (fun _ => False)) by (split; [ reflexivity | intros x X; exact X ]).
  assert (Sm : same_region coords r region_empty).
  { apply (C62_same_sets coords (Combine op true (Given a A) (Given b B)) (Given region_empty (fun _ => False)) r region_empty S (fun _ => False)).
    - cbn [all_given]. auto.
    - exact RE.
    - exact RS.
    - intros x Off. cbn [on_given] in Off. cbn [denotes]. apply HS; intro O; apply Off; [ left | right ]; exact O.
    - exact RE.
    - intros x _. cbn [denotes]. tauto.
    - intros x Off _. cbn [on_given] in Off. cbn [denotes]. split; [ | contradiction ]. apply No; intro O; apply Off; [ left | right ]; exact O. }
  destruct Sm as (Kd & _). destruct RS as (W & _). unfold wf_region in W. rewrite Kd in W. cbn in W. rewrite W. reflexivity.
Qed.

(** The volumes of sets that have no point in common add up; the volume of a set without one of
    its subsets is the difference; and regions that represent the same set have the same
    volume, whatever their faces are. *)
Theorem C64_volumes_of_sets : forall {P D} P_eqb coords pbox longest_axis sort_by nth_element_by cll cpl accepts cdt_faces
    base1 base2 sort_around centroid side_of num_threads (d0 : D) mix (a b : region P D) A B bd,
  right_oracles P_eqb coords pbox sort_by nth_element_by cll cpl accepts base1 base2 sort_around centroid num_threads ->
  represents coords a A -> represents coords b B -> meets_conditions coords (boundary a) -> meets_conditions coords (boundary b) ->
  can_be_mixed P_eqb coords pbox longest_axis sort_by nth_element_by cll cpl accepts cdt_faces side_of num_threads a b ->
  mixes_operands P_eqb coords pbox longest_axis sort_by nth_element_by cll cpl accepts cdt_faces base1 base2 sort_around centroid side_of num_threads mix a b ->
  build mix a b = Ok bd ->
  let vol (r : region P D) := volume coords (boundary r) in
  let off x := ~ on_surface coords a x /\ ~ on_surface coords b x in
  ((forall x, off x -> ~ (A x /\ B x)) -> forall prefer_first r, run d0 bd op_UNION prefer_first = Ok r -> vol r == vol a + vol b) /\
  ((forall x, off x -> B x -> A x) -> forall prefer_first r, run d0 bd op_DIFFERENCE prefer_first = Ok r -> vol r == vol a - vol b) /\
  ((forall x, off x -> (A x <-> B x)) -> vol a == vol b).
Proof.
  intros P D P_eqb coords pbox la sb nb cll cpl accepts cdt_faces base1 base2 sa centroid side_of nt d0 mix a b A B bd Hor RA RB Ma Mb Hab Hmix Hb vol off.
  destruct (C52_result_meets_the_conditions _ _ _ _ _ _ _ _ _ _ _ _ _ _ _ _ d0 mix a b A B Hor RA RB Ma Mb Hab Hmix) as [ (bd' & E & _ & G) | (E & _) ]; [ | congruence ].
  rewrite Hb in E. injection E as <-. unfold vol.
  assert (Vo : forall op pf r, run d0 bd op pf = Ok r -> forall c, run d0 bd op_INTERSECTION true = Ok c -> _) by
    exact (fun op pf r Hr c Hc => C64_volumes_of_results _ _ _ _ _ _ _ _ _ _ _ _ _ _ _ _ d0 mix a b A B bd Hor RA RB Ma Mb Hab Hmix Hb op pf r true c Hr Hc).
  destruct (G op_INTERSECTION true) as (c & Hc & Rc & _), (G op_DIFFERENCE true) as (d & Hd & Rd & _), (G opM true) as (e & He & Re & _).
  pose proof (Vo _ _ _ Hd c Hc) as Vd. pose proof (Vo _ _ _ He c Hc) as Ve.
  cbv [takes op_UNION op_INTERSECTION op_DIFFERENCE op_SYMMETRIC_DIFFERENCE member Spec_boolean.denotes s_union s_inter s_minus s_symdiff s_compl s_all s_none fst snd andb orb negb xorb] in Vd, Ve.
  split; [ | split ].
  - intros No pf r Hr. pose proof (Vo _ _ _ Hr c Hc) as Vr. cbv [takes op_UNION op_INTERSECTION op_DIFFERENCE op_SYMMETRIC_DIFFERENCE member Spec_boolean.denotes s_union s_inter s_minus s_symdiff s_compl s_all s_none fst snd andb orb negb xorb] in Vr.
    assert (Z : volume coords (boundary c) == 0) by (apply (nothing_left coords op_INTERSECTION a b A B c RA RB Rc); intros x O1 O2; exact (No x (conj O1 O2))). lra.
  - intros Sub pf r Hr. pose proof (Vo _ _ _ Hr c Hc) as Vr. cbv [takes op_UNION op_INTERSECTION op_DIFFERENCE op_SYMMETRIC_DIFFERENCE member Spec_boolean.denotes s_union s_inter s_minus s_symdiff s_compl s_all s_none fst snd andb orb negb xorb] in Vr.
    assert (Z : volume coords (boundary e) == 0) by (apply (nothing_left coords opM a b A B e RA RB Re); intros x O1 O2 (X1 & X2); exact (X2 (Sub x (conj O1 O2) X1))). lra.
  - intro Eq.
    assert (Z : volume coords (boundary e) == 0) by (apply (nothing_left coords opM a b A B e RA RB Re); intros x O1 O2 (X1 & X2); exact (X2 (proj2 (Eq x (conj O1 O2)) X1))).
    assert (Z' : volume coords (boundary d) == 0) by (apply (nothing_left coords op_DIFFERENCE a b A B d RA RB Rd); intros x O1 O2 (X1 & X2); exact (X2 (proj1 (Eq x (conj O1 O2)) X1))). lra.
Qed.
Print Assumptions C64_volumes_of_sets.
