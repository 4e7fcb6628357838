(** * C63: an example *)
From Coq Require Import List Arith Bool NArith ZArith QArith Lqa Lia.
From Verif Require Import Prop_watertight.
From Verif Require Import Model_base Proof_base Model_soup Model_geometry Spec_candidates Model_aabb Spec_aabb Model_parallel_do Model_boolean Model_candidates Model_classify Model_local Model_corefine Model_side Model_mix Model_schedule.
From Verif Require Import Model_defects Spec_defects Model_overlap Spec_ffi Spec_overlap.
From Verif Require Import Model_find Spec_boolean Spec_radial Spec_local Spec_conform Spec_mix Spec_cut Spec_side Spec_solid Spec_corefine Spec_whole Spec_delaunay Spec_again Spec_find Spec_visible Spec_same Proof_find.
From Verif Require Import Proof_fan Proof_extreme Proof_exact Proof_bridge Proof_planes Proof_clip Proof_pairs Proof_whole Proof_whole_ex Proof_again Prop_aabb Prop_local Prop_corefine Prop_cut Prop_side Prop_solid Prop_conform Prop_whole Prop_schedule Prop_again Prop_again_ex Prop_connected Prop_whole_ex Proof_visible Proof_same.
From Verif Require Import Spec_corefine Spec_side Spec_solid Spec_visible.
From Verif Require Import Prop_same Prop_watertight Spec_watertight.
Import ListNotations.
Local Open Scope nat_scope.

(** The hypotheses of C63_expressions are met, and not in vain: the evaluation of an
    expression of two overlapping tetrahedra and the empty region ends, whatever the schedules,
    and the boundary of every result is watertight. *)
Example C63_example : forall n, 1 <= n ->
  (exists r w, ex_evaluates n ex_expression (Ok (r, w))) /\
  forall r w, ex_evaluates n ex_expression (Ok (r, w)) -> watertight (boundary r).
Proof.
  assert (Hor : forall nt, 1 <= nt -> right_oracles exact_eqb value exact_box (fun _ l => l) (fun _ _ l => l) exact_ll exact_pl (fun _ _ _ => true) ex_base1 ex_base2 ex_sort middle_point nt).
  { intros nt Hnt. split; [ exact ex_kernel | ]. split; [ intros t a b c h k vs _ _; reflexivity | ]. split; [ exact ex_bases | ]. split; [ exact ex_sorts | ]. split; [ | exact Hnt ].
    intros p q r. unfold middle_point. destruct (value_reduce (ex_centroid (value p) (value q) (value r))) as (S1 & S2 & S3). exists (1 # 3)%Q, (1 # 3)%Q, (1 # 3)%Q. rewrite S1, S2, S3. unfold ex_centroid. cbn [vx vy vz fst snd]. repeat split; try lra; ring. }
  assert (Hu : represents value (ex_region upright) in_tetra /\ meets_conditions value (boundary (ex_region upright))) by (split; [ split; [ split; [ exact upright_wf | discriminate ] | exact tetra_solid ] | exact (conditions_of _ _ upright_wf tetra_solid upright_simplicial) ]).
  assert (He : represents value (@region_empty exact unit) (fun _ => False) /\ meets_conditions value (boundary (@region_empty exact unit))).
  { split; [ split; [ reflexivity | intros x X; exact X ] | ]. apply (represents_conditions value region_empty (fun _ => False)); [ split; [ reflexivity | intros x X; exact X ] | apply empty_simplicial ]. }
  assert (Hl : represents value (ex_region leaning) in_lean /\ meets_conditions value (boundary (ex_region leaning))) by (split; [ split; [ split; [ exact leaning_wf | discriminate ] | exact lean_solid ] | exact (conditions_of _ _ leaning_wf lean_solid leaning_simplicial) ]).
  assert (Hm : forall nt, 1 <= nt -> all_operands (ex_evaluates nt) (can_be_mixed exact_eqb value exact_box (fun _ => 0) (fun _ l => l) (fun _ _ l => l) exact_ll exact_pl (fun _ _ _ => true) (fan_faces value) which_side nt) ex_expression).
  { intros nt Hnt. cbn [all_operands ex_expression]. split; [ | split; [ exact I | ] ].
    - split; [ exact I | ]. split; [ exact I | ]. intros a b w1 w2 _ H2. inversion H2; subst. intros _ Z. discriminate.
    - intros a b w1 w2 H1 H2. rewrite (first_step nt a w1 H1). inversion H2; subst. exact (ex_can_be_mixed nt Hnt). }
  intros n Hn.
  assert (G : all_given (fun r A => represents value r A /\ meets_conditions value (boundary r)) ex_expression) by (cbn [all_given ex_expression]; tauto).
  split.
  - destruct (C52_evaluation_ends _ _ _ _ _ _ _ _ _ _ _ _ _ _ _ _ _ ex_expression (Hor n Hn) G (Hm n Hn)) as (o & H).
    destruct (C52_expressions _ _ _ _ _ _ _ _ _ _ _ _ _ _ _ _ _ ex_expression o (Hor n Hn) G (Hm n Hn) H) as [ (r & -> & _) | (_ & a & b & _ & _ & _ & [ (x & _ & X) | (x & _ & X) ]) ]; [ exists r, 0%N; exact H | discriminate X .. ].
  - intros r w H. exact (proj1 (C63_expressions _ _ _ _ _ _ _ _ _ _ _ _ _ _ _ n tt ex_expression r w (Hor n Hn) G (Hm n Hn) H)).
Qed.

(** A single triangle is not watertight. *)
Example C63_open_example : ~ watertight (mk_soup [at_ 0 0 0; at_ 1 0 0; at_ 0 1 0] [(0, 1, 2)%nat] [tt]).
Proof.
  intro W. destruct (W (at_ 0 0 0) (at_ 1 0 0)) as (n & (l & _ & Ll & Hl) & (l' & _ & Ll' & Hl')).
  assert (J : In 0 l). { apply Hl. exists (at_ 0 0 0, at_ 1 0 0, at_ 0 1 0). split; [ repeat eexists | left; split; reflexivity ]. }
  destruct l' as [ | j l']; [ destruct l; [ destruct J | cbn in *; lia ] | ].
  destruct (proj1 (Hl' j) (or_introl eq_refl)) as (u & (a & b & c & p & q & r & F & A & B & C & ->) & Du).
  destruct j as [ | j]; [ | destruct j; discriminate F ]. injection F as <- <- <-. injection A as <-. injection B as <-. injection C as <-.
  unfold directed in Du. destruct Du as [ (X & Y) | [ (X & Y) | (X & Y) ] ]; apply (f_equal value) in X; apply (f_equal value) in Y; vm_compute in X, Y; discriminate.
Qed.
