(** * C50: the result does not depend on how the threads overlap *)
From Coq Require Import List Arith NArith Bool QArith Lqa Lia Permutation.
From Verif Require Import Model_base Proof_base Model_geometry Model_soup Model_mesh Model_aabb Model_points Model_boolean Model_classify Model_local Model_candidates Model_corefine Model_side Model_mix Model_schedule.
From Verif Require Import Spec_aabb Spec_boolean Spec_candidates Spec_side Spec_radial Spec_local Spec_classify Spec_solid Spec_conform Spec_defects Spec_ffi Spec_corefine Spec_mix Spec_cut Spec_whole Spec_open Spec_race.
From Verif Require Import Proof_mesh Proof_classify Proof_mix_faces Proof_conform Proof_conform_run Proof_whole Proof_represents Proof_open Proof_open_run.
From Verif Require Import Proof_schedule Proof_schedule_run Proof_schedule_end Proof_schedule_seq Proof_schedule_race.
From Verif Require Import Prop_candidates Prop_mesh Prop_classify Prop_local Prop_corefine Prop_cut Prop_side Prop_solid Prop_conform Prop_whole.
Import ListNotations.
Local Open Scope nat_scope.

(** The hypotheses of C48: the mesh [pts], [fs], [ds] with the edges [border] conforms to
    the two solids, and the oracles do what they should. *)
Definition ready {P D} (coords : P -> vec3) base1 base2 sort_around centroid (side_of : soup P D -> P -> res oriented_side)
    (L R : soup P D) A B pts fs ds border order : Prop :=
  plane_bases base1 base2 /\ sorts sort_around /\ inner_centroid coords centroid /\
  solid (located coords L) A /\ solid (located coords R) B /\
  tells_side coords (located coords L) A (side_of L) /\ tells_side coords (located coords R) B (side_of R) /\
  conforming (located coords L) (located coords R) (located coords (mk_soup pts fs ds)) border /\
  starting (located coords L) (located coords R) A B (located coords (mk_soup pts fs ds)) border /\
  set_elements border order.

Lemma ready_truth : forall P D (coords : P -> vec3) base1 base2 sort_around centroid side_of (L R : soup P D) A B pts fs ds border order,
  ready coords base1 base2 sort_around centroid side_of L R A B pts fs ds border order ->
  exists truth, (forall ps' ds' i f t k,
    steps (map (p_edge coords base1 base2 sort_around (finalize (mesh_of pts fs ds)) border) order, ds) (ps', ds') ->
    nth_error ps' i = Some (Write f t k) -> t = truth f /\ t <> UNKNOWN) /\
  forall r,
    classifies coords base1 base2 sort_around centroid side_of border L R (finalize (mesh_of pts fs ds)) order r ->
    (exists m', r = Ok (m', no_warnings) /\ m_points m' = pts /\ m_faces m' = fs /\
      (length (m_data m') = length ds /\ forall g d, nth_error ds g = Some d ->
         exists d', nth_error (m_data m') g = Some d' /\ from_left d' = from_left d /\ data d' = data d) /\
      (forall g d, nth_error (m_data m') g = Some d -> tag d = truth g) /\
      arranged (located coords L) (located coords R) A B (located coords (take_soup m'))) \/
    (r = Throw RuntimeError /\
     (gives_up coords (located coords L) (side_of L) \/ gives_up coords (located coords R) (side_of R))).
Proof.
  intros P D coords base1 base2 sort_around centroid side_of L R A B pts fs ds border order
    (Hb & Hs & Hc & HA & HB & HsL & HsR & C & St & Ho).
  destruct (open_truth all_space coords base1 base2 sort_around centroid side_of L R A B pts fs ds border order
    all_space_open_convex Hb Hs Hc (solid_all _ _ HA) (solid_all _ _ HB) (proj1 (tells_side_all _ _ _ _) HsL) (proj1 (tells_side_all _ _ _ _) HsR)
    C St (shared_all _ _) Ho) as (truth & _ & H1 & H2).
  exists truth. split; [ exact H1 | ]. intros r Hr. destruct (H2 r Hr) as [ (m' & E & F) | (E & G) ]; [ left | right ].
  - exists m'. split; [ exact E | exact F ].
  - split; [ exact E | ]. destruct G as [ G | G ]; apply gives_up_all in G; auto.
Qed.

(** On a mesh that conforms to two solids, local and global classification succeed without
    warnings and give every face its right tag, however the accesses of their threads to the
    tags alternate.  Or they throw because the search for the side of a point gives up. *)
Theorem C50_classification_is_right : forall P D (coords : P -> vec3) base1 base2 sort_around centroid side_of
    (L R : soup P D) A B pts fs ds border order r,
  ready coords base1 base2 sort_around centroid side_of L R A B pts fs ds border order ->
  classifies coords base1 base2 sort_around centroid side_of border L R (finalize (mesh_of pts fs ds)) order r ->
  (exists m', r = Ok (m', no_warnings) /\ m_points m' = pts /\ m_faces m' = fs /\
    (length (m_data m') = length ds /\ forall g d, nth_error ds g = Some d ->
       exists d', nth_error (m_data m') g = Some d' /\ from_left d' = from_left d /\ data d' = data d) /\
    arranged (located coords L) (located coords R) A B (located coords (take_soup m'))) \/
  (r = Throw RuntimeError /\
   (gives_up coords (located coords L) (side_of L) \/ gives_up coords (located coords R) (side_of R))).
Proof.
  intros P D coords base1 base2 sa centroid side_of L R A B pts fs ds border order r Hr Hc.
  destruct (ready_truth _ _ _ _ _ _ _ _ _ _ _ _ _ _ _ _ _ Hr) as (truth & _ & H). destruct (H r Hc) as [ (m' & E1 & E2 & E3 & E4 & _ & E6) | X ]; [ left | right; exact X ].
  exists m'. auto.
Qed.
Print Assumptions C50_classification_is_right.

(** Two schedules that succeed give the same mesh. *)
Theorem C50_schedule_does_not_matter : forall P D (coords : P -> vec3) base1 base2 sort_around centroid side_of
    (L R : soup P D) A B pts fs ds border order m1 w1 m2 w2,
  ready coords base1 base2 sort_around centroid side_of L R A B pts fs ds border order ->
  classifies coords base1 base2 sort_around centroid side_of border L R (finalize (mesh_of pts fs ds)) order (Ok (m1, w1)) ->
  classifies coords base1 base2 sort_around centroid side_of border L R (finalize (mesh_of pts fs ds)) order (Ok (m2, w2)) ->
  m1 = m2 /\ w1 = w2.
Proof.
  intros P D coords base1 base2 sa centroid side_of L R A B pts fs ds border order m1 w1 m2 w2 Hr H1 H2.
  assert (Eq : forall m w, classifies coords base1 base2 sa centroid side_of border L R (finalize (mesh_of pts fs ds)) order (Ok (m, w)) ->
    m = with_data (finalize (mesh_of pts fs ds)) (m_data m)).
  { intros m w H. inversion H as [ | r' o' _ F | ds' w' o' _ F | ds' w' reps r' o' _ _ _ F ]; subst; try reflexivity.
    - destruct r'; cbn [fails] in F; try contradiction; discriminate.
    - destruct (find_unclassified _ _); cbn [fails] in F; try contradiction; discriminate.
    - destruct r'; cbn [fails] in F; try contradiction; discriminate. }
  destruct (ready_truth _ _ _ _ _ _ _ _ _ _ _ _ _ _ _ _ _ Hr) as (truth & _ & H).
  destruct (H _ H1) as [ (m1' & E1 & _ & _ & (L1 & K1) & T1 & _) | (E1 & _) ]; [ | discriminate ].
  destruct (H _ H2) as [ (m2' & E2 & _ & _ & (L2 & K2) & T2 & _) | (E2 & _) ]; [ | discriminate ].
  injection E1 as <- ->. injection E2 as <- ->. split; [ | reflexivity ].
  rewrite (Eq _ _ H1), (Eq _ _ H2). f_equal. apply nth_error_ext. intro g.
  destruct (nth_error ds g) as [ d | ] eqn:Ed.
  - destruct (K1 g d Ed) as (d1 & A1 & A2 & A3). destruct (K2 g d Ed) as (d2 & B1 & B2 & B3). rewrite A1, B1. f_equal.
    pose proof (T1 g d1 A1) as A4. pose proof (T2 g d2 B1) as B4. destruct d1, d2. cbn in *. congruence.
  - apply nth_error_None in Ed.
    assert (Z1 : nth_error (m_data m1) g = None) by (apply nth_error_None; lia).
    assert (Z2 : nth_error (m_data m2) g = None) by (apply nth_error_None; lia). congruence.
Qed.
Print Assumptions C50_schedule_does_not_matter.

(** No schedule goes on for ever, and it stops only when every thread has returned or
    thrown. *)
Theorem C50_every_schedule_ends : forall D A (ps : list (prog D A)) ds,
  Acc (fun c' c => step c c') (ps, ds) /\
  ((forall c', ~ step (ps, ds) c') -> forall p, In p ps -> exists r, p = Done r).
Proof.
  intros D A ps ds. split; [ apply steps_end | ]. intro H. destruct (can_move ps ds) as [ X | (c' & X) ]; [ exact X | destruct (H c' X) ].
Qed.
Print Assumptions C50_every_schedule_ends.

(** C49_mix_arranges for every schedule of the threads. *)
Theorem C50_mix_arranges : forall {P D} P_eqb coords pbox longest_axis sort_by nth_element_by cll cpl accepts cdt_faces
    base1 base2 sort_around centroid side_of num_threads (left right : soup P D) A B r,
  exact_kernel P_eqb coords pbox sort_by nth_element_by cll cpl -> accepts_compatible coords accepts ->
  plane_bases base1 base2 -> sorts sort_around -> inner_centroid coords centroid -> 1 <= num_threads ->
  wf_soup left -> wf_soup right -> solid (located coords left) A -> solid (located coords right) B ->
  tells_side coords (located coords left) A (side_of left) -> tells_side coords (located coords right) B (side_of right) ->
  simplicial coords left -> simplicial coords right -> fair_edges left right -> fair_edges right left ->
  (forall cf, corefine P_eqb coords pbox longest_axis sort_by nth_element_by cll cpl accepts num_threads left right (Ok cf) ->
     cdt_constrained coords cdt_faces cf) ->
  (triangular_overlaps coords left right \/
   forall cf m, corefine P_eqb coords pbox longest_axis sort_by nth_element_by cll cpl accepts num_threads left right (Ok cf) ->
     mixed_mesh cdt_faces cf left right = Ok m -> overlaps_agree (located coords (take_soup m))) ->
  mixes_scheduled P_eqb coords pbox longest_axis sort_by nth_element_by cll cpl accepts cdt_faces base1 base2 sort_around centroid side_of
    num_threads left right r ->
  (exists m, r = Ok (m, no_warnings) /\ arranged (located coords left) (located coords right) A B (located coords m)) \/
  (r = Throw RuntimeError /\
   (gives_up coords (located coords left) (side_of left) \/ gives_up coords (located coords right) (side_of right))).
Proof.
  intros P D P_eqb coords pbox la sb nb cll cpl accepts cdt_faces base1 base2 sa centroid side_of nt left right A B r
    K Hacc Hpb Hso Hce Hnt Wl Wr SA SB TA TB Sl Sr Ul Ur Hcdt Ov H.
  pose proof (solid_proper coords left Wl (proj1 SA)) as Pl. pose proof (solid_proper coords right Wr (proj1 SB)) as Pr.
  pose proof (solid_no_twins coords left (proj1 SA)) as Tl. pose proof (solid_no_twins coords right (proj1 SB)) as Tr.
  assert (Main : forall cf, corefine P_eqb coords pbox la sb nb cll cpl accepts nt left right (Ok cf) -> exists m border,
    mixed_mesh cdt_faces cf left right = Ok m /\ get_intersecting_edges cf = Ok border /\
    forall order o, set_elements border order -> classifies coords base1 base2 sa centroid side_of border left right m order o ->
      (exists m', o = Ok (m', no_warnings) /\
        arranged (located coords left) (located coords right) A B (located coords (take_soup m'))) \/
      (o = Throw RuntimeError /\
       (gives_up coords (located coords left) (side_of left) \/ gives_up coords (located coords right) (side_of right)))).
  { intros cf Hc. destruct (mixed_conforming _ _ _ _ _ _ _ _ _ _ _ _ _ _ K (Hcdt cf Hc) Hnt Wl Wr Pl Pr Sl Sr Tl Tr Ul Ur Hc) as (fs & ds & border & Em & Eb & Cf).
    destruct Cf as (Co & St).
    { destruct Ov as [Ov | Ov]; [ left; exact Ov | right ]. specialize (Ov cf _ Hc Em). rewrite take_finalize in Ov. exact Ov. }
    exists (finalize (mesh_of (cf_points cf) fs ds)), border. split; [ exact Em | ]. split; [ exact Eb | ]. intros order o Ho Hcl.
    destruct (C50_classification_is_right P D coords base1 base2 sa centroid side_of left right A B (cf_points cf) fs ds border order o) as [ (m' & E & _ & _ & _ & Ar) | X ]; auto.
    - unfold ready. auto 12.
    - left. exists m'. auto. }
  destruct H as [ cf m0 border order m' w H M Eb Ho Hc | cf r H F | cf r H F | cf m0 r H M F | cf m0 border order o r H M Eb Ho Hc F ].
  - destruct (Main cf H) as (m1 & border1 & M1 & B1 & X). rewrite M in M1. injection M1 as <-. rewrite Eb in B1. injection B1 as <-.
    destruct (X order _ Ho Hc) as [ (m2 & E & Ar) | (E & _) ]; [ | discriminate ]. injection E as -> ->. left. exists (take_soup m2). auto.
  - destruct (C38_never_fails _ _ _ _ _ _ _ _ _ _ _ _ _ K Hacc Hnt Pl Pr Sl Sr Tl Tr H) as (c & ->). destruct F.
  - destruct (Main cf H) as (m1 & border1 & M1 & _). rewrite M1 in F. destruct F.
  - destruct (Main cf H) as (m1 & border1 & _ & B1 & _). rewrite B1 in F. destruct F.
  - destruct (Main cf H) as (m1 & border1 & M1 & B1 & X). rewrite M in M1. injection M1 as <-. rewrite Eb in B1. injection B1 as <-.
    destruct (X order _ Ho Hc) as [ (m2 & -> & _) | (-> & G) ]; [ destruct F | ]. cbn in F. right. split; [ exact F | exact G ].
Qed.
Print Assumptions C50_mix_arranges.

(** The executions of C49 that succeed are among those of C50: what the threads do one after
    another is one of the schedules. *)
Theorem C50_includes_one_after_another : forall {P D} P_eqb coords pbox longest_axis sort_by nth_element_by cll cpl accepts cdt_faces
    base1 base2 sort_around centroid side_of num_threads (left right : soup P D) m w,
  mixes P_eqb coords pbox longest_axis sort_by nth_element_by cll cpl accepts cdt_faces base1 base2 sort_around centroid side_of
    num_threads left right (Ok (m, w)) ->
  mixes_scheduled P_eqb coords pbox longest_axis sort_by nth_element_by cll cpl accepts cdt_faces base1 base2 sort_around centroid side_of
    num_threads left right (Ok (m, w)).
Proof.
  intros P D P_eqb coords pbox la sb nb cll cpl accepts cdt_faces base1 base2 sa centroid side_of nt left right m w H.
  inversion H as [ cf m0 border order order' m' w' Hc M Eb Ho Hp Hcl | cf r Hc F | cf r Hc F | cf m0 r Hc M F | cf m0 border order order' r Hc M Eb Ho Hp F ]; subst.
  - eapply ms_ok; try eassumption. eapply classified_scheduled; eassumption.
  - destruct cf; cbn [fails] in F; try contradiction; discriminate.
  - destruct (mixed_mesh _ _ _ _); cbn [fails] in F; try contradiction; discriminate.
  - destruct (get_intersecting_edges _); cbn [fails] in F; try contradiction; discriminate.
  - destruct (classified _ _ _ _ _ _ _ _ _ _ _ _); cbn [fails] in F; try contradiction; discriminate.
Qed.
Print Assumptions C50_includes_one_after_another.

(** What the constructor of the builder calls, with overlapping threads. *)
Definition calls_mix_scheduled {P D} P_eqb coords pbox longest_axis sort_by nth_element_by cll cpl accepts cdt_faces base1 base2 sort_around centroid side_of
    num_threads (mix : soup P D -> soup P D -> res (soup P (mixed_data D) * N)) (left right : soup P D) : Prop :=
  exists r, mixes_scheduled P_eqb coords pbox longest_axis sort_by nth_element_by cll cpl accepts cdt_faces base1 base2 sort_around centroid side_of
      num_threads left right r /\
    mix left right = (let* (m, w) := r in Ok (m, warning_bits w)).

(** C49_boolean_operation for every schedule of the threads. *)
Theorem C50_boolean_operation : forall {P D} P_eqb coords pbox longest_axis sort_by nth_element_by cll cpl accepts cdt_faces
    base1 base2 sort_around centroid side_of num_threads (d0 : D) mix (a b : region P D) A B,
  exact_kernel P_eqb coords pbox sort_by nth_element_by cll cpl -> accepts_compatible coords accepts ->
  plane_bases base1 base2 -> sorts sort_around -> inner_centroid coords centroid -> 1 <= num_threads ->
  represents coords a A -> represents coords b B ->
  (kind a = BOUNDARY_DEFINED -> tells_side coords (located coords (boundary a)) A (side_of (boundary a))) ->
  (kind b = BOUNDARY_DEFINED -> tells_side coords (located coords (boundary b)) B (side_of (boundary b))) ->
  simplicial coords (boundary a) -> simplicial coords (boundary b) -> fair_edges (boundary a) (boundary b) -> fair_edges (boundary b) (boundary a) ->
  (forall cf, corefine P_eqb coords pbox longest_axis sort_by nth_element_by cll cpl accepts num_threads (boundary a) (boundary b) (Ok cf) ->
     cdt_constrained coords cdt_faces cf) ->
  (triangular_overlaps coords (boundary a) (boundary b) \/
   forall cf m, corefine P_eqb coords pbox longest_axis sort_by nth_element_by cll cpl accepts num_threads (boundary a) (boundary b) (Ok cf) ->
     mixed_mesh cdt_faces cf (boundary a) (boundary b) = Ok m -> overlaps_agree (located coords (take_soup m))) ->
  (kind a = BOUNDARY_DEFINED -> kind b = BOUNDARY_DEFINED ->
   calls_mix_scheduled P_eqb coords pbox longest_axis sort_by nth_element_by cll cpl accepts cdt_faces base1 base2 sort_around centroid side_of
     num_threads mix (boundary a) (boundary b)) ->
  (exists bd, build mix a b = Ok bd /\ Model_boolean.warnings bd = 0%N /\
     forall op prefer_first, exists r, run d0 bd op prefer_first = Ok r /\ is_result coords op a b A B r) \/
  (build mix a b = Throw RuntimeError /\
   (gives_up coords (located coords (boundary a)) (side_of (boundary a)) \/ gives_up coords (located coords (boundary b)) (side_of (boundary b)))).
Proof.
  intros P D P_eqb coords pbox la sb nb cll cpl accepts cdt_faces base1 base2 sa centroid side_of nt d0 mix a b A B
    K Hacc Hpb Hso Hce Hnt RA RB TA TB Sa Sb Ua Ub Hcdt Ov Hmix.
  apply boolean_of_arranged; try assumption. intros Ka Kb. destruct (Hmix Ka Kb) as (r & Hr & E). exists r. split; [ exact E | ].
  destruct RA as (Wa & HA), RB as (Wb & HB). unfold wf_region in Wa, Wb. rewrite Ka in Wa, HA. rewrite Kb in Wb, HB.
  exact (C50_mix_arranges _ _ _ _ _ _ _ _ _ _ _ _ _ _ _ _ _ _ A B r K Hacc Hpb Hso Hce Hnt (proj1 Wa) (proj1 Wb) HA HB (TA Ka) (TB Kb) Sa Sb Ua Ub Hcdt Ov Hr).
Qed.
Print Assumptions C50_boolean_operation.

(** Some execution of it exists. *)
Theorem C50_mix_ends : forall {P D} P_eqb coords pbox longest_axis sort_by nth_element_by cll cpl accepts cdt_faces
    base1 base2 sort_around centroid side_of num_threads (left right : soup P D) A B,
  exact_kernel P_eqb coords pbox sort_by nth_element_by cll cpl -> accepts_compatible coords accepts -> 1 <= num_threads ->
  wf_soup left -> wf_soup right -> solid (located coords left) A -> solid (located coords right) B ->
  simplicial coords left -> simplicial coords right -> fair_edges left right -> fair_edges right left ->
  (forall cf, corefine P_eqb coords pbox longest_axis sort_by nth_element_by cll cpl accepts num_threads left right (Ok cf) ->
     cdt_constrained coords cdt_faces cf) ->
  exists r, mixes_scheduled P_eqb coords pbox longest_axis sort_by nth_element_by cll cpl accepts cdt_faces base1 base2 sort_around centroid side_of
    num_threads left right r.
Proof.
  intros P D P_eqb coords pbox la sb nb cll cpl accepts cdt_faces base1 base2 sa centroid side_of nt left right A B
    K Hacc Hnt Wl Wr SA SB Sl Sr Ul Ur Hcdt.
  pose proof (solid_proper coords left Wl (proj1 SA)) as Pl. pose proof (solid_proper coords right Wr (proj1 SB)) as Pr.
  pose proof (solid_no_twins coords left (proj1 SA)) as Tl. pose proof (solid_no_twins coords right (proj1 SB)) as Tr.
  destruct (C38_returns P_eqb coords pbox la sb nb cll cpl accepts nt left right K Hacc Hnt Pl Pr Sl Sr Tl Tr) as (cf & Hc).
  destruct (mixed_conforming _ _ _ _ _ _ _ _ _ _ _ _ _ _ K (Hcdt cf Hc) Hnt Wl Wr Pl Pr Sl Sr Tl Tr Ul Ur Hc) as (fs & ds & border & Em & Eb & _).
  destruct (set_of_list border) as (order & Ho).
  destruct (classifies_ends P D coords base1 base2 sa centroid side_of border left right (finalize (mesh_of (cf_points cf) fs ds)) order) as ([ [m' w] | e | ] & H).
  - exists (Ok (take_soup m', w)). eapply ms_ok; eassumption.
  - exists (Throw e). eapply ms_classify; try eassumption. reflexivity.
  - exists UB. eapply ms_classify; try eassumption. reflexivity.
Qed.
Print Assumptions C50_mix_ends.

(** The two tetrahedra of C48_two, which share a face: the three threads of local
    classification all write to the tags of that face, and yet every schedule ends with the
    same tags. *)
Lemma two_ready : ready (fun x => x) ex_base1 ex_base2 ex_sort ex_centroid ex_side tetra below in_tetra in_below
  (points two_mixed) (faces two_mixed) two_data two_border two_border.
Proof.
  unfold ready. split; [ exact ex_bases | ]. split; [ exact ex_sorts | ]. split.
  { intros p q r. exists (1 # 3)%Q, (1 # 3)%Q, (1 # 3)%Q. unfold ex_centroid. cbn [vx vy vz fst snd]. repeat split; try lra; ring. }
  split; [ exact tetra_solid | ]. split; [ exact below_solid | ]. split.
  { intros x _. right. destruct (tetra_side_right x) as (X1 & X2). unfold ex_side. split; intro Z; [ specialize (X1 Z) | specialize (X2 Z) ]; cbn; congruence. }
  split.
  { intros x _. right. destruct (tetra_side_right (mir x)) as (X1 & X2). unfold ex_side. split; intro Z; [ specialize (X1 Z) | specialize (X2 Z) ]; cbn; congruence. }
  split; [ exact C48_two_conforming | ]. split; [ exact C48_two_starting | ].
  split; [ | reflexivity ]. repeat (constructor; [ cbn; intuition congruence | ]). constructor.
Qed.

Example C50_two : 
  (exists r, classifies (fun x => x) ex_base1 ex_base2 ex_sort ex_centroid ex_side two_border tetra below
     (finalize (mesh_of (points two_mixed) (faces two_mixed) two_data)) two_border r) /\
  forall r, classifies (fun x => x) ex_base1 ex_base2 ex_sort ex_centroid ex_side two_border tetra below
    (finalize (mesh_of (points two_mixed) (faces two_mixed) two_data)) two_border r ->
  exists m', r = Ok (m', no_warnings) /\ m_data m' = face_data two_mixed.
Proof.
  split; [ apply classifies_ends | ]. intros r H. destruct (C48_two) as (m1 & _ & E & Ed & _).
  destruct (C50_classification_is_right _ _ _ _ _ _ _ _ _ _ _ _ _ _ _ _ _ _ two_ready H) as [ (m' & -> & _) | (_ & [ (x & _ & X) | (x & _ & X) ]) ]; try discriminate X.
  exists m'. split; [ reflexivity | ].
  pose proof (classified_scheduled _ _ (fun x => x) ex_base1 ex_base2 ex_sort ex_centroid ex_side two_border tetra below _ _ _ _ _ (fun l => Permutation_refl l) E) as H'.
  destruct (C50_schedule_does_not_matter _ _ _ _ _ _ _ _ _ _ _ _ _ _ _ _ _ _ _ _ _ two_ready H H') as (-> & _). exact Ed.
Qed.

(** ** C51: the threads race on the tags *)

(** Thread [i] performs an access for every [i] in the list. *)
Fixpoint follow {D A} (is : list nat) (c : list (prog D A) * list (mixed_data D)) : list (prog D A) * list (mixed_data D) :=
  match is with
  | [] => c
  | i :: r =>
      match nth_error (fst c) i with
      | Some p => match access p (snd c) with Some (p', ds') => follow r (list_set (fst c) i p', ds') | None => c end
      | None => c
      end
  end.
Lemma follow_steps : forall D A is (c : list (prog D A) * list (mixed_data D)), steps c (follow is c).
Proof.
  intros D A is. induction is as [ | i r IH]; intros [ps ds]; cbn [follow fst snd]; [ constructor | ].
  destruct (nth_error ps i) as [ p | ] eqn:E; [ | constructor ]. destruct (access p ds) as [ [p' ds'] | ] eqn:E'; [ | constructor ].
  econstructor; [ | apply IH ]. econstructor; eassumption.
Qed.

(** No execution of local classification on a mesh that conforms to two solids has a data
    race: false.  The three sides of the face that two tetrahedra share are border edges; the
    threads that classify the faces around them all assign the tag of that face. *)
Definition race_free : Prop := forall P D (coords : P -> vec3) base1 base2 sort_around centroid side_of
    (L R : soup P D) A B pts fs ds border order ps' ds',
  ready coords base1 base2 sort_around centroid side_of L R A B pts fs ds border order ->
  steps (map (p_edge coords base1 base2 sort_around (finalize (mesh_of pts fs ds)) border) order, ds) (ps', ds') -> ~ race ps'.

Definition two_threads := map (p_edge (fun x => x) ex_base1 ex_base2 ex_sort (finalize (mesh_of (points two_mixed) (faces two_mixed) two_data)) two_border) two_border.
Theorem C51_local_phase_race_free_refuted : ~ race_free.
Proof.
  intro H. pose proof (follow_steps unit warnings [0; 1] (two_threads, two_data)) as S.
  destruct (follow [0; 1] (two_threads, two_data)) as [ps' ds'] eqn:E.
  apply (H _ _ _ _ _ _ _ _ _ _ _ _ _ _ _ _ _ ps' ds' two_ready S).
  assert (Ep : ps' = fst (follow [0; 1] (two_threads, two_data))) by (rewrite E; reflexivity). clear E S H.
  assert (K : match nth_error ps' 0 with Some (Write f t k) => f = 0 | _ => False end /\
    match nth_error ps' 1 with Some q => next_face q = Some 0 | _ => False end) by (rewrite Ep; vm_compute; auto).
  destruct (nth_error ps' 0) as [ [ | | f t k ] | ] eqn:E0; try (destruct K; contradiction).
  destruct (nth_error ps' 1) as [ q | ] eqn:E1; [ | destruct K; contradiction ]. destruct K as (-> & K).
  exists 0, 1, 0, t, k, q. auto.
Qed.
Print Assumptions C51_local_phase_race_free_refuted.

(** But whatever the threads write to the tag of a face, in whatever schedule, is the same
    tag, and never UNKNOWN. *)
Theorem C51_local_phase_writes_agree : forall P D (coords : P -> vec3) base1 base2 sort_around centroid side_of
    (L R : soup P D) A B pts fs ds border order ps1 ds1 ps2 ds2 i j f t1 t2 k1 k2,
  ready coords base1 base2 sort_around centroid side_of L R A B pts fs ds border order ->
  let start := (map (p_edge coords base1 base2 sort_around (finalize (mesh_of pts fs ds)) border) order, ds) in
  steps start (ps1, ds1) -> steps start (ps2, ds2) ->
  nth_error ps1 i = Some (Write f t1 k1) -> nth_error ps2 j = Some (Write f t2 k2) -> t1 = t2 /\ t1 <> UNKNOWN.
Proof.
  intros P D coords base1 base2 sa centroid side_of L R A B pts fs ds border order ps1 ds1 ps2 ds2 i j f t1 t2 k1 k2 Hr start S1 S2 H1 H2.
  destruct (ready_truth _ _ _ _ _ _ _ _ _ _ _ _ _ _ _ _ _ Hr) as (truth & H & _).
  destruct (H _ _ _ _ _ _ S1 H1) as (-> & N). destruct (H _ _ _ _ _ _ S2 H2) as (-> & _). auto.
Qed.
Print Assumptions C51_local_phase_writes_agree.

(** Global classification has no data races, on any mesh. *)
Theorem C51_global_phase_race_free : forall P D (centroid : P -> P -> P -> P) side_left side_right
    (pts : list P) fs (ds : list (mixed_data D)) border reps ps' ds',
  let m := finalize (mesh_of pts fs ds) in
  wf_mixed_mesh m -> find_unclassified m border = Ok reps ->
  steps (map (p_rep centroid side_left side_right m border) reps, ds) (ps', ds') -> ~ race ps'.
Proof.
  intros P D centroid sl sr pts fs ds border reps ps' ds' m W E S.
  apply (reps_race_free m border (finalized_finalize _ _ _ _ _) W centroid sl sr reps E ps' ds').
  unfold m at 2. rewrite data_finalize. exact S.
Qed.
Print Assumptions C51_global_phase_race_free.

(** Two faces that share an edge and a third face apart: two threads, and the one for the
    first component writes two tags. *)
Example C51_global_example :
  let fs := [(0, 1, 2); (1, 0, 3); (4, 5, 6)] in
  let ds := [mk_mixed true UNKNOWN tt; mk_mixed true UNKNOWN tt; mk_mixed false UNKNOWN tt] in
  let m := finalize (mesh_of [0; 1; 2; 3; 4; 5; 6] fs ds) in
  wf_mixed_mesh m /\ find_unclassified m [] = Ok [0; 2] /\
  snd (follow ([0; 1; 1] ++ repeat 0 20) (map (p_rep (fun p _ _ => p) (fun _ => Ok POSITIVE_SIDE) (fun _ => Ok NEGATIVE_SIDE) m []) [0; 2], ds)) =
    [mk_mixed true INTERIOR tt; mk_mixed true INTERIOR tt; mk_mixed false EXTERIOR tt].
Proof.
  cbn zeta. split; [ | vm_compute; auto ]. split; [ reflexivity | ]. split; [ repeat constructor | ].
  repeat constructor; discriminate.
Qed.
