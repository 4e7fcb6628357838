(** * C52: results of Boolean operations can be operands again *)
From Coq Require Import List Arith NArith Bool QArith Lqa Lia Permutation.
From Verif Require Import Model_base Proof_base Model_geometry Model_soup Model_mesh Model_aabb Model_points Model_boolean Model_classify Model_local Model_candidates Model_corefine Model_side Model_mix Model_schedule.
From Verif Require Import Spec_aabb Spec_boolean Spec_candidates Spec_side Spec_radial Spec_local Spec_classify Spec_solid Spec_conform Spec_defects Spec_ffi Spec_corefine Spec_mix Spec_cut Spec_whole Spec_again.
From Verif Require Import Proof_mesh Proof_classify Proof_extract Proof_mix_faces Proof_conform Proof_conform_run Proof_whole Proof_represents Proof_again.
From Verif Require Import Prop_candidates Prop_mesh Prop_classify Prop_local Prop_corefine Prop_cut Prop_side Prop_solid Prop_conform Prop_whole Prop_schedule.
Import ListNotations.
Local Open Scope nat_scope.

(** What mixing gives, with every schedule of the threads, meets the conditions as far as
    they do not exclude that a face of [left] is also one of [right]. *)
Lemma mixed_simplicial : forall {P D} P_eqb coords pbox longest_axis sort_by nth_element_by cll cpl accepts cdt_faces
    base1 base2 sort_around centroid side_of num_threads (left right : soup P D) A B m w,
  exact_kernel P_eqb coords pbox sort_by nth_element_by cll cpl ->
  plane_bases base1 base2 -> sorts sort_around -> inner_centroid coords centroid -> 1 <= num_threads ->
  wf_soup left -> wf_soup right -> solid (located coords left) A -> solid (located coords right) B ->
  tells_side coords (located coords left) A (side_of left) -> tells_side coords (located coords right) B (side_of right) ->
  simplicial coords left -> simplicial coords right -> fair_edges left right -> fair_edges right left ->
  (forall cf, corefine P_eqb coords pbox longest_axis sort_by nth_element_by cll cpl accepts num_threads left right (Ok cf) ->
     cdt_constrained coords cdt_faces cf) ->
  (triangular_overlaps coords left right \/
   forall cf m, corefine P_eqb coords pbox longest_axis sort_by nth_element_by cll cpl accepts num_threads left right (Ok cf) ->
     mixed_mesh cdt_faces cf left right = Ok m -> overlaps_agree (located coords (take_soup m))) ->
  mixes_scheduled P_eqb coords pbox longest_axis sort_by nth_element_by cll cpl accepts cdt_faces base1 base2 sort_around centroid side_of
    num_threads left right (Ok (m, w)) ->
  simplicial coords m.
Proof.
  intros P D P_eqb coords pbox la sb nb cll cpl accepts cdt_faces base1 base2 sa centroid side_of nt left right A B m w
    K Hpb Hso Hce Hnt Wl Wr SA SB TA TB Sl Sr Ul Ur Hcdt Ov H.
  pose proof (solid_proper coords left Wl (proj1 SA)) as Pl. pose proof (solid_proper coords right Wr (proj1 SB)) as Pr.
  pose proof (solid_no_twins coords left (proj1 SA)) as Tl. pose proof (solid_no_twins coords right (proj1 SB)) as Tr.
  inversion H as [ cf m0 border order m' w' Hc M Eb Ho Hcl | cf r Hc F | cf r Hc F | cf m0 r Hc M F | cf m0 border order o r Hc M Eb Ho Hcl F ]; subst.
  - destruct (mixed_conforming _ _ _ _ _ _ _ _ _ _ _ _ _ _ K (Hcdt cf Hc) Hnt Wl Wr Pl Pr Sl Sr Tl Tr Ul Ur Hc) as (fs & ds & border' & Em & Eb' & Cf).
    rewrite M in Em. injection Em as ->. rewrite Eb in Eb'. injection Eb' as <-. destruct Cf as (Co & St).
    { destruct Ov as [Ov | Ov]; [ left; exact Ov | right ]. specialize (Ov cf _ Hc M). rewrite take_finalize in Ov. exact Ov. }
    destruct (C50_classification_is_right P D coords base1 base2 sa centroid side_of left right A B (cf_points cf) fs ds border order (Ok (m', w))) as [ (m2 & E & E1 & E2 & _) | (E & _) ].
    + unfold ready. auto 12.
    + exact Hcl.
    + injection E as <- _. apply (simplicial_of coords (mk_soup (cf_points cf) fs ds)).
      * exact (conforming_simplicial coords (ek_coords _ _ _ _ _ _ _ K) _ _ _ _ Co).
      * intros i t Ht. exists i, t. split; [ | auto ]. unfold take_soup in Ht. rewrite E1, E2 in Ht. exact Ht.
    + discriminate.
  - destruct cf; cbn [fails] in F; try contradiction; discriminate.
  - destruct (mixed_mesh _ _ _ _); cbn [fails] in F; try contradiction; discriminate.
  - destruct (get_intersecting_edges _); cbn [fails] in F; try contradiction; discriminate.
  - destruct o; cbn [fails] in F; try contradiction; discriminate.
Qed.

Lemma represents_conditions : forall {P D} (coords : P -> vec3) (r : region P D) A,
  represents coords r A -> simplicial coords (boundary r) -> meets_conditions coords (boundary r).
Proof.
  intros P D coords r A (W & R) S. unfold wf_region in W. split; [ | split; [ | exact S ] ].
  - destruct (kind r); try (rewrite W; intros i Hi; cbn in Hi; lia). apply solid_proper; [ apply W | apply R ].
  - destruct (kind r); try (rewrite W; intros i j p q s p' q' s' (a & b & c & x & y & z & E & _); destruct i; discriminate). apply (solid_no_twins coords). apply R.
Qed.

(** A property of all pairs of regions that an evaluation of the expression combines. *)
Fixpoint all_operands {P D} (evaluates : expression P D -> res (region P D * N) -> Prop) (H : region P D -> region P D -> Prop) (e : expression P D) : Prop :=
  match e with
  | Given _ _ => True
  | Combine _ _ e1 e2 => all_operands evaluates H e1 /\ all_operands evaluates H e2 /\
      forall a b w1 w2, evaluates e1 (Ok (a, w1)) -> evaluates e2 (Ok (b, w2)) -> H a b
  end.
(** It combines these two. *)
Fixpoint combined {P D} (evaluates : expression P D -> res (region P D * N) -> Prop) (e : expression P D) (a b : region P D) : Prop :=
  match e with
  | Given _ _ => False
  | Combine _ _ e1 e2 => combined evaluates e1 a b \/ combined evaluates e2 a b \/
      exists w1 w2, evaluates e1 (Ok (a, w1)) /\ evaluates e2 (Ok (b, w2))
  end.
Lemma combined_all : forall {P D} (ev : expression P D -> res (region P D * N) -> Prop) H e a b, all_operands ev H e -> combined ev e a b -> H a b.
Proof.
  intros P D ev H e a b. induction e as [ r A | op pf e1 IH1 e2 IH2 ]; cbn; [ contradiction | ].
  intros (H1 & H2 & H3) [ X | [ X | (w1 & w2 & X & Y) ] ]; [ auto | auto | exact (H3 _ _ _ _ X Y) ].
Qed.
Lemma all_imp : forall {P D} (ev : expression P D -> res (region P D * N) -> Prop) (H H' : region P D -> region P D -> Prop) e,
  (forall a b, H a b -> H' a b) -> all_operands ev H e -> all_operands ev H' e.
Proof. intros P D ev H H' e HH. induction e as [ r A | op pf e1 IH1 e2 IH2 ]; cbn; [ auto | ]. intros (H1 & H2 & H3). repeat split; eauto. Qed.

Section Chain.
  Context {P D : Type}.
  Variables (P_eqb : P -> P -> bool) (coords : P -> vec3) (pbox : P -> box) (longest_axis : option box -> nat).
  Variables (sort_by : nat -> list (box * nat) -> list (box * nat)) (nth_element_by : nat -> nat -> list (box * nat) -> list (box * nat)).
  Variables (cll : P -> P -> P -> P -> P) (cpl : P -> P -> P -> P -> P -> P) (accepts : triangulation P -> nat -> nat -> bool).
  Variables (cdt_faces : triangulation P -> list (nat * nat * nat)) (base1 base2 : vec3 -> vec3) (sort_around : list Model_local.around -> list Model_local.around).
  Variables (centroid : P -> P -> P -> P) (side_of : soup P D -> P -> res oriented_side) (num_threads : nat) (d0 : D).

  (** What C50 asks of two operands that have boundaries, besides the conditions: the oracle
      for the side of a point is right for them, they have fair edges, the faces are
      triangulated as they should be, and so are the overlaps. *)
  Definition can_be_mixed (a b : region P D) : Prop :=
    kind a = BOUNDARY_DEFINED -> kind b = BOUNDARY_DEFINED ->
    (forall A, solid (located coords (boundary a)) A -> tells_side coords (located coords (boundary a)) A (side_of (boundary a))) /\
    (forall B, solid (located coords (boundary b)) B -> tells_side coords (located coords (boundary b)) B (side_of (boundary b))) /\
    fair_edges (boundary a) (boundary b) /\ fair_edges (boundary b) (boundary a) /\
    (forall cf, corefine P_eqb coords pbox longest_axis sort_by nth_element_by cll cpl accepts num_threads (boundary a) (boundary b) (Ok cf) ->
       cdt_constrained coords cdt_faces cf) /\
    (triangular_overlaps coords (boundary a) (boundary b) \/
     forall cf m, corefine P_eqb coords pbox longest_axis sort_by nth_element_by cll cpl accepts num_threads (boundary a) (boundary b) (Ok cf) ->
       mixed_mesh cdt_faces cf (boundary a) (boundary b) = Ok m -> overlaps_agree (located coords (take_soup m))).

  (** [mix] is what some execution of Mix gives for the boundaries of [a] and [b]. *)
  Definition mixes_operands (mix : soup P D -> soup P D -> res (soup P (mixed_data D) * N)) (a b : region P D) : Prop :=
    kind a = BOUNDARY_DEFINED -> kind b = BOUNDARY_DEFINED ->
    calls_mix_scheduled P_eqb coords pbox longest_axis sort_by nth_element_by cll cpl accepts cdt_faces base1 base2 sort_around centroid side_of
      num_threads mix (boundary a) (boundary b).

  (** What a program that computes the expression bottom up, constructing a builder
      (Boolean_region_builder.h:30-76) and calling it (78-128) at every operator, can end
      with: the region and the warnings of all builders, or the first failure. *)
  Inductive evaluates : expression P D -> res (region P D * N) -> Prop :=
  | ev_given : forall r A, evaluates (Given r A) (Ok (r, 0%N))
  | ev_combine : forall op prefer_first e1 e2 a b w1 w2 mix,
      evaluates e1 (Ok (a, w1)) -> evaluates e2 (Ok (b, w2)) -> mixes_operands mix a b ->
      evaluates (Combine op prefer_first e1 e2)
        (let* bd := build mix a b in let* r := run d0 bd op prefer_first in
         Ok (r, N.lor (N.lor w1 w2) (Model_boolean.warnings bd)))
  | ev_first : forall op prefer_first e1 e2 o r, evaluates e1 o -> fails o r -> evaluates (Combine op prefer_first e1 e2) r
  | ev_second : forall op prefer_first e1 e2 o r, evaluates e2 o -> fails o r -> evaluates (Combine op prefer_first e1 e2) r.

  (** The oracles are right. *)
  Definition right_oracles : Prop :=
    exact_kernel P_eqb coords pbox sort_by nth_element_by cll cpl /\ accepts_compatible coords accepts /\
    plane_bases base1 base2 /\ sorts sort_around /\ inner_centroid coords centroid /\ 1 <= num_threads.

  (** The search for the side of a point gives up for one of the boundaries. *)
  Definition side_search_gives_up (a b : region P D) : Prop :=
    gives_up coords (located coords (boundary a)) (side_of (boundary a)) \/ gives_up coords (located coords (boundary b)) (side_of (boundary b)).

  (** The regions [a] and [b] represent [A] and [B] and their boundaries meet the conditions of
      README.md.  The result of every operation on them represents the set that the operation
      denotes, and its boundary meets the conditions too. *)
  Theorem C52_result_meets_the_conditions : forall mix (a b : region P D) A B,
    right_oracles -> represents coords a A -> represents coords b B ->
    meets_conditions coords (boundary a) -> meets_conditions coords (boundary b) ->
    can_be_mixed a b -> mixes_operands mix a b ->
    (exists bd, build mix a b = Ok bd /\ Model_boolean.warnings bd = 0%N /\
       forall op prefer_first, exists r, run d0 bd op prefer_first = Ok r /\ is_result coords op a b A B r /\ meets_conditions coords (boundary r)) \/
    (build mix a b = Throw RuntimeError /\ (kind a = BOUNDARY_DEFINED /\ kind b = BOUNDARY_DEFINED /\ side_search_gives_up a b)).
  Proof.
    intros mix a b A B (K & Hacc & Hpb & Hso & Hce & Hnt) RA RB (_ & _ & Sa) (_ & _ & Sb) Hab Hmix.
    assert (X : (exists bd, build mix a b = Ok bd /\ Model_boolean.warnings bd = 0%N /\
       forall op prefer_first, exists r, run d0 bd op prefer_first = Ok r /\ is_result coords op a b A B r) \/
       (build mix a b = Throw RuntimeError /\ (kind a = BOUNDARY_DEFINED /\ kind b = BOUNDARY_DEFINED /\ side_search_gives_up a b))).
    { apply boolean_of_arranged; try assumption. intros Ka Kb. destruct (Hmix Ka Kb) as (r & Hr & E). exists r. split; [ exact E | ].
      destruct (Hab Ka Kb) as (TA & TB & Ua & Ub & Hcdt & Ov).
      destruct RA as (Wa & HA), RB as (Wb & HB). unfold wf_region in Wa, Wb. rewrite Ka in Wa, HA. rewrite Kb in Wb, HB.
      destruct (C50_mix_arranges _ _ _ _ _ _ _ _ _ _ _ _ _ _ _ _ _ _ A B r K Hacc Hpb Hso Hce Hnt (proj1 Wa) (proj1 Wb) HA HB (TA A HA) (TB B HB) Sa Sb Ua Ub Hcdt Ov Hr) as [ Y | (Y & G) ].
      - left. exact Y.
      - right. split; [ exact Y | ]. auto. }
    destruct X as [ (bd & E & W & G) | X ]; [ left | right; exact X ]. exists bd. split; [ exact E | ]. split; [ exact W | ].
    intros op pf. destruct (G op pf) as (r & Er & Hr). exists r. split; [ exact Er | ]. split; [ exact Hr | ].
    destruct Hr as (_ & S & Rs & _). apply (represents_conditions coords r S Rs).
    destruct (build_simplicial coords mix a b bd (proj1 RA) (proj1 RB) Sa Sb) as (Wm & Sm); [ | exact E | exact (run_simplicial d0 coords bd op pf r Wm Sm Er) ].
    intros Ka Kb m w Em. destruct (Hmix Ka Kb) as (r0 & Hr0 & E0). rewrite Em in E0.
    destruct (Hab Ka Kb) as (TA & TB & Ua & Ub & Hcdt & Ov).
    destruct RA as (Wa & HA), RB as (Wb & HB). unfold wf_region in Wa, Wb. rewrite Ka in Wa, HA. rewrite Kb in Wb, HB.
    destruct r0 as [ [m0 w0] | | ]; cbn [bind] in E0; try discriminate. injection E0 as <- _. split.
    - destruct (C50_mix_arranges _ _ _ _ _ _ _ _ _ _ _ _ _ _ _ _ _ _ A B _ K Hacc Hpb Hso Hce Hnt (proj1 Wa) (proj1 Wb) HA HB (TA A HA) (TB B HB) Sa Sb Ua Ub Hcdt Ov Hr0) as [ (m' & Y & Ar) | (Y & _) ]; [ | discriminate ].
      injection Y as <- _. destruct (ar_valid _ _ _ _ _ Ar) as (V & Le). split; [ exact Le | ]. unfold valid_faces in V. cbn [located faces points] in V. rewrite map_length in V. exact V.
    - exact (mixed_simplicial _ _ _ _ _ _ _ _ _ _ _ _ _ _ _ _ _ _ A B m w0 K Hpb Hso Hce Hnt (proj1 Wa) (proj1 Wb) HA HB (TA A HA) (TB B HB) Sa Sb Ua Ub Hcdt Ov Hr0).
  Qed.

  (** Regions that represent sets and meet the conditions, combined by an expression: what its
      evaluation ends with represents the set that the expression denotes and meets the
      conditions, and there are no warnings.  It throws only when the search for the side of a
      point gives up. *)
  Theorem C52_expressions : forall e o, right_oracles ->
    all_given (fun r A => represents coords r A /\ meets_conditions coords (boundary r)) e -> all_operands evaluates can_be_mixed e -> evaluates e o ->
    (exists r, o = Ok (r, 0%N) /\ meets_conditions coords (boundary r) /\
       (forall x, on_surface coords r x -> on_given coords e x) /\
       exists S, represents coords r S /\ forall x, ~ on_given coords e x -> (S x <-> denotes e x)) \/
    (o = Throw RuntimeError /\ exists a b, combined evaluates e a b /\ kind a = BOUNDARY_DEFINED /\ kind b = BOUNDARY_DEFINED /\ side_search_gives_up a b).
  Proof.
    intros e o Hor. revert o. induction e as [ r A | op pf e1 IH1 e2 IH2 ]; intros o Hg Hm H.
    - inversion H; subst. left. exists r. split; [ reflexivity | ]. split; [ apply Hg | ]. split; [ auto | ]. exists A. split; [ apply Hg | ]. intros x _. reflexivity.
    - destruct Hg as (G1 & G2), Hm as (M1 & M2 & M). inversion H as [ | op' pf' e1' e2' a b w1 w2 mix H1 H2 Hmix | op' pf' e1' e2' o' r H1 F | op' pf' e1' e2' o' r H2 F ]; subst.
      + destruct (IH1 _ G1 M1 H1) as [ (a' & E & Ca & Oa & SA & Ra & Ea) | (E & _) ]; [ | discriminate ]. injection E as <- ->.
        destruct (IH2 _ G2 M2 H2) as [ (b' & E & Cb & Ob & SB & Rb & Eb) | (E & _) ]; [ | discriminate ]. injection E as <- ->.
        destruct (C52_result_meets_the_conditions mix a b SA SB Hor Ra Rb Ca Cb (M _ _ _ _ H1 H2) Hmix) as [ (bd & Ebd & W & G) | (Ebd & G) ].
        * left. destruct (G op pf) as (r & Er & (On & S & Rs & Es) & Cr). exists r. rewrite Ebd. cbn [bind]. rewrite Er. cbn [bind]. rewrite W.
          split; [ reflexivity | ]. split; [ exact Cr | ]. cbn [on_given denotes]. split.
          -- intros x Hx. destruct (On x Hx) as [ Y | Y ]; [ left; now apply Oa | right; now apply Ob ].
          -- exists S. split; [ exact Rs | ]. intros x Nx. rewrite (Es x).
             ++ specialize (Ea x). specialize (Eb x). unfold set_of. destruct op; tauto.
             ++ intro Y. apply Nx. left. now apply Oa.
             ++ intro Y. apply Nx. right. now apply Ob.
        * right. rewrite Ebd. split; [ reflexivity | ]. exists a, b. split; [ | exact G ]. right. right. exists 0%N, 0%N. auto.
      + destruct (IH1 _ G1 M1 H1) as [ (a' & -> & _) | (-> & G) ]; [ destruct F | ]. cbn in F. right. split; [ exact F | ].
        destruct G as (a & b & Hp & G). exists a, b. split; [ left; exact Hp | exact G ].
      + destruct (IH2 _ G2 M2 H2) as [ (a' & -> & _) | (-> & G) ]; [ destruct F | ]. cbn in F. right. split; [ exact F | ].
        destruct G as (a & b & Hp & G). exists a, b. split; [ right; left; exact Hp | exact G ].
  Qed.

  Lemma combined_represents : forall e a b, right_oracles ->
    all_given (fun r A => represents coords r A /\ meets_conditions coords (boundary r)) e -> all_operands evaluates can_be_mixed e ->
    combined evaluates e a b -> exists A B, represents coords a A /\ represents coords b B.
  Proof.
    intros e a b Hor. induction e as [ r A | op pf e1 IH1 e2 IH2 ]; intros Hg Hm; [ contradiction | ].
    destruct Hg as (G1 & G2), Hm as (M1 & M2 & M). intros [ X | [ X | (w1 & w2 & X & Y) ] ]; [ auto | auto | ].
    destruct (C52_expressions e1 _ Hor G1 M1 X) as [ (a' & E & _ & _ & A & RA & _) | (E & _) ]; [ injection E as <- _ | discriminate ].
    destruct (C52_expressions e2 _ Hor G2 M2 Y) as [ (b' & E & _ & _ & B & RB & _) | (E & _) ]; [ injection E as <- _ | discriminate ].
    exists A, B. auto.
  Qed.

  (** Some evaluation of it exists. *)
  Theorem C52_evaluation_ends : forall e, right_oracles ->
    all_given (fun r A => represents coords r A /\ meets_conditions coords (boundary r)) e -> all_operands evaluates can_be_mixed e -> exists o, evaluates e o.
  Proof.
    intros e Hor. induction e as [ r A | op pf e1 IH1 e2 IH2 ]; intros Hg Hm.
    - eexists. apply ev_given.
    - destruct Hg as (G1 & G2), Hm as (M1 & M2 & M). destruct (IH1 G1 M1) as (o1 & H1), (IH2 G2 M2) as (o2 & H2).
      destruct (C52_expressions e1 o1 Hor G1 M1 H1) as [ (a & -> & Ca & _ & SA & Ra & _) | (-> & _) ]; [ | exists (Throw RuntimeError); eapply ev_first; [ exact H1 | reflexivity ] ].
      destruct (C52_expressions e2 o2 Hor G2 M2 H2) as [ (b & -> & Cb & _ & SB & Rb & _) | (-> & _) ]; [ | exists (Throw RuntimeError); eapply ev_second; [ exact H2 | reflexivity ] ].
      enough (X : exists mix, mixes_operands mix a b) by (destruct X as (mix & X); eexists; eapply ev_combine; eassumption).
      destruct (kind a) eqn:Ka; try (exists (fun _ _ => UB); intros Z; congruence).
      destruct (kind b) eqn:Kb; try (exists (fun _ _ => UB); intros _ Z; congruence).
      destruct (M _ _ _ _ H1 H2 Ka Kb) as (TA & TB & Ua & Ub & Hcdt & Ov). destruct Hor as (K & Hacc & Hpb & Hso & Hce & Hnt).
      destruct Ra as (Wa & HA), Rb as (Wb & HB). unfold wf_region in Wa, Wb. rewrite Ka in Wa, HA. rewrite Kb in Wb, HB.
      destruct (C50_mix_ends P_eqb coords pbox longest_axis sort_by nth_element_by cll cpl accepts cdt_faces base1 base2 sort_around centroid side_of num_threads
        (boundary a) (boundary b) SA SB K Hacc Hnt (proj1 Wa) (proj1 Wb) HA HB (proj2 (proj2 Ca)) (proj2 (proj2 Cb)) Ua Ub Hcdt) as (r & Hr).
      exists (fun _ _ => let* (m, w) := r in Ok (m, warning_bits w)). intros _ _. exists r. split; [ exact Hr | reflexivity ].
  Qed.
End Chain.
Print Assumptions C52_result_meets_the_conditions.
Print Assumptions C52_expressions.
Print Assumptions C52_evaluation_ends.

(** ** With the side of a point found by shooting rays *)

(** What is asked of two operands then.  [tree_of m] is the tree of [m] (Side_of_triangle_soup.h:33). *)
Definition can_be_mixed_with_rays {P D} P_eqb coords pbox longest_axis sort_by nth_element_by cll cpl accepts cdt_faces pbox3 tree_of
    num_threads (a b : region P D) : Prop :=
  kind a = BOUNDARY_DEFINED -> kind b = BOUNDARY_DEFINED ->
  aabb_tree pbox3 longest_axis sort_by nth_element_by (located coords (boundary a)) (tree_of (boundary a)) /\
  aabb_tree pbox3 longest_axis sort_by nth_element_by (located coords (boundary b)) (tree_of (boundary b)) /\
  fair_edges (boundary a) (boundary b) /\ fair_edges (boundary b) (boundary a) /\
  (forall cf, corefine P_eqb coords pbox longest_axis sort_by nth_element_by cll cpl accepts num_threads (boundary a) (boundary b) (Ok cf) ->
     cdt_constrained coords cdt_faces cf) /\
  (triangular_overlaps coords (boundary a) (boundary b) \/
   forall cf m, corefine P_eqb coords pbox longest_axis sort_by nth_element_by cll cpl accepts num_threads (boundary a) (boundary b) (Ok cf) ->
     mixed_mesh cdt_faces cf (boundary a) (boundary b) = Ok m -> overlaps_agree (located coords (take_soup m))).

(** C52_expressions with rays: it throws only if two operands of the expression have
    boundaries and for some point off one of these all rays are ambiguous. *)
Theorem C52_expressions_with_rays : forall {P D} P_eqb coords pbox longest_axis sort_by nth_element_by cll cpl accepts cdt_faces
    base1 base2 sort_around centroid pbox3 ray_triangle ray_meets_box partial_sort2 tree_of num_threads (d0 : D) (e : expression P D) o,
  right_oracles P_eqb coords pbox sort_by nth_element_by cll cpl accepts base1 base2 sort_around centroid num_threads ->
  (forall x, in_box x (pbox3 x)) -> exact_intersection ray_triangle -> sound_box_test ray_meets_box -> sorts_two partial_sort2 ->
  let evaluates := evaluates P_eqb coords pbox longest_axis sort_by nth_element_by cll cpl accepts cdt_faces base1 base2 sort_around centroid
    (shoot coords ray_triangle ray_meets_box partial_sort2 tree_of) num_threads d0 in
  all_given (fun r A => represents coords r A /\ meets_conditions coords (boundary r)) e ->
  all_operands evaluates
    (can_be_mixed_with_rays P_eqb coords pbox longest_axis sort_by nth_element_by cll cpl accepts cdt_faces pbox3 tree_of num_threads) e ->
  evaluates e o ->
  (exists r, o = Ok (r, 0%N) /\ meets_conditions coords (boundary r) /\
     (forall x, on_surface coords r x -> on_given coords e x) /\
     exists S, represents coords r S /\ forall x, ~ on_given coords e x -> (S x <-> denotes e x)) \/
  (o = Throw RuntimeError /\
   exists a b r x, combined evaluates e a b /\ (r = a \/ r = b) /\ kind a = BOUNDARY_DEFINED /\ kind b = BOUNDARY_DEFINED /\
     ~ on_surface coords r (coords x) /\ all_ambiguous (located coords (boundary r)) (coords x)).
Proof.
  intros P D P_eqb coords pbox la sb nb cll cpl accepts cdt_faces base1 base2 sa centroid pbox3 rt rm ps tree_of nt d0 e o
    Hor Hpb3 Hrt Hrm Hps ev Hg Hm H.
  assert (T : forall m S, solid (located coords m) S -> aabb_tree pbox3 la sb nb (located coords m) (tree_of m) ->
    tells_side coords (located coords m) S (shoot coords rt rm ps tree_of m) /\
    (gives_up coords (located coords m) (shoot coords rt rm ps tree_of m) ->
     exists x, ~ on_boundary (located coords m) (coords x) /\ all_ambiguous (located coords m) (coords x))).
  { intros m S HS Ht. apply (shoot_tells coords pbox3 la sb nb); auto. exact (ek_sort _ _ _ _ _ _ _ (proj1 Hor)). }
  assert (Hm' : all_operands ev (can_be_mixed P_eqb coords pbox la sb nb cll cpl accepts cdt_faces (shoot coords rt rm ps tree_of) nt) e).
  { revert Hm. apply all_imp. intros a b X Ka Kb. destruct (X Ka Kb) as (X1 & X2 & X3). split; [ | split; [ | exact X3 ] ].
    - intros A HA. apply (T _ A HA X1).
    - intros B HB. apply (T _ B HB X2). }
  destruct (C52_expressions _ _ _ _ _ _ _ _ _ _ _ _ _ _ _ _ _ e o Hor Hg Hm' H) as [ X | (-> & a & b & Cb & Ka & Kb & G) ]; [ left; exact X | right ].
  split; [ reflexivity | ]. destruct (combined_all _ _ _ _ _ Hm Cb Ka Kb) as (X1 & X2 & _).
  destruct (combined_represents _ _ _ _ _ _ _ _ _ _ _ _ _ _ _ _ _ e a b Hor Hg Hm' Cb) as (A & B & (_ & RA) & (_ & RB)).
  rewrite Ka in RA. rewrite Kb in RB. destruct G as [ G | G ].
  - destruct (proj2 (T _ A RA X1) G) as (x & Off & Am). exists a, b, a, x. auto 10.
  - destruct (proj2 (T _ B RB X2) G) as (x & Off & Am). exists a, b, b, x. auto 10.
Qed.
Print Assumptions C52_expressions_with_rays.
