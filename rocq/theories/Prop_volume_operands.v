(** * C64: The volumes of results and of the operands *)
From Coq Require Import List Arith Bool NArith QArith Lqa Lia.
From Verif Require Import Model_base Proof_base Model_soup Model_geometry Model_aabb Model_boolean Model_corefine Model_side Model_mix Model_schedule Model_local.
From Verif Require Import Spec_candidates Spec_boolean Spec_side Spec_solid Spec_conform Spec_corefine Spec_mix Spec_whole Spec_again Spec_volume.
From Verif Require Import Proof_base Proof_mix_faces Proof_touch Proof_tiling_area Proof_arranged_volume.
From Verif Require Import Prop_boolean Prop_corefine Prop_schedule Prop_again Prop_volume.
From Verif Require Import Spec_boolean Spec_side Spec_solid Spec_volume.
Import ListNotations.
Local Open Scope Q_scope.

Lemma cone_det : forall {P} (coords : P -> vec3) p q r, cone coords (p, q, r) == (1 # 6) * det3 (coords p, coords q, coords r).
Proof. intros. reflexivity. Qed.

Lemma face_cone : forall {P} (coords : P -> vec3) (pts : list P) a b c, (a < length pts -> b < length pts -> c < length pts ->
  at_face (cone coords) (tri_of pts (a, b, c)) ==
  (1 # 6) * det3 (nth a (map coords pts) (0, 0, 0)%Q, nth b (map coords pts) (0, 0, 0)%Q, nth c (map coords pts) (0, 0, 0)%Q))%nat.
Proof.
  intros P coords pts a b c Ha Hb Hc. unfold tri_of.
  destruct (nth_error pts a) as [p | ] eqn:Ea; [ | apply nth_error_None in Ea; lia ]. destruct (nth_error pts b) as [q | ] eqn:Eb; [ | apply nth_error_None in Eb; lia ]. destruct (nth_error pts c) as [r | ] eqn:Ec; [ | apply nth_error_None in Ec; lia ].
  rewrite (nth_error_nth _ _ _ (map_nth_error coords _ _ Ea)), (nth_error_nth _ _ _ (map_nth_error coords _ _ Eb)), (nth_error_nth _ _ _ (map_nth_error coords _ _ Ec)). apply cone_det.
Qed.
Lemma volume_det : forall {P D} (coords : P -> vec3) (m : soup P D), wf_soup m -> volume coords m == (1 # 6) * vsum det3 (tris_list (located coords m)).
Proof.
  intros P D coords m (_ & V). unfold volume, total, tris_list, Proof_planes.triples. cbn [located points faces]. induction V as [ | [ [a b] c] fs (Ha & Hb & Hc) V IH]; cbn [map qsum vsum]; [ ring | ].
  rewrite IH, face_cone by assumption. ring.
Qed.
Lemma weighted_det : forall {P D} (coords : P -> vec3) (m : soup P (mixed_data D)) w, wf_mixed m ->
  weighted w (cone coords) (tris m) == (1 # 6) * wsum w (items (located coords m)).
Proof.
  intros P D coords m w (_ & V). unfold weighted, tris, items, tris_list, Proof_planes.triples. cbn [located points faces face_data]. generalize (face_data m). induction V as [ | [ [a b] c] fs (Ha & Hb & Hc) V IH]; intros [ | d ds]; cbn [map combine qsum wsum fst snd]; try ring.
  rewrite IH, face_cone by assumption. ring.
Qed.

(** What is to be shown of the mixed mesh. *)
Definition sums_up {P D} (coords : P -> vec3) (L R : soup P D) (m : soup P (mixed_data D)) : Prop :=
  let W op pf := weighted (weight op pf) (cone coords) (tris m) in
  W opI true == volume coords L /\ W opH false == volume coords R /\ forall op, W op true == W op false.

Definition uses (op : boolean_operator) (t : face_tag) : Q := match required op true t true with Drop => 0 | Keep => 1 | Reverse => - (1) end.
Lemma arranged_sums_up : forall {P D} (coords : P -> vec3) (L R : soup P D) A B (m : soup P (mixed_data D)), wf_soup L -> wf_soup R -> wf_mixed m ->
  solid (located coords L) A -> solid (located coords R) B -> arranged (located coords L) (located coords R) A B (located coords m) -> sums_up coords L R m.
Proof.
  intros P D coords L R A B m WL WR Wm SA SB Ar. pose proof (proj1 SA) as PL. pose proof (proj1 SB) as PR. unfold sums_up. cbv zeta. set (l := items (located coords m)).
  assert (Kn : forall T md, In (T, md) l -> tag md <> UNKNOWN) by exact (known _ _ A B _ Ar).
  split; [ | split ].
  - rewrite weighted_det, volume_det by assumption. rewrite <- (pieces_sum _ _ A B _ PL PR Ar true), <- wsum_chosen. fold l. rewrite (wsum_ext _ (fun md => if eqb (from_left md) true then 1 else 0)); [ reflexivity | ].
    intros T md J. specialize (Kn T md J). destruct md as [ [] [] d]; try reflexivity; exfalso; apply Kn; reflexivity.
  - rewrite weighted_det, volume_det by assumption. rewrite <- (pieces_sum _ _ A B _ PL PR Ar false), <- wsum_chosen. fold l. rewrite (wsum_ext _ (fun md => if eqb (from_left md) false then 1 else 0)); [ reflexivity | ].
    intros T md J. specialize (Kn T md J). destruct md as [ [] [] d]; try reflexivity; exfalso; apply Kn; reflexivity.
  - intro op. rewrite !weighted_det by assumption. fold l.
    set (lp := fun t (md : mixed_data D) => from_left md && face_tag_eqb (tag md) t). set (rp := fun t (md : mixed_data D) => negb (from_left md) && face_tag_eqb (tag md) t).
    set (one := fun (p : mixed_data D -> bool) md => if p md then 1 else 0).
    assert (E : wsum (weight op true) l == wsum (fun md => weight op false md + uses op COPLANAR * one (lp COPLANAR) md + - uses op COPLANAR * one (rp COPLANAR) md + uses op OPPOSITE * one (lp OPPOSITE) md + uses op OPPOSITE * one (rp OPPOSITE) md) l).
    { apply wsum_ext. intros T md J. destruct md as [ [] [] d]; destruct op; vm_compute; reflexivity. }
    rewrite E, !wsum_lin. unfold one, l. rewrite !wsum_chosen. unfold lp, rp.
    rewrite (shared_sum _ _ A B _ Ar COPLANAR 1 (or_introl (conj eq_refl eq_refl))), (shared_sum _ _ A B _ Ar OPPOSITE (- (1)) (or_intror (conj eq_refl eq_refl))). ring.
Qed.

Lemma tagged_sum : forall {P D} (f : P * P * P -> Q) (s : soup P D) left t w k, wf_soup s -> (forall d : D, w (mk_mixed left t d) == k) ->
  weighted w f (tris (mk_soup (points s) (faces s) (map (mk_mixed left t) (face_data s)))) == k * total f s.
Proof.
  intros P D f s left t w k (Le & _) Hk. unfold weighted, tris, total. cbn [points faces face_data]. revert Le. generalize (face_data s). induction (faces s) as [ | h fs IH]; intros [ | d ds] Le; try discriminate Le; cbn [map combine qsum fst snd]; [ ring | ].
  rewrite IH by (injection Le; auto). rewrite (Hk d). ring.
Qed.

Lemma region_wf : forall {P D} (a : region P D), wf_region a -> wf_soup (boundary a).
Proof. intros P D a W. unfold wf_region in W. destruct (kind a); [ rewrite W; repeat split; constructor | rewrite W; repeat split; constructor | apply W ]. Qed.
Lemma no_boundary : forall {P D} (r : region P D), wf_region r -> is_empty_or_full r = true -> boundary r = empty_soup.
Proof. intros P D r W E. unfold wf_region in W. unfold is_empty_or_full, is_empty, is_full in E. destruct (kind r); cbn in E; [ exact W | exact W | discriminate ]. Qed.

Lemma build_sums_up : forall {P D} (coords : P -> vec3) mix (a b : region P D) A B bd,
  represents coords a A -> represents coords b B ->
  (kind a = BOUNDARY_DEFINED -> kind b = BOUNDARY_DEFINED -> forall m w, mix (boundary a) (boundary b) = Ok (m, w) ->
     arranged (located coords (boundary a)) (located coords (boundary b)) A B (located coords m)) ->
  build mix a b = Ok bd -> wf_mixed (mixed bd) /\ sums_up coords (boundary a) (boundary b) (mixed bd).
Proof.
  intros P D coords mix a b A B bd (Wa & RA) (Wb & RB) Hm Hb. pose proof (region_wf a Wa) as Wsa. pose proof (region_wf b Wb) as Wsb. unfold build in Hb.
  destruct (is_empty_or_full a && is_empty_or_full b) eqn:E2; [ | destruct (is_empty_or_full a || is_empty_or_full b) eqn:E1 ].
  - injection Hb as <-. cbn [mixed]. apply andb_true_iff in E2. destruct E2 as [Ea Eb]. rewrite (no_boundary a Wa Ea), (no_boundary b Wb Eb). split; [ repeat split; constructor | ]. repeat split; reflexivity.
  - assert (Hs : boundary a = empty_soup \/ boundary b = empty_soup) by (apply orb_true_iff in E1; destruct E1; [ left | right ]; apply no_boundary; assumption).
    assert (Ht : forall s : soup P D, forall left t, wf_soup s -> t = INTERIOR \/ t = EXTERIOR -> let m := mk_soup (points s) (faces s) (map (mk_mixed left t) (face_data s)) in
      wf_mixed m /\ forall op pf, weighted (weight op pf) (cone coords) (tris m) == (match required op true t left with Drop => 0 | Keep => 1 | Reverse => - (1) end) * volume coords s).
    { intros s left t W T m. split; [ split; [ cbn [m face_data faces]; rewrite map_length; apply W | apply W ] | ]. intros op pf. apply tagged_sum; [ exact W | ]. intro d. unfold weight. cbn [tag from_left]. destruct T as [-> | ->], pf; reflexivity. }
    destruct (if is_empty a || is_full b then (INTERIOR, EXTERIOR) else (EXTERIOR, INTERIOR)) as [t1 t2] eqn:Et. injection Hb as <-. cbn [mixed].
    assert (T1 : t1 = INTERIOR \/ t1 = EXTERIOR) by (destruct (is_empty a || is_full b); injection Et as <- <-; auto). assert (T2 : t2 = INTERIOR \/ t2 = EXTERIOR) by (destruct (is_empty a || is_full b); injection Et as <- <-; auto).
    destruct Hs as [Hs | Hs]; rewrite Hs in *; cbn [points faces face_data empty_soup app map]; rewrite ?app_nil_r.
    + destruct (Ht (boundary b) false t2 Wsb T2) as (W & G). split; [ exact W | ]. unfold sums_up. cbv zeta. assert (Z : volume coords (@empty_soup P D) = 0) by reflexivity. rewrite Z. split; [ | split ].
      * rewrite G. destruct T2 as [-> | ->]; cbn; ring.
      * rewrite G. destruct T2 as [-> | ->]; cbn; ring.
      * intro op. rewrite !G. reflexivity.
    + destruct (Ht (boundary a) true t1 Wsa T1) as (W & G). split; [ exact W | ]. unfold sums_up. cbv zeta. assert (Z : volume coords (@empty_soup P D) = 0) by reflexivity. rewrite Z. split; [ | split ].
      * rewrite G. destruct T1 as [-> | ->]; cbn; ring.
      * rewrite G. destruct T1 as [-> | ->]; cbn; ring.
      * intro op. rewrite !G. reflexivity.
  - apply orb_false_iff in E1. destruct E1 as (Ea & Eb).
    assert (Kd : forall r : region P D, is_empty_or_full r = false -> kind r = BOUNDARY_DEFINED) by (intros r E; unfold is_empty_or_full, is_empty, is_full in E; destruct (kind r); [ discriminate E | discriminate E | reflexivity ]).
    specialize (Hm (Kd a Ea) (Kd b Eb)). rewrite (Kd a Ea) in RA. rewrite (Kd b Eb) in RB.
    apply bind_ok in Hb. destruct Hb as ([m w] & Em & Hb). injection Hb as <-. cbn [mixed]. specialize (Hm m w Em).
    assert (Wm : wf_mixed m) by (destruct (ar_valid _ _ _ _ _ Hm) as (V & Le); split; [ exact Le | ]; unfold valid_faces in V; cbn [located faces points] in V; rewrite map_length in V; exact V).
    split; [ exact Wm | ]. exact (arranged_sums_up coords _ _ A B m Wsa Wsb Wm RA RB Hm).
Qed.

(** The regions [a] and [b] represent sets and meet the conditions of README.md.  The volume
    of the result of an operation follows from those of [a], of [b] and of their intersection,
    as every point is counted, with every choice of the preferred operand. *)
Theorem C64_volumes_of_results : forall {P D} P_eqb coords pbox longest_axis sort_by nth_element_by cll cpl accepts cdt_faces
    base1 base2 sort_around centroid side_of num_threads (d0 : D) mix (a b : region P D) A B bd,
  right_oracles P_eqb coords pbox sort_by nth_element_by cll cpl accepts base1 base2 sort_around centroid num_threads ->
  represents coords a A -> represents coords b B -> meets_conditions coords (boundary a) -> meets_conditions coords (boundary b) ->
  can_be_mixed P_eqb coords pbox longest_axis sort_by nth_element_by cll cpl accepts cdt_faces side_of num_threads a b ->
  mixes_operands P_eqb coords pbox longest_axis sort_by nth_element_by cll cpl accepts cdt_faces base1 base2 sort_around centroid side_of num_threads mix a b ->
  build mix a b = Ok bd ->
  let vol (r : region P D) := volume coords (boundary r) in
  forall op prefer_first r prefer_first' common,
    run d0 bd op prefer_first = Ok r -> run d0 bd op_INTERSECTION prefer_first' = Ok common ->
    vol r ==
      (takes op true false - takes op false false) * vol a + (takes op false true - takes op false false) * vol b +
      (takes op true true - takes op true false - takes op false true + takes op false false) * vol common.
Proof.
  intros P D P_eqb coords pbox la sb nb cll cpl accepts cdt_faces base1 base2 sa centroid side_of nt d0 mix a b A B bd (K & Hacc & Hpb & Hso & Hce & Hnt) RA RB (_ & _ & Sa) (_ & _ & Sb) Hab Hmix Hb vol op pf r pf' common Hr Hc.
  destruct (build_sums_up coords mix a b A B bd RA RB) as (Wm & SI & SH & St); [ | exact Hb | ].
  { intros Ka Kb m w Em. destruct (Hmix Ka Kb) as (r0 & Hr0 & E0). rewrite Em in E0. destruct (Hab Ka Kb) as (TA & TB & Ua & Ub & Hcdt & Ov).
    destruct RA as (Wa & HA), RB as (Wb & HB). unfold wf_region in Wa, Wb. rewrite Ka in Wa, HA. rewrite Kb in Wb, HB. destruct r0 as [ [m0 w0] | | ]; cbn [bind] in E0; try discriminate. injection E0 as <- _.
    destruct (C50_mix_arranges _ _ _ _ _ _ _ _ _ _ _ _ _ _ _ _ _ _ A B _ K Hacc Hpb Hso Hce Hnt (proj1 Wa) (proj1 Wb) HA HB (TA A HA) (TB B HB) Sa Sb Ua Ub Hcdt Ov Hr0) as [ (m' & Y & Ar) | (Y & _) ]; [ | discriminate ].
    injection Y as <- _. exact Ar. }
  assert (Any : forall o p q, weighted (weight o p) (cone coords) (tris (mixed bd)) == weighted (weight o q) (cone coords) (tris (mixed bd))) by (intros o [] []; [ reflexivity | apply St | symmetry; apply St | reflexivity ]).
  unfold vol. rewrite <- SI, <- SH, (Any opI true pf), (Any opH false pf). unfold volume.
  rewrite (run_total (cone coords) d0 bd op pf r (cone_odd coords) Wm Hr), (run_total (cone coords) d0 bd _ pf' common (cone_odd coords) Wm Hc), (Any op_INTERSECTION pf' pf).
  apply weights_combine.
Qed.
Print Assumptions C64_volumes_of_results.

(** So the volumes of a union and an intersection add up to those of the operands, and so on. *)
Theorem C64_union_and_intersection : forall {P D} P_eqb coords pbox longest_axis sort_by nth_element_by cll cpl accepts cdt_faces
    base1 base2 sort_around centroid side_of num_threads (d0 : D) mix (a b : region P D) A B bd,
  right_oracles P_eqb coords pbox sort_by nth_element_by cll cpl accepts base1 base2 sort_around centroid num_threads ->
  represents coords a A -> represents coords b B -> meets_conditions coords (boundary a) -> meets_conditions coords (boundary b) ->
  can_be_mixed P_eqb coords pbox longest_axis sort_by nth_element_by cll cpl accepts cdt_faces side_of num_threads a b ->
  mixes_operands P_eqb coords pbox longest_axis sort_by nth_element_by cll cpl accepts cdt_faces base1 base2 sort_around centroid side_of num_threads mix a b ->
  build mix a b = Ok bd ->
  let vol (r : region P D) := volume coords (boundary r) in
  forall prefer_first common, run d0 bd op_INTERSECTION prefer_first = Ok common ->
  (forall prefer_first' r, run d0 bd op_UNION prefer_first' = Ok r -> vol r + vol common == vol a + vol b) /\
  (forall prefer_first' r, run d0 bd op_DIFFERENCE prefer_first' = Ok r -> vol r + vol common == vol a) /\
  (forall prefer_first' r, run d0 bd op_SYMMETRIC_DIFFERENCE prefer_first' = Ok r -> vol r + 2 * vol common == vol a + vol b) /\
  (forall prefer_first' r, run d0 bd opI prefer_first' = Ok r -> vol r == vol a) /\
  (forall prefer_first' r, run d0 bd opF prefer_first' = Ok r -> vol r == - vol a) /\
  (forall prefer_first' r, run d0 bd op_INTERSECTION prefer_first' = Ok r -> vol r == vol common).
Proof.
  intros P D P_eqb coords pbox la sb nb cll cpl accepts cdt_faces base1 base2 sa centroid side_of nt d0 mix a b A B bd Hor RA RB Ma Mb Hab Hmix Hb vol pf common Hc.
  repeat split; intros pf' r Hr; unfold vol; rewrite (C64_volumes_of_results _ _ _ _ _ _ _ _ _ _ _ _ _ _ _ _ d0 mix a b A B bd Hor RA RB Ma Mb Hab Hmix Hb _ pf' r pf common Hr Hc);
    cbv [takes op_UNION op_INTERSECTION op_DIFFERENCE op_SYMMETRIC_DIFFERENCE member denotes s_union s_inter s_minus s_symdiff s_compl s_all s_none fst snd andb orb negb xorb]; ring.
Qed.
Print Assumptions C64_union_and_intersection.
