(** * C64: Volumes of convex bodies *)
From Coq Require Import List Arith Bool NArith QArith Lqa Lia.
From Verif Require Import Model_base Model_soup Model_geometry Model_aabb Model_boolean Model_corefine Model_side Model_mix Model_schedule Model_local.
From Verif Require Import Spec_boolean Spec_candidates Spec_defects Spec_side Spec_solid Spec_conform Spec_corefine Spec_mix Spec_whole Spec_visible Spec_again Spec_meet Spec_volume.
From Verif Require Import Proof_bridge Proof_affine Proof_link Proof_visible Proof_meet Prop_boolean Prop_corefine Prop_schedule Prop_again Prop_meet Prop_volume Prop_volume_operands Prop_volume_origin.
From Verif Require Import Spec_boolean Spec_side Spec_solid Spec_visible Spec_meet Spec_volume.
Import ListNotations.
Local Open Scope Q_scope.

(** The volume of a convex body is not negative, and that of a convex hole is not positive. *)
Theorem C64_convex_sign : forall {P D} (P_eqb : P -> P -> bool) (coords : P -> vec3) (r : region P D) S,
  (forall p q, P_eqb p q = true <-> p = q) -> represents coords r S -> meets_conditions coords (boundary r) ->
  (convex_part false (located coords (boundary r)) -> 0 <= volume coords (boundary r)) /\
  (convex_part true (located coords (boundary r)) -> volume coords (boundary r) <= 0).
Proof.
  intros P D P_eqb coords r S He R Hm.
  assert (G : forall s, convex_part s (located coords (boundary r)) -> 0 <= (if s then - (1) else 1) * volume coords (boundary r)).
  2:{ split; intro Cv; [ specialize (G false Cv) | specialize (G true Cv) ]; cbn [fst] in G; lra. }
  intros sg Cv.
  assert (W : wf_soup (boundary r)) by (destruct R as (W & _); unfold wf_region in W; destruct (kind r); [ rewrite W; repeat split; constructor | rewrite W; repeat split; constructor | apply W ]).
  destruct W as (_ & V).
  destruct (faces (boundary r)) as [ | h0 fs0] eqn:E0; [ unfold volume, total; rewrite E0; cbn; destruct sg; lra | ].
  assert (O : exists o, on_boundary (located coords (boundary r)) o).
  { destruct Hm as (Pr & _). destruct (Pr 0%nat) as ([ [p q] s] & F & _); [ unfold num_faces; rewrite E0; cbn; lia | ]. exists (centroid (coords p) (coords q) (coords s)), 0%nat, (coords p), (coords q), (coords s).
    split; [ apply located_corners; exists (p, q, s); split; [ exact F | reflexivity ] | apply centroid_in ]. }
  destruct O as (o & O). rewrite <- (C64_regions_from_every_point P_eqb coords r S o He R Hm).
  assert (Pos : forall h, In h (faces (boundary r)) -> 0 <= (if sg then - (1) else 1) * at_face (cone (fun p => vsub (coords p) o)) (Spec_boolean.tri_of (points (boundary r)) h)).
  { intros h J. rewrite E0 in J. rewrite Forall_forall in V. specialize (V h J). rewrite <- E0 in J. apply In_nth_error in J. destruct J as (i & E). destruct h as [ [a b] c]. cbn in V. destruct V as (Ha & Hb & Hc). unfold Spec_boolean.tri_of.
    destruct (nth_error (points (boundary r)) a) as [p | ] eqn:Ea; [ | apply nth_error_None in Ea; lia ]. destruct (nth_error (points (boundary r)) b) as [q | ] eqn:Eb; [ | apply nth_error_None in Eb; lia ]. destruct (nth_error (points (boundary r)) c) as [s | ] eqn:Ec; [ | apply nth_error_None in Ec; lia ].
    cbn [at_face cone]. assert (X : if sg then 0 <= height (coords p) (coords q) (coords s) o else height (coords p) (coords q) (coords s) o <= 0).
    { apply (Cv i); [ | exact O ]. apply located_corners. exists (p, q, s). split; [ | reflexivity ]. exists a, b, c, p, q, s. auto. }
    assert (Y : vdot (vsub (coords p) o) (vcross (vsub (coords q) o) (vsub (coords s) o)) == - height (coords p) (coords q) (coords s) o)
      by (unfold height, normal; destruct o as [ [o1 o2] o3], (coords p) as [ [p1 p2] p3], (coords q) as [ [q1 q2] q3], (coords s) as [ [s1 s2] s3]; cbv [vdot vcross vsub vx vy vz fst snd]; ring).
    rewrite Y. destruct sg; lra. }
  unfold volume, total. clear - Pos. induction (faces (boundary r)) as [ | k fs IH]; cbn [map qsum]; [ destruct sg; lra | ].
  assert (X : 0 <= (if sg then - (1) else 1) * qsum (map (fun h => at_face (cone (fun p => vsub (coords p) o)) (Spec_boolean.tri_of (points (boundary r)) h)) fs)) by (apply IH; intros l J; apply Pos; right; exact J). specialize (Pos k (or_introl eq_refl)). destruct sg; lra.
Qed.
Print Assumptions C64_convex_sign.

(** A convex body with a boundary has a positive volume. *)
Theorem C64_convex_positive : forall {P D} (P_eqb : P -> P -> bool) (coords : P -> vec3) (r : region P D) S,
  (forall p q, P_eqb p q = true <-> p = q) -> represents coords r S -> meets_conditions coords (boundary r) -> kind r = BOUNDARY_DEFINED ->
  convex_body (located coords (boundary r)) -> 0 < volume coords (boundary r).
Proof.
  intros P D P_eqb coords r S He R Hm Kr Cv. destruct (region_body coords r S false R Cv) as (Fl & B1 & B2). cbn [turned_if part] in Fl, B1, B2.
  pose proof R as (W & HS). unfold wf_region in W. rewrite Kr in W, HS. destruct W as (V & Ne). destruct HS as (Pf & Bd & _).
  destruct (valid_triangle _ _ 0 (pf_valid _ Pf)) as ([ [a b] c] & J); [ unfold num_faces, located; cbn [faces]; destruct (faces (boundary r)); [ congruence | cbn; lia ] | ].
  destruct (face_behind (located coords (boundary r)) (located coords (boundary r)) (located coords (boundary r)) S S S Fl Fl (pf_nondegenerate _ Pf) Bd B1 B1 (fun x _ _ => conj (fun s => conj s s) (fun s => proj1 s))
    0%nat a b c (centroid a b c) J (centroid_open a b c)) as (_ & y & By & _).
  apply (C64_positive P_eqb coords r S y He R Hm Ne). intros i p q t Ti. pose proof (By i _ Ti) as H.
  assert (E : hgt (p, q, t) y == - vdot (normal p q t) (vsub p y)) by (unfold hgt, ht; destruct p as [ [p1 p2] p3], y as [ [y1 y2] y3]; generalize (normal (p1, p2, p3) q t); intros [ [n1 n2] n3]; cbv [vdot vsub vx vy vz fst snd]; ring).
  rewrite E in H. lra.
Qed.
Print Assumptions C64_convex_positive.

(** The volume of the union of two convex bodies is at most the sum of their volumes. *)
Theorem C64_convex_union : forall {P D} P_eqb coords pbox longest_axis sort_by nth_element_by cll cpl accepts cdt_faces
    base1 base2 sort_around centroid side_of num_threads (d0 : D) mix (a b : region P D) A B bd,
  right_oracles P_eqb coords pbox sort_by nth_element_by cll cpl accepts base1 base2 sort_around centroid num_threads ->
  represents coords a A -> represents coords b B -> meets_conditions coords (boundary a) -> meets_conditions coords (boundary b) ->
  can_be_mixed P_eqb coords pbox longest_axis sort_by nth_element_by cll cpl accepts cdt_faces side_of num_threads a b ->
  mixes_operands P_eqb coords pbox longest_axis sort_by nth_element_by cll cpl accepts cdt_faces base1 base2 sort_around centroid side_of num_threads mix a b ->
  build mix a b = Ok bd -> convex_body (located coords (boundary a)) -> convex_body (located coords (boundary b)) ->
  forall prefer_first r, run d0 bd op_UNION prefer_first = Ok r ->
    volume coords (boundary r) <= volume coords (boundary a) + volume coords (boundary b).
Proof.
  intros P D P_eqb coords pbox la sb nb cll cpl accepts cdt_faces base1 base2 sa centroid side_of nt d0 mix a b A B bd Hor RA RB Ma Mb Hab Hmix Hb Ca Cb pf r Hr.
  destruct (C52_result_meets_the_conditions _ _ _ _ _ _ _ _ _ _ _ _ _ _ _ _ d0 mix a b A B Hor RA RB Ma Mb Hab Hmix) as [ (bd' & E & _ & G) | (E & _) ]; [ | congruence ].
  rewrite Hb in E. injection E as <-. destruct (G op_INTERSECTION true) as (c & Hc & Rc & Mc). pose proof Rc as (_ & S & RS & _).
  destruct (C64_union_and_intersection _ _ _ _ _ _ _ _ _ _ _ _ _ _ _ _ d0 mix a b A B bd Hor RA RB Ma Mb Hab Hmix Hb true c Hc) as (U & _). specialize (U pf r Hr).
  assert (N : 0 <= volume coords (boundary c)).
  { apply (C64_convex_sign P_eqb coords c S); [ apply Hor | exact RS | exact Mc | ]. exact (C61_intersection_is_convex coords a b A B c RA RB Ca Cb Rc). }
  lra.
Qed.
Print Assumptions C64_convex_union.

(** It is the sum exactly if the bodies have no point in common off their boundaries. *)
From Verif Require Import Prop_volume_sets.
From Verif Require Import Spec_boolean Spec_side Spec_solid Spec_visible Spec_meet Spec_volume.
Theorem C64_convex_union_exact : forall {P D} P_eqb coords pbox longest_axis sort_by nth_element_by cll cpl accepts cdt_faces
    base1 base2 sort_around centroid side_of num_threads (d0 : D) mix (a b : region P D) A B bd,
  right_oracles P_eqb coords pbox sort_by nth_element_by cll cpl accepts base1 base2 sort_around centroid num_threads ->
  represents coords a A -> represents coords b B -> meets_conditions coords (boundary a) -> meets_conditions coords (boundary b) ->
  can_be_mixed P_eqb coords pbox longest_axis sort_by nth_element_by cll cpl accepts cdt_faces side_of num_threads a b ->
  mixes_operands P_eqb coords pbox longest_axis sort_by nth_element_by cll cpl accepts cdt_faces base1 base2 sort_around centroid side_of num_threads mix a b ->
  build mix a b = Ok bd -> convex_body (located coords (boundary a)) -> convex_body (located coords (boundary b)) ->
  kind a = BOUNDARY_DEFINED -> kind b = BOUNDARY_DEFINED ->
  forall prefer_first r, run d0 bd op_UNION prefer_first = Ok r ->
    (volume coords (boundary r) == volume coords (boundary a) + volume coords (boundary b) <->
     forall x, ~ on_surface coords a x -> ~ on_surface coords b x -> ~ (A x /\ B x)).
Proof.
  intros P D P_eqb coords pbox la sb nb cll cpl accepts cdt_faces base1 base2 sa centroid side_of nt d0 mix a b A B bd Hor RA RB Ma Mb Hab Hmix Hb Ca Cb Ka Kb pf r Hr. split.
  - intro Eq.
    destruct (C52_result_meets_the_conditions _ _ _ _ _ _ _ _ _ _ _ _ _ _ _ _ d0 mix a b A B Hor RA RB Ma Mb Hab Hmix) as [ (bd' & E & _ & G) | (E & _) ]; [ | congruence ].
    rewrite Hb in E. injection E as <-. destruct (G op_INTERSECTION true) as (c & Hc & Rc & Mc). pose proof Rc as (_ & S & RS & HS).
    destruct (C64_union_and_intersection _ _ _ _ _ _ _ _ _ _ _ _ _ _ _ _ d0 mix a b A B bd Hor RA RB Ma Mb Hab Hmix Hb true c Hc) as (U & _). specialize (U pf r Hr).
    assert (Kc : kind c <> BOUNDARY_DEFINED).
    { intro Kc. pose proof (C64_convex_positive P_eqb coords c S (ltac:(apply Hor)) RS Mc Kc (C61_intersection_is_convex coords a b A B c RA RB Ca Cb Rc)). cbv zeta in U. lra. }
    assert (Ec : kind c = EMPTY).
    { unfold run in Hc. destruct (extract d0 (mixed bd) op_INTERSECTION true) as [s | | ]; cbn [bind] in Hc; try discriminate Hc.
      unfold build, is_empty_or_full, is_empty, is_full in Hb. rewrite Ka, Kb in Hb. cbn in Hb. destruct (mix (boundary a) (boundary b)) as [ [m w] | | ]; cbn [bind] in Hb; try discriminate Hb. injection Hb as <-. cbn [first_kind second_kind] in Hc.
      unfold region_of_soup in Hc. destruct (num_faces s =? 0)%nat; cbn in Hc; injection Hc as <-; [ reflexivity | elim Kc; reflexivity ]. }
    intros x Oa Ob AB. destruct RS as (_ & RS). rewrite Ec in RS. exact (RS x (proj2 (HS x Oa Ob) AB)).
  - intro No. destruct (C64_volumes_of_sets _ _ _ _ _ _ _ _ _ _ _ _ _ _ _ _ d0 mix a b A B bd Hor RA RB Ma Mb Hab Hmix Hb) as (U & _). apply (U (fun x O => No x (proj1 O) (proj2 O)) pf r Hr).
Qed.
Print Assumptions C64_convex_union_exact.
