(** * C58: closed and connected meshes without defects bound one set *)
From Coq Require Import List Arith Bool NArith ZArith QArith Qminmax Lqa Lia Permutation.
From Verif Require Import Model_base Proof_base Model_soup Model_geometry Spec_candidates Model_aabb Spec_aabb Model_parallel_do Model_boolean Model_candidates Model_classify Model_local Model_corefine Model_side Model_mix.
From Verif Require Import Model_defects Spec_defects Model_overlap Spec_ffi Spec_overlap.
From Verif Require Import Model_find Spec_boolean Spec_radial Spec_local Spec_conform Spec_mix Spec_cut Spec_side Spec_solid Spec_corefine Spec_whole Spec_delaunay Spec_again Spec_find Proof_find.
From Verif Require Import Proof_fan Proof_extreme Proof_exact Proof_bridge Proof_planes Proof_whole Prop_local Prop_corefine Prop_cut Prop_side Prop_solid Prop_conform Prop_whole Prop_delaunay Prop_find_op.
From Verif Require Import Proof_small Proof_winding Proof_twosides Proof_oneset Proof_separate Proof_whole_ex Prop_find Prop_overlap.
From Verif Require Import Spec_corefine Spec_side Spec_solid.
Import ListNotations.
Local Open Scope nat_scope.

(** The faces of a closed and connected mesh without self-intersections separate two sets of
    points: there is a set with this boundary. *)
Theorem C58_connected_mesh_bounds : forall {P D} (coords : P -> vec3) (m : soup P D),
  meets_conditions coords m -> closed_mesh m -> connected_mesh m -> exists S, solid (located coords m) S.
Proof. intros P D coords m M C Cn. apply connected_bounds; assumption. Qed.
Print Assumptions C58_connected_mesh_bounds.

(** A region (connected or not) represents only one set: the points off its boundary are
    in all sets that it represents or in none. *)
Theorem C58_one_set : forall {P D} (coords : P -> vec3) (r : region P D) S S', represents coords r S -> represents coords r S' ->
  forall x, ~ on_surface coords r x -> (S x <-> S' x).
Proof.
  intros P D coords r S S' (W & R) (_ & R') x Hx. unfold wf_region in W. destruct (kind r); [ split; intro H; [ destruct (R x H) | destruct (R' x H) ] | split; intros _; auto | ].
  destruct W as (W & Ne). destruct R as (Pf & (Wk & Fc) & _), R' as (_ & (Wk' & Fc') & _). set (m := boundary r) in *.
  pose proof (Proof_whole.solid_proper coords m W Pf) as Pr.
  destruct (tabulate _ (fun i t => face_corners m i t) (num_faces m)) as (ts & L & Ts); [ intros i Hi; destruct (Pr i Hi) as (t & F & _); eauto | ].
  assert (Tri : forall t, Proof_winding.tri_of coords t = triangle_of coords t) by (intros [ [a b] c]; reflexivity).
  assert (Loc : forall i t, nth_error ts i = Some t -> soup_triangle (located coords m) i = Ok (triangle_of coords t)) by (intros i t E; apply located_corners; exists t; split; [ exact (Ts i t E) | reflexivity ]).
  assert (Cl : forall y, clear coords ts y -> ~ on_boundary (located coords m) y).
  { intros y C O. apply located_boundary in O. destruct O as (i & t & F & O). apply on_inside in O. pose proof (face_range m i t F) as Hi. destruct (nth_error ts i) as [t' | ] eqn:E; [ | apply nth_error_None in E; lia ].
    assert (t' = t) by (eapply face_unique; [ exact (Ts i t' E) | exact F ]). subst t'. apply (C t (nth_error_In _ _ E)). rewrite Tri. exact O. }
  assert (Walk : forall A : vec3 -> Prop, (forall x y, (forall z, in_segment z x y -> ~ on_boundary (located coords m) z) -> (A x <-> A y)) -> walks coords ts A) by (intros A HA y z H; apply HA; intros v Hv; apply Cl, H, Hv).
  assert (Fit : forall A : vec3 -> Prop, (forall fi a b c q v, soup_triangle (located coords m) fi = Ok (a, b, c) -> in_open_triangle q a b c -> exists bound, (0 < bound)%Q /\ forall e, (0 < e < bound)%Q ->
      ((vdot (normal a b c) v < 0)%Q -> A (along q e v)) /\ ((0 < vdot (normal a b c) v)%Q -> ~ A (along q e v))) -> fits coords ts A).
  { intros A HA i t q v E I _. pose proof (Loc i t E) as T. destruct t as [ [a b] c]. cbn [triangle_of Proof_winding.tri_of in_tri tri_normal] in *. destruct (HA i _ _ _ q v T I) as (b0 & B0 & Hb).
    exists ((1 # 2) * b0)%Q. split; [ lra | ]. intros e E0 E1. apply Hb. lra. }
  apply (one_set coords ts).
  - intros t J. apply In_nth_error in J. destruct J as (i & E). pose proof (Loc i t E) as T. destruct t as [ [a b] c]. exact (pf_nondegenerate _ Pf i _ _ _ T).
  - intros i j t u y Ei Ej I O. pose proof (Loc i t Ei) as Ti. pose proof (Loc j u Ej) as Tj. destruct t as [ [a b] c], u as [ [a' b'] c']. apply (pf_apart _ Pf i j _ _ _ y Ti I). exists (coords a'), (coords b'), (coords c'). split; [ exact Tj | exact O ].
  - apply Walk, Wk.
  - apply Walk, Wk'.
  - apply Fit, Fc.
  - apply Fit, Fc'.
  - intros ->. apply Ne. cbn in L. unfold num_faces in L. destruct (faces m); [ reflexivity | discriminate L ].
  - intros t J O. apply Hx. apply In_nth_error in J. destruct J as (i & E). apply located_boundary. exists i, t. split; [ exact (Ts i t E) | ]. apply on_inside. rewrite <- Tri. exact O.
Qed.
Print Assumptions C58_one_set.

(** A region whose boundary passes the check of Find_defects and is connected represents a set. *)
Theorem C58_passed_region : forall {P D} (P_eqb : P -> P -> bool) (d0 : D) coords pbox longest_axis sort_by nth_element_by (r : region P D),
  (forall p q, P_eqb p q = true <-> p = q) -> (forall p, in_box (coords p) (pbox p)) -> rearranges sort_by nth_element_by ->
  wf_region r -> (N.of_nat (num_faces (boundary r)) < 2 ^ 32)%N ->
  (kind r = BOUNDARY_DEFINED -> nothing_found P_eqb d0 coords pbox longest_axis sort_by nth_element_by (boundary r) /\ connected_mesh (boundary r)) ->
  exists S, represents coords r S.
Proof.
  intros P D P_eqb d0 coords pbox la sb nb r He Hb Hr W Ln H. unfold represents. pose proof W as W0. unfold wf_region in W. destruct (kind r).
  - exists (fun _ => False). auto.
  - exists (fun _ => True). auto.
  - destruct (H eq_refl) as (F & Cn). destruct (found_nothing P_eqb d0 coords pbox la sb nb _ He Hb Hr (proj2 (proj1 W)) Ln F) as (M & C).
    destruct (C58_connected_mesh_bounds coords _ M C Cn) as (S & HS). exists S. auto.
Qed.
Print Assumptions C58_passed_region.

(** So two such regions can be the operands of every Boolean operation (see C57): they
    represent sets [A] and [B], and when the builder can tell on which side of the
    boundaries points are, every operation gives a region that represents the set that it
    denotes. *)
Theorem C58_connected_operands : forall {P D} P_eqb coords pbox longest_axis sort_by nth_element_by cll cpl (d0 : D) (a b : region P D),
  exact_kernel P_eqb coords pbox sort_by nth_element_by cll cpl -> wf_region a -> wf_region b ->
  (N.of_nat (num_faces (boundary a)) < 2 ^ 32)%N -> (N.of_nat (num_faces (boundary b)) < 2 ^ 32)%N ->
  (kind a = BOUNDARY_DEFINED -> nothing_found P_eqb d0 coords pbox longest_axis sort_by nth_element_by (boundary a) /\ connected_mesh (boundary a)) ->
  (kind b = BOUNDARY_DEFINED -> nothing_found P_eqb d0 coords pbox longest_axis sort_by nth_element_by (boundary b) /\ connected_mesh (boundary b)) ->
  exists A B, represents coords a A /\ represents coords b B /\
  forall accepts cdt_faces base1 base2 sort_around centroid side_of num_threads mix,
  accepts_compatible coords accepts -> plane_bases base1 base2 -> sorts sort_around -> inner_centroid coords centroid -> 1 <= num_threads ->
  (kind a = BOUNDARY_DEFINED -> tells_side coords (located coords (boundary a)) A (side_of (boundary a))) ->
  (kind b = BOUNDARY_DEFINED -> tells_side coords (located coords (boundary b)) B (side_of (boundary b))) ->
  (forall cf, corefine P_eqb coords pbox longest_axis sort_by nth_element_by cll cpl accepts num_threads (boundary a) (boundary b) (Ok cf) ->
     cdt_constrained coords cdt_faces cf /\ cdt_delaunay coords cdt_faces cf) ->
  no_circles coords (boundary a) (boundary b) ->
  (kind a = BOUNDARY_DEFINED -> kind b = BOUNDARY_DEFINED ->
   calls_mix P_eqb coords pbox longest_axis sort_by nth_element_by cll cpl accepts cdt_faces base1 base2 sort_around centroid side_of
     num_threads mix (boundary a) (boundary b)) ->
  (exists bd, build mix a b = Ok bd /\ Model_boolean.warnings bd = 0%N /\
     forall op prefer_first, exists r, run d0 bd op prefer_first = Ok r /\ is_result coords op a b A B r) \/
  (build mix a b = Throw RuntimeError /\
   (gives_up coords (located coords (boundary a)) (side_of (boundary a)) \/ gives_up coords (located coords (boundary b)) (side_of (boundary b)))).
Proof.
  intros P D P_eqb coords pbox la sb nb cll cpl d0 a b K Wa Wb La Lb Fa Fb.
  destruct (C58_passed_region P_eqb d0 coords pbox la sb nb a) as (A & RA); try apply K; auto.
  destruct (C58_passed_region P_eqb d0 coords pbox la sb nb b) as (B & RB); try apply K; auto.
  exists A, B. split; [ exact RA | ]. split; [ exact RB | ]. intros accepts cdt_faces base1 base2 sa centroid side_of nt mix Hacc Hpb Hso Hce Hnt TA TB Hcdt Ci Hmix.
  eapply C57_boolean_operation; eauto; [ intro E; exact (proj1 (Fa E)) | intro E; exact (proj1 (Fb E)) ].
Qed.
Print Assumptions C58_connected_operands.

(** ** Examples *)
Section Reach.
  Variable m : soup exact unit.
  Let ts := triples m (at_ 0 0 0).
  Definition beside (t u : exact * exact * exact) : bool := existsb (fun s => existsb (side_eqb (snd s, fst s)) (Prop_find_op.sides_of u)) (Prop_find_op.sides_of t).
  Definition grow (l : list nat) : list nat :=
    filter (fun k => existsb (Nat.eqb k) l || existsb (fun j => match nth_error ts j, nth_error ts k with Some t, Some u => beside t u | _, _ => false end) l) (seq 0 (length ts)).
  Definition reach (n i : nat) : list nat := Nat.iter n grow [i].
  Definition connected_check (n : nat) : bool := forallb (fun i => forallb (fun j => existsb (Nat.eqb j) (reach n i)) (seq 0 (length ts))) (seq 0 (length ts)).

  Lemma triple_corners : valid_faces m -> forall i t, nth_error ts i = Some t -> face_corners m i t.
  Proof.
    intros V i t E. assert (Hi : i < length (faces m)) by (rewrite <- (map_length (fun f : face => let '(a, b, c) := f in (nth a (points m) (at_ 0 0 0), nth b (points m) (at_ 0 0 0), nth c (points m) (at_ 0 0 0)))); apply nth_error_Some; unfold ts, triples in E; congruence).
    destruct (nth_error (faces m) i) as [f | ] eqn:Ef; [ | apply nth_error_None in Ef; lia ]. destruct (corners_exist m i f V Ef) as (a & b & c & F).
    pose proof (triples_corners m (at_ 0 0 0) _ _ F) as T. fold ts in T. rewrite E in T. injection T as ->. exact F.
  Qed.
  Lemma reach_linked : valid_faces m -> forall n i j, In j (reach n i) -> linked m i j.
  Proof.
    intros V n i. induction n as [ | n IH]; intros k J; [ destruct J as [<- | [] ]; apply linked_self | ].
    change (reach (S n) i) with (grow (reach n i)) in J. apply filter_In in J. destruct J as (_ & J). apply orb_true_iff in J. destruct J as [J | J]; apply existsb_exists in J; destruct J as (j & Jj & E).
    - apply Nat.eqb_eq in E. subst j. apply IH, Jj.
    - destruct (nth_error ts j) as [t | ] eqn:Et; [ | discriminate ]. destruct (nth_error ts k) as [u | ] eqn:Eu; [ | discriminate ].
      apply existsb_exists in E. destruct E as ((p & q) & Js & E). apply existsb_exists in E. destruct E as (s & Js' & E). apply side_eqb_ok in E. subst s. cbn [fst snd] in Js'.
      eapply linked_edge; [ exact (IH j Jj) | exact (triple_corners V j t Et) | exact (triple_corners V k u Eu) | apply side_directed, Js | apply side_directed, Js' ].
  Qed.
  Lemma connected_check_ok : forall n, valid_faces m -> connected_check n = true -> connected_mesh m.
  Proof.
    intros n V H i j Hi Hj. assert (L : length ts = num_faces m) by (unfold ts, triples; apply map_length). unfold connected_check in H. rewrite forallb_forall in H. specialize (H i ltac:(apply in_seq; lia)).
    rewrite forallb_forall in H. specialize (H j ltac:(apply in_seq; lia)). apply existsb_exists in H. destruct H as (k & Jk & E). apply Nat.eqb_eq in E. subst k. exact (reach_linked V n i j Jk).
  Qed.
End Reach.

(** The Csaszar polyhedron, a torus with seven vertices and fourteen faces. *)
Definition torus : soup exact unit :=
  mk_soup [at_ 3 (-3) 0; at_ (-3) 3 0; at_ (-3) (-3) 1; at_ 3 3 1; at_ (-1) (-2) 3; at_ 1 2 3; at_ 0 0 15]
    [(0, 1, 3); (1, 4, 6); (4, 3, 2); (3, 6, 5); (6, 2, 0); (2, 5, 1); (5, 0, 4); (0, 3, 4); (1, 6, 3); (4, 2, 6); (3, 5, 2); (6, 0, 5); (2, 1, 0); (5, 4, 1)]
    (repeat tt 14).
Definition torus_planes : list (vec3 * Q) := let p x y z d := ((inject_Z x, inject_Z y, inject_Z z), inject_Z d) in
  [p (-1) (-1) (-6) 0; p (-1) 29 6 90; p 1 1 (-6) 0; p 1 (-29) 6 90; p (-2) 2 (-1) (-1); p 2 (-2) (-1) (-1); p (-22) (-7) 3 45; p 2 (-1) 3 9; p 22 7 3 45; p (-2) 1 3 9; p (-1) (-2) 2 11; p 0 2 1 7; p (-1) (-16) (-4) (-45); p 1 16 (-4) (-45); p 0 0 1 1; p 23 (-22) (-9) (-6); p (-7) 2 (-9) (-24); p (-59) 34 33 108; p 2 (-7) (-1) (-15); p (-2) 13 (-2) (-30); p 19 (-6) (-23) (-62); p 12 (-3) 13 45; p (-4) 1 6 15; p (-9) 3 11 36; p (-16) 5 (-23) (-63); p 4 (-1) 6 15; p 17 (-4) (-24) (-63); p 35 5 (-9) (-72); p (-9) 0 (-2) (-15); p 0 (-5) (-1) (-13); p (-3) 10 (-2) (-23); p 7 1 (-3) (-18); p (-12) 3 (-13) (-45); p (-5) 31 (-9) (-84); p (-8) 22 3 45; p 2 (-13) 2 30; p 2 (-10) (-3) (-27); p (-8) 22 (-3) (-45); p 3 (-17) (-3) (-45)]%Z.
Lemma torus_wf : wf_soup torus.
Proof. split; [ reflexivity | ]. repeat (apply Forall_cons; [ cbn; lia | ]); apply Forall_nil. Qed.
Lemma torus_conditions : meets_conditions value torus.
Proof.
  split; [ apply proper_check; [ exact (proj2 torus_wf) | vm_compute; reflexivity ] | ]. split; [ apply twins_check_ok; vm_compute; reflexivity | ].
  apply (simplicial_check exact_eqb exact_eqb_ok value torus (at_ 0 0 0) torus_planes); vm_compute; reflexivity.
Qed.
Lemma torus_closed : closed_mesh torus.
Proof. apply closed_check_ok; [ exact (proj2 torus_wf) | vm_compute; reflexivity ]. Qed.
Lemma torus_connected : connected_mesh torus.
Proof. apply (connected_check_ok torus 7); [ exact (proj2 torus_wf) | vm_compute; reflexivity ]. Qed.
Definition torus_region : region exact unit := mk_region BOUNDARY_DEFINED torus.
Example C58_torus : ex_found torus /\ connected_mesh torus /\ exists S, represents value torus_region S /\
  forall S', represents value torus_region S' -> forall x, ~ on_surface value torus_region x -> (S x <-> S' x).
Proof.
  assert (F : ex_found torus) by (apply ex_nothing; [ exact torus_wf | reflexivity | cbn; lia | exact torus_conditions | exact torus_closed ]).
  split; [ exact F | ]. split; [ exact torus_connected | ].
  destruct (C58_passed_region exact_eqb tt value exact_box (fun _ => 0) (fun _ l => l) (fun _ _ l => l) torus_region) as (S & HS); try apply ex_kernel.
  - split; [ exact torus_wf | discriminate ].
  - reflexivity.
  - intros _. split; [ exact F | exact torus_connected ].
  - exists S. split; [ exact HS | ]. intros S' HS'. apply C58_one_set; assumption.
Qed.

(** The tetrahedra of the example of C49 can be the operands of [C58_connected_operands]. *)
Example C58_tetrahedra : (ex_found upright /\ connected_mesh upright) /\ ex_found leaning /\ connected_mesh leaning.
Proof.
  destruct C57_upright_found as (F1 & F2). split; split; try assumption.
  - apply (connected_check_ok upright 4); [ exact (proj2 upright_wf) | vm_compute; reflexivity ].
  - apply (connected_check_ok leaning 4); [ exact (proj2 leaning_wf) | vm_compute; reflexivity ].
Qed.

(** The mesh of [C57_nested_refuted] is not connected. *)
Example C58_nested : meets_conditions value nested /\ closed_mesh nested /\ ~ connected_mesh nested.
Proof.
  split; [ exact nested_conditions | ]. split; [ exact nested_closed | ]. intro Cn. apply (proj2 C57_nested_refuted). apply C58_connected_mesh_bounds; [ exact nested_conditions | exact nested_closed | exact Cn ].
Qed.
