(** * Classification of meshes that conform to solids in a convex region *)
From Coq Require Import List Arith Bool Lia QArith Lqa Permutation Relation_Operators.
From Verif Require Import Model_base Model_soup Model_mesh Model_geometry Model_boolean Model_classify Model_local Model_side Model_mix Model_schedule.
From Verif Require Import Spec_boolean Spec_candidates Spec_side Spec_solid Spec_mesh Spec_classify Spec_radial Spec_local Spec_conform Spec_open.
From Verif Require Import Proof_mesh Proof_solid Proof_walk Proof_conform Proof_conform_run Proof_classify Proof_schedule Proof_schedule_run Proof_schedule_end.
From Verif Require Import Prop_mesh Prop_classify.
Import ListNotations.
Local Open Scope nat_scope.

Section Open_run.
  Context {P D : Type}.
  Variables (K : vec3 -> Prop) (coords : P -> vec3).
  Variables (base1 base2 : vec3 -> vec3) (sort_around : list Model_local.around -> list Model_local.around).
  Variables (centroid : P -> P -> P -> P) (side_of : soup P D -> P -> res oriented_side).
  Variables (L R : soup P D) (A B : vec3 -> Prop) (pts : list P) (fs : list face) (ds : list (mixed_data D)).
  Variables (border order : list edge).
  Notation loc := (Spec_solid.located coords).
  Hypothesis HK : open_convex K.
  Hypothesis Hb : plane_bases base1 base2.
  Hypothesis Hs : sorts sort_around.
  Hypothesis Hc : inner_centroid coords centroid.
  Hypothesis HA : solid_in K (loc L) A.
  Hypothesis HB : solid_in K (loc R) B.
  Hypothesis HsL : tells_side_in K coords (loc L) A (side_of L).
  Hypothesis HsR : tells_side_in K coords (loc R) B (side_of R).
  Hypothesis C : conforming (loc L) (loc R) (loc (mk_soup pts fs ds)) border.
  Hypothesis St : starting (loc L) (loc R) A B (loc (mk_soup pts fs ds)) border.
  Hypothesis Sh : shared_in K (loc (mk_soup pts fs ds)) border.
  Hypothesis Ho : set_elements border order.
  Notation m0 := (finalize (mesh_of pts fs ds)).

  Definition right_mesh (truth : nat -> face_tag) (m' : mesh P (mixed_data D)) : Prop :=
    m_points m' = pts /\ m_faces m' = fs /\
    (length (m_data m') = length ds /\ forall g d, nth_error ds g = Some d ->
       exists d', nth_error (m_data m') g = Some d' /\ from_left d' = from_left d /\ data d' = data d) /\
    (forall g d, nth_error (m_data m') g = Some d -> tag d = truth g) /\
    arranged (loc L) (loc R) A B (loc (take_soup m')).
  Definition gives_up_here : Prop :=
    gives_up_in K coords (loc L) (side_of L) \/ gives_up_in K coords (loc R) (side_of R).

  Lemma open_truth : exists truth,
    (forall order', (forall l, Permutation l (order' l)) ->
      (exists m', classified coords base1 base2 sort_around centroid side_of border L R m0 order order' = Ok (m', no_warnings) /\
         right_mesh truth m') \/
      (classified coords base1 base2 sort_around centroid side_of border L R m0 order order' = Throw RuntimeError /\ gives_up_here)) /\
    (forall ps' ds' i f t k, steps (map (p_edge coords base1 base2 sort_around m0 border) order, ds) (ps', ds') ->
      nth_error ps' i = Some (Write f t k) -> t = truth f /\ t <> UNKNOWN) /\
    forall r, classifies coords base1 base2 sort_around centroid side_of border L R m0 order r ->
      (exists m', r = Ok (m', no_warnings) /\ right_mesh truth m') \/ (r = Throw RuntimeError /\ gives_up_here).
  Proof.
    set (m1 := m0).
    assert (E1 : m_points m1 = pts).
    { unfold m1, finalize. cbn [m_points m_faces mesh_of]. now destruct (fold_left _ _ _) as [ [ [? ?] ?] ?]. }
    assert (E2 : m_faces m1 = fs) by apply faces_finalize.
    assert (E3 : m_data m1 = ds) by apply data_finalize.
    assert (Es : take_soup m1 = mk_soup pts fs ds) by (unfold take_soup; now rewrite E1, E2, E3).
    pose proof C as C'. pose proof St as St'. pose proof Sh as Sh'. rewrite <- Es in C', St', Sh'.
    destruct (choice_fin _ (fun i t => forall s T, part (loc (take_soup m1)) i s T ->
       says (loc L) (loc R) A B (loc (take_soup m1)) s t T) UNKNOWN (length (faces (loc (take_soup m1)))))
      as (truth & Htruth).
    { intros i Hi. destruct (face_part _ _ _ _ C' i Hi) as (s & T & HT).
      destruct (truth_exists _ _ A B _ _ K HA HB C' i s T HT) as (t & Hsay). exists t. intros s' T' HT'.
      destruct (part_fun _ _ _ _ _ _ HT HT') as (<- & <-). exact Hsay. }
    assert (Htruth' : forall i s T, part (loc (take_soup m1)) i s T -> says (loc L) (loc R) A B (loc (take_soup m1)) s (truth i) T).
    { intros i s T HT. exact (Htruth i (part_range _ i s T HT) s T HT). }
    assert (Sides : forall s x, K (coords x) -> ~ on_boundary (operand (loc L) (loc R) s) (coords x) ->
      side_of (if s then L else R) x = Throw RuntimeError \/
      ((member_of A B s (coords x) -> side_of (if s then L else R) x = Ok NEGATIVE_SIDE) /\
       (~ member_of A B s (coords x) -> side_of (if s then L else R) x = Ok POSITIVE_SIDE))).
    { intros [ | ] x Kx Hx; [ exact (HsL x Kx Hx) | exact (HsR x Kx Hx) ]. }
    assert (Good : forall m', m_points m' = m_points m1 -> m_faces m' = m_faces m1 -> kept m1 (m_data m') ->
      (forall g d, nth_error (m_data m') g = Some d -> tag d = truth g) -> right_mesh truth m').
    { intros m' F1 F2 F3 F4. split; [ congruence | ]. split; [ congruence | ]. split; [ | split ].
      - unfold kept in F3. rewrite E3 in F3. exact F3.
      - exact F4.
      - exact (all_true_arranged coords L R A B border m1 C' truth Htruth' m' F1 F2 F3 F4). }
    assert (Up : gave_up coords side_of L R K -> gives_up_here).
    { intros (s & x & Kx & Hx & G). destruct s; [ left | right ]; exists x; auto. }
    exists truth. split; [ | split ].
    - intros order' Hp.
      destruct (run_all coords base1 base2 sort_around centroid side_of L R A B border m1 K HK HA HB Hb Hs (finalized_finalize _ _ _ _ _)
        C' St' truth Htruth' Sh' Hc Sides order order' Ho Hp) as [ (m' & E & F1 & F2 & F3 & F4) | (E & G) ]; [ left | right ].
      + exists m'. split; [ exact E | exact (Good m' F1 F2 F3 F4) ].
      + split; [ exact E | exact (Up G) ].
    - intros ps' ds' i f t k Hst. rewrite <- E3 in Hst.
      apply (local_writes coords base1 base2 sort_around L R A B border m1 K HK HA HB Hb Hs (finalized_finalize _ _ _ _ _) C' St' truth Htruth' Sh' order ps' ds'); [ | exact Hst ].
      intros e He. now apply (proj2 Ho).
    - intros r Hr.
      destruct (threads_right coords base1 base2 sort_around centroid side_of L R A B border m1 K HK HA HB Hb Hs (finalized_finalize _ _ _ _ _)
        C' St' truth Htruth' Sh' Hc Sides order r Ho Hr) as [ (m' & E & F1 & F2 & F3 & F4) | (E & G) ]; [ left | right ].
      + exists m'. split; [ exact E | exact (Good m' F1 F2 F3 F4) ].
      + split; [ exact E | exact (Up G) ].
  Qed.
End Open_run.
