(** * C48: classification finds the right tag of every face of a conforming mesh *)
From Coq Require Import List Arith Bool Lia QArith Lqa Permutation Relation_Operators.
From Verif Require Import Model_base Model_soup Model_mesh Model_geometry Model_boolean Model_classify Model_local Model_side Model_mix.
From Verif Require Import Spec_boolean Spec_candidates Spec_side Spec_solid Spec_mesh Spec_classify Spec_radial Spec_local Spec_conform Spec_open.
From Verif Require Import Proof_mesh Proof_solid Proof_walk Proof_conform Proof_conform_run Proof_open Proof_open_run.
From Verif Require Import Prop_mesh Prop_classify Prop_local Prop_side Prop_solid.
Import ListNotations.
Local Open Scope Q_scope.

(** [L] and [R] are the boundaries of the solids [A] and [B].  The mesh with points [pts],
    faces [fs] and data [ds] conforms to them, and no face has a tag yet, except for faces
    that coincide, whole connected components of them.  Then the two phases of classification succeed without
    warnings, in whatever order their bodies are executed, and give every face its right
    tag.  Points, faces, operands and attached data stay as they were.  Or they throw
    because the search for the side of a point gives up. *)
Theorem C48_classification_is_right : forall P D (coords : P -> vec3) base1 base2 sort_around centroid side_of
    (L R : soup P D) A B pts fs ds border order order',
  plane_bases base1 base2 -> sorts sort_around -> inner_centroid coords centroid ->
  solid (located coords L) A -> solid (located coords R) B ->
  tells_side coords (located coords L) A (side_of L) -> tells_side coords (located coords R) B (side_of R) ->
  conforming (located coords L) (located coords R) (located coords (mk_soup pts fs ds)) border ->
  starting (located coords L) (located coords R) A B (located coords (mk_soup pts fs ds)) border ->
  set_elements border order -> (forall l, Permutation l (order' l)) ->
  (exists m',
    classified coords base1 base2 sort_around centroid side_of border L R (finalize (mesh_of pts fs ds)) order order' =
      Ok (m', no_warnings) /\
    m_points m' = pts /\ m_faces m' = fs /\
    (length (m_data m') = length ds /\ forall g d, nth_error ds g = Some d ->
       exists d', nth_error (m_data m') g = Some d' /\ from_left d' = from_left d /\ data d' = data d) /\
    arranged (located coords L) (located coords R) A B (located coords (take_soup m'))) \/
  (classified coords base1 base2 sort_around centroid side_of border L R (finalize (mesh_of pts fs ds)) order order' =
     Throw RuntimeError /\
   (gives_up coords (located coords L) (side_of L) \/ gives_up coords (located coords R) (side_of R))).
Proof.
  intros P D coords base1 base2 sort_around centroid side_of L R A B pts fs ds border order order'
    Hb Hs Hc HA HB HsL HsR C St Ho Hp.
  destruct (open_truth all_space coords base1 base2 sort_around centroid side_of L R A B pts fs ds border order
    all_space_open_convex Hb Hs Hc (solid_all _ _ HA) (solid_all _ _ HB) (proj1 (tells_side_all _ _ _ _) HsL) (proj1 (tells_side_all _ _ _ _) HsR)
    C St (shared_all _ _) Ho) as (truth & H & _).
  destruct (H order' Hp) as [ (m' & E & F1 & F2 & F3 & _ & F5) | (E & G) ]; [ left | right ].
  - exists m'. auto.
  - split; [ exact E | ]. destruct G as [ G | G ]; apply gives_up_all in G; auto.
Qed.
Print Assumptions C48_classification_is_right.

(** Together with C47: building the result from the classified mesh gives the boundary of
    the set that the operator denotes. *)
Theorem C48_result_is_the_set : forall P D (d0 : D) (coords : P -> vec3) base1 base2 sort_around centroid side_of
    (L R : soup P D) A B pts fs ds border order order' w op prefer_first,
  plane_bases base1 base2 -> sorts sort_around -> inner_centroid coords centroid ->
  solid (located coords L) A -> solid (located coords R) B ->
  tells_side coords (located coords L) A (side_of L) -> tells_side coords (located coords R) B (side_of R) ->
  faces L <> [] -> faces R <> [] ->
  conforming (located coords L) (located coords R) (located coords (mk_soup pts fs ds)) border ->
  starting (located coords L) (located coords R) A B (located coords (mk_soup pts fs ds)) border ->
  set_elements border order -> (forall l, Permutation l (order' l)) ->
  (exists m' r,
    classified coords base1 base2 sort_around centroid side_of border L R (finalize (mesh_of pts fs ds)) order order' =
      Ok (m', no_warnings) /\
    run d0 (mk_builder BOUNDARY_DEFINED BOUNDARY_DEFINED (take_soup m') w) op prefer_first = Ok r /\
    match kind r with
    | EMPTY => forall x, ~ on_boundary (located coords L) x -> ~ on_boundary (located coords R) x -> ~ set_of op A B x
    | FULL => forall x, ~ on_boundary (located coords L) x -> ~ on_boundary (located coords R) x -> set_of op A B x
    | BOUNDARY_DEFINED => faces (boundary r) <> [] /\
        (forall x, on_boundary (located coords (boundary r)) x ->
           on_boundary (located coords L) x \/ on_boundary (located coords R) x) /\
        exists S, solid (located coords (boundary r)) S /\
          forall x, ~ on_boundary (located coords L) x -> ~ on_boundary (located coords R) x -> (S x <-> set_of op A B x)
    end) \/
  (classified coords base1 base2 sort_around centroid side_of border L R (finalize (mesh_of pts fs ds)) order order' =
     Throw RuntimeError /\
   (gives_up coords (located coords L) (side_of L) \/ gives_up coords (located coords R) (side_of R))).
Proof.
  intros P D d0 coords base1 base2 sort_around centroid side_of L R A B pts fs ds border order order' w op pf
    Hb Hs Hc HA HB HsL HsR NL NR C St Ho Hp.
  destruct (C48_classification_is_right P D coords base1 base2 sort_around centroid side_of L R A B pts fs ds border order order')
    as [ (m' & E & _ & _ & _ & Ar) | X ]; auto.
  left. destruct (C47_result_is_the_set P D d0 coords L R A B (take_soup m') w op pf HA HB NL NR Ar) as (r & Er & Hr).
  exists m', r. auto.
Qed.
Print Assumptions C48_result_is_the_set.

(** ** The two tetrahedra of C47, before classification *)
Definition two_data : list (mixed_data unit) :=
  [mk_mixed true UNKNOWN tt; mk_mixed true UNKNOWN tt; mk_mixed true UNKNOWN tt; mk_mixed true UNKNOWN tt;
   mk_mixed false UNKNOWN tt; mk_mixed false UNKNOWN tt; mk_mixed false UNKNOWN tt; mk_mixed false UNKNOWN tt].
Definition two_unknown : soup vec3 (mixed_data unit) := mk_soup (points two_mixed) (faces two_mixed) two_data.
Definition two_border : list edge := [(0, 1); (0, 2); (1, 2)]%nat.

Lemma two_parts : forall i left T, part two_unknown i left T ->
  soup_triangle (operand tetra below left) (if left then i else i - 4)%nat = Ok T /\
  (i < 8)%nat /\ left = (i <? 4)%nat.
Proof.
  intros i left T (HT & md & Hd & Hl).
  do 8 (destruct i as [ | i]; [ injection Hd as <-; cbn [from_left tag] in *; subst left; split; [ exact HT | repeat split; lia ] | ]).
  exfalso. assert (K : nth_error two_data (8 + i) = None) by (apply nth_error_None; cbn; lia).
  change (S (S (S (S (S (S (S (S i)))))))) with (8 + i)%nat in Hd. cbn [two_unknown face_data] in Hd. congruence.
Qed.

(** Where the points of a face are, and its inner points. *)
Lemma two_on : forall i left T x, part two_unknown i left T -> on_tri x T ->
  exists k, (i = if left then k else 4 + k)%nat /\ let z := if left then vz x else - vz x in
  (0 <= vx x /\ 0 <= vy x /\ 0 <= z /\ vx x + vy x + z <= 1) /\
  ((k = 0%nat /\ z == 0) \/ (k = 1%nat /\ vy x == 0) \/ (k = 2%nat /\ vx x == 0) \/ (k = 3%nat /\ vx x + vy x + z == 1)).
Proof.
  intros i left T x HT Hx. apply two_parts in HT. destruct HT as (HT & Hi & Hl). destruct T as [ [a b] c].
  exists (if left then i else i - 4)%nat. split; [ destruct left; auto; symmetry in Hl; apply Nat.ltb_ge in Hl; lia | ].
  destruct left; cbn [operand] in HT.
  - apply tetra_on. exists a, b, c. auto.
  - apply (tetra_on _ (mir x)). apply below_on. exists a, b, c. auto.
Qed.
Lemma two_in : forall i left T x, part two_unknown i left T -> in_tri x T ->
  exists k, (i = if left then k else 4 + k)%nat /\ let z := if left then vz x else - vz x in
  (k = 0%nat /\ z == 0 /\ 0 < vx x /\ 0 < vy x /\ vx x + vy x + z < 1) \/
  (k = 1%nat /\ vy x == 0 /\ 0 < vx x /\ 0 < z /\ vx x + vy x + z < 1) \/
  (k = 2%nat /\ vx x == 0 /\ 0 < vy x /\ 0 < z /\ vx x + vy x + z < 1) \/
  (k = 3%nat /\ vx x + vy x + z == 1 /\ 0 < vx x /\ 0 < vy x /\ 0 < z).
Proof.
  intros i left T x HT Hx. apply two_parts in HT. destruct HT as (HT & Hi & Hl). destruct T as [ [a b] c].
  exists (if left then i else i - 4)%nat. split; [ destruct left; auto; symmetry in Hl; apply Nat.ltb_ge in Hl; lia | ].
  destruct left; cbn [operand] in HT.
  - apply (tetra_open _ _ a b c HT). exact Hx.
  - destruct (below_mirror _ a b c HT) as (a' & b' & c' & H' & E1 & E2 & E3).
    apply (tetra_open _ (mir x) a' b' c' H'). apply (mirror_on a b c a' b' c' x E1 E2 E3). exact Hx.
Qed.

Lemma two_boundary : forall left x, on_boundary (operand tetra below left) x -> exists i T, part two_unknown i left T /\ on_tri x T.
Proof.
  intros left x (fi & a & b & c & H & Ho).
  assert (Hf : (fi = 0 \/ fi = 1 \/ fi = 2 \/ fi = 3)%nat).
  { destruct left; [ apply tetra_faces in H | apply below_faces in H ]; tauto. }
  exists (if left then fi else 4 + fi)%nat, (a, b, c). split; [ | exact Ho ].
  destruct left, Hf as [-> | [-> | [-> | ->] ] ]; cbn [operand] in H;
    (split; [ exact H | eexists; split; [ reflexivity | auto ] ]).
Qed.

Ltac eight i := destruct i as [ | [ | [ | [ | [ | [ | [ | [ | i] ] ] ] ] ] ] ].

Example C48_two_conforming : conforming tetra below two_unknown two_border.
Proof.
  constructor.
  - split; [ | reflexivity ]. repeat (apply Forall_cons; [ cbn; lia | ]); apply Forall_nil.
  - intros i left T H. apply two_parts in H. destruct H as (H & _). destruct T as [ [a b] c]. destruct left.
    + exact (pf_nondegenerate _ C24_tetra_proper _ a b c H).
    + exact (pf_nondegenerate _ (proj1 below_solid) _ a b c H).
  - intros i left T H. apply two_parts in H. destruct H as (H & _). eexists. exists T. split; [ exact H | ].
    split; [ apply aligned_refl | auto ].
  - exact two_boundary.
  - intros i j left T U x HT HU Hi Ho. destruct (two_in _ _ _ _ HT Hi) as (k & -> & HI). destruct (two_on _ _ _ _ HU Ho) as (l & -> & HO).
    destruct left; cbn zeta in *;
      (assert (l = k) by (destruct HI as [HI | [HI | [HI | HI] ] ], HO as (HO & [HJ | [HJ | [HJ | HJ] ] ]); first [ lia | lra ]); lia).
  - intros i j left T U x HT HU Hi Ho. destruct (two_in _ _ _ _ HT Hi) as (k & -> & HI). destruct (two_on _ _ _ _ HU Ho) as (l & -> & HO).
    assert (k = 0 /\ l = 0)%nat as (-> & ->).
    { destruct left; cbn [negb] in *; cbn zeta in *;
      destruct HI as [HI | [HI | [HI | HI] ] ], HO as (HO & [HJ | [HJ | [HJ | HJ] ] ]); first [ lia | lra ]. }
    destruct left; do 2 eexists; (split; [ reflexivity | ]); (split; [ reflexivity | ]); intro v; cbn [has_vertex]; lia.
  - intros i j a b pa pb x left T Nab (f & Hf & Va) (g & Hg & Vb) Ha Hb (t & T0 & T1 & E1 & E2 & E3) HT HO.
    destruct (two_on _ _ _ _ HT HO) as (k & Ej & HQ). apply two_parts in HT. destruct HT as (_ & Hj & ->).
    assert (g = f) by congruence. subst g. clear Hg HO. apply nth_error_In in Hf. cbn in Hf.
    repeat (destruct Hf as [ <- | Hf ]; [ | ]); [ .. | destruct Hf ];
      cbn [has_vertex] in Va, Vb; destruct Va as [ -> | [ -> | -> ] ], Vb as [ -> | [ -> | -> ] ]; try (now elim Nab); clear Nab;
      injection Ha as <-; injection Hb as <-; unfold along, vsub in E1, E2, E3; cbn [vx vy vz fst snd] in E1, E2, E3;
      (eight j; [ .. | exfalso; lia ]); try (split; eexists; (split; [ reflexivity | cbn [has_vertex]; lia ]));
      exfalso; cbn [Nat.ltb Nat.leb] in *; cbn zeta in *; destruct HQ as (HQ & [HJ | [HJ | [HJ | HJ] ] ]); first [ lia | clear - T0 T1 E1 E2 E3 HQ HJ; lra ].
  - intros i left T a b pa pb x HT Hs Ha Hb (t & T0 & T1 & E1 & E2 & E3) Hx. left.
    apply two_boundary in Hx. destruct Hx as (j & U & HU & HO). destruct (two_on _ _ _ _ HU HO) as (l & -> & HQ). clear HO HU.
    apply two_parts in HT. destruct HT as (_ & Hi & ->). destruct Hs as (f & Hf & Hs).
    eight i; [ .. | lia ]; injection Hf as <-; cbn [Nat.ltb Nat.leb negb] in HQ; cbn zeta in HQ;
      destruct Hs as [ (-> & ->) | [ (-> & ->) | (-> & ->) ] ]; try (cbn; tauto); exfalso;
      injection Ha as <-; injection Hb as <-; unfold along, vsub in E1, E2, E3; cbn [vx vy vz fst snd] in E1, E2, E3;
      destruct HQ as (HQ & _); lra.
  - intros a b [E | [E | [E | [] ] ] ]; injection E as <- <-; (split; [ lia | ]); exists 0%nat; split; eexists; (split; [ reflexivity | cbn; lia ]).
Qed.

Example C48_two_starting : starting tetra below in_tetra in_below two_unknown two_border.
Proof.
  constructor.
  - intros i left T md HT Hd. left. apply nth_error_In in Hd. cbn in Hd. intuition (subst; reflexivity).
  - intros md Hd. cbn in Hd. intuition (subst; discriminate).
  - intros i j (u & v & _ & (f & Hf & _) & _) _.
    assert (Hj : (j < 8)%nat) by (change 8%nat with (length (faces two_unknown)); apply nth_error_Some; congruence).
    eight j; [ .. | lia ]; eexists; split; reflexivity.
  - intros i j left T U HT _ HU (f & g & Hf & Hg & E).
    destruct (two_parts _ _ _ HT) as (_ & Hi & ->). destruct (two_parts _ _ _ HU) as (_ & Hj & Ej).
    assert (G : i = 0%nat \/ i = 4%nat).
    { eight i; [ .. | lia ]; auto; exfalso; (eight j; [ .. | lia ]); try discriminate; injection Hf as <-; injection Hg as <-; cbn [has_vertex] in E;
        first [ specialize (E 3%nat); lia | specialize (E 4%nat); lia ]. }
    exists i, 0%nat, 1%nat. split; [ apply rt_refl | ].
    destruct G as [ -> | -> ]; (split; [ | split ]); try (eexists; split; [ reflexivity | cbn; lia ]); cbn; auto.
Qed.

Definition ex_centroid (p q r : vec3) : vec3 :=
  ((vx p + vx q + vx r) * (1 # 3), (vy p + vy q + vy r) * (1 # 3), (vz p + vz q + vz r) * (1 # 3)).
(** The first operand is the one with a point above the plane. *)
Definition tetra_side (x : vec3) : oriented_side :=
  if Qle_bool (vx x) 0 || Qle_bool (vy x) 0 || Qle_bool (vz x) 0 || Qle_bool 1 (vx x + vy x + vz x)
  then POSITIVE_SIDE else NEGATIVE_SIDE.
Definition ex_side (m : soup vec3 unit) (x : vec3) : res oriented_side :=
  Ok (if existsb (fun p => negb (Qle_bool (vz p) 0)) (points m)
  then tetra_side x else tetra_side (mir x)).

Lemma tetra_side_right : forall x, (in_tetra x -> tetra_side x = NEGATIVE_SIDE) /\ (~ in_tetra x -> tetra_side x = POSITIVE_SIDE).
Proof.
  assert (G : forall a b, (Qle_bool a b = true /\ a <= b) \/ (Qle_bool a b = false /\ b < a)).
  { intros a b. destruct (Qle_bool a b) eqn:E; [ left | right ]; (split; [ reflexivity | ]).
    - now apply Qle_bool_iff.
    - apply Qnot_le_lt. intro K. apply Qle_bool_iff in K. congruence. }
  intro x. unfold tetra_side, in_tetra.
  destruct (G (vx x) 0) as [ (-> & H1) | (-> & H1) ]; [ split; [ intros (K1 & K2 & K3 & K4); lra | auto ] | ].
  destruct (G (vy x) 0) as [ (-> & H2) | (-> & H2) ]; [ split; [ intros (K1 & K2 & K3 & K4); lra | auto ] | ].
  destruct (G (vz x) 0) as [ (-> & H3) | (-> & H3) ]; [ split; [ intros (K1 & K2 & K3 & K4); lra | auto ] | ].
  destruct (G 1 (vx x + vy x + vz x)) as [ (-> & H4) | (-> & H4) ]; [ split; [ intros (K1 & K2 & K3 & K4); lra | auto ] | ].
  split; [ reflexivity | intro K; exfalso; apply K; auto ].
Qed.


Example C48_two : exists m' r,
  classified (fun x => x) ex_base1 ex_base2 ex_sort ex_centroid ex_side two_border tetra below
    (finalize (mesh_of (points two_mixed) (faces two_mixed) two_data)) two_border (fun l => l) = Ok (m', no_warnings) /\
  m_data m' = face_data two_mixed /\
  run tt (mk_builder BOUNDARY_DEFINED BOUNDARY_DEFINED (take_soup m') 0) opA true = Ok r /\
  kind r = BOUNDARY_DEFINED /\
  exists S, solid (located (fun x => x) (boundary r)) S /\
    forall x, ~ on_boundary tetra x -> ~ on_boundary below x -> (S x <-> in_tetra x \/ in_below x).
Proof.
  destruct (C48_result_is_the_set vec3 unit tt (fun x => x) ex_base1 ex_base2 ex_sort ex_centroid ex_side tetra below
    in_tetra in_below (points two_mixed) (faces two_mixed) two_data two_border two_border (fun l => l) 0 opA true)
    as [ (m' & r & E & Er & Hr) | (_ & [ (x & _ & X) | (x & _ & X) ]) ].
  - exact ex_bases.
  - exact ex_sorts.
  - intros p q r. exists (1 # 3), (1 # 3), (1 # 3). unfold ex_centroid. cbn [vx vy vz fst snd]. repeat split; try lra; ring.
  - exact tetra_solid.
  - exact below_solid.
  - intros x _. right. destruct (tetra_side_right x) as (X1 & X2). unfold ex_side. split; intro Z; [ specialize (X1 Z) | specialize (X2 Z) ]; cbn; congruence.
  - intros x _. right. destruct (tetra_side_right (mir x)) as (X1 & X2). unfold ex_side. split; intro Z; [ specialize (X1 Z) | specialize (X2 Z) ]; cbn; congruence.
  - discriminate.
  - discriminate.
  - exact C48_two_conforming.
  - exact C48_two_starting.
  - split; [ | reflexivity ]. repeat (constructor; [ cbn; intuition congruence | ]). constructor.
  - intro l. apply Permutation_refl.
  - exists m', r. split; [ exact E | ].
    assert (K : match classified (fun x => x) ex_base1 ex_base2 ex_sort ex_centroid ex_side two_border tetra below
       (finalize (mesh_of (points two_mixed) (faces two_mixed) two_data)) two_border (fun l => l) with
       | Ok (m, _) => m_data m = face_data two_mixed /\
         match run tt (mk_builder BOUNDARY_DEFINED BOUNDARY_DEFINED (take_soup m) 0) opA true with
         | Ok r => kind r = BOUNDARY_DEFINED | _ => False end
       | _ => False end) by (vm_compute; auto).
    rewrite E in K. destruct K as (K1 & K2). split; [ exact K1 | ]. split; [ exact Er | ].
    rewrite Er in K2. split; [ exact K2 | ]. rewrite K2 in Hr. destruct Hr as (_ & _ & S & HS & HX). exists S. split; [ exact HS | exact HX ].
  - discriminate X.
  - discriminate X.
Qed.
