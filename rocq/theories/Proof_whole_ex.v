(** * The two meshes of the example of C49: their boundaries cross

    The tetrahedron with the corners O = (0, 0, 0), X = (1, 0, 0), Y = (0, 1, 0) and
    Z = (0, 0, 1), and the one with the corners O, X, Y and W = (1, 1, 1).  They have the
    face OXY in common, and the edge OW goes through the face XYZ at C = (1/3, 1/3, 1/3).  *)
From Coq Require Import List Arith NArith Bool QArith Lqa Lia Permutation.
From Verif Require Import Model_base Proof_base Model_geometry Model_soup Model_mesh Model_aabb Model_points Model_boolean Model_classify Model_local Model_candidates Model_corefine Model_side Model_mix.
From Verif Require Import Spec_aabb Spec_boolean Spec_candidates Spec_side Spec_radial Spec_local Spec_solid Spec_conform Spec_defects Spec_ffi Spec_corefine Spec_mix Spec_cut Spec_whole.
From Verif Require Import Proof_fan Proof_extreme Proof_exact Proof_planes Proof_fan4 Proof_whole Prop_local Prop_corefine Prop_cut Prop_side Prop_solid Prop_conform.
Import ListNotations.
Local Open Scope Q_scope.

Definition upright : soup exact unit :=
  mk_soup [at_ 0 0 0; at_ 1 0 0; at_ 0 1 0; at_ 0 0 1] [(0, 2, 1); (0, 1, 3); (0, 3, 2); (1, 2, 3)]%nat [tt; tt; tt; tt].
Definition leaning : soup exact unit :=
  mk_soup [at_ 0 0 0; at_ 1 0 0; at_ 0 1 0; at_ 1 1 1] [(0, 2, 1); (0, 1, 3); (0, 3, 2); (1, 2, 3)]%nat [tt; tt; tt; tt].

(** ** They bound solids *)
Lemma upright_tetra : located value upright = tetra.
Proof. reflexivity. Qed.
Definition lean : soup vec3 unit :=
  mk_soup [(0, 0, 0); (1, 0, 0); (0, 1, 0); (1, 1, 1)] [(0, 2, 1); (0, 1, 3); (0, 3, 2); (1, 2, 3)]%nat [tt; tt; tt; tt].
Lemma leaning_lean : located value leaning = lean.
Proof. reflexivity. Qed.

(** The linear map that takes W to Z. *)
Definition unlean (x : vec3) : vec3 := (vx x - vz x, vy x - vz x, vz x).
Definition relean (x : vec3) : vec3 := (vx x + vz x, vy x + vz x, vz x).
Definition in_lean (x : vec3) : Prop := in_tetra (unlean x).

Lemma lean_faces : forall fi a b c, soup_triangle lean fi = Ok (a, b, c) ->
  (fi = 0%nat /\ (a, b, c) = ((0, 0, 0), (0, 1, 0), (1, 0, 0))) \/
  (fi = 1%nat /\ (a, b, c) = ((0, 0, 0), (1, 0, 0), (1, 1, 1))) \/
  (fi = 2%nat /\ (a, b, c) = ((0, 0, 0), (1, 1, 1), (0, 1, 0))) \/
  (fi = 3%nat /\ (a, b, c) = ((1, 0, 0), (0, 1, 0), (1, 1, 1))).
Proof.
  intros fi a b c H. do 4 (destruct fi as [ | fi]; [ injection H as <- <- <-; intuition congruence | ]).
  exfalso. unfold soup_triangle, soup_face, vec_at in H. cbn in H.
  destruct fi; discriminate.
Qed.
Lemma lean_image : forall fi a b c, soup_triangle lean fi = Ok (a, b, c) ->
  exists a' b' c', soup_triangle tetra fi = Ok (a', b', c') /\ same a (relean a') /\ same b (relean b') /\ same c (relean c').
Proof.
  intros fi a b c H. apply lean_faces in H.
  destruct H as [ [-> E] | [ [-> E] | [ [-> E] | [-> E] ] ] ]; injection E as -> -> ->; do 3 eexists;
    (split; [ reflexivity | ]); repeat split; reflexivity.
Qed.
Lemma tetra_image : forall fi a' b' c', soup_triangle tetra fi = Ok (a', b', c') ->
  exists a b c, soup_triangle lean fi = Ok (a, b, c) /\ same a (relean a') /\ same b (relean b') /\ same c (relean c').
Proof.
  intros fi a b c H. apply tetra_faces in H.
  destruct H as [ [-> E] | [ [-> E] | [ [-> E] | [-> E] ] ] ]; injection E as -> -> ->; do 3 eexists;
    (split; [ reflexivity | ]); repeat split; reflexivity.
Qed.
Lemma image_on : forall a b c a' b' c' x, same a (relean a') -> same b (relean b') -> same c (relean c') ->
  (in_triangle x a b c <-> in_triangle (unlean x) a' b' c') /\ (in_open_triangle x a b c <-> in_open_triangle (unlean x) a' b' c').
Proof.
  intros a b c a' b' c' x (A1 & A2 & A3) (B1 & B2 & B3) (C1 & C2 & C3). unfold relean in *. cbn [vx vy vz fst snd] in *.
  split; split; intros (u & v & w & Hu & Hv & Hw & Hs & Hx & Hy & Hz); exists u, v, w; unfold unlean in *; cbn [vx vy vz fst snd] in *;
    rewrite ?A1, ?A2, ?A3, ?B1, ?B2, ?B3, ?C1, ?C2, ?C3 in *; (repeat split; try assumption); lra.
Qed.
Lemma lean_on : forall fi x, on_face lean fi x <-> on_face tetra fi (unlean x).
Proof.
  intros fi x. split.
  - intros (a & b & c & H & Ho). destruct (lean_image fi a b c H) as (a' & b' & c' & H' & E1 & E2 & E3).
    exists a', b', c'. split; [ exact H' | ]. apply (image_on a b c a' b' c' x E1 E2 E3). exact Ho.
  - intros (a' & b' & c' & H & Ho). destruct (tetra_image fi a' b' c' H) as (a & b & c & H' & E1 & E2 & E3).
    exists a, b, c. split; [ exact H' | ]. apply (image_on a b c a' b' c' x E1 E2 E3). exact Ho.
Qed.
Lemma lean_solid : solid lean in_lean.
Proof.
  split; [ constructor | split; [ constructor | ] ].
  - repeat (apply Forall_cons; [ cbn; lia | ]); apply Forall_nil.
  - intros fi a b c E. apply lean_faces in E.
    destruct E as [ [_ E] | [ [_ E] | [ [_ E] | [_ E] ] ] ]; injection E as -> -> ->;
      intros (X & Y & Z); vm_compute in X, Y, Z; congruence.
  - intros fi fj a b c x H Hi Ho. destruct (lean_image fi a b c H) as (a' & b' & c' & H' & E1 & E2 & E3).
    apply (pf_apart _ C24_tetra_proper fi fj a' b' c' (unlean x) H').
    + apply (image_on a b c a' b' c' x E1 E2 E3). exact Hi.
    + apply lean_on. exact Ho.
  - intros x y H. apply (bd_walk _ _ C24_tetra_bounds). intros z (t & Ht & Hz) (fi & Ho).
    assert (Hm : same (relean z) (Spec_side.along x t (vsub y x))).
    { destruct Hz as (Z1 & Z2 & Z3). unfold relean, unlean, Spec_side.along, vsub in *. cbn [vx vy vz fst snd] in *.
      repeat split; cbn [vx vy vz fst snd]; rewrite ?Z1, ?Z2, ?Z3; ring. }
    apply (H (relean z)); [ exists t; auto | ]. exists fi. apply lean_on.
    destruct Ho as (a & b & c & HT & Hin). exists a, b, c. split; [ exact HT | ].
    destruct Hin as (u & v & w & Hu & Hv & Hw & Hs & H1 & H2 & H3). exists u, v, w. unfold relean, unlean. cbn [vx vy vz fst snd].
    repeat split; try assumption; [ rewrite <- H1 | rewrite <- H2 ]; ring.
  - intros fi a b c q v H Hi. destruct (lean_image fi a b c H) as (a' & b' & c' & H' & E1 & E2 & E3).
    destruct (bd_face _ _ C24_tetra_bounds fi a' b' c' (unlean q) (unlean v) H') as (bound & Hb & G).
    { apply (image_on a b c a' b' c' q E1 E2 E3). exact Hi. }
    exists bound. split; [ exact Hb | ]. intros e He. destruct (G e He) as (G1 & G2).
    assert (EN : vdot (Spec_side.normal a b c) v == vdot (Spec_side.normal a' b' c') (unlean v)).
    { destruct E1 as (A1 & A2 & A3), E2 as (B1 & B2 & B3), E3 as (C1 & C2 & C3).
      unfold Spec_side.normal, vdot, vcross, vsub, relean, unlean in *. cbn [vx vy vz fst snd] in *.
      rewrite A1, A2, A3, B1, B2, B3, C1, C2, C3. ring. }
    assert (ES : same (unlean (Spec_side.along q e v)) (Spec_side.along (unlean q) e (unlean v))).
    { unfold unlean, Spec_side.along. repeat split; cbn [vx vy vz fst snd]; ring. }
    assert (ES' : same (Spec_side.along (unlean q) e (unlean v)) (unlean (Spec_side.along q e v))) by (destruct ES as (S1 & S2 & S3); repeat split; symmetry; assumption).
    rewrite EN. split; intro K.
    + apply (same_tetra _ _ ES'). exact (G1 K).
    + intro I. apply (G2 K). apply (same_tetra _ _ ES). exact I.
  - intro x. destruct (in_tetra_dec (unlean x)); [ left | right ]; assumption.
Qed.

(** ** They are simplicial, and every edge has two faces *)
Lemma upright_corners : forall i t, face_corners upright i t ->
  (i = 0%nat /\ t = (at_ 0 0 0, at_ 0 1 0, at_ 1 0 0)) \/ (i = 1%nat /\ t = (at_ 0 0 0, at_ 1 0 0, at_ 0 0 1)) \/
  (i = 2%nat /\ t = (at_ 0 0 0, at_ 0 0 1, at_ 0 1 0)) \/ (i = 3%nat /\ t = (at_ 1 0 0, at_ 0 1 0, at_ 0 0 1)).
Proof.
  intros i t (a & b & c & p & q & r & E & A & B & C & ->).
  destruct i as [ | [ | [ | [ | i] ] ] ]; cbn in E; [ | | | | destruct i; discriminate ]; injection E as <- <- <-; cbn [nth_error points upright] in A, B, C;
    injection A as <-; injection B as <-; injection C as <-; auto.
Qed.
Lemma leaning_corners : forall i t, face_corners leaning i t ->
  (i = 0%nat /\ t = (at_ 0 0 0, at_ 0 1 0, at_ 1 0 0)) \/ (i = 1%nat /\ t = (at_ 0 0 0, at_ 1 0 0, at_ 1 1 1)) \/
  (i = 2%nat /\ t = (at_ 0 0 0, at_ 1 1 1, at_ 0 1 0)) \/ (i = 3%nat /\ t = (at_ 1 0 0, at_ 0 1 0, at_ 1 1 1)).
Proof.
  intros i t (a & b & c & p & q & r & E & A & B & C & ->).
  destruct i as [ | [ | [ | [ | i] ] ] ]; cbn in E; [ | | | | destruct i; discriminate ]; injection E as <- <- <-; cbn [nth_error points leaning] in A, B, C;
    injection A as <-; injection B as <-; injection C as <-; auto.
Qed.
Lemma upright_simplicial : simplicial value upright.
Proof. apply (simplicial_check exact_eqb exact_eqb_ok value upright (at_ 0 0 0) (face_planes value (triples upright (at_ 0 0 0)))); vm_compute; reflexivity. Qed.
Lemma leaning_simplicial : simplicial value leaning.
Proof. apply (simplicial_check exact_eqb exact_eqb_ok value leaning (at_ 0 0 0) (face_planes value (triples leaning (at_ 0 0 0)))); vm_compute; reflexivity. Qed.
Lemma upright_wf : wf_soup upright.
Proof. split; [ reflexivity | ]. repeat (apply Forall_cons; [ cbn; lia | ]); apply Forall_nil. Qed.
Lemma leaning_wf : wf_soup leaning.
Proof. split; [ reflexivity | ]. repeat (apply Forall_cons; [ cbn; lia | ]); apply Forall_nil. Qed.
