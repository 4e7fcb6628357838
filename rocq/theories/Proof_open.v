(** * Open convex sets *)
From Coq Require Import List Arith QArith Lqa.
From Verif Require Import Model_base Model_soup Model_geometry Model_boolean Model_classify Model_side.
From Verif Require Import Spec_boolean Spec_candidates Spec_side Spec_solid Spec_conform Spec_whole Spec_open Proof_affine Proof_small.
Import ListNotations.
Local Open Scope Q_scope.

Lemma all_space_open_convex : open_convex all_space.
Proof.
  split; try (intros; exact I). intros x v _. exists 1. split; [ reflexivity | intros; exact I ].
Qed.

Lemma solid_all : forall {D} (m : soup vec3 D) A, solid m A -> solid_in all_space m A.
Proof.
  intros D m A (H1 & H2 & H3). split; [ exact H1 | ]. split; [ | split; [ intros x _; apply H3 | intros; exact I ] ].
  split; [ intros x y _ _; apply (bd_walk _ _ H2) | exact (bd_face _ _ H2) ].
Qed.
Lemma all_solid : forall {D} (m : soup vec3 D) A, solid_in all_space m A -> solid m A.
Proof.
  intros D m A (H1 & H2 & H3 & _). split; [ exact H1 | ]. split; [ | intro x; apply H3; exact I ].
  split; [ intros x y; apply (bi_walk _ _ _ H2); exact I | exact (bi_face _ _ _ H2) ].
Qed.

Lemma ev_in : forall K, open_convex K -> forall x v, K x -> eventually (fun e => K (along x e v)).
Proof.
  intros K HK x v H. destruct (oc_open _ HK x v H) as (b & B0 & Hb). exists (b * (1 # 2)). split; [ lra | ].
  intros e E0 E1. apply Hb. lra.
Qed.

Lemma represents_all : forall {P D} (coords : P -> vec3) (r : region P D) S, represents coords r S <-> represents_in all_space coords r S.
Proof.
  intros P D coords r S. unfold represents, represents_in. destruct (kind r).
  - split; intros (W & H); (split; [ exact W | ]); [ intros x _; apply H | intro x; apply H; exact I ].
  - split; intros (W & H); (split; [ exact W | ]); [ intros x _; apply H | intro x; apply H; exact I ].
  - split; intros (W & H); (split; [ exact W | ]); [ apply solid_all, H | apply all_solid, H ].
Qed.
Lemma is_result_all : forall {P D} (coords : P -> vec3) op (a b r : region P D) A B, is_result coords op a b A B r <-> is_result_in all_space coords op a b A B r.
Proof.
  intros P D coords op a b r A B. split; intros (H & S & HR & HS); (split; [ exact H | ]); exists S; (split; [ apply represents_all; exact HR | ]).
  - intros x _. apply HS.
  - intro x. apply HS. exact I.
Qed.
Lemma tells_side_all : forall {P D} (coords : P -> vec3) (m : soup vec3 D) A side,
  tells_side coords m A side <-> tells_side_in all_space coords m A side.
Proof. intros P D coords m A side. split; [ intros H x _; apply H | intros H x; apply H; exact I ]. Qed.
Lemma gives_up_all : forall {P D} (coords : P -> vec3) (m : soup vec3 D) side,
  gives_up coords m side <-> gives_up_in all_space coords m side.
Proof.
  intros P D coords m side. split; [ intros (x & H); exists x; split; [ exact I | exact H ] | intros (x & _ & H); exists x; exact H ].
Qed.
Lemma shared_all : forall {D} (m : soup vec3 D) border, shared_in all_space m border.
Proof. intros D m border a b pa pb _ _ _. exact I. Qed.
