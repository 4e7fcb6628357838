(** * The side of a point, for a soup that bounds a set inside a convex region *)
From Coq Require Import List Arith Bool QArith Qminmax Lqa Lia Permutation.
From Verif Require Import Model_base Proof_base Model_soup Model_geometry Model_aabb Model_forkjoin Model_classify.
From Verif Require Import Model_candidates Spec_aabb Spec_candidates Proof_aabb Proof_forkjoin Prop_aabb.
From Verif Require Import Proof_pairs Model_side Spec_side Spec_open Proof_affine Proof_side Proof_probe.
Import ListNotations.
Local Open Scope Q_scope.

Lemma all_convex : open_convex all_space.
Proof. split; try (intros; exact I). intros. exists 1. split; [ reflexivity | intros; exact I ]. Qed.

Lemma bounds_all : forall {D} (m : soup vec3 D) inside, bounds m inside -> bounds_in all_space m inside.
Proof. intros D m inside [W F]. split; [ intros x y _ _; apply W | exact F ]. Qed.

Section S.
  Context {D : Type} (Dom : vec3 -> Prop) (m : soup vec3 D) (inside : vec3 -> Prop).
  Variables (pbox : vec3 -> box) (longest_axis : option box -> nat)
    (sort_by : nat -> list (box * nat) -> list (box * nat))
    (nth_element_by : nat -> nat -> list (box * nat) -> list (box * nat)).
  Variables (ray_triangle : vec3 * vec3 * vec3 -> vec3 -> vec3 -> hit)
    (ray_meets_box : vec3 -> vec3 -> box -> bool) (partial_sort2 : list (Q * nat) -> list (Q * nat)).
  Hypothesis Hre : rearranges sort_by nth_element_by.
  Hypothesis Hpb : forall x, in_box x (pbox x).
  Hypothesis Hrt : exact_intersection ray_triangle.
  Hypothesis Hrm : sound_box_test ray_meets_box.
  Hypothesis Hps : sorts_two partial_sort2.
  Hypothesis HK : open_convex Dom.
  Hypothesis Hp : proper_faces m.
  Hypothesis Hb : bounds_in Dom m inside.
  Hypothesis Hinner : forall fi a b c q, soup_triangle m fi = Ok (a, b, c) -> in_open_triangle q a b c -> Dom q.
  Variables (t : tree (box * nat)) (p : vec3).
  Hypothesis Ht : aabb_tree pbox longest_axis sort_by nth_element_by m t.
  Hypothesis Kp : Dom p.

  Lemma side_in : forall s, side_of_triangle_soup ray_triangle ray_meets_box partial_sort2 m t p = Ok s ->
    (s = ON_BOUNDARY <-> on_boundary m p) /\
    (s = NEGATIVE_SIDE <-> ~ on_boundary m p /\ inside p) /\
    (s = POSITIVE_SIDE <-> ~ on_boundary m p /\ ~ inside p).
  Proof.
    intros s Hs. unfold side_of_triangle_soup in Hs. destruct (num_faces m =? 0)%nat; [ discriminate | ].
    destruct (side_loop_ok m inside pbox longest_axis sort_by nth_element_by ray_triangle ray_meets_box partial_sort2
      Hre Hpb Hrt Hrm Hps Hp Dom HK t Ht Hb Hinner p (seq 0 (num_faces m)) Kp) as [ [s' [E A] ] | [E _] ].
    - intros fi Hfi. apply in_seq in Hfi. lia.
    - rewrite E in Hs. injection Hs as ->. destruct s; cbn [answer_right] in A; intuition congruence.
    - congruence.
  Qed.

  Lemma gives_up_ambiguous :
    (exists s, side_of_triangle_soup ray_triangle ray_meets_box partial_sort2 m t p = Ok s) \/
    (side_of_triangle_soup ray_triangle ray_meets_box partial_sort2 m t p = Throw RuntimeError /\
     forall fi, (fi < num_faces m)%nat -> ambiguous m p fi).
  Proof.
    unfold side_of_triangle_soup. destruct (Nat.eqb_spec (num_faces m) 0) as [E | E].
    { right. split; [ reflexivity | intros; lia ]. }
    destruct (side_loop_ok m inside pbox longest_axis sort_by nth_element_by ray_triangle ray_meets_box partial_sort2
      Hre Hpb Hrt Hrm Hps Hp Dom HK t Ht Hb Hinner p (seq 0 (num_faces m)) Kp) as [ [s' [E' A] ] | [E' A] ].
    - intros fi Hfi. apply in_seq in Hfi. lia.
    - left. exists s'. exact E'.
    - right. split; [ exact E' | ]. intros fi Hfi. apply A, in_seq. lia.
  Qed.
End S.
