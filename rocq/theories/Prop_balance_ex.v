(** * Examples for C58_criterion *)
From Coq Require Import List Arith Bool NArith ZArith QArith Qminmax Lqa Lia Permutation.
From Verif Require Import Model_base Proof_base Model_geometry Model_soup Model_mesh Model_aabb Model_points Model_boolean Model_classify Model_local Model_candidates Model_corefine Model_side Model_mix.
From Verif Require Import Spec_aabb Spec_boolean Spec_candidates Spec_side Spec_radial Spec_local Spec_solid Spec_conform Spec_defects Spec_ffi Spec_corefine Spec_mix Spec_cut Spec_whole Spec_again Spec_find.
From Verif Require Import Proof_fan Proof_extreme Proof_exact Proof_mix_faces Proof_convex Proof_planes Proof_fan4 Proof_whole Proof_whole_ex Prop_local Prop_corefine Prop_cut Prop_side Prop_solid Prop_conform Prop_whole Prop_whole_ex Proof_touch.
From Verif Require Import Spec_balance Prop_find_op Prop_connected Prop_balance.
From Verif Require Import Spec_corefine Spec_side Spec_solid.
Import ListNotations.
Local Open Scope Q_scope.

(** In the mesh of C57_nested_refuted one can go in twice. *)
Example C58_nested_not_by_turns : ~ by_turns (located value nested).
Proof. intro H. apply (proj2 C57_nested_refuted). apply (C58_criterion value nested nested_conditions nested_closed), H. Qed.

(** Through the torus one goes by turns. *)
Example C58_torus_by_turns : by_turns (located value torus).
Proof. apply C58_connected_by_turns; [ exact torus_conditions | exact torus_closed | left; exact torus_connected ]. Qed.

(** Two tetrahedra that do not touch are not connected, and bound a set. *)
Definition apart : soup exact unit :=
  mk_soup [at_ 0 0 0; at_ 1 0 0; at_ 0 1 0; at_ 0 0 1; at_ 0 (-1) (-1); at_ 1 (-1) (-1); at_ 0 (-2) (-1); at_ 0 (-1) (-2)]
    [(0, 2, 1); (0, 1, 3); (0, 3, 2); (1, 2, 3); (4, 6, 5); (4, 5, 7); (4, 7, 6); (5, 6, 7)]%nat (repeat tt 8).
Definition other : soup vec3 unit :=
  mk_soup [(0, -(1), -(1)); (1, -(1), -(1)); (0, -(2), -(1)); (0, -(1), -(2))] [(0, 2, 1); (0, 1, 3); (0, 3, 2); (1, 2, 3)]%nat [tt; tt; tt; tt].
Definition in_other (x : vec3) : Prop := 0 < vx x /\ vy x < -(1) /\ vz x < -(1) /\ vx x - vy x - vz x < 3.
Lemma other_valid : valid_faces other.
Proof. repeat (apply Forall_cons; [ cbn; lia | ]); apply Forall_nil. Qed.
Lemma apart_valid : valid_faces (located value apart).
Proof. repeat (apply Forall_cons; [ cbn; lia | ]); apply Forall_nil. Qed.
Lemma apart_wf : wf_soup apart.
Proof. split; [ reflexivity | ]. repeat (apply Forall_cons; [ cbn; lia | ]); apply Forall_nil. Qed.
Lemma other_solid : solid other in_other.
Proof.
  apply (solid_ext other (fun x => forall T, In T (tris_list other) -> height T x < 0)).
  - intro x. split.
    + intro H. assert (H0 := H _ (or_introl eq_refl)). assert (H1 := H _ (or_intror (or_introl eq_refl))). assert (H2 := H _ (or_intror (or_intror (or_introl eq_refl)))). assert (H3 := H _ (or_intror (or_intror (or_intror (or_introl eq_refl))))).
      cbn in H0, H1, H2, H3. heights H0. heights H1. heights H2. heights H3. unfold in_other. repeat split; lra.
    + intros (A & B & C & E) T J. list_cases J; subst T; unfold height, tri_normal, Spec_side.normal, vdot, vcross, vsub; cbn [vx vy vz fst snd]; lra.
  - apply convex_solid.
    + exact (tris_list_ok other other_valid).
    + exact other_valid.
    + apply not_flat_check. vm_compute. reflexivity.
    + intros i j T U. apply all_behind_ok. vm_compute. reflexivity.
    + intros T x J Z L. assert (H0 := L _ (or_introl eq_refl)). assert (H1 := L _ (or_intror (or_introl eq_refl))). assert (H2 := L _ (or_intror (or_intror (or_introl eq_refl)))). assert (H3 := L _ (or_intror (or_intror (or_intror (or_introl eq_refl))))).
      cbn in H0, H1, H2, H3. heights H0. heights H1. heights H2. heights H3. clear L.
      list_cases J; subst T; cbn in Z; heights Z; cbn [on_tri]; unfold in_triangle; cbn [vx vy vz fst snd].
      * exists (1 - vx x + (vy x + 1)), (- (vy x + 1)), (vx x). repeat split; lra.
      * exists (1 - vx x + (vz x + 1)), (vx x), (- (vz x + 1)). repeat split; lra.
      * exists (1 + (vy x + 1) + (vz x + 1)), (- (vz x + 1)), (- (vy x + 1)). repeat split; lra.
      * exists (vx x), (- (vy x + 1)), (- (vz x + 1)). repeat split; lra.
Qed.
Lemma apart_solid : solid (located value apart) (fun x => in_tetra x \/ in_other x).
Proof.
  (* the plane y + z = 0 *)
  apply (two_solids (located value apart) tetra other in_tetra in_other ((0, 0, 0), (0, 1, -(1)), (1, 0, 0))).
  - intros i T. change (num_faces tetra) with 4%nat. do 8 (destruct i as [ | i]; [ reflexivity | ]).
    change (S (S (S (S (S (S (S (S i))))))) <? 4)%nat with false. cbn [Nat.sub]. destruct i; split; intro X; discriminate X.
  - exact apart_valid.
  - exact tetra_solid.
  - exact other_solid.
  - intros x (A & B & C & E). unfold height, tri_normal, Spec_side.normal, vdot, vcross, vsub. cbn [vx vy vz fst snd]. lra.
  - intros x (A & B & C & E). unfold flip, height, tri_normal, Spec_side.normal, vdot, vcross, vsub. cbn [vx vy vz fst snd]. lra.
  - intros i [ [a b] c] H. apply tetra_faces in H. apply behind_b_ok.
    destruct H as [ [-> E] | [ [-> E] | [ [-> E] | [-> E] ] ] ]; injection E as -> -> ->; reflexivity.
  - intros i T H. apply (tris_list_ok other other_valid) in H. apply behind_b_ok. do 4 (destruct i as [ | i]; [ injection H as <-; reflexivity | ]). destruct i; discriminate H.
Qed.
Lemma apart_conditions : meets_conditions value apart.
Proof.
  split; [ apply proper_check; [ exact (proj2 apart_wf) | vm_compute; reflexivity ] | ]. split; [ apply twins_check_ok; vm_compute; reflexivity | ].
  apply (simplicial_check exact_eqb exact_eqb_ok value apart (at_ 0 0 0) (face_planes value (triples apart (at_ 0 0 0)))); vm_compute; reflexivity.
Qed.
Lemma apart_closed : closed_mesh apart.
Proof. apply closed_check_ok; [ exact (proj2 apart_wf) | vm_compute; reflexivity ]. Qed.
Lemma nth_error_firstn_lt : forall A (l : list A) n i, (i < n)%nat -> nth_error l i = nth_error (firstn n l) i.
Proof. induction l as [ | a l IH]; intros [ | n] [ | i] H; try lia; try reflexivity. cbn. apply IH. lia. Qed.
Lemma apart_linked : forall i j, linked apart i j -> (i < 4 -> j < 4)%nat.
Proof.
  intros i j L. induction L as [ | j k t u p q L IH Fj Fk D1 D2]; [ auto | ]. intro Hi. specialize (IH Hi). apply (triples_corners apart (at_ 0 0 0)) in Fj, Fk. clear L Hi.
  do 4 (destruct k as [ | k]; [ lia | ]). exfalso.
  assert (X : forall t u, In t (firstn 4 (triples apart (at_ 0 0 0))) -> In u (skipn 4 (triples apart (at_ 0 0 0))) -> forall p q, directed t p q -> ~ directed u q p).
  { clear. intros t u Jt Ju p q D1 D2. apply side_directed in D1, D2.
    assert (C : forallb (fun t => forallb (fun u => negb (beside t u)) (skipn 4 (triples apart (at_ 0 0 0)))) (firstn 4 (triples apart (at_ 0 0 0))) = true) by (vm_compute; reflexivity).
    rewrite forallb_forall in C. specialize (C t Jt). rewrite forallb_forall in C. specialize (C u Ju). apply negb_true_iff in C.
    assert (E : beside t u = true); [ | congruence ]. apply existsb_exists. exists (p, q). split; [ exact D1 | ]. apply existsb_exists. exists (q, p). split; [ exact D2 | ]. apply side_eqb_ok. reflexivity. }
  assert (J1 : In t (firstn 4 (triples apart (at_ 0 0 0)))) by (apply (nth_error_In _ j); rewrite <- (nth_error_firstn_lt _ _ 4 j IH); exact Fj).
  assert (J2 : In u (skipn 4 (triples apart (at_ 0 0 0)))) by (apply (nth_error_In _ k); exact Fk).
  exact (X t u J1 J2 p q D1 D2).
Qed.
Lemma apart_not_connected : ~ connected_mesh apart.
Proof. intro C. pose proof (apart_linked 0 4 (C 0%nat 4%nat ltac:(cbn; lia) ltac:(cbn; lia)) ltac:(lia)). lia. Qed.
Example C58_apart : meets_conditions value apart /\ closed_mesh apart /\ ~ connected_mesh apart /\ by_turns (located value apart).
Proof.
  split; [ exact apart_conditions | ]. split; [ exact apart_closed | ]. split; [ exact apart_not_connected | ].
  apply (C58_criterion value apart apart_conditions apart_closed). eexists. exact apart_solid.
Qed.
