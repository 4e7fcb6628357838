(** * The meshes of C60_operation_refuted

    [sticks]: three tetrahedra that do not touch, one for each axis.  The long edge of each
    is in a coordinate plane, and from the origin it hides what is behind it: all centroids of
    the faces, of its own tetrahedron, are in that coordinate plane or are hidden by the
    edge of another one. *)
From Coq Require Import List Arith NArith Bool QArith Qminmax Lqa Lia Permutation.
From Verif Require Import Model_base Proof_base Model_geometry Model_soup Model_mesh Model_aabb Model_points Model_boolean Model_classify Model_local Model_candidates Model_corefine Model_side Model_mix.
From Verif Require Import Spec_aabb Spec_boolean Spec_candidates Spec_side Spec_radial Spec_local Spec_solid Spec_conform Spec_defects Spec_ffi Spec_corefine Spec_mix Spec_cut Spec_whole Spec_again Spec_find.
From Verif Require Import Proof_fan Proof_extreme Proof_exact Proof_mix_faces Proof_convex Proof_planes Proof_fan4 Proof_whole Proof_whole_ex Prop_local Prop_corefine Prop_cut Prop_side Prop_solid Prop_conform Prop_whole Prop_whole_ex Proof_touch.
From Verif Require Import Prop_find_op Prop_connected Prop_balance.
From Verif Require Import Spec_corefine Spec_side Spec_solid.
Import ListNotations.
Local Open Scope Q_scope.

(** ** Two solids that planes separate face by face *)
Lemma two_apart : forall {D} (m m1 m2 : soup vec3 D) A1 A2,
  (forall i T, soup_triangle m i = Ok T <-> if (i <? num_faces m1)%nat then soup_triangle m1 i = Ok T else soup_triangle m2 (i - num_faces m1) = Ok T) ->
  valid_faces m -> solid m1 A1 -> solid m2 A2 ->
  (forall i j T U, soup_triangle m1 i = Ok T -> soup_triangle m2 j = Ok U -> exists H, behind H T /\ behind (flip H) U) ->
  (forall i T, soup_triangle m1 i = Ok T -> exists Ks, (forall K, In K Ks -> behind K T) /\ forall x, A2 x -> exists K, In K Ks /\ 0 <= height K x) ->
  (forall i T, soup_triangle m2 i = Ok T -> exists Ks, (forall K, In K Ks -> behind K T) /\ forall x, A1 x -> exists K, In K Ks /\ 0 <= height K x) ->
  solid m (fun x => A1 x \/ A2 x).
Proof.
  intros D m m1 m2 A1 A2 HT Hv S1 S2 Ap In1 In2.
  assert (F1 : forall i T, soup_triangle m1 i = Ok T -> soup_triangle m i = Ok T).
  { intros i T E. apply HT. destruct (Nat.ltb_spec i (num_faces m1)) as [L | L]; [ exact E | exfalso ]. unfold soup_triangle, soup_face, vec_at in E.
    assert (X : nth_error (faces m1) i = None) by (apply nth_error_None; exact L). rewrite X in E. discriminate. }
  assert (F2 : forall i T, soup_triangle m2 i = Ok T -> soup_triangle m (num_faces m1 + i) = Ok T).
  { intros i T E. apply HT. destruct (Nat.ltb_spec (num_faces m1 + i) (num_faces m1)) as [L | L]; [ lia | ]. replace (num_faces m1 + i - num_faces m1)%nat with i by lia. exact E. }
  assert (Cases : forall i T, soup_triangle m i = Ok T -> soup_triangle m1 i = Ok T /\ (i < num_faces m1)%nat \/ exists j, i = (num_faces m1 + j)%nat /\ soup_triangle m2 j = Ok T).
  { intros i T E. apply HT in E. destruct (Nat.ltb_spec i (num_faces m1)) as [L | L]; [ left; auto | right ]. exists (i - num_faces m1)%nat. split; [ lia | exact E ]. }
  destruct S1 as (P1 & D1 & C1), S2 as (P2 & D2 & C2).
  split; [ constructor | split; [ constructor | ] ].
  - exact Hv.
  - intros fi a b c E. destruct (Cases _ _ E) as [ (E1 & _) | (j & _ & E1) ]; [ exact (pf_nondegenerate _ P1 _ _ _ _ E1) | exact (pf_nondegenerate _ P2 _ _ _ _ E1) ].
  - intros fi fj a b c x E Hx (a' & b' & c' & E' & Hx'). destruct (Cases _ _ E) as [ (E1 & _) | (i & -> & E1) ], (Cases _ _ E') as [ (E2 & _) | (j & -> & E2) ].
    + apply (pf_apart _ P1 _ _ _ _ _ _ E1 Hx). exists a', b', c'. auto.
    + exfalso. destruct (Ap _ _ _ _ E1 E2) as (H & B1 & B2). pose proof (behind_open _ _ _ _ _ B1 Hx). pose proof (behind_on _ _ _ _ _ B2 Hx') as L. rewrite height_flip in L. lra.
    + exfalso. destruct (Ap _ _ _ _ E2 E1) as (H & B1 & B2). pose proof (behind_open _ _ _ _ _ B2 Hx) as L. pose proof (behind_on _ _ _ _ _ B1 Hx'). rewrite height_flip in L. lra.
    + f_equal. apply (pf_apart _ P2 _ _ _ _ _ _ E1 Hx). exists a', b', c'. auto.
  - intros x y Off. apply or_iff_compat_both; [ apply (bd_walk _ _ D1) | apply (bd_walk _ _ D2) ]; intros z Hz (fi & a & b & c & E & Ho); apply (Off z Hz).
    + exists fi, a, b, c. auto.
    + exists (num_faces m1 + fi)%nat, a, b, c. auto.
  - intros fi a b c q v E Hq. destruct (Cases _ _ E) as [ (E1 & _) | (i & _ & E1) ].
    + destruct (bd_face _ _ D1 _ _ _ _ q v E1 Hq) as (b1 & Hb1 & G1). destruct (In1 _ _ E1) as (Ks & B & O).
      destruct (stay_behind Ks q v) as (b2 & Hb2 & G2); [ intros K J; exact (behind_open _ _ _ _ _ (B K J) Hq) | ].
      exists (Qmin b1 b2). split; [ apply Q.min_glb_lt; assumption | ]. intros e He. pose proof (Q.le_min_l b1 b2). pose proof (Q.le_min_r b1 b2).
      destruct (G1 e ltac:(lra)) as (X & Y). specialize (G2 e ltac:(lra)). split; [ left; auto | ]. intros K [Z | Z]; [ exact (Y K Z) | ].
      destruct (O _ Z) as (K' & J & L). specialize (G2 K' J). lra.
    + destruct (bd_face _ _ D2 _ _ _ _ q v E1 Hq) as (b1 & Hb1 & G1). destruct (In2 _ _ E1) as (Ks & B & O).
      destruct (stay_behind Ks q v) as (b2 & Hb2 & G2); [ intros K J; exact (behind_open _ _ _ _ _ (B K J) Hq) | ].
      exists (Qmin b1 b2). split; [ apply Q.min_glb_lt; assumption | ]. intros e He. pose proof (Q.le_min_l b1 b2). pose proof (Q.le_min_r b1 b2).
      destruct (G1 e ltac:(lra)) as (X & Y). specialize (G2 e ltac:(lra)). split; [ right; auto | ]. intros K [Z | Z]; [ | exact (Y K Z) ].
      destruct (O _ Z) as (K' & J & L). specialize (G2 K' J). lra.
  - intro x. destruct (C1 x), (C2 x); tauto.
Qed.

(** ** The meshes *)
Definition sticks : soup exact unit :=
  mk_soup [at_ (-4) 0 4; at_ 12 0 (-4); at_ 8 1 0; at_ 8 (-1) 0;
           at_ 4 (-4) 0; at_ (-4) 12 0; at_ 0 8 1; at_ 0 8 (-1);
           at_ 0 4 (-4); at_ 0 (-4) 12; at_ 1 0 8; at_ (-1) 0 8]
    [(1, 0, 2); (3, 0, 1); (2, 0, 3); (3, 1, 2);
     (5, 4, 6); (7, 4, 5); (6, 4, 7); (7, 5, 6);
     (9, 8, 10); (11, 8, 9); (10, 8, 11); (11, 9, 10)]%nat (repeat tt 12).

Definition stick1 : soup vec3 unit :=
  mk_soup [(-(4), 0, 4); (12, 0, -(4)); (8, 1, 0); (8, -(1), 0)] [(1, 0, 2); (3, 0, 1); (2, 0, 3); (3, 1, 2)]%nat [tt; tt; tt; tt].
Definition stick2 : soup vec3 unit :=
  mk_soup [(4, -(4), 0); (-(4), 12, 0); (0, 8, 1); (0, 8, -(1))] [(1, 0, 2); (3, 0, 1); (2, 0, 3); (3, 1, 2)]%nat [tt; tt; tt; tt].
Definition stick3 : soup vec3 unit :=
  mk_soup [(0, 4, -(4)); (0, -(4), 12); (1, 0, 8); (-(1), 0, 8)] [(1, 0, 2); (3, 0, 1); (2, 0, 3); (3, 1, 2)]%nat [tt; tt; tt; tt].
(** The first two. *)
Definition stick12 : soup vec3 unit := mk_soup (firstn 8 (points (located value sticks))) (firstn 8 (faces sticks)) (repeat tt 8).

Definition inside_all (m : soup vec3 unit) (x : vec3) : Prop := forall T, In T (tris_list m) -> height T x < 0.

Lemma sticks_valid : valid_faces (located value sticks).
Proof. repeat (apply Forall_cons; [ cbn; lia | ]); apply Forall_nil. Qed.
Lemma sticks_wf : wf_soup sticks.
Proof. split; [ reflexivity | ]. repeat (apply Forall_cons; [ cbn; lia | ]); apply Forall_nil. Qed.
Lemma stick12_valid : valid_faces stick12.
Proof. repeat (apply Forall_cons; [ cbn; lia | ]); apply Forall_nil. Qed.
Lemma stick_valid : forall m, m = stick1 \/ m = stick2 \/ m = stick3 -> valid_faces m.
Proof. intros m [-> | [-> | ->] ]; repeat (apply Forall_cons; [ cbn; lia | ]); apply Forall_nil. Qed.

Ltac one_stick m := match goal with |- solid _ _ => idtac end;
  apply convex_solid;
    [ exact (tris_list_ok m (stick_valid m ltac:(tauto))) | exact (stick_valid m ltac:(tauto))
    | apply not_flat_check; vm_compute; reflexivity | intros i j T U; apply all_behind_ok; vm_compute; reflexivity
    | intros T x J Z L; assert (H0 := L _ (or_introl eq_refl)); assert (H1 := L _ (or_intror (or_introl eq_refl))); assert (H2 := L _ (or_intror (or_intror (or_introl eq_refl)))); assert (H3 := L _ (or_intror (or_intror (or_intror (or_introl eq_refl)))));
      match type of H0 with height ?A _ <= 0 => match type of H1 with height ?B _ <= 0 => match type of H2 with height ?C _ <= 0 => match type of H3 with height ?E _ <= 0 =>
        let f0 := fresh "f" in let f1 := fresh "f" in let f2 := fresh "f" in let f3 := fresh "f" in
        pose (f0 := (1 # 64) * - height A x); pose (f1 := (1 # 64) * - height B x); pose (f2 := (1 # 64) * - height C x); pose (f3 := (1 # 64) * - height E x);
        clear L; list_cases J; subst T;
          [ exists f2, f3, f1 | exists f0, f3, f2 | exists f1, f3, f0 | exists f0, f2, f1 ];
          subst f0 f1 f2 f3
      end end end end;
      cbn in H0, H1, H2, H3, Z |- *; heights H0; heights H1; heights H2; heights H3; heights Z;
      unfold height, tri_normal, Spec_side.normal, vdot, vcross, vsub; cbn [vx vy vz fst snd]; repeat split; lra ].

Lemma stick1_solid : solid stick1 (inside_all stick1).
Proof. unfold inside_all. one_stick stick1. Qed.
Lemma stick2_solid : solid stick2 (inside_all stick2).
Proof. unfold inside_all. one_stick stick2. Qed.
Lemma stick3_solid : solid stick3 (inside_all stick3).
Proof. unfold inside_all. one_stick stick3. Qed.

(** Planes between them. *)
Definition H12 : tri3 := ((0, 22, 0), (1, 16, 0), (0, 10, 1)).
Definition H23 : tri3 := ((0, 0, 22), (0, 1, 16), (1, 0, 10)).
Definition H31 : tri3 := ((22, 0, 0), (16, 0, 1), (10, 1, 0)).

Lemma stick_sides : forall x,
  (inside_all stick1 x -> height H12 x < 0 /\ 0 < height H31 x) /\
  (inside_all stick2 x -> height H23 x < 0 /\ 0 < height H12 x) /\
  (inside_all stick3 x -> height H31 x < 0 /\ 0 < height H23 x).
Proof.
  intro x. repeat split; intros;
    match goal with L : inside_all _ _ |- _ => assert (K0 := L _ (or_introl eq_refl)); assert (K1 := L _ (or_intror (or_introl eq_refl))); assert (K2 := L _ (or_intror (or_intror (or_introl eq_refl)))); assert (K3 := L _ (or_intror (or_intror (or_intror (or_introl eq_refl))))); clear L end;
    cbn in K0, K1, K2, K3; heights K0; heights K1; heights K2; heights K3; unfold H12, H23, H31, height, tri_normal, Spec_side.normal, vdot, vcross, vsub; cbn [vx vy vz fst snd]; lra.
Qed.

Ltac by_check := apply behind_b_ok; vm_compute; reflexivity.

Lemma stick12_solid : solid stick12 (fun x => inside_all stick1 x \/ inside_all stick2 x).
Proof.
  apply (two_solids stick12 stick1 stick2 _ _ H12).
  - intros i T. change (num_faces stick1) with 4%nat. do 8 (destruct i as [ | i]; [ reflexivity | ]).
    change (S (S (S (S (S (S (S (S i))))))) <? 4)%nat with false. cbn [Nat.sub]. destruct i; split; intro X; discriminate X.
  - exact stick12_valid.
  - exact stick1_solid.
  - exact stick2_solid.
  - intros x I. apply (stick_sides x). exact I.
  - intros x I. rewrite height_flip. destruct (proj1 (proj2 (stick_sides x)) I). lra.
  - intros i T E. apply (tris_list_ok stick1 (stick_valid _ ltac:(tauto))) in E. (do 4 (destruct i as [ | i]; [ injection E as <-; by_check | ]); exfalso; destruct i; discriminate E).
  - intros i T E. apply (tris_list_ok stick2 (stick_valid _ ltac:(tauto))) in E. (do 4 (destruct i as [ | i]; [ injection E as <-; by_check | ]); exfalso; destruct i; discriminate E).
Qed.

Definition in_sticks (x : vec3) : Prop := (inside_all stick1 x \/ inside_all stick2 x) \/ inside_all stick3 x.

Lemma sticks_solid : solid (located value sticks) in_sticks.
Proof.
  apply (two_apart (located value sticks) stick12 stick3).
  - intros i T. change (num_faces stick12) with 8%nat. do 12 (destruct i as [ | i]; [ reflexivity | ]).
    change (S (S (S (S (S (S (S (S (S (S (S (S i))))))))))) <? 8)%nat with false. cbn [Nat.sub]. destruct i; split; intro X; discriminate X.
  - exact sticks_valid.
  - exact stick12_solid.
  - exact stick3_solid.
  - intros i j T U E F. apply (tris_list_ok stick12 stick12_valid) in E. apply (tris_list_ok stick3 (stick_valid _ ltac:(tauto))) in F.
    destruct (Nat.lt_ge_cases i 4) as [L | L]; [ exists (flip H31) | exists H23 ]; (split; [ (do 8 (destruct i as [ | i]; [ injection E as <-; first [ by_check | lia ] | ]); exfalso; destruct i; discriminate E) | (do 4 (destruct j as [ | j]; [ injection F as <-; by_check | ]); exfalso; destruct j; discriminate F) ]).
  - intros i T E. apply (tris_list_ok stick12 stick12_valid) in E. destruct (Nat.lt_ge_cases i 4) as [L | L]; [ exists [flip H31] | exists [H23] ].
    + split; [ intros K [<- | [] ]; (do 8 (destruct i as [ | i]; [ injection E as <-; first [ by_check | lia ] | ]); exfalso; destruct i; discriminate E) | ]. intros x I. exists (flip H31). split; [ left; reflexivity | ]. rewrite height_flip. destruct (proj2 (proj2 (stick_sides x)) I). lra.
    + split; [ intros K [<- | [] ]; (do 8 (destruct i as [ | i]; [ injection E as <-; first [ by_check | lia ] | ]); exfalso; destruct i; discriminate E) | ]. intros x I. exists H23. split; [ left; reflexivity | ]. destruct (proj2 (proj2 (stick_sides x)) I). lra.
  - intros i T E. apply (tris_list_ok stick3 (stick_valid _ ltac:(tauto))) in E. exists [H31; flip H23]. split.
    + intros K [<- | [<- | [] ] ]; (do 4 (destruct i as [ | i]; [ injection E as <-; by_check | ]); exfalso; destruct i; discriminate E).
    + intros x [I | I].
      * exists H31. split; [ left; reflexivity | ]. destruct (proj1 (stick_sides x) I). lra.
      * exists (flip H23). split; [ right; left; reflexivity | ]. rewrite height_flip. destruct (proj1 (proj2 (stick_sides x)) I). lra.
Qed.
Lemma sticks_conditions : meets_conditions value sticks.
Proof.
  split; [ apply proper_check; [ exact (proj2 sticks_wf) | vm_compute; reflexivity ] | ]. split; [ apply twins_check_ok; vm_compute; reflexivity | ].
  apply (simplicial_check exact_eqb exact_eqb_ok value sticks (at_ 0 0 0)
    (face_planes value (triples sticks (at_ 0 0 0)) ++ [((6, 1, 12), 22); ((-(6), -(1), -(12)), -(22)); ((12, 6, 1), 22); ((-(12), -(6), -(1)), -(22)); ((1, 12, 6), 22); ((-(1), -(12), -(6)), -(22))])); vm_compute; reflexivity.
Qed.
Lemma sticks_closed : closed_mesh sticks.
Proof. apply closed_check_ok; [ exact (proj2 sticks_wf) | vm_compute; reflexivity ]. Qed.
