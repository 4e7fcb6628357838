(** * C49: an example in which the boundaries cross *)
From Coq Require Import List Arith NArith Bool QArith Lqa Lia Permutation.
From Verif Require Import Model_base Proof_base Model_geometry Model_soup Model_mesh Model_aabb Model_points Model_boolean Model_classify Model_local Model_candidates Model_corefine Model_side Model_mix.
From Verif Require Import Spec_aabb Spec_boolean Spec_candidates Spec_side Spec_radial Spec_local Spec_solid Spec_conform Spec_defects Spec_ffi Spec_corefine Spec_mix Spec_cut Spec_whole.
From Verif Require Import Proof_fan Proof_extreme Proof_exact Proof_mix_faces Proof_fan4 Proof_whole Proof_whole_ex Prop_local Prop_corefine Prop_cut Prop_side Prop_solid Prop_conform Prop_whole.
Import ListNotations.
Local Open Scope Q_scope.
Local Opaque at_.

Ltac other corners j := exists j; eexists; split; [ discriminate | ]; split; [ do 6 eexists; split; [ reflexivity | split; [ reflexivity | split; [ reflexivity | split; reflexivity ] ] ] | ];
  split; [ cbv beta iota delta [has_point]; solve [ auto ] | ]; split; [ cbv beta iota delta [has_point]; solve [ auto ] | ]; 
  let k := fresh "k" in let v := fresh "v" in let C := fresh "C" in let Hp := fresh "Hp" in let Hq := fresh "Hq" in
  intros k v C Hp Hq; destruct (corners _ _ C) as [ [-> ->] | [ [-> ->] | [ [-> ->] | [-> ->] ] ] ];
  first [ left; reflexivity | right; reflexivity | exfalso; cbv beta iota delta [has_point] in Hp, Hq;
    first [ destruct Hp as [Hp | [Hp | Hp] ]; apply at_inj in Hp; lia | destruct Hq as [Hq | [Hq | Hq] ]; apply at_inj in Hq; lia ] ].
Lemma upright_edges : two_faces_per_edge upright.
Proof.
  intros i t p q C Hp Hq D. destruct (upright_corners _ _ C) as [ [-> ->] | [ [-> ->] | [ [-> ->] | [-> ->] ] ] ];
    destruct Hp as [-> | [-> | ->] ], Hq as [-> | [-> | ->] ]; try (exfalso; apply D; reflexivity); clear C D;
    first [ other upright_corners 0%nat | other upright_corners 1%nat | other upright_corners 2%nat | other upright_corners 3%nat ].
Qed.
Lemma leaning_edges : two_faces_per_edge leaning.
Proof.
  intros i t p q C Hp Hq D. destruct (leaning_corners _ _ C) as [ [-> ->] | [ [-> ->] | [ [-> ->] | [-> ->] ] ] ];
    destruct Hp as [-> | [-> | ->] ], Hq as [-> | [-> | ->] ]; try (exfalso; apply D; reflexivity); clear C D;
    first [ other leaning_corners 0%nat | other leaning_corners 1%nat | other leaning_corners 2%nat | other leaning_corners 3%nat ].
Qed.

(** ** Where they cross *)
Lemma segment_vertex : forall T U p q x, (forall y, both T U y -> exists k, 0 <= k /\ k <= 1 /\ same_point y (mix p q k)) ->
  both T U p -> both T U q -> is_vertex T U x -> same_point x p \/ same_point x q.
Proof.
  intros T U p q x H Bp Bq V. destruct (H x (proj1 V)) as (k & K0 & K1 & S).
  destruct (Qlt_le_dec 0 k) as [P0 | P0]; [ destruct (Qlt_le_dec k 1) as [P1 | P1] | ].
  - left. exact (proj1 (vertex_mix _ _ _ _ _ _ V Bp Bq P0 P1 S)).
  - right. assert (E : k == 1) by lra. destruct p as [ [? ?] ?], q as [ [? ?] ?], x as [ [? ?] ?]. unfold mix in S. clear - S E. vs. destruct S as (S1 & S2 & S3). rewrite S1, S2, S3, E. repeat split; ring.
  - left. assert (E : k == 0) by lra. destruct p as [ [? ?] ?], q as [ [? ?] ?], x as [ [? ?] ?]. unfold mix in S. clear - S E. vs. destruct S as (S1 & S2 & S3). rewrite S1, S2, S3, E. repeat split; ring.
Qed.
Lemma self_vertex : forall a b c x, is_vertex (a, b, c) (a, b, c) x -> same_point x a \/ same_point x b \/ same_point x c.
Proof.
  intros a b c x V. destruct (corners_self a b c) as (Ka & Kb & Kc). destruct (proj1 V) as ((u & v & w & (Hu & Hv & Hw & E) & X) & _).
  destruct (Qlt_le_dec u 1) as [Lu | Lu].
  - destruct (Qlt_le_dec 0 u) as [Pu | Pu].
    + left. set (k := v / (v + w)).
      assert (Ek : k * (v + w) == v) by (unfold k; field; lra).
      assert (Hk : 0 <= k <= 1) by (clear - Ek Hv Hw E Lu; split; nra).
      apply (vertex_mix _ _ x a (mix c b k) (1 - u) V); try lra.
      * split; exact Ka.
      * apply both_mix; [ exact Hk | split; exact Kc | split; exact Kb ].
      * assert (E1 : (1 - u) * k == v) by (rewrite <- Ek; setoid_replace (1 - u) with (v + w) by lra; ring). clear - X E E1.
        assert (E2 : (1 - u) * (1 - k) == w) by lra.
        destruct a as [ [? ?] ?], b as [ [? ?] ?], c as [ [? ?] ?], x as [ [? ?] ?]. unfold mix. vs. destruct X as (X1 & X2 & X3). rewrite X1, X2, X3, <- E1, <- E2. repeat split; ring.
    + right. assert (Z : u == 0) by lra. assert (S : same_point x (mix b c w)).
      { assert (E1 : v == 1 - w) by lra. clear - X Z E1. destruct a as [ [? ?] ?], b as [ [? ?] ?], c as [ [? ?] ?], x as [ [? ?] ?]. unfold mix. vs. destruct X as (X1 & X2 & X3). rewrite X1, X2, X3, Z, E1. repeat split; ring. }
      destruct (Qlt_le_dec 0 w) as [P0 | P0]; [ destruct (Qlt_le_dec w 1) as [P1 | P1] | ].
      * left. exact (proj1 (vertex_mix _ _ _ _ _ _ V (conj Kb Kb) (conj Kc Kc) P0 P1 S)).
      * right. assert (E1 : w == 1) by lra. clear - S E1. destruct b as [ [? ?] ?], c as [ [? ?] ?], x as [ [? ?] ?]. unfold mix in S. vs. destruct S as (S1 & S2 & S3). rewrite S1, S2, S3, E1. repeat split; ring.
      * left. assert (E1 : w == 0) by lra. clear - S E1. destruct b as [ [? ?] ?], c as [ [? ?] ?], x as [ [? ?] ?]. unfold mix in S. vs. destruct S as (S1 & S2 & S3). rewrite S1, S2, S3, E1. repeat split; ring.
  - left. assert (u == 1) by lra. assert (v == 0) by lra. assert (w == 0) by lra. clear - X H H0 H1. destruct a as [ [? ?] ?], b as [ [? ?] ?], c as [ [? ?] ?], x as [ [? ?] ?]. vs. destruct X as (X1 & X2 & X3). rewrite X1, X2, X3, H, H0, H1. repeat split; ring.
Qed.

Lemma ex_overlaps : triangular_overlaps value upright leaning.
Proof.
  intros i j t u x Ci Cj _ _ Z.
  destruct (upright_corners _ _ Ci) as [ [-> ->] | [ [-> ->] | [ [-> ->] | [-> ->] ] ] ], (leaning_corners _ _ Cj) as [ [-> ->] | [ [-> ->] | [ [-> ->] | [-> ->] ] ] ];
    try (exfalso; clear - Z; unfold triangle_of in Z; rewrite !at_value in Z; destruct Z as (Z1 & Z2 & Z3); first [ vm_compute in Z1; discriminate Z1 | vm_compute in Z2; discriminate Z2 | vm_compute in Z3; discriminate Z3 ]).
  do 3 eexists. intros y V. exact (self_vertex _ _ _ _ V).
Qed.

(** The point C. *)
Definition crossing : exact := reduce (1 # 3, 1 # 3, 1 # 3).
Definition corners_and (t : exact * exact * exact) : list exact := let '(p, q, r) := t in [p; q; r; crossing].
Ltac at_values := unfold triangle_of, mix in *; rewrite ?at_value in *; change (value crossing) with (1 # 3, 1 # 3, 1 # 3)%Q in *;
  unfold same_point, comb, vx, vy, vz, inject_Z in *; cbn [fst snd] in *.
Ltac at_weights := split; [ repeat split; lra | at_values; repeat split; reflexivity ].
Ltac on_both := match goal with X1 : same_point ?y _ |- _ => destruct y as [ [? ?] ?] end; at_values;
  repeat match goal with H : _ /\ _ |- _ => destruct H end; repeat split; lra.
Ltac among := cbn [corners_and In]; solve [ auto 10 ].
Lemma ex_crossing : forall i j t u x, face_corners upright i t -> face_corners leaning j u -> i <> 0%nat -> j <> 0%nat ->
  is_vertex (triangle_of value t) (triangle_of value u) x ->
  exists p, In p (corners_and t) /\ In p (corners_and u) /\ same_point x (value p).
Proof.
  assert (Vc : value crossing = (1 # 3, 1 # 3, 1 # 3)) by reflexivity.
  assert (Seg : forall t u p q x, (forall y u1 v1 w1 u2 v2 w2, (0 <= u1 /\ 0 <= v1 /\ 0 <= w1 /\ u1 + v1 + w1 == 1) -> (0 <= u2 /\ 0 <= v2 /\ 0 <= w2 /\ u2 + v2 + w2 == 1) ->
      same_point y (comb (triangle_of value t) u1 v1 w1) -> same_point y (comb (triangle_of value u) u2 v2 w2) -> exists k, 0 <= k /\ k <= 1 /\ same_point y (mix (value p) (value q) k)) ->
    both (triangle_of value t) (triangle_of value u) (value p) -> both (triangle_of value t) (triangle_of value u) (value q) ->
    In p (corners_and t) -> In p (corners_and u) -> In q (corners_and t) -> In q (corners_and u) ->
    is_vertex (triangle_of value t) (triangle_of value u) x -> exists p, In p (corners_and t) /\ In p (corners_and u) /\ same_point x (value p)).
  { intros t u p q x H Bp Bq J1 J2 J3 J4 V. destruct (segment_vertex (triangle_of value t) (triangle_of value u) (value p) (value q) x) as [S | S]; auto; [ | exists p; auto | exists q; auto ].
    intros y ((u1 & v1 & w1 & S1 & X1) & (u2 & v2 & w2 & S2 & X2)). exact (H _ _ _ _ _ _ _ S1 S2 X1 X2). }
  intros i j t u x Ci Cj Ni Nj.
  destruct (upright_corners _ _ Ci) as [ [-> ->] | [ [-> ->] | [ [-> ->] | [-> ->] ] ] ]; [ exfalso; apply Ni; reflexivity | .. ];
  (destruct (leaning_corners _ _ Cj) as [ [-> ->] | [ [-> ->] | [ [-> ->] | [-> ->] ] ] ]; [ exfalso; apply Nj; reflexivity | .. ]); clear Ci Cj Ni Nj.
  - apply (Seg _ _ (at_ 0 0 0) (at_ 1 0 0)); [ intros y u1 v1 w1 u2 v2 w2 S1 S2 X1 X2; exists v2; on_both | split; [ exists 1, 0, 0 | exists 1, 0, 0 ]; at_weights | split; [ exists 0, 1, 0 | exists 0, 1, 0 ]; at_weights | among .. ].
  - apply (Seg _ _ (at_ 0 0 0) (at_ 0 0 0)); [ intros y u1 v1 w1 u2 v2 w2 S1 S2 X1 X2; exists 0; on_both | split; [ exists 1, 0, 0 | exists 1, 0, 0 ]; at_weights | split; [ exists 1, 0, 0 | exists 1, 0, 0 ]; at_weights | among .. ].
  - apply (Seg _ _ (at_ 1 0 0) (at_ 1 0 0)); [ intros y u1 v1 w1 u2 v2 w2 S1 S2 X1 X2; exists 0; on_both | split; [ exists 0, 1, 0 | exists 1, 0, 0 ]; at_weights | split; [ exists 0, 1, 0 | exists 1, 0, 0 ]; at_weights | among .. ].
  - apply (Seg _ _ (at_ 0 0 0) (at_ 0 0 0)); [ intros y u1 v1 w1 u2 v2 w2 S1 S2 X1 X2; exists 0; on_both | split; [ exists 1, 0, 0 | exists 1, 0, 0 ]; at_weights | split; [ exists 1, 0, 0 | exists 1, 0, 0 ]; at_weights | among .. ].
  - apply (Seg _ _ (at_ 0 0 0) (at_ 0 1 0)); [ intros y u1 v1 w1 u2 v2 w2 S1 S2 X1 X2; exists w2; on_both | split; [ exists 1, 0, 0 | exists 1, 0, 0 ]; at_weights | split; [ exists 0, 0, 1 | exists 0, 0, 1 ]; at_weights | among .. ].
  - apply (Seg _ _ (at_ 0 1 0) (at_ 0 1 0)); [ intros y u1 v1 w1 u2 v2 w2 S1 S2 X1 X2; exists 0; on_both | split; [ exists 0, 0, 1 | exists 0, 1, 0 ]; at_weights | split; [ exists 0, 0, 1 | exists 0, 1, 0 ]; at_weights | among .. ].
  - apply (Seg _ _ (at_ 1 0 0) crossing); [ intros y u1 v1 w1 u2 v2 w2 S1 S2 X1 X2; exists (3 * w2); on_both | split; [ exists 1, 0, 0 | exists 0, 1, 0 ]; at_weights | split; [ exists (1#3), (1#3), (1#3) | exists (2#3), 0, (1#3) ]; at_weights | among .. ].
  - apply (Seg _ _ (at_ 0 1 0) crossing); [ intros y u1 v1 w1 u2 v2 w2 S1 S2 X1 X2; exists (3 * v2); on_both | split; [ exists 0, 1, 0 | exists 0, 0, 1 ]; at_weights | split; [ exists (1#3), (1#3), (1#3) | exists (2#3), (1#3), 0 ]; at_weights | among .. ].
  - apply (Seg _ _ (at_ 1 0 0) (at_ 0 1 0)); [ intros y u1 v1 w1 u2 v2 w2 S1 S2 X1 X2; exists v2; on_both | split; [ exists 1, 0, 0 | exists 1, 0, 0 ]; at_weights | split; [ exists 0, 1, 0 | exists 0, 1, 0 ]; at_weights | among .. ].
Qed.

Lemma ex_fair : fair_edges upright leaning /\ fair_edges leaning upright.
Proof.
  exact (C49_two_faces_are_fair exact_eqb upright leaning exact_eqb_ok (solid_no_twins value upright (proj1 tetra_solid)) (solid_no_twins value leaning (proj1 lean_solid)) upright_edges leaning_edges).
Qed.
Definition ex_corefine num_threads := corefine exact_eqb value exact_box (fun _ => 0%nat) (fun _ l => l) (fun _ _ l => l) exact_ll exact_pl (fun _ _ _ => true)
  num_threads upright leaning.
Lemma upright_proper : proper value upright.
Proof. exact (solid_proper value upright upright_wf (proj1 tetra_solid)). Qed.
Lemma leaning_proper : proper value leaning.
Proof. exact (solid_proper value leaning leaning_wf (proj1 lean_solid)). Qed.

Lemma few_length : forall (t : triangulation exact) tri, NoDup (map fst (t_vertices t)) -> (forall p id, In (p, id) (t_vertices t) -> In p (corners_and tri)) ->
  (length (t_vertices t) <= 4)%nat.
Proof.
  intros t [ [p q] r] Nd H. rewrite <- (map_length fst). change 4%nat with (length (corners_and (p, q, r))).
  apply NoDup_incl_length; [ exact Nd | ]. intros x J. apply in_map_iff in J. destruct J as ((y & id) & <- & J). exact (H _ _ J).
Qed.
Lemma few_triangulated : forall (t : triangulation exact), (length (t_vertices t) <= 4)%nat -> triangulated value (fan_faces value) t.
Proof. intros t L a b c vs' Good Cp. apply fan_triangulates; [ exact Good | | exact Cp ]. unfold vs'. rewrite map_length. exact L. Qed.
Lemma few_vertices : forall (t : triangulation exact) tri, NoDup (map fst (t_vertices t)) -> (forall p id, In (p, id) (t_vertices t) -> In p (corners_and tri)) ->
  triangulated value (fan_faces value) t.
Proof. intros t tri Nd H. apply few_triangulated. exact (few_length t tri Nd H). Qed.

Lemma corner_in : forall (m : soup exact unit) ids pts fi t a b c id p, length ids = length (points m) ->
  (forall v p i, nth_error (points m) v = Some p -> nth_error ids v = Some i -> nth_error pts i = Some p) ->
  face_corners m fi t -> face_points m ids fi (a, b, c) -> In id [a; b; c] -> nth_error pts id = Some p -> In p (corners_and t).
Proof.
  intros m ids pts fi t a b c id p Le Hi (v0 & v1 & v2 & p0 & p1 & p2 & E & E0 & E1 & E2 & ->) (w0 & w1 & w2 & i0 & i1 & i2 & F & F0 & F1 & F2 & X) J Ep.
  rewrite E in F. injection F as <- <- <-. injection X as -> -> ->. cbn [corners_and In].
  destruct J as [<- | [<- | [<- | [ ] ] ] ]; [ rewrite (Hi _ _ _ E0 F0) in Ep | rewrite (Hi _ _ _ E1 F1) in Ep | rewrite (Hi _ _ _ E2 F2) in Ep ]; injection Ep as ->; auto.
Qed.

Lemma ex_few_like : forall (m : soup exact unit) nt cf, (forall i t, face_corners m i t <-> face_corners upright i t) ->
  proper value m -> simplicial value m -> no_twins m -> (1 <= nt)%nat ->
  corefine exact_eqb value exact_box (fun _ => 0%nat) (fun _ l => l) (fun _ _ l => l) exact_ll exact_pl (fun _ _ _ => true) nt m leaning (Ok cf) ->
  forall F t, In (F, t) (cf_left_tris cf) \/ In (F, t) (cf_right_tris cf) -> (length (t_vertices t) <= 4)%nat.
Proof.
  intros m nt cf Like m_proper m_simplicial Tl Hnt H. pose proof (solid_no_twins value leaning (proj1 lean_solid)) as Tr.
  destruct (C38_cut_along_the_intersection _ _ _ _ _ _ _ _ _ _ _ _ _ ex_kernel Hnt m_proper leaning_proper m_simplicial leaning_simplicial H)
    as (outl & border & Ho & Hu & Rl & Rr & _ & _).
  destruct (C38_tags _ _ _ _ _ _ _ _ _ _ _ _ _ ex_kernel m_proper leaning_proper Tl Tr H) as (Gl & Gr).
  destruct (C38_ids_name_the_points _ _ _ _ _ _ _ _ _ _ _ _ _ ex_kernel Hnt m_proper leaning_proper H) as (Ll & Lr & Il & Ir & Lt & Rt).
  assert (Cl0 : face_corners m 0 (at_ 0 0 0, at_ 0 1 0, at_ 1 0 0)) by (apply Like; do 6 eexists; split; [ reflexivity | split; [ reflexivity | split; [ reflexivity | split; reflexivity ] ] ]).
  assert (Cr0 : face_corners leaning 0 (at_ 0 0 0, at_ 0 1 0, at_ 1 0 0)) by (do 6 eexists; split; [ reflexivity | split; [ reflexivity | split; [ reflexivity | split; reflexivity ] ] ]).
  assert (Nl : forall L R, outl L R <> [] -> L <> 0%nat).
  { intros L R Ne ->. destruct (Hu _ _ Ne) as (U & _). destruct (Gl _ _ Cl0) as (tag & E & X). rewrite U in E. injection E as <-. apply (proj1 (X _ _ Cr0)). left. reflexivity. }
  assert (Nr : forall L R, outl L R <> [] -> R <> 0%nat).
  { intros L R Ne ->. destruct (Hu _ _ Ne) as (_ & U). destruct (Gr _ _ Cr0) as (tag & E & X). rewrite U in E. injection E as <-. apply (proj1 (X _ _ Cl0)). left. reflexivity. }
  assert (Cut : forall L R id p, In id (outl L R) -> nth_error (cf_points cf) id = Some p ->
    exists t u, face_corners m L t /\ face_corners leaning R u /\ In p (corners_and t) /\ In p (corners_and u)).
  { intros L R id p J Ep. assert (Ne : outl L R <> []) by (intro Z; rewrite Z in J; destruct J).
    destruct (Hu _ _ Ne) as (UL & UR).
    destruct (m_proper L) as (t & Ct & _); [ rewrite <- Lt; apply nth_error_Some; congruence | ].
    destruct (leaning_proper R) as (u & Cu & _); [ rewrite <- Rt; apply nth_error_Some; congruence | ].
    exists t, u. split; [ exact Ct | ]. split; [ exact Cu | ].
    destruct (ol_vertex _ _ _ _ _ (Ho L R t u Ct Cu UL UR) id J) as (p' & Ep' & V). rewrite Ep in Ep'. injection Ep' as <-.
    destruct (ex_crossing _ _ _ _ _ (proj1 (Like _ _) Ct) Cu (Nl _ _ Ne) (Nr _ _ Ne) V) as (y & J1 & J2 & S). apply value_inj in S. subst y. auto. }
  intros F t [J | J].
  - destruct Rl as (_ & _ & Rl). destruct (Rl F t J) as (_ & Hv & Hp & _ & Nd & _ & a & b & c & rest & Fp & _).
    destruct (m_proper F) as (tri & Ct & _); [ destruct Fp as (v0 & v1 & v2 & _ & _ & _ & E & _); apply nth_error_Some; unfold num_faces; congruence | ].
    apply (few_length t tri Nd). intros p id Jp. pose proof (Hp _ _ Jp) as Ep.
    destruct (proj1 (Hv id) (ex_intro _ p Jp)) as [ (a' & b' & c' & Fp' & Jc) | (o & Jo) ].
    + exact (corner_in _ _ _ _ _ _ _ _ _ _ Ll Il Ct Fp' Jc Ep).
    + destruct (Cut _ _ _ _ Jo Ep) as (t' & u & Ct' & _ & K & _). destruct (upright_corners _ _ (proj1 (Like _ _) Ct)) as [ [-> ->] | [ [-> ->] | [ [-> ->] | [-> ->] ] ] ], (upright_corners _ _ (proj1 (Like _ _) Ct')) as [ [X ->] | [ [X ->] | [ [X ->] | [X ->] ] ] ]; try discriminate X; exact K.
  - destruct Rr as (_ & _ & Rr). destruct (Rr F t J) as (_ & Hv & Hp & _ & Nd & _ & a & b & c & rest & Fp & _).
    destruct (leaning_proper F) as (tri & Ct & _); [ destruct Fp as (v0 & v1 & v2 & _ & _ & _ & E & _); apply nth_error_Some; unfold num_faces; congruence | ].
    apply (few_length t tri Nd). intros p id Jp. pose proof (Hp _ _ Jp) as Ep.
    destruct (proj1 (Hv id) (ex_intro _ p Jp)) as [ (a' & b' & c' & Fp' & Jc) | (o & Jo) ].
    + exact (corner_in _ _ _ _ _ _ _ _ _ _ Lr Ir Ct Fp' Jc Ep).
    + destruct (Cut _ _ _ _ Jo Ep) as (t' & u & _ & Ct' & _ & K). destruct (leaning_corners _ _ Ct) as [ [-> ->] | [ [-> ->] | [ [-> ->] | [-> ->] ] ] ], (leaning_corners _ _ Ct') as [ [X ->] | [ [X ->] | [ [X ->] | [X ->] ] ] ]; try discriminate X; exact K.
Qed.
Lemma ex_triangulated_like : forall (m : soup exact unit) nt cf, (forall i t, face_corners m i t <-> face_corners upright i t) ->
  proper value m -> simplicial value m -> no_twins m -> (1 <= nt)%nat ->
  corefine exact_eqb value exact_box (fun _ => 0%nat) (fun _ l => l) (fun _ _ l => l) exact_ll exact_pl (fun _ _ _ => true) nt m leaning (Ok cf) ->
  cdt_constrained value (fan_faces value) cf.
Proof. intros m nt cf Like Pm Sm Tl Hnt H F t J. apply few_triangulated. exact (ex_few_like m nt cf Like Pm Sm Tl Hnt H F t J). Qed.
Lemma ex_triangulated : forall nt cf, (1 <= nt)%nat -> ex_corefine nt (Ok cf) -> cdt_constrained value (fan_faces value) cf.
Proof.
  intros nt cf Hnt H. refine (ex_triangulated_like upright nt cf _ upright_proper upright_simplicial (solid_no_twins value upright (proj1 tetra_solid)) Hnt H).
  intros i t. reflexivity.
Qed.

(** ** All operations on them *)
Definition middle_point (p q r : exact) : exact := reduce (ex_centroid (value p) (value q) (value r)).
Definition ex_region (m : soup exact unit) : region exact unit := mk_region BOUNDARY_DEFINED m.
(** Which of the two meshes it is, is told by the third coordinate of W. *)
Definition which_side (m : soup exact unit) (x : exact) : res oriented_side :=
  Ok (if existsb (fun p => negb (Qle_bool (vx (value p) + vy (value p) + vz (value p)) 1)) (points m)
      then tetra_side (unlean (value x)) else tetra_side (value x)).

Example C49_example : forall num_threads, (1 <= num_threads)%nat -> exists mix bd,
  calls_mix exact_eqb value exact_box (fun _ => 0%nat) (fun _ l => l) (fun _ _ l => l) exact_ll exact_pl (fun _ _ _ => true) (fan_faces value)
    ex_base1 ex_base2 ex_sort middle_point which_side num_threads mix upright leaning /\
  build mix (ex_region upright) (ex_region leaning) = Ok bd /\ Model_boolean.warnings bd = 0%N /\
  forall op prefer_first, exists r, run tt bd op prefer_first = Ok r /\
    is_result value op (ex_region upright) (ex_region leaning) in_tetra in_lean r.
Proof.
  intros nt Hnt.
  assert (Ra : represents value (ex_region upright) in_tetra) by (split; [ split; [ exact upright_wf | discriminate ] | exact tetra_solid ]).
  assert (Rb : represents value (ex_region leaning) in_lean) by (split; [ split; [ exact leaning_wf | discriminate ] | exact lean_solid ]).
  assert (Ta : tells_side value (located value upright) in_tetra (which_side upright)).
  { intros x _. right. destruct (tetra_side_right (value x)) as (X1 & X2). unfold which_side. change (existsb _ (points upright)) with false. split; intro Z; f_equal; auto. }
  assert (Tb : tells_side value (located value leaning) in_lean (which_side leaning)).
  { intros x _. right. destruct (tetra_side_right (unlean (value x))) as (X1 & X2). unfold which_side. change (existsb _ (points leaning)) with true. split; intro Z; f_equal; auto. }
  assert (Ce : inner_centroid value middle_point).
  { intros p q r. unfold middle_point. destruct (value_reduce (ex_centroid (value p) (value q) (value r))) as (S1 & S2 & S3). exists (1 # 3), (1 # 3), (1 # 3). rewrite S1, S2, S3. unfold ex_centroid. cbn [vx vy vz fst snd]. repeat split; try lra; ring. }
  destruct (C49_mix_ends exact_eqb value exact_box (fun _ => 0%nat) (fun _ l => l) (fun _ _ l => l) exact_ll exact_pl (fun _ _ _ => true) (fan_faces value)
    ex_base1 ex_base2 ex_sort middle_point which_side nt upright leaning in_tetra in_lean) as (r & Hr).
  - exact ex_kernel.
  - intros t a b c h k vs _ _. reflexivity.
  - exact ex_bases.
  - exact ex_sorts.
  - exact Ce.
  - exact Hnt.
  - exact upright_wf.
  - exact leaning_wf.
  - exact tetra_solid.
  - exact lean_solid.
  - exact Ta.
  - exact Tb.
  - exact upright_simplicial.
  - exact leaning_simplicial.
  - exact (proj1 ex_fair).
  - exact (proj2 ex_fair).
  - intros cf H. exact (ex_triangulated nt cf Hnt H).
  - exact ex_overlaps.
  - set (mix := fun _ _ : soup exact unit => let* (m, w) := r in Ok (m, warning_bits w)).
    assert (Hm : calls_mix exact_eqb value exact_box (fun _ => 0%nat) (fun _ l => l) (fun _ _ l => l) exact_ll exact_pl (fun _ _ _ => true) (fan_faces value)
      ex_base1 ex_base2 ex_sort middle_point which_side nt mix upright leaning) by (exists r; split; [ exact Hr | reflexivity ]).
    destruct (C49_boolean_operation exact_eqb value exact_box (fun _ => 0%nat) (fun _ l => l) (fun _ _ l => l) exact_ll exact_pl (fun _ _ _ => true) (fan_faces value)
      ex_base1 ex_base2 ex_sort middle_point which_side nt tt mix (ex_region upright) (ex_region leaning) in_tetra in_lean ex_kernel) as [ (bd & E & W & G) | (_ & [ (x & _ & X) | (x & _ & X) ]) ].
    + intros t a b c h k vs _ _. reflexivity.
    + exact ex_bases.
    + exact ex_sorts.
    + exact Ce.
    + exact Hnt.
    + exact Ra.
    + exact Rb.
    + intros _. exact Ta.
    + intros _. exact Tb.
    + exact upright_simplicial.
    + exact leaning_simplicial.
    + exact (proj1 ex_fair).
    + exact (proj2 ex_fair).
    + intros cf H. exact (ex_triangulated nt cf Hnt H).
    + left. exact ex_overlaps.
    + intros _ _. exact Hm.
    + exists mix, bd. auto.
    + discriminate X.
    + discriminate X.
Qed.

(** Each of the sets has points that the other has not, and they have some in common. *)
Example C49_example_sets : let p := (1 # 5, 1 # 5, 1 # 10) in let q := (1 # 10, 1 # 10, 1 # 2) in let r := (3 # 5, 3 # 5, 1 # 2) in
  (in_tetra p /\ in_lean p) /\ (in_tetra q /\ ~ in_lean q) /\ (~ in_tetra r /\ in_lean r).
Proof. unfold in_lean, in_tetra, unlean. cbn [vx vy vz fst snd]. repeat split; try lra; intros (A & B & C & E); lra. Qed.
