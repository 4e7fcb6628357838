(** * Planar sheets in convex polyhedra

    The meshes of the examples of C54: triangles that fill a plane section of a convex
    polyhedron. *)
From Coq Require Import List Arith NArith Bool QArith Qminmax Lqa Lia Permutation.
From Verif Require Import Model_base Proof_base Model_geometry Model_soup Model_mesh Model_aabb Model_points Model_boolean Model_classify Model_local Model_candidates Model_corefine Model_side Model_mix.
From Verif Require Import Spec_aabb Spec_boolean Spec_candidates Spec_side Spec_radial Spec_local Spec_solid Spec_conform Spec_defects Spec_ffi Spec_corefine Spec_mix Spec_cut Spec_whole Spec_again Spec_open.
From Verif Require Import Proof_fan Proof_extreme Proof_exact Proof_mix_faces Proof_affine Proof_convex Proof_planes Proof_touch Proof_whole Proof_whole_ex Prop_local Prop_corefine Prop_cut Prop_side Prop_solid Prop_conform Prop_whole Prop_whole_ex.
From Verif Require Import Spec_side Spec_solid.
Import ListNotations.
Local Open Scope Q_scope.

(** The open polyhedron below the planes. *)
Definition below (planes : list (vec3 * Q)) (x : vec3) : Prop := forall H, In H planes -> level H x < 0.

Lemma level_along : forall H x e v, level H (along x e v) == level H x + e * vdot (fst H) v.
Proof. intros [n d] x e v. unfold level, vdot, along. cbn [fst snd vx vy vz]. ring. Qed.
Lemma level_segment : forall H x y t, level H (along x t (vsub y x)) == (1 - t) * level H x + t * level H y.
Proof. intros [n d] x y t. unfold level, vdot, along, vsub. cbn [fst snd vx vy vz]. ring. Qed.
Lemma level_weights : forall H a b c x u v w, u + v + w == 1 ->
  vx x == u * vx a + v * vx b + w * vx c -> vy x == u * vy a + v * vy b + w * vy c -> vz x == u * vz a + v * vz b + w * vz c ->
  level H x == u * level H a + v * level H b + w * level H c.
Proof.
  intros [n d] a b c x u v w S X Y Z. unfold level, vdot. cbn [fst snd]. rewrite X, Y, Z. setoid_replace u with (1 - v - w) by lra. ring.
Qed.

Lemma below_open_convex : forall planes, open_convex (below planes).
Proof.
  intro planes. split.
  - intros x y E Hx H J. rewrite <- (level_same H x y E). exact (Hx H J).
  - intros x y z Hx Hy (t & Ht & Hz) H J. rewrite (level_same H _ _ Hz), level_segment. specialize (Hx H J). specialize (Hy H J).
    set (f := level H x) in *. set (g := level H y) in *. clearbody f g. clear - Hx Hy Ht. nra.
  - intros x v. induction planes as [ | H planes IH]; intro Hx; [ exists 1; split; [ reflexivity | intros e _ H [ ] ] | ].
    destruct IH as (b & Hb & G); [ intros H' J; apply Hx; right; exact J | ].
    destruct (stays_positive (- level H x) (- vdot (fst H) v)) as (b' & Hb' & G'); [ specialize (Hx H (or_introl eq_refl)); lra | ].
    exists (Qmin b b'). split; [ apply Q.min_glb_lt; assumption | ]. intros e He H' J. pose proof (Q.le_min_l b b'). pose proof (Q.le_min_r b b').
    destruct J as [<- | J]; [ | apply G; [ lra | exact J ] ]. rewrite level_along. specialize (G' e ltac:(lra) ltac:(lra)). lra.
Qed.

(** Open triangles in the polyhedron, as a check: no corner above a plane, some below. *)
Definition under_b (planes : list (vec3 * Q)) (T : tri3) : bool :=
  let '(a, b, c) := T in forallb (fun H => Qle_bool (level H a) 0 && Qle_bool (level H b) 0 && Qle_bool (level H c) 0 &&
    (negb (Qle_bool 0 (level H a)) || negb (Qle_bool 0 (level H b)) || negb (Qle_bool 0 (level H c)))) planes.
Lemma under_ok : forall planes a b c x, under_b planes (a, b, c) = true -> in_open_triangle x a b c -> below planes x.
Proof.
  intros planes a b c x Ch (u & v & w & Hu & Hv & Hw & S & X & Y & Z) H J. unfold under_b in Ch. rewrite forallb_forall in Ch. specialize (Ch H J).
  rewrite !andb_true_iff, !orb_true_iff, !Qle_bool_iff in Ch. destruct Ch as (((Ha & Hb) & Hc) & N).
  assert (L : forall q, negb (Qle_bool 0 q) = true -> q < 0).
  { intros q E. apply negb_true_iff in E. destruct (Qlt_le_dec q 0) as [ | M]; [ assumption | ]. apply Qle_bool_iff in M. congruence. }
  rewrite (level_weights H a b c x u v w S X Y Z).
  assert (N' : level H a < 0 \/ level H b < 0 \/ level H c < 0) by (destruct N as [ [N | N] | N]; auto).
  clear N. set (f := level H a) in *. set (g := level H b) in *. set (h := level H c) in *. clearbody f g h. clear - Ha Hb Hc N' Hu Hv Hw.
  assert (u * f <= 0) by nra. assert (v * g <= 0) by nra. assert (w * h <= 0) by nra.
  destruct N' as [N | [N | N] ]; [ assert (u * f < 0) by nra | assert (v * g < 0) by nra | assert (w * h < 0) by nra ]; lra.
Qed.

(** The triangles are in the plane [H], with the normal of it, and fill its part in [K]. *)
Lemma sheet_solid : forall {D} (m : soup vec3 D) K H, open_convex K -> proper_faces m ->
  (forall i a b c, soup_triangle m i = Ok (a, b, c) -> exists k, 0 < k /\ same (Spec_side.normal a b c) (k * vx (fst H), k * vy (fst H), k * vz (fst H)) /\
     level H a == 0 /\ level H b == 0 /\ level H c == 0) ->
  (forall x, K x -> level H x == 0 -> on_boundary m x) ->
  (forall i a b c x, soup_triangle m i = Ok (a, b, c) -> in_open_triangle x a b c -> K x) ->
  solid_in K m (fun x => level H x < 0).
Proof.
  intros D m K H HK Pf Hn Hf Hi. split; [ exact Pf | ]. split; [ split | split; [ | exact Hi ] ].
  - assert (W : forall x y, K x -> K y -> (forall z, in_segment z x y -> ~ on_boundary m z) -> level H x < 0 -> level H y < 0).
    { intros x y Kx Ky Off Lx. destruct (Qlt_le_dec (level H y) 0) as [ | Ly]; [ assumption | exfalso ].
      set (t := - level H x / (level H y - level H x)).
      assert (Et : t * (level H y - level H x) == - level H x) by (unfold t; field; lra).
      assert (S : in_segment (along x t (vsub y x)) x y).
      { exists t. split; [ | apply same_refl ]. set (f := level H x) in *. set (g := level H y) in *. clearbody t f g. clear - Et Lx Ly. split; nra. }
      apply (Off _ S). apply Hf; [ exact (oc_convex _ HK _ _ _ Kx Ky S) | ]. rewrite level_segment. lra. }
    intros x y Kx Ky Off. split; [ apply W; assumption | apply W; try assumption ].
    intros z (t & Ht & Hz). apply Off. exists (1 - t). split; [ lra | ]. eapply same_trans; [ exact Hz | ]. unfold along, vsub. repeat split; cbn [vx vy vz fst snd]; ring.
  - intros fi a b c q v E (u & u' & w & Hu & Hv & Hw & S & X & Y & Z). destruct (Hn fi a b c E) as (k & Hk & (N1 & N2 & N3) & La & Lb & Lc).
    assert (Lq : level H q == 0) by (rewrite (level_weights H a b c q u u' w S X Y Z), La, Lb, Lc; ring).
    assert (Ev : vdot (Spec_side.normal a b c) v == k * vdot (fst H) v) by (unfold vdot; rewrite N1, N2, N3; cbn [vx vy vz fst snd]; ring).
    exists 1. split; [ reflexivity | ]. intros e He. rewrite level_along, Lq, Ev. set (f := vdot (fst H) v). clearbody f. clear - Hk He.
    split; intro L; [ assert (f < 0) by nra; nra | assert (0 < f) by nra; nra ].
  - intros x _. destruct (Qlt_le_dec (level H x) 0); [ left; assumption | right; lra ].
Qed.

(** No face of one has the corners of a face of the other. *)
Lemma apart_fair : forall {P D} (m o : soup P D), (forall i t, face_corners o i t -> ~ coincides m t) -> fair_edges m o.
Proof. intros P D m o H i t j u p q Ci _ Cj N Tp Tq Up Uq. exists j, u. split; [ exact Cj | ]. split; [ exact (H j u Cj) | ]. split; assumption. Qed.

Lemma soup_corners : forall (m : soup exact unit) i a b c, valid_faces (located value m) -> soup_triangle (located value m) i = Ok (a, b, c) ->
  nth_error (tris_list (located value m)) i = Some (a, b, c).
Proof. intros m i a b c V E. apply (tris_list_ok _ V). exact E. Qed.

(** ** A pair of sheets that cross

    The octahedron with the corners at distance one on the axes, cut by the planes z = 0 and y = 0. *)
Definition octa : list (vec3 * Q) :=
  [((1, 1, 1), 1); ((1, 1, -(1)), 1); ((1, -(1), 1), 1); ((1, -(1), -(1)), 1); ((-(1), 1, 1), 1); ((-(1), 1, -(1)), 1); ((-(1), -(1), 1), 1); ((-(1), -(1), -(1)), 1)].
Definition level_sheet : soup exact unit :=
  mk_soup [at_ (-1) 0 0; at_ 1 0 0; at_ 0 1 0; at_ 0 (-1) 0] [(0, 1, 2); (1, 0, 3)]%nat [tt; tt].
Definition upright_sheet : soup exact unit :=
  mk_soup [at_ (-1) 0 0; at_ 1 0 0; at_ 0 0 1; at_ 0 0 (-1)] [(1, 0, 2); (0, 1, 3)]%nat [tt; tt].

(** ** A pair of sheets that touch at the boundary of the region

    The prism z < 0, |x| < 1 + z, cut by the planes y = z and y = -z. *)
Definition prism : list (vec3 * Q) := [((0, 0, 1), 0); ((1, 0, -(1)), 1); ((-(1), 0, -(1)), 1)].
Definition rising_sheet : soup exact unit := mk_soup [at_ (-1) 0 0; at_ 1 0 0; at_ 0 (-1) (-1)] [(0, 1, 2)]%nat [tt].
Definition falling_sheet : soup exact unit := mk_soup [at_ (-1) 0 0; at_ 1 0 0; at_ 0 1 (-1)] [(0, 1, 2)]%nat [tt].

Lemma level_valid : valid_faces (located value level_sheet).
Proof. repeat (apply Forall_cons; [ cbn; lia | ]); apply Forall_nil. Qed.
Lemma upright_valid : valid_faces (located value upright_sheet).
Proof. repeat (apply Forall_cons; [ cbn; lia | ]); apply Forall_nil. Qed.
Lemma rising_valid : valid_faces (located value rising_sheet).
Proof. repeat (apply Forall_cons; [ cbn; lia | ]); apply Forall_nil. Qed.
Lemma falling_valid : valid_faces (located value falling_sheet).
Proof. repeat (apply Forall_cons; [ cbn; lia | ]); apply Forall_nil. Qed.
Lemma level_wf : wf_soup level_sheet.
Proof. split; [ reflexivity | ]. repeat (apply Forall_cons; [ cbn; lia | ]); apply Forall_nil. Qed.
Lemma upright_sheet_wf : wf_soup upright_sheet.
Proof. split; [ reflexivity | ]. repeat (apply Forall_cons; [ cbn; lia | ]); apply Forall_nil. Qed.
Lemma rising_wf : wf_soup rising_sheet.
Proof. split; [ reflexivity | ]. repeat (apply Forall_cons; [ cbn; lia | ]); apply Forall_nil. Qed.
Lemma falling_wf : wf_soup falling_sheet.
Proof. split; [ reflexivity | ]. repeat (apply Forall_cons; [ cbn; lia | ]); apply Forall_nil. Qed.

Ltac one_face E := apply (tris_list_ok _) in E;
  match type of E with nth_error _ ?i = _ => do 2 (destruct i as [ | i]; [ try (injection E as <- <- <-) | ]); try (exfalso; cbn in E; destruct i; discriminate) end.

Lemma level_tris : tris_list (located value level_sheet) = [((-(1), 0, 0), (1, 0, 0), (0, 1, 0)); ((1, 0, 0), (-(1), 0, 0), (0, -(1), 0))].
Proof. reflexivity. Qed.
Lemma upright_tris : tris_list (located value upright_sheet) = [((1, 0, 0), (-(1), 0, 0), (0, 0, 1)); ((-(1), 0, 0), (1, 0, 0), (0, 0, -(1)))].
Proof. reflexivity. Qed.
Lemma rising_tris : tris_list (located value rising_sheet) = [((-(1), 0, 0), (1, 0, 0), (0, -(1), -(1)))].
Proof. reflexivity. Qed.
Lemma falling_tris : tris_list (located value falling_sheet) = [((-(1), 0, 0), (1, 0, 0), (0, 1, -(1)))].
Proof. reflexivity. Qed.

Lemma two_cases : forall {A} (l : list A) (x y z : A) i, l = [x; y] -> nth_error l i = Some z -> (i = 0%nat /\ z = x) \/ (i = 1%nat /\ z = y).
Proof. intros A l x y z i -> E. destruct i as [ | [ | [ | i] ] ]; try discriminate E; injection E as <-; auto. Qed.
Lemma one_case : forall {A} (l : list A) (x z : A) i, l = [x] -> nth_error l i = Some z -> i = 0%nat /\ z = x.
Proof. intros A l x z i -> E. destruct i as [ | [ | i] ]; try discriminate E; injection E as <-; auto. Qed.

Lemma level_cases : forall i a b c, soup_triangle (located value level_sheet) i = Ok (a, b, c) ->
  (i = 0%nat /\ (a, b, c) = ((-(1), 0, 0), (1, 0, 0), (0, 1, 0))) \/ (i = 1%nat /\ (a, b, c) = ((1, 0, 0), (-(1), 0, 0), (0, -(1), 0))).
Proof. intros i a b c E. apply (tris_list_ok _ level_valid) in E. exact (two_cases _ _ _ _ _ level_tris E). Qed.
Lemma upright_cases : forall i a b c, soup_triangle (located value upright_sheet) i = Ok (a, b, c) ->
  (i = 0%nat /\ (a, b, c) = ((1, 0, 0), (-(1), 0, 0), (0, 0, 1))) \/ (i = 1%nat /\ (a, b, c) = ((-(1), 0, 0), (1, 0, 0), (0, 0, -(1)))).
Proof. intros i a b c E. apply (tris_list_ok _ upright_valid) in E. exact (two_cases _ _ _ _ _ upright_tris E). Qed.
Lemma rising_cases : forall i a b c, soup_triangle (located value rising_sheet) i = Ok (a, b, c) -> i = 0%nat /\ (a, b, c) = ((-(1), 0, 0), (1, 0, 0), (0, -(1), -(1))).
Proof. intros i a b c E. apply (tris_list_ok _ rising_valid) in E. exact (one_case _ _ _ _ rising_tris E). Qed.
Lemma falling_cases : forall i a b c, soup_triangle (located value falling_sheet) i = Ok (a, b, c) -> i = 0%nat /\ (a, b, c) = ((-(1), 0, 0), (1, 0, 0), (0, 1, -(1))).
Proof. intros i a b c E. apply (tris_list_ok _ falling_valid) in E. exact (one_case _ _ _ _ falling_tris E). Qed.

Ltac weights := repeat match goal with
  | H : in_open_triangle _ _ _ _ |- _ => let u := fresh "u" in let v := fresh "v" in let w := fresh "w" in destruct H as (u & v & w & ? & ? & ? & ? & ? & ? & ?)
  | H : in_triangle _ _ _ _ |- _ => let u := fresh "u" in let v := fresh "v" in let w := fresh "w" in destruct H as (u & v & w & ? & ? & ? & ? & ? & ? & ?)
  end; cbn [vx vy vz fst snd] in *.

Lemma level_proper : proper_faces (located value level_sheet).
Proof.
  split; [ exact level_valid | | ].
  - intros i a b c E. destruct (level_cases i a b c E) as [ (_ & X) | (_ & X) ]; injection X as -> -> ->; intros (_ & _ & Z); vm_compute in Z; discriminate Z.
  - intros i j a b c x E Hx (a' & b' & c' & E' & Hx').
    destruct (level_cases i a b c E) as [ (-> & X) | (-> & X) ], (level_cases j a' b' c' E') as [ (-> & X') | (-> & X') ]; try reflexivity; exfalso;
      injection X as -> -> ->; injection X' as -> -> ->; weights; lra.
Qed.
Lemma upright_proper_faces : proper_faces (located value upright_sheet).
Proof.
  split; [ exact upright_valid | | ].
  - intros i a b c E. destruct (upright_cases i a b c E) as [ (_ & X) | (_ & X) ]; injection X as -> -> ->; intros (_ & Z & _); vm_compute in Z; discriminate Z.
  - intros i j a b c x E Hx (a' & b' & c' & E' & Hx').
    destruct (upright_cases i a b c E) as [ (-> & X) | (-> & X) ], (upright_cases j a' b' c' E') as [ (-> & X') | (-> & X') ]; try reflexivity; exfalso;
      injection X as -> -> ->; injection X' as -> -> ->; weights; lra.
Qed.
Lemma rising_proper : proper_faces (located value rising_sheet).
Proof.
  split; [ exact rising_valid | | ].
  - intros i a b c E. destruct (rising_cases i a b c E) as (_ & X); injection X as -> -> ->; intros (_ & _ & Z); vm_compute in Z; discriminate Z.
  - intros i j a b c x E Hx (a' & b' & c' & E' & Hx'). destruct (rising_cases i a b c E) as (-> & _), (rising_cases j a' b' c' E') as (-> & _). reflexivity.
Qed.
Lemma falling_proper : proper_faces (located value falling_sheet).
Proof.
  split; [ exact falling_valid | | ].
  - intros i a b c E. destruct (falling_cases i a b c E) as (_ & X); injection X as -> -> ->; intros (_ & _ & Z); vm_compute in Z; discriminate Z.
  - intros i j a b c x E Hx (a' & b' & c' & E' & Hx'). destruct (falling_cases i a b c E) as (-> & _), (falling_cases j a' b' c' E') as (-> & _). reflexivity.
Qed.

Definition under_level (x : vec3) : Prop := level ((0, 0, 1), 0) x < 0.
Definition behind_upright (x : vec3) : Prop := level ((0, 1, 0), 0) x < 0.
Definition under_rising (x : vec3) : Prop := level ((0, 1, -(1)), 0) x < 0.
Definition under_falling (x : vec3) : Prop := level ((0, 1, 1), 0) x < 0.

Ltac plane_of := match goal with |- exists k, _ => exists 2; split; [ reflexivity | ]; split; [ repeat split; reflexivity | ]; repeat split; reflexivity end.
Ltac first_tri := exists 0%nat; do 3 eexists; split; [ reflexivity | rewrite ?at_value; unfold inject_Z ].
Ltac second_tri := exists 1%nat; do 3 eexists; split; [ reflexivity | rewrite ?at_value; unfold inject_Z ].
Ltac flat_out H := unfold level, vdot in H; cbn [fst snd vx vy vz] in H.

Lemma level_solid : solid_in (below octa) (located value level_sheet) under_level.
Proof.
  apply sheet_solid; [ apply below_open_convex | exact level_proper | | | ].
  - intros i a b c E. destruct (level_cases i a b c E) as [ (_ & X) | (_ & X) ]; injection X as -> -> ->; plane_of.
  - intros x Kx L.
    assert (K0 := Kx _ (or_introl eq_refl)). assert (K2 := Kx _ (or_intror (or_intror (or_introl eq_refl)))).
    assert (K4 := Kx _ (or_intror (or_intror (or_intror (or_intror (or_introl eq_refl)))))). assert (K6 := Kx _ (or_intror (or_intror (or_intror (or_intror (or_intror (or_intror (or_introl eq_refl)))))))).
    flat_out L. flat_out K0. flat_out K2. flat_out K4. flat_out K6. clear Kx. destruct (Qlt_le_dec (vy x) 0) as [N | N].
    + second_tri. exists ((1 # 2) * (1 + vy x + vx x)), ((1 # 2) * (1 + vy x - vx x)), (- vy x). cbn [vx vy vz fst snd]. repeat split; lra.
    + first_tri. exists ((1 # 2) * (1 - vy x - vx x)), ((1 # 2) * (1 - vy x + vx x)), (vy x). cbn [vx vy vz fst snd]. repeat split; lra.
  - intros i a b c x E. apply under_ok. destruct (level_cases i a b c E) as [ (_ & X) | (_ & X) ]; injection X as -> -> ->; vm_compute; reflexivity.
Qed.
Lemma upright_solid : solid_in (below octa) (located value upright_sheet) behind_upright.
Proof.
  apply sheet_solid; [ apply below_open_convex | exact upright_proper_faces | | | ].
  - intros i a b c E. destruct (upright_cases i a b c E) as [ (_ & X) | (_ & X) ]; injection X as -> -> ->; plane_of.
  - intros x Kx L.
    assert (K0 := Kx _ (or_introl eq_refl)). assert (K1 := Kx _ (or_intror (or_introl eq_refl))).
    assert (K4 := Kx _ (or_intror (or_intror (or_intror (or_intror (or_introl eq_refl)))))). assert (K5 := Kx _ (or_intror (or_intror (or_intror (or_intror (or_intror (or_introl eq_refl))))))).
    flat_out L. flat_out K0. flat_out K1. flat_out K4. flat_out K5. clear Kx. destruct (Qlt_le_dec (vz x) 0) as [N | N].
    + second_tri. exists ((1 # 2) * (1 + vz x - vx x)), ((1 # 2) * (1 + vz x + vx x)), (- vz x). cbn [vx vy vz fst snd]. repeat split; lra.
    + first_tri. exists ((1 # 2) * (1 - vz x + vx x)), ((1 # 2) * (1 - vz x - vx x)), (vz x). cbn [vx vy vz fst snd]. repeat split; lra.
  - intros i a b c x E. apply under_ok. destruct (upright_cases i a b c E) as [ (_ & X) | (_ & X) ]; injection X as -> -> ->; vm_compute; reflexivity.
Qed.
Lemma rising_solid : solid_in (below prism) (located value rising_sheet) under_rising.
Proof.
  apply sheet_solid; [ apply below_open_convex | exact rising_proper | | | ].
  - intros i a b c E. destruct (rising_cases i a b c E) as (_ & X); injection X as -> -> ->; plane_of.
  - intros x Kx L. assert (K0 := Kx _ (or_introl eq_refl)). assert (K1 := Kx _ (or_intror (or_introl eq_refl))). assert (K2 := Kx _ (or_intror (or_intror (or_introl eq_refl)))).
    flat_out L. flat_out K0. flat_out K1. flat_out K2. clear Kx.
    first_tri. exists ((1 # 2) * (1 + vz x - vx x)), ((1 # 2) * (1 + vz x + vx x)), (- vz x). cbn [vx vy vz fst snd]. repeat split; lra.
  - intros i a b c x E. apply under_ok. destruct (rising_cases i a b c E) as (_ & X); injection X as -> -> ->; vm_compute; reflexivity.
Qed.
Lemma falling_solid : solid_in (below prism) (located value falling_sheet) under_falling.
Proof.
  apply sheet_solid; [ apply below_open_convex | exact falling_proper | | | ].
  - intros i a b c E. destruct (falling_cases i a b c E) as (_ & X); injection X as -> -> ->; plane_of.
  - intros x Kx L. assert (K0 := Kx _ (or_introl eq_refl)). assert (K1 := Kx _ (or_intror (or_introl eq_refl))). assert (K2 := Kx _ (or_intror (or_intror (or_introl eq_refl)))).
    flat_out L. flat_out K0. flat_out K1. flat_out K2. clear Kx.
    first_tri. exists ((1 # 2) * (1 + vz x - vx x)), ((1 # 2) * (1 + vz x + vx x)), (- vz x). cbn [vx vy vz fst snd]. repeat split; lra.
  - intros i a b c x E. apply under_ok. destruct (falling_cases i a b c E) as (_ & X); injection X as -> -> ->; vm_compute; reflexivity.
Qed.

(** The crossing sheets have their edge on the x-axis in common, and it is inside. *)
Lemma sheets_meet_inside : meet_inside (below octa) (located value level_sheet) (located value upright_sheet).
Proof.
  assert (Ax : forall x y, vy x == 0 -> vz x == 0 -> vy y == 0 -> vz y == 0 -> ~ same x y -> -(1) <= vx x -> vx x <= 1 -> -(1) <= vx y -> vx y <= 1 -> below octa (along x (1 # 2) (vsub y x))).
  { intros x y X1 X2 Y1 Y2 N L1 L2 L3 L4 H J.
    assert (Ne : ~ vx x == vx y) by (intro E; apply N; repeat split; [ exact E | rewrite X1, Y1; reflexivity | rewrite X2, Y2; reflexivity ]).
    assert (M : -(1) < (1 # 2) * vx x + (1 # 2) * vx y /\ (1 # 2) * vx x + (1 # 2) * vx y < 1) by (destruct (Q_dec (vx x) (vx y)) as [ [Z | Z] | Z]; [ split; lra | split; lra | contradiction ]).
    cbn in J. destruct x as [ [x1 x2] x3], y as [ [y1 y2] y3]. unfold level, vdot, along, vsub. cbn [vx vy vz fst snd] in *.
    repeat (destruct J as [<- | J]; [ cbn [vx vy vz fst snd]; lra | ]). destruct J. }
  intros s t fi fj T U x y N ET EU Ne xT yT xU yU. destruct T as [ [a b] c], U as [ [a' b'] c']. cbn [on_tri] in *.
  destruct s, t; cbn [operand] in ET, EU.
  - destruct (level_cases _ _ _ _ ET) as [ (-> & X) | (-> & X) ], (level_cases _ _ _ _ EU) as [ (-> & X') | (-> & X') ]; try (exfalso; apply N; reflexivity);
      injection X as -> -> ->; injection X' as -> -> ->; weights; apply Ax; try exact Ne; lra.
  - destruct (level_cases _ _ _ _ ET) as [ (-> & X) | (-> & X) ], (upright_cases _ _ _ _ EU) as [ (-> & X') | (-> & X') ];
      injection X as -> -> ->; injection X' as -> -> ->; weights; apply Ax; try exact Ne; lra.
  - destruct (upright_cases _ _ _ _ ET) as [ (-> & X) | (-> & X) ], (level_cases _ _ _ _ EU) as [ (-> & X') | (-> & X') ];
      injection X as -> -> ->; injection X' as -> -> ->; weights; apply Ax; try exact Ne; lra.
  - destruct (upright_cases _ _ _ _ ET) as [ (-> & X) | (-> & X) ], (upright_cases _ _ _ _ EU) as [ (-> & X') | (-> & X') ]; try (exfalso; apply N; reflexivity);
      injection X as -> -> ->; injection X' as -> -> ->; weights; apply Ax; try exact Ne; lra.
Qed.

(** ** They meet the other conditions *)
Definition sheet_planes : list (vec3 * Q) :=
  [((0, 1, 0), 0); ((0, -(1), 0), 0); ((0, 0, 1), 0); ((0, 0, -(1)), 0); ((0, 1, 1), 0); ((0, 1, -(1)), 0); ((0, -(1), 1), 0); ((0, -(1), -(1)), 0);
   ((0, 1, 2), 0); ((0, 2, 1), 0); ((0, -(1), 2), 0); ((0, -(2), 1), 0); ((0, 1, -(2)), 0); ((0, 2, -(1)), 0); ((0, -(1), -(2)), 0); ((0, -(2), -(1)), 0)].
Definition no_common (m o : soup exact unit) : bool :=
  forallb (fun t => forallb (fun u => negb (forallb (fun p => existsb (exact_eqb p) (corner_list u)) (corner_list t))) (triples o (at_ 0 0 0))) (triples m (at_ 0 0 0)).
Lemma no_common_ok : forall m o, no_common m o = true -> forall i t, face_corners m i t -> ~ coincides o t.
Proof.
  intros m o Ch i t Ci (j & u & Cj & S). apply (triples_corners _ (at_ 0 0 0)), nth_error_In in Ci. apply (triples_corners _ (at_ 0 0 0)), nth_error_In in Cj.
  unfold no_common in Ch. rewrite forallb_forall in Ch. specialize (Ch t Ci). rewrite forallb_forall in Ch. specialize (Ch u Cj). apply negb_true_iff in Ch.
  assert (X : forallb (fun p => existsb (exact_eqb p) (corner_list u)) (corner_list t) = true); [ | congruence ].
  apply forallb_forall. intros p J. apply existsb_exists. exists p. split; [ | apply exact_eqb_ok; reflexivity ].
  destruct t as [ [a b] c], u as [ [a' b'] c']. cbn [corner_list In] in *. destruct (S p) as (S' & _). cbn [has_point] in S'.
  destruct S' as [ -> | [ -> | -> ] ]; auto. destruct J as [<- | [<- | [<- | [ ] ] ] ]; auto.
Qed.
Lemma conform_check : forall (m o : soup exact unit), 
  forallb (fun t => has_normal value t && forallb (fun u => same_triple t u || kept_apart exact_eqb value sheet_planes t u) (triples o (at_ 0 0 0))) (triples m (at_ 0 0 0)) = true ->
  forall i j t u, face_corners m i t -> face_corners o j u -> conforms value t u.
Proof.
  intros m o Ch i j t u Ci Cj. apply (triples_corners _ (at_ 0 0 0)), nth_error_In in Ci. apply (triples_corners _ (at_ 0 0 0)), nth_error_In in Cj.
  rewrite forallb_forall in Ch. specialize (Ch t Ci). apply andb_true_iff in Ch. destruct Ch as (Nd & Ch). apply has_normal_nd in Nd.
  rewrite forallb_forall in Ch. specialize (Ch u Cj). apply orb_true_iff in Ch. destruct Ch as [E | K].
  - apply same_triple_ok in E. subst u. apply self_conforms. exact Nd.
  - exact (kept_apart_conforms exact_eqb exact_eqb_ok value sheet_planes t u K Nd).
Qed.
Lemma level_upright_conform : forall i j t u, face_corners level_sheet i t -> face_corners upright_sheet j u -> conforms value t u.
Proof. apply conform_check. vm_compute. reflexivity. Qed.
Lemma rising_falling_conform : forall i j t u, face_corners rising_sheet i t -> face_corners falling_sheet j u -> conforms value t u.
Proof. apply conform_check. vm_compute. reflexivity. Qed.
Lemma sheet_conditions : forall m : soup exact unit, wf_soup m -> proper_faces (located value m) -> simplicial value m -> meets_conditions value m.
Proof. intros m W P S. split; [ exact (solid_proper value m W P) | ]. split; [ exact (solid_no_twins value m P) | exact S ]. Qed.
Lemma level_conditions : meets_conditions value level_sheet.
Proof. apply sheet_conditions; [ exact level_wf | exact level_proper | ]. apply (simplicial_check exact_eqb exact_eqb_ok value _ (at_ 0 0 0) sheet_planes); vm_compute; reflexivity. Qed.
Lemma upright_conditions : meets_conditions value upright_sheet.
Proof. apply sheet_conditions; [ exact upright_sheet_wf | exact upright_proper_faces | ]. apply (simplicial_check exact_eqb exact_eqb_ok value _ (at_ 0 0 0) sheet_planes); vm_compute; reflexivity. Qed.
Lemma rising_conditions : meets_conditions value rising_sheet.
Proof. apply sheet_conditions; [ exact rising_wf | exact rising_proper | ]. apply (simplicial_check exact_eqb exact_eqb_ok value _ (at_ 0 0 0) sheet_planes); vm_compute; reflexivity. Qed.
Lemma falling_conditions : meets_conditions value falling_sheet.
Proof. apply sheet_conditions; [ exact falling_wf | exact falling_proper | ]. apply (simplicial_check exact_eqb exact_eqb_ok value _ (at_ 0 0 0) sheet_planes); vm_compute; reflexivity. Qed.
Lemma level_fair : fair_edges level_sheet upright_sheet /\ fair_edges upright_sheet level_sheet.
Proof. split; apply apart_fair, no_common_ok; vm_compute; reflexivity. Qed.
Lemma rising_fair : fair_edges rising_sheet falling_sheet /\ fair_edges falling_sheet rising_sheet.
Proof. split; apply apart_fair, no_common_ok; vm_compute; reflexivity. Qed.

(** ** Which side of them a point is on *)
Definition below_b (H : vec3 * Q) (x : exact) : res oriented_side := Ok (if negb (Qle_bool 0 (level H (value x))) then NEGATIVE_SIDE else POSITIVE_SIDE).
Lemma below_b_tells : forall K (m : soup exact unit) H side, (forall x, side x = below_b H x) -> tells_side_in K value (located value m) (fun x => level H x < 0) side.
Proof.
  intros K m H side E x _ _. right. rewrite E. unfold below_b. destruct (Qle_bool 0 (level H (value x))) eqn:C; cbn [negb].
  - apply Qle_bool_iff in C. split; intro Z; [ exfalso; lra | reflexivity ].
  - assert (L : level H (value x) < 0) by (destruct (Qlt_le_dec (level H (value x)) 0) as [ | M]; [ assumption | apply Qle_bool_iff in M; congruence ]).
    split; intro Z; [ reflexivity | contradiction ].
Qed.
