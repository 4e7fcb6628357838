(** * Checks of triangulations, and the meshes of C56 *)
From Coq Require Import List Arith NArith Bool QArith Lqa Lia Permutation.
From Verif Require Import Model_base Proof_base Model_geometry Model_soup Model_mesh Model_aabb Model_points Model_boolean Model_classify Model_local Model_candidates Model_corefine Model_side Model_mix.
From Verif Require Import Spec_aabb Spec_boolean Spec_candidates Spec_side Spec_radial Spec_local Spec_solid Spec_conform Spec_defects Spec_ffi Spec_corefine Spec_mix Spec_cut Spec_whole Spec_again Spec_delaunay.
From Verif Require Import Proof_fan Proof_extreme Proof_exact Proof_mix_faces Proof_convex Proof_planes Proof_one_run Proof_fan4 Proof_touch Proof_whole Proof_whole_ex Prop_local Prop_corefine Prop_cut Prop_side Prop_solid Prop_conform Prop_whole Prop_whole_ex Prop_delaunay.
Import ListNotations.
Local Open Scope Q_scope.

(** ** Lowest triangulations *)
Definition same_b (x y : vec3) : bool := Qeq_bool (vx x) (vx y) && Qeq_bool (vy x) (vy y) && Qeq_bool (vz x) (vz y).
Lemma same_b_ok : forall x y, same_b x y = true -> same_point x y.
Proof. intros x y H. unfold same_b in H. rewrite !andb_true_iff, !Qeq_bool_iff in H. destruct H as ((A & B) & C). repeat split; assumption. Qed.

Definition not_under (h : vec3 -> Q) (T : triangle) (p : vec3) : bool :=
  let '(a, b, c) := T in let '(u, v, w) := weights a b c p in
  Qeq_bool (u + v + w) 1 && same_b p (comb T u v w) && Qle_bool (u * h a + v * h b + w * h c) (h p).
Lemma not_under_ok : forall h T p, not_under h T p = true -> ~ under h T p.
Proof.
  intros h [ [a b] c] p H. unfold not_under in H. destruct (weights a b c p) as [ [u v] w]. rewrite !andb_true_iff, Qeq_bool_iff, Qle_bool_iff in H. destruct H as ((S & X) & L).
  apply same_b_ok in X. intros (g & e & A & B & C & N). unfold lifted in *.
  assert (E : vdot g p == u * vdot g a + v * vdot g b + w * vdot g c).
  { destruct X as (X1 & X2 & X3). unfold vdot, comb in *. cbn [vx vy vz fst snd] in *. rewrite X1, X2, X3. ring. }
  rewrite A, B, C in L. rewrite E in N. apply (Qlt_not_le _ _ N). assert (e == (u + v + w) * e) by (rewrite S; ring). lra.
Qed.

Definition corners_b (vs : list vec3) (h : nat * nat * nat) : triangle :=
  let '(i, j, k) := h in (nth i vs (0, 0, 0), nth j vs (0, 0, 0), nth k vs (0, 0, 0)).
Lemma corners_b_ok : forall vs h T, has_corners vs h T -> corners_b vs h = T.
Proof.
  intros vs [ [i j] k] [ [a b] c] (A & B & C). unfold corners_b. rewrite (nth_error_nth _ _ _ A), (nth_error_nth _ _ _ B), (nth_error_nth _ _ _ C). reflexivity.
Qed.
Definition lowest_b (h : vec3 -> Q) (vs : list vec3) (hs : list (nat * nat * nat)) : bool :=
  forallb (fun f => forallb (not_under h (corners_b vs f)) vs) hs.
Lemma lowest_b_ok : forall h vs cs hs, lowest_b h vs hs = true -> lowest h vs cs hs.
Proof.
  intros h vs cs hs H f T v p J Hc E _. unfold lowest_b in H. rewrite forallb_forall in H. specialize (H f J). rewrite forallb_forall in H.
  rewrite <- (corners_b_ok _ _ _ Hc). apply not_under_ok, H. eapply nth_error_In. exact E.
Qed.

(** A point in the circle of a triangle is under it. *)
Definition square (x : vec3) : Q := vdot x x.
Lemma in_circle_under : forall T p, in_circle T p -> under square T p.
Proof.
  intros [ [ [ [ax ay] az] [ [bx by_] bz] ] [ [cx cy] cz] ] [ [px py] pz] ([ [ox oy] oz] & A & B & L). unfold distance2, vdot, vsub in *. cbn [vx vy vz fst snd] in *.
  exists (2 * ox, 2 * oy, 2 * oz), ((ax - ox) * (ax - ox) + (ay - oy) * (ay - oy) + (az - oz) * (az - oz) - ox * ox - oy * oy - oz * oz). unfold lifted, square, vdot. cbn [vx vy vz fst snd]. repeat split; lra.
Qed.
Lemma lowest_delaunay : forall vs cs hs, lowest square vs cs hs -> delaunay vs cs hs.
Proof. intros vs cs hs H h T v p J Hc E Vi Ci. exact (H h T v p J Hc E Vi (in_circle_under _ _ Ci)). Qed.

(** ** A triangle divided at one point *)
Lemma outer_corner : forall a b c p u v w, 0 <= u -> 0 <= v -> 0 < w -> u + v + w == 1 -> same_point p (comb (a, b, c) u v w) -> ~ in_circle (a, b, p) c.
Proof.
  intros [ [ax ay] az] [ [bx by_] bz] [ [cx cy] cz] [ [px py] pz] u v w Hu Hv Hw E (X & Y & Z) ([ [ox oy] oz] & A & B & L).
  unfold comb, distance2, vdot, vsub in *. cbn [vx vy vz fst snd] in *.
  assert (J : forall i j k o, (u * i + v * j + w * k - o) * (u * i + v * j + w * k - o) == u * ((i - o) * (i - o)) + v * ((j - o) * (j - o)) + w * ((k - o) * (k - o)) - (u * v * ((i - j) * (i - j)) + v * w * ((j - k) * (j - k)) + u * w * ((i - k) * (i - k)))).
  { intros i j k o. setoid_replace u with (1 - v - w) by lra. ring. }
  assert (S : forall i j k, 0 <= u * v * ((i - j) * (i - j)) + v * w * ((j - k) * (j - k)) + u * w * ((i - k) * (i - k))).
  { intros i j k. assert (0 <= u * v) by (apply Qmult_le_0_compat; lra). assert (0 <= v * w) by (apply Qmult_le_0_compat; lra). assert (0 <= u * w) by (apply Qmult_le_0_compat; lra).
    assert (Sq : forall t, 0 <= t * t) by (intro t; nra). pose proof (Qmult_le_0_compat _ _ H (Sq (i - j))). pose proof (Qmult_le_0_compat _ _ H0 (Sq (j - k))). pose proof (Qmult_le_0_compat _ _ H1 (Sq (i - k))). lra. }
  rewrite X, Y, Z, (J ax bx cx ox), (J ay by_ cy oy), (J az bz cz oz) in B. pose proof (S ax bx cx) as Sx. pose proof (S ay by_ cy) as Sy. pose proof (S az bz cz) as Sz. clear S J X Y Z.
  set (x1 := u * v * _ + _ + _) in *. clearbody x1. set (y1 := u * v * _ + _ + _) in *. clearbody y1. set (z1 := u * v * _ + _ + _) in *. clearbody z1.
  set (ra := (ax - ox) * (ax - ox) + (ay - oy) * (ay - oy) + (az - oz) * (az - oz)) in *. set (rb := (bx - ox) * (bx - ox) + (by_ - oy) * (by_ - oy) + (bz - oz) * (bz - oz)) in *. set (rc := (cx - ox) * (cx - ox) + (cy - oy) * (cy - oy) + (cz - oz) * (cz - oz)) in *.
  assert (B' : ra <= u * ra + v * rb + w * rc) by (unfold ra, rb, rc in *; lra). clear B. clearbody ra rb rc.
  assert (0 < w * (ra - rc)) by (apply Qmult_lt_0_compat; lra). assert (v * ra == v * rb) by (rewrite A; reflexivity). assert (u * ra == (1 - v - w) * ra) by (setoid_replace u with (1 - v - w) by lra; reflexivity). lra.
Qed.
Lemma own_corner : forall T p, (let '(a, b, c) := T in p = a \/ p = b \/ p = c) -> ~ in_circle T p.
Proof. intros [ [a b] c] p H (o & A & B & L). destruct H as [-> | [-> | ->] ]; lra. Qed.
Lemma fan_delaunay : forall vs cs a b c, good_vertices vs a b c -> (length vs <= 4)%nat -> delaunay vs cs (fan vs).
Proof.
  intros vs cs a b c ((rest & Ev) & ND & Hin & _) Len h T v p J Hc Ep _.
  destruct rest as [ | q rest]; [ | destruct rest as [ | ? ?]; [ | subst vs; cbn in Len; lia ] ].
  - rewrite Ev in *. rewrite fan_three in J. destruct J as [<- | [ ] ]. destruct T as [ [t0 t1] t2]. destruct Hc as (A & B & C). cbn [nth_error] in *. injection A as <-. injection B as <-. injection C as <-. apply own_corner. apply nth_error_In in Ep. destruct Ep as [<- | [<- | [<- | [ ] ] ] ]; auto.
  - assert (Hq : inside (a, b, c) q) by (apply Hin; subst vs; cbn; auto). rewrite Ev in *.
    destruct (fan_four a b c q h ND Hq) as (u & x & w & Hu & Hx & Hw & E & X & G). apply G in J. clear G.
    destruct T as [ [t0 t1] t2]. apply nth_error_In in Ep.
    destruct J as [ [P ->] | [ [P ->] | [P ->] ] ]; destruct Hc as (A & B & C); cbn [nth_error] in A, B, C; injection A as <-; injection B as <-; injection C as <-; destruct Ep as [<- | [<- | [<- | [<- | [ ] ] ] ] ]; try (apply own_corner; auto; fail).
    + exact (outer_corner a b c q u x w Hu Hx P E X).
    + apply (outer_corner b c a q x w u Hx Hw P); [ lra | apply comb_turn; exact X ].
    + apply (outer_corner c a b q w u x Hw Hu P); [ lra | do 2 apply comb_turn; exact X ].
Qed.

(** ** Triangulations *)
Definition lines (n : vec3) (qs : list vec3) : list (vec3 * Q) :=
  flat_map (fun p => flat_map (fun q => let m := vcross n (vsub q p) in [(m, vdot m p)]) qs) qs.
Definition middles (vs : list vec3) : list vec3 :=
  flat_map (fun p => map (fun q => ((1 # 2) * (vx p + vx q), (1 # 2) * (vy p + vy q), (1 # 2) * (vz p + vz q))) vs) vs.
Definition has_b (h : nat * nat * nat) (v : nat) : bool := let '(i, j, k) := h in Nat.eqb v i || Nat.eqb v j || Nat.eqb v k.
Lemma has_b_ok : forall h v, has_b h v = true -> has_vertex h v.
Proof. intros [ [i j] k] v H. unfold has_b in H. rewrite !orb_true_iff, !Nat.eqb_eq in H. cbn. tauto. Qed.
Definition position (vs : list vec3) (v : nat) : vec3 := nth v vs (0, 0, 0).
Definition fits_b (vs : list vec3) (cs : list (nat * nat)) (hs : list (nat * nat * nat)) : bool :=
  let planes := lines (face_normal (corners_b vs (0, 1, 2)%nat)) (middles vs) in
  forallb (has_normal (position vs)) hs &&
  forallb (fun i => forallb (fun j => Nat.eqb i j || match nth_error hs i, nth_error hs j with Some t, Some u => kept_apart Nat.eqb (position vs) planes t u | _, _ => false end) (seq 0 (length hs))) (seq 0 (length hs)) &&
  forallb (fun v => existsb (fun h => has_b h v) hs) (seq 0 (length vs)) &&
  forallb (fun c => existsb (fun h => has_b h (fst c) && has_b h (snd c)) hs) cs.
Lemma corners_position : forall vs h T, has_corners vs h T -> triangle_of (position vs) h = T.
Proof. intros vs [ [i j] k] T H. exact (corners_b_ok vs (i, j, k) T H). Qed.
Lemma fits_b_ok : forall S vs cs hs, fits_b vs cs hs = true -> (exists parts, Forall2 (has_corners vs) hs parts /\ tiles S parts) -> triangulates S vs cs hs.
Proof.
  intros S vs cs hs H Ht. unfold fits_b in H. rewrite !andb_true_iff in H. destruct H as (((Nd & Me) & Ve) & Ed). rewrite !forallb_forall in *.
  split; [ exact Ht | | | ].
  - intros h h' T U m n x J J' HT HU FT FU. rewrite <- (corners_position _ _ _ HT) in FT. rewrite <- (corners_position _ _ _ HU) in FU.
    assert (C : conforms (position vs) h h'); [ | exact (C m n x FT FU) ].
    apply In_nth_error in J. destruct J as (i & Ei). apply In_nth_error in J'. destruct J' as (j & Ej).
    destruct (Nat.eq_dec i j) as [<- | N].
    + rewrite Ei in Ej. injection Ej as <-. apply self_conforms, has_normal_nd, Nd. eapply nth_error_In. exact Ei.
    + specialize (Me i ltac:(apply in_seq; split; [ lia | apply nth_error_Some; congruence ])). rewrite forallb_forall in Me.
      specialize (Me j ltac:(apply in_seq; split; [ lia | apply nth_error_Some; congruence ])). rewrite Ei, Ej in Me. apply Nat.eqb_neq in N. rewrite N in Me. cbn [orb] in Me.
      eapply (kept_apart_conforms Nat.eqb Nat.eqb_eq); [ exact Me | ]. apply has_normal_nd, Nd. eapply nth_error_In. exact Ei.
  - intros v Hv. specialize (Ve v ltac:(apply in_seq; lia)). apply existsb_exists in Ve. destruct Ve as (h & J & Hh). exists h. split; [ exact J | apply has_b_ok, Hh ].
  - intros v w J. specialize (Ed _ J). apply existsb_exists in Ed. destruct Ed as (h & Jh & Hh). apply andb_true_iff in Hh. exists h. split; [ exact Jh | ]. split; apply has_b_ok, Hh.
Qed.

(** ** A triangulation of up to five vertices

    The first vertices are the corners of the face.  The others are added one after
    another; if that is not lowest for the heights [h], in the other order. *)
Definition turn (vs : list vec3) : list vec3 := match vs with a :: b :: c :: p :: q :: rest => a :: b :: c :: q :: p :: rest | _ => vs end.
Definition turn_index (vs : list vec3) (v : nat) : nat := if (5 <=? length vs)%nat then match v with 3 => 4 | 4 => 3 | _ => v end%nat else v.
Definition turn_face (vs : list vec3) (h : nat * nat * nat) : nat * nat * nat := let '(i, j, k) := h in (turn_index vs i, turn_index vs j, turn_index vs k).
Definition two_fans (h : vec3 -> Q) (vs : list vec3) : list (nat * nat * nat) :=
  if lowest_b h vs (fan vs) then fan vs else map (turn_face vs) (fan (turn vs)).
Definition two_fans_faces (h : vec3 -> Q) (t : triangulation exact) : list (nat * nat * nat) := two_fans h (map (fun v => value (fst v)) (t_vertices t)).
Lemma turn_nth : forall vs i, nth_error vs (turn_index vs i) = nth_error (turn vs) i.
Proof.
  intros vs i. destruct vs as [ | a [ | b [ | c [ | p [ | q rest] ] ] ] ]; try reflexivity. unfold turn_index, turn. cbn [length Nat.leb].
  destruct i as [ | [ | [ | [ | [ | i] ] ] ] ]; reflexivity.
Qed.
Lemma two_fans_ok : forall h vs a b c, good_vertices vs a b c -> exists parts, Forall2 (has_corners vs) (two_fans h vs) parts /\ tiles (a, b, c) parts.
Proof.
  intros h vs a b c ((rest & Ev) & ND & _). unfold two_fans. destruct (lowest_b h vs (fan vs)); [ exact (fan_ok vs a b c rest Ev ND) | ].
  destruct (fan_ok (turn vs) a b c (skipn 3 (turn vs))) as (parts & F & T); [ subst vs; destruct rest as [ | p [ | q rest] ]; reflexivity | exact ND | ].
  exists parts. split; [ | exact T ]. clear T. induction F as [ | [ [i j] k] [ [x y] z] hs ps (A & B & C) _ IH]; cbn [map]; constructor; [ | exact IH ].
  cbn [turn_face has_corners]. rewrite !turn_nth. auto.
Qed.

(** The check of the triangulations of a run. *)
Definition run_b (h : vec3 -> Q) (cf : corefined exact) : bool :=
  forallb (fun Ft => let t := snd Ft in let vs := map (fun v => value (fst v)) (t_vertices t) in
    fits_b vs (t_constraints t) (two_fans_faces h t) && lowest_b h vs (two_fans_faces h t)) (cf_left_tris cf ++ cf_right_tris cf).
Lemma run_b_ok : forall h cf, run_b h cf = true -> cdt_constrained value (two_fans_faces h) cf /\ cdt_lowest h value (two_fans_faces h) cf.
Proof.
  intros h cf H. unfold run_b in H. rewrite forallb_forall in H. split.
  - intros F t J a b c vs Gv Cp. specialize (H (F, t) (proj2 (in_app_iff _ _ _) J)). apply andb_true_iff in H. destruct H as (H & _). exact (fits_b_ok _ _ _ _ H (two_fans_ok h vs a b c Gv)).
  - intros F t J a b c vs Gv Cp. specialize (H (F, t) (proj2 (in_app_iff _ _ _) J)). apply andb_true_iff in H. destruct H as (_ & H). apply lowest_b_ok. exact H.
Qed.

(** ** The meshes

    [upper]: a tetrahedron with the face (0, 0, 0), (50, 0, 0), (18, 24, 0) at the bottom.
    [lower]: one with the face (0, 0, 0), (30, 0, 0), (30, 40, 0) at the top.  The
    two faces overlap in the quadrilateral with the corners (0, 0, 0), (30, 0, 0), (30, 15, 0), (18, 24, 0),
    with right angles at the second and the fourth: these are on a circle.
    [lower2]: the same with (24, 32, 0) instead of (30, 40, 0), and the overlap is not in a circle. *)
Definition upper : soup exact unit := mk_soup [at_ 0 0 0; at_ 50 0 0; at_ 18 24 0; at_ 0 0 10] [(0, 2, 1); (0, 1, 3); (0, 3, 2); (1, 2, 3)]%nat (repeat tt 4).
Definition lower : soup exact unit := mk_soup [at_ 0 0 0; at_ 30 0 0; at_ 30 40 0; at_ 0 0 (-10)] [(0, 1, 2); (0, 3, 1); (0, 2, 3); (1, 3, 2)]%nat (repeat tt 4).
Definition lower2 : soup exact unit := mk_soup [at_ 0 0 0; at_ 30 0 0; at_ 24 32 0; at_ 0 0 (-10)] [(0, 1, 2); (0, 3, 1); (0, 2, 3); (1, 3, 2)]%nat (repeat tt 4).
Definition in_upper (x : vec3) : Prop := 0 < vz x /\ 0 < vy x /\ 0 < 4 * vx x - 3 * vy x /\ 3 * vx x + 4 * vy x + 15 * vz x < 150.
Definition in_lower (x : vec3) : Prop := vz x < 0 /\ 0 < vy x /\ 0 < 4 * vx x - 3 * vy x /\ vx x - 3 * vz x < 30.

Definition cut (left right : soup exact unit) := one_corefine exact_eqb value exact_box (fun _ => 0%nat) (fun _ l => l) (fun _ _ l => l) exact_ll exact_pl (fun _ _ _ => true) left right.
Definition no_cf : corefined exact := mk_corefined [] [] [] [] [] [] [] [].

Lemma upper_wf : wf_soup upper.
Proof. split; [ reflexivity | ]. repeat (apply Forall_cons; [ cbn; lia | ]); apply Forall_nil. Qed.
Lemma lower_wf : wf_soup lower.
Proof. split; [ reflexivity | ]. repeat (apply Forall_cons; [ cbn; lia | ]); apply Forall_nil. Qed.
Lemma lower2_wf : wf_soup lower2.
Proof. split; [ reflexivity | ]. repeat (apply Forall_cons; [ cbn; lia | ]); apply Forall_nil. Qed.
Lemma upper_valid : valid_faces (located value upper).
Proof. repeat (apply Forall_cons; [ cbn; lia | ]); apply Forall_nil. Qed.
Lemma lower_valid : valid_faces (located value lower).
Proof. repeat (apply Forall_cons; [ cbn; lia | ]); apply Forall_nil. Qed.
Lemma lower2_valid : valid_faces (located value lower2).
Proof. repeat (apply Forall_cons; [ cbn; lia | ]); apply Forall_nil. Qed.

Lemma upper_tris : tris_list (located value upper) =
  [((0, 0, 0), (18, 24, 0), (50, 0, 0)); ((0, 0, 0), (50, 0, 0), (0, 0, 10)); ((0, 0, 0), (0, 0, 10), (18, 24, 0)); ((50, 0, 0), (18, 24, 0), (0, 0, 10))].
Proof. reflexivity. Qed.
Lemma lower_tris : tris_list (located value lower) =
  [((0, 0, 0), (30, 0, 0), (30, 40, 0)); ((0, 0, 0), (0, 0, -(10)), (30, 0, 0)); ((0, 0, 0), (30, 40, 0), (0, 0, -(10))); ((30, 0, 0), (0, 0, -(10)), (30, 40, 0))].
Proof. reflexivity. Qed.
Lemma lower2_tris : tris_list (located value lower2) =
  [((0, 0, 0), (30, 0, 0), (24, 32, 0)); ((0, 0, 0), (0, 0, -(10)), (30, 0, 0)); ((0, 0, 0), (24, 32, 0), (0, 0, -(10))); ((30, 0, 0), (0, 0, -(10)), (24, 32, 0))].
Proof. reflexivity. Qed.

Ltac four H := assert (H0 := H _ (or_introl eq_refl)); assert (H1 := H _ (or_intror (or_introl eq_refl))); assert (H2 := H _ (or_intror (or_intror (or_introl eq_refl)))); assert (H3 := H _ (or_intror (or_intror (or_intror (or_introl eq_refl)))));
  heights H0; heights H1; heights H2; heights H3; clear H.
Lemma upper_solid : solid (located value upper) in_upper.
Proof.
  apply (solid_ext _ (fun x => forall T, In T (tris_list (located value upper)) -> height T x < 0)).
  - intro x. rewrite upper_tris. split.
    + intro H. four H. unfold in_upper. repeat split; lra.
    + intros (A & B & C & E) T J. list_cases J; subst T; unfold height, tri_normal, Spec_side.normal, vdot, vcross, vsub; cbn [vx vy vz fst snd]; lra.
  - apply convex_solid.
    + exact (tris_list_ok _ upper_valid).
    + exact upper_valid.
    + apply not_flat_check. vm_compute. reflexivity.
    + intros i j T U. apply all_behind_ok. vm_compute. reflexivity.
    + rewrite upper_tris. intros T x J Z L. four L.
      list_cases J; subst T; heights Z; cbn [on_tri]; unfold in_triangle; cbn [vx vy vz fst snd].
      * exists (1 - (1 # 50) * vx x - (2 # 75) * vy x), ((1 # 24) * vy x), ((1 # 50) * (vx x - (3 # 4) * vy x)). repeat split; lra.
      * exists (1 - (1 # 50) * vx x - (1 # 10) * vz x), ((1 # 50) * vx x), ((1 # 10) * vz x). repeat split; lra.
      * exists (1 - (1 # 24) * vy x - (1 # 10) * vz x), ((1 # 10) * vz x), ((1 # 24) * vy x). repeat split; lra.
      * exists ((1 # 50) * (vx x - (3 # 4) * vy x)), ((1 # 24) * vy x), ((1 # 10) * vz x). repeat split; lra.
Qed.
Lemma lower_solid : solid (located value lower) in_lower.
Proof.
  apply (solid_ext _ (fun x => forall T, In T (tris_list (located value lower)) -> height T x < 0)).
  - intro x. rewrite lower_tris. split.
    + intro H. four H. unfold in_lower. repeat split; lra.
    + intros (A & B & C & E) T J. list_cases J; subst T; unfold height, tri_normal, Spec_side.normal, vdot, vcross, vsub; cbn [vx vy vz fst snd]; lra.
  - apply convex_solid.
    + exact (tris_list_ok _ lower_valid).
    + exact lower_valid.
    + apply not_flat_check. vm_compute. reflexivity.
    + intros i j T U. apply all_behind_ok. vm_compute. reflexivity.
    + rewrite lower_tris. intros T x J Z L. four L.
      list_cases J; subst T; heights Z; cbn [on_tri]; unfold in_triangle; cbn [vx vy vz fst snd].
      * exists (1 - (1 # 30) * vx x), ((1 # 30) * vx x - (1 # 40) * vy x), ((1 # 40) * vy x). repeat split; lra.
      * exists (1 - (1 # 30) * vx x + (1 # 10) * vz x), (- (1 # 10) * vz x), ((1 # 30) * vx x). repeat split; lra.
      * exists (1 - (1 # 40) * vy x + (1 # 10) * vz x), ((1 # 40) * vy x), (- (1 # 10) * vz x). repeat split; lra.
      * exists ((1 # 30) * vx x - (1 # 40) * vy x), (- (1 # 10) * vz x), ((1 # 40) * vy x). repeat split; lra.
Qed.
Definition in_lower2 (x : vec3) : Prop := vz x < 0 /\ 0 < vy x /\ 0 < 4 * vx x - 3 * vy x /\ 16 * vx x + 3 * vy x - 48 * vz x < 480.
Lemma lower2_solid : solid (located value lower2) in_lower2.
Proof.
  apply (solid_ext _ (fun x => forall T, In T (tris_list (located value lower2)) -> height T x < 0)).
  - intro x. rewrite lower2_tris. split.
    + intro H. four H. unfold in_lower2. repeat split; lra.
    + intros (A & B & C & E) T J. list_cases J; subst T; unfold height, tri_normal, Spec_side.normal, vdot, vcross, vsub; cbn [vx vy vz fst snd]; lra.
  - apply convex_solid.
    + exact (tris_list_ok _ lower2_valid).
    + exact lower2_valid.
    + apply not_flat_check. vm_compute. reflexivity.
    + intros i j T U. apply all_behind_ok. vm_compute. reflexivity.
    + rewrite lower2_tris. intros T x J Z L. four L.
      list_cases J; subst T; heights Z; cbn [on_tri]; unfold in_triangle; cbn [vx vy vz fst snd].
      * exists (1 - (1 # 30) * vx x - (1 # 160) * vy x), ((1 # 30) * vx x - (1 # 40) * vy x), ((1 # 32) * vy x). repeat split; lra.
      * exists (1 - (1 # 30) * vx x + (1 # 10) * vz x), (- (1 # 10) * vz x), ((1 # 30) * vx x). repeat split; lra.
      * exists (1 - (1 # 32) * vy x + (1 # 10) * vz x), ((1 # 32) * vy x), (- (1 # 10) * vz x). repeat split; lra.
      * exists ((1 # 30) * vx x - (1 # 40) * vy x), (- (1 # 10) * vz x), ((1 # 32) * vy x). repeat split; lra.
Qed.

(** They meet the conditions of README.md. *)
Definition flat_planes : list (vec3 * Q) :=
  face_planes value (triples upper (at_ 0 0 0)) ++ face_planes value (triples lower (at_ 0 0 0)) ++ face_planes value (triples lower2 (at_ 0 0 0)).
Lemma upper_simplicial : simplicial value upper.
Proof. apply (simplicial_check exact_eqb exact_eqb_ok value upper (at_ 0 0 0) flat_planes); vm_compute; reflexivity. Qed.
Lemma lower_simplicial : simplicial value lower.
Proof. apply (simplicial_check exact_eqb exact_eqb_ok value lower (at_ 0 0 0) flat_planes); vm_compute; reflexivity. Qed.
Lemma lower2_simplicial : simplicial value lower2.
Proof. apply (simplicial_check exact_eqb exact_eqb_ok value lower2 (at_ 0 0 0) flat_planes); vm_compute; reflexivity. Qed.
Lemma upper_conditions : meets_conditions value upper.
Proof. split; [ exact (solid_proper value upper upper_wf (proj1 upper_solid)) | ]. split; [ exact (solid_no_twins value upper (proj1 upper_solid)) | exact upper_simplicial ]. Qed.
Lemma lower_conditions : meets_conditions value lower.
Proof. split; [ exact (solid_proper value lower lower_wf (proj1 lower_solid)) | ]. split; [ exact (solid_no_twins value lower (proj1 lower_solid)) | exact lower_simplicial ]. Qed.
Lemma lower2_conditions : meets_conditions value lower2.
Proof. split; [ exact (solid_proper value lower2 lower2_wf (proj1 lower2_solid)) | ]. split; [ exact (solid_no_twins value lower2 (proj1 lower2_solid)) | exact lower2_simplicial ]. Qed.

(** They have no edge in common. *)
Definition no_common_edge (m o : soup exact unit) : bool :=
  forallb (fun p => forallb (fun q => exact_eqb p q || negb (existsb (exact_eqb p) (points o)) || negb (existsb (exact_eqb q) (points o))) (points m)) (points m).
Lemma no_common_fair : forall m o, no_common_edge m o = true -> fair_edges m o.
Proof.
  intros m o H i t j u p q Ct _ Cu D Tp Tq Up Uq. exfalso. unfold no_common_edge in H. rewrite forallb_forall in H.
  assert (G : forall (s : soup exact unit) k v x, face_corners s k v -> has_point v x -> In x (points s)).
  { intros s k v x (a & b & c & p0 & p1 & p2 & _ & A & B & C & ->) [-> | [-> | ->] ]; eapply nth_error_In; eassumption. }
  specialize (H p (G _ _ _ _ Ct Tp)). rewrite forallb_forall in H. specialize (H q (G _ _ _ _ Ct Tq)).
  assert (E : forall x, In x (points o) -> existsb (exact_eqb x) (points o) = true) by (intros x J; apply existsb_exists; exists x; split; [ exact J | apply exact_eqb_ok; reflexivity ]).
  rewrite (E p (G _ _ _ _ Cu Up)), (E q (G _ _ _ _ Cu Uq)) in H. destruct (exact_eqb p q) eqn:X; [ apply exact_eqb_ok in X; congruence | discriminate H ].
Qed.
Lemma upper_fair : fair_edges upper lower /\ fair_edges lower upper /\ fair_edges upper lower2 /\ fair_edges lower2 upper.
Proof. repeat split; apply no_common_fair; vm_compute; reflexivity. Qed.

(** ** Which side of them a point is on *)
Definition upper_b (x : vec3) : bool := positive (vz x) && positive (vy x) && positive (4 * vx x - 3 * vy x) && positive (150 - 3 * vx x - 4 * vy x - 15 * vz x).
Definition lower_b (x : vec3) : bool := positive (- vz x) && positive (vy x) && positive (4 * vx x - 3 * vy x) && positive (30 - vx x + 3 * vz x).
Lemma upper_b_ok : forall x, upper_b x = true <-> in_upper x.
Proof. intro x. unfold upper_b, in_upper. rewrite !andb_true_iff, !positive_ok. split; [ intros (((A & B) & C) & E) | intros (A & B & C & E) ]; repeat split; lra. Qed.
Lemma lower_b_ok : forall x, lower_b x = true <-> in_lower x.
Proof. intro x. unfold lower_b, in_lower. rewrite !andb_true_iff, !positive_ok. split; [ intros (((A & B) & C) & E) | intros (A & B & C & E) ]; repeat split; lra. Qed.
(** [upper] has the point (50, 0, 0). *)
Definition flat_side (m : soup exact unit) (x : exact) : res oriented_side :=
  Ok (if (if existsb (exact_eqb (at_ 50 0 0)) (points m) then upper_b (value x) else lower_b (value x)) then NEGATIVE_SIDE else POSITIVE_SIDE).
Lemma upper_side : tells_side value (located value upper) in_upper (flat_side upper).
Proof.
  intros x _. right. unfold flat_side. change (existsb _ (points upper)) with true. rewrite <- upper_b_ok. destruct (upper_b (value x)); split; intro H; congruence || reflexivity.
Qed.
Lemma lower_side : tells_side value (located value lower) in_lower (flat_side lower).
Proof.
  intros x _. right. unfold flat_side. change (existsb _ (points lower)) with false. rewrite <- lower_b_ok. destruct (lower_b (value x)); split; intro H; congruence || reflexivity.
Qed.

(** ** The vertices of the overlap *)
Lemma in_vertex : forall K T U x, inside K x -> (forall y, inside K y -> both T U y) -> is_vertex T U x -> is_vertex K K x.
Proof. intros K T U x I Sub (_ & V). split; [ split; exact I | ]. intros y z (Y & _) (Z & _) M. apply V; auto. Qed.
Definition top (c : Q * Q) : triangle := ((0, 0, 0), (30, 0, 0), (fst c, snd c, 0)).
Definition bottom : triangle := ((0, 0, 0), (18, 24, 0), (50, 0, 0)).
Lemma inside_bottom : forall x, inside bottom x <-> vz x == 0 /\ 0 <= vy x /\ 0 <= 4 * vx x - 3 * vy x /\ 3 * vx x + 4 * vy x <= 150.
Proof.
  intro x. split.
  - intros (u & v & w & (A & B & C & E) & X). unfold same_point, comb, bottom in X. cbn [vx vy vz fst snd] in X. destruct X as (X & Y & Z). repeat split; lra.
  - intros (A & B & C & E). exists (1 - (1 # 50) * vx x - (2 # 75) * vy x), ((1 # 24) * vy x), ((1 # 50) * (vx x - (3 # 4) * vy x)). unfold same_point, comb, bottom. cbn [vx vy vz fst snd]. repeat split; lra.
Qed.
Lemma inside_lower : forall x, inside (top (30, 40)) x <-> vz x == 0 /\ 0 <= vy x /\ 0 <= 4 * vx x - 3 * vy x /\ vx x <= 30.
Proof.
  intro x. split.
  - intros (u & v & w & (A & B & C & E) & X). unfold same_point, comb, top in X. cbn [vx vy vz fst snd] in X. destruct X as (X & Y & Z). repeat split; lra.
  - intros (A & B & C & E). exists (1 - (1 # 30) * vx x), ((1 # 30) * vx x - (1 # 40) * vy x), ((1 # 40) * vy x). unfold same_point, comb, top. cbn [vx vy vz fst snd]. repeat split; lra.
Qed.
Lemma inside_lower2 : forall x, inside (top (24, 32)) x <-> vz x == 0 /\ 0 <= vy x /\ 0 <= 4 * vx x - 3 * vy x /\ 16 * vx x + 3 * vy x <= 480.
Proof.
  intro x. split.
  - intros (u & v & w & (A & B & C & E) & X). unfold same_point, comb, top in X. cbn [vx vy vz fst snd] in X. destruct X as (X & Y & Z). repeat split; lra.
  - intros (A & B & C & E). exists (1 - (1 # 30) * vx x - (1 # 160) * vy x), ((1 # 30) * vx x - (1 # 40) * vy x), ((1 # 32) * vy x). unfold same_point, comb, top. cbn [vx vy vz fst snd]. repeat split; lra.
Qed.
(** The overlap as two triangles. *)
Definition corner (k : Q * Q) : vec3 := (fst k, snd k, 0).
Lemma lower_vertices : forall x, is_vertex bottom (top (30, 40)) x ->
  same_point x (0, 0, 0) \/ same_point x (30, 0, 0) \/ same_point x (30, 15, 0) \/ same_point x (18, 24, 0).
Proof.
  intros x V. pose proof (proj1 V) as (I1 & I2). apply inside_bottom in I1. apply inside_lower in I2. destruct I1 as (Z & Y & L & M), I2 as (_ & _ & _ & N).
  destruct (Qlt_le_dec (vx x) (2 * vy x)) as [H | H].
  - assert (I : inside ((0, 0, 0), (30, 15, 0), (18, 24, 0)) x).
    { exists (1 - (1 # 150) * (3 * vx x + 4 * vy x)), ((1 # 450) * (24 * vx x - 18 * vy x)), ((1 # 450) * (30 * vy x - 15 * vx x)). unfold same_point, comb. cbn [vx vy vz fst snd]. repeat split; lra. }
    apply (in_vertex _ _ _ _ I) in V; [ apply self_vertex in V; tauto | ].
    clear. intros y (u & v & w & (A & B & C & E) & X). unfold same_point, comb in X. cbn [vx vy vz fst snd] in X. destruct X as (X & Y & Z). split; [ apply inside_bottom | apply inside_lower ]; repeat split; lra.
  - assert (I : inside ((0, 0, 0), (30, 0, 0), (30, 15, 0)) x).
    { exists (1 - (1 # 30) * vx x), ((1 # 30) * vx x - (1 # 15) * vy x), ((1 # 15) * vy x). unfold same_point, comb. cbn [vx vy vz fst snd]. repeat split; lra. }
    apply (in_vertex _ _ _ _ I) in V; [ apply self_vertex in V; tauto | ].
    clear. intros y (u & v & w & (A & B & C & E) & X). unfold same_point, comb in X. cbn [vx vy vz fst snd] in X. destruct X as (X & Y & Z). split; [ apply inside_bottom | apply inside_lower ]; repeat split; lra.
Qed.
Lemma lower2_vertices : forall x, is_vertex bottom (top (24, 32)) x ->
  same_point x (0, 0, 0) \/ same_point x (30, 0, 0) \/ same_point x (294 # 11, 192 # 11, 0) \/ same_point x (18, 24, 0).
Proof.
  intros x V. pose proof (proj1 V) as (I1 & I2). apply inside_bottom in I1. apply inside_lower2 in I2. destruct I1 as (Z & Y & L & M), I2 as (_ & _ & _ & N).
  destruct (Qlt_le_dec (192 * vx x) (294 * vy x)) as [H | H].
  - assert (I : inside ((0, 0, 0), (294 # 11, 192 # 11, 0), (18, 24, 0)) x).
    { exists (1 - (11 # 3600) * (24 * vx x - 18 * vy x) - (1 # 3600) * (294 * vy x - 192 * vx x)), ((11 # 3600) * (24 * vx x - 18 * vy x)), ((1 # 3600) * (294 * vy x - 192 * vx x)). unfold same_point, comb. cbn [vx vy vz fst snd]. repeat split; lra. }
    apply (in_vertex _ _ _ _ I) in V; [ apply self_vertex in V; tauto | ].
    clear. intros y (u & v & w & (A & B & C & E) & X). unfold same_point, comb in X. cbn [vx vy vz fst snd] in X. destruct X as (X & Y & Z). split; [ apply inside_bottom | apply inside_lower2 ]; repeat split; lra.
  - assert (I : inside ((0, 0, 0), (30, 0, 0), (294 # 11, 192 # 11, 0)) x).
    { exists (1 - (1 # 30) * vx x - (1 # 160) * vy x), ((1 # 30) * vx x - (49 # 960) * vy x), ((11 # 192) * vy x). unfold same_point, comb. cbn [vx vy vz fst snd]. repeat split; lra. }
    apply (in_vertex _ _ _ _ I) in V; [ apply self_vertex in V; tauto | ].
    clear. intros y (u & v & w & (A & B & C & E) & X). unfold same_point, comb in X. cbn [vx vy vz fst snd] in X. destruct X as (X & Y & Z). split; [ apply inside_bottom | apply inside_lower2 ]; repeat split; lra.
Qed.

(** Only the faces at the bottom and at the top overlap. *)
Lemma upper_faces : forall i t, face_corners upper i t -> triangle_of value t = bottom \/ forall x, in_feature (triangle_of value t) (true, true, true) x -> 0 < vz x.
Proof.
  intros i t C. apply (triples_corners _ (at_ 0 0 0)), nth_error_In in C. list_cases C; subst t; [ left; reflexivity | right .. ];
    intros x (u & v & w & (A & B & E & S) & X); cbn in A, B, E; unfold same_point, comb, triangle_of in X; cbn [vx vy vz fst snd] in X; destruct X as (_ & _ & X); cbn in X; lra.
Qed.
Lemma lower_faces : forall i t, face_corners lower i t -> triangle_of value t = top (30, 40) \/ forall x, in_feature (triangle_of value t) (true, true, true) x -> vz x < 0.
Proof.
  intros i t C. apply (triples_corners _ (at_ 0 0 0)), nth_error_In in C. list_cases C; subst t; [ left; reflexivity | right .. ];
    intros x (u & v & w & (A & B & E & S) & X); cbn in A, B, E; unfold same_point, comb, triangle_of in X; cbn [vx vy vz fst snd] in X; destruct X as (_ & _ & X); cbn in X; lra.
Qed.
Lemma lower2_faces : forall i t, face_corners lower2 i t -> triangle_of value t = top (24, 32) \/ forall x, in_feature (triangle_of value t) (true, true, true) x -> vz x < 0.
Proof.
  intros i t C. apply (triples_corners _ (at_ 0 0 0)), nth_error_In in C. list_cases C; subst t; [ left; reflexivity | right .. ];
    intros x (u & v & w & (A & B & E & S) & X); cbn in A, B, E; unfold same_point, comb, triangle_of in X; cbn [vx vy vz fst snd] in X; destruct X as (_ & _ & X); cbn in X; lra.
Qed.
Lemma flat_z : forall p q x, in_feature ((0, 0, 0), p, q) (true, true, true) x -> vz p == 0 -> vz q == 0 -> vz x == 0.
Proof. intros p q x (u & v & w & (A & B & E & S) & X) P Q. destruct X as (_ & _ & X). unfold comb in X. cbn [vx vy vz fst snd] in *. rewrite X, P, Q. ring. Qed.

(** Four different points among four. *)
Lemma four_of_four : forall (R : vec3 -> Prop) k0 k1 k2 k3 a b c d,
  let one x := same_point x k0 \/ same_point x k1 \/ same_point x k2 \/ same_point x k3 in
  (forall x y, same_point x y -> R x -> R y) ->
  one a -> one b -> one c -> one d -> apart a b c d -> R a -> R b -> R c -> R d -> R k0 /\ R k1 /\ R k2 /\ R k3.
Proof.
  intros R k0 k1 k2 k3 a b c d one RS Ha Hb Hc Hd (N1 & N2 & N3 & N4 & N5 & N6) Ra Rb Rc Rd.
  assert (Cl : forall k x y, same_point x k -> same_point y k -> same_point x y).
  { intros k x y (A & B & C) (A' & B' & C'). repeat split; [ rewrite A, A' | rewrite B, B' | rewrite C, C' ]; reflexivity. }
  assert (Get : forall k x, same_point x k -> R x -> R k) by (intros k x S; apply RS; exact S).
  destruct Ha as [Ha | [Ha | [Ha | Ha] ] ], Hb as [Hb | [Hb | [Hb | Hb] ] ]; try (exfalso; exact (N1 (Cl _ _ _ Ha Hb)));
    destruct Hc as [Hc | [Hc | [Hc | Hc] ] ]; try (exfalso; exact (N2 (Cl _ _ _ Ha Hc))); try (exfalso; exact (N4 (Cl _ _ _ Hb Hc)));
    destruct Hd as [Hd | [Hd | [Hd | Hd] ] ]; try (exfalso; exact (N3 (Cl _ _ _ Ha Hd))); try (exfalso; exact (N5 (Cl _ _ _ Hb Hd))); try (exfalso; exact (N6 (Cl _ _ _ Hc Hd)));
    repeat split; first [ exact (Get _ _ Ha Ra) | exact (Get _ _ Hb Rb) | exact (Get _ _ Hc Rc) | exact (Get _ _ Hd Rd) ].
Qed.

Lemma lower2_no_circles : no_circles value upper lower2.
Proof.
  intros i j t u x a b c d Ct Cu T U Fx Gx _ Va Vb Vc Vd Ap (o & E1 & E2 & E3).
  destruct (upper_faces _ _ Ct) as [ET | P], (lower2_faces _ _ Cu) as [EU | N].
  - unfold T, U in *. rewrite ET, EU in *.
    assert (RS : forall x y, same_point x y -> distance2 o x == distance2 o a -> distance2 o y == distance2 o a).
    { intros y z (A & B & C) H. rewrite <- H. unfold distance2, vdot, vsub. cbn [vx vy vz fst snd]. rewrite A, B, C. reflexivity. }
    destruct (four_of_four (fun x => distance2 o x == distance2 o a) _ _ _ _ a b c d RS (lower2_vertices _ Va) (lower2_vertices _ Vb) (lower2_vertices _ Vc) (lower2_vertices _ Vd) Ap (Qeq_refl _) (Qeq_sym _ _ E1) (Qeq_sym _ _ E2) (Qeq_sym _ _ E3)) as (K0 & K1 & K2 & K3).
    clear - K0 K1 K2 K3. set (r := distance2 o a) in *. clearbody r. destruct o as [ [ox oy] oz]. unfold distance2, vdot, vsub in *. cbn [vx vy vz fst snd] in *. lra.
  - specialize (N _ Gx). unfold T in Fx. rewrite ET in Fx. apply flat_z in Fx; [ lra | reflexivity .. ].
  - specialize (P _ Fx). unfold U in Gx. rewrite EU in Gx. apply flat_z in Gx; [ lra | reflexivity .. ].
  - specialize (P _ Fx). specialize (N _ Gx). lra.
Qed.

(** Heights without a tie at the corners of the overlap of [upper] and [lower]. *)
Definition steep (x : vec3) : Q := square x + vx x * vx x.
Lemma lower_no_ties : no_ties steep value upper lower.
Proof.
  intros i j t u x a b c d g e Ct Cu T U Fx Gx _ Va Vb Vc Vd Ap (La & Lb & Lc & Ld).
  destruct (upper_faces _ _ Ct) as [ET | P], (lower_faces _ _ Cu) as [EU | N].
  - unfold T, U in *. rewrite ET, EU in *.
    assert (RS : forall x y, same_point x y -> lifted steep g e x -> lifted steep g e y).
    { intros y z (A & B & C) H. unfold lifted, steep, square, vdot in *. rewrite <- A, <- B, <- C. exact H. }
    destruct (four_of_four (lifted steep g e) _ _ _ _ a b c d RS (lower_vertices _ Va) (lower_vertices _ Vb) (lower_vertices _ Vc) (lower_vertices _ Vd) Ap La Lb Lc Ld) as (K0 & K1 & K2 & K3).
    clear - K0 K1 K2 K3. destruct g as [ [gx gy] gz]. unfold lifted, steep, square, vdot in *. cbn [vx vy vz fst snd] in *. lra.
  - specialize (N _ Gx). unfold T in Fx. rewrite ET in Fx. apply flat_z in Fx; [ lra | reflexivity .. ].
  - specialize (P _ Fx). unfold U in Gx. rewrite EU in Gx. apply flat_z in Gx; [ lra | reflexivity .. ].
  - specialize (P _ Fx). specialize (N _ Gx). lra.
Qed.
