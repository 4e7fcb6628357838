(** * Overlapping Delaunay triangulations have the same faces *)
From Coq Require Import List Arith Bool QArith Lqa Lia.
From Verif Require Import Model_base Model_geometry Model_soup Model_corefine Spec_candidates Spec_defects Spec_ffi Spec_corefine Spec_mix Spec_cut Spec_delaunay.
From Verif Require Import Proof_fan Proof_extreme Proof_hull Proof_ffi_result Proof_cells Proof_outline Proof_cut Proof_cut_pre Proof_cut_faces Proof_cut_edges Proof_cut_agree.
Import ListNotations.
Local Open Scope Q_scope.

Lemma same_point_dec : forall a b, {same_point a b} + {~ same_point a b}.
Proof.
  intros a b. unfold same_point. destruct (Qeq_dec (vx a) (vx b)), (Qeq_dec (vy a) (vy b)), (Qeq_dec (vz a) (vz b));
    [ left; auto | .. ]; right; tauto.
Qed.

(** ** Planes through lifted triangles *)
Lemma normal_square : forall d, ~ zero3 d -> ~ vdot d d == 0.
Proof. intros [ [x y] z] N E. apply N. unfold zero3, vdot in *. cbn [vx vy vz fst snd] in *. repeat split; nra. Qed.
Lemma lift_exists : forall h a b c, nondegenerate (a, b, c) -> exists g e, lifted h g e a /\ lifted h g e b /\ lifted h g e c.
Proof.
  intros h a b c N. pose proof (normal_square _ (nondegenerate_normal _ N)) as Nn. clear N. cbn [normal] in Nn.
  set (ab := vsub b a) in *. set (ac := vsub c a) in *. set (n := vcross ab ac) in *. set (q := vdot n n) in *.
  set (g := (((h b - h a) * vx (vcross ac n) + (h c - h a) * vx (vcross n ab)) / q,
             ((h b - h a) * vy (vcross ac n) + (h c - h a) * vy (vcross n ab)) / q,
             ((h b - h a) * vz (vcross ac n) + (h c - h a) * vz (vcross n ab)) / q) : vec3).
  assert (G1 : vdot g ab == h b - h a).
  { enough (X : vdot g ab * q == (h b - h a) * q) by (apply (Qmult_inj_r _ _ q Nn); exact X).
    unfold g, vdot. cbn [vx vy vz fst snd]. transitivity ((h b - h a) * vdot (vcross ac n) ab + (h c - h a) * vdot (vcross n ab) ab); [ unfold vdot; field; exact Nn | ].
    unfold q, n, vdot, vcross. cbn [vx vy vz fst snd]. ring. }
  assert (G2 : vdot g ac == h c - h a).
  { enough (X : vdot g ac * q == (h c - h a) * q) by (apply (Qmult_inj_r _ _ q Nn); exact X).
    unfold g, vdot. cbn [vx vy vz fst snd]. transitivity ((h b - h a) * vdot (vcross ac n) ac + (h c - h a) * vdot (vcross n ab) ac); [ unfold vdot; field; exact Nn | ].
    unfold q, n, vdot, vcross. cbn [vx vy vz fst snd]. ring. }
  exists g, (h a - vdot g a). clearbody g. unfold lifted. split; [ ring | ]. split.
  - transitivity (vdot g ab + h a); [ rewrite G1; ring | ]. unfold ab, vdot, vsub. cbn [vx vy vz fst snd]. ring.
  - transitivity (vdot g ac + h a); [ rewrite G2; ring | ]. unfold ac, vdot, vsub. cbn [vx vy vz fst snd]. ring.
Qed.

Lemma affine_comb : forall g e a b c u v w x, u + v + w == 1 -> same_point x (comb (a, b, c) u v w) ->
  vdot g x + e == u * (vdot g a + e) + v * (vdot g b + e) + w * (vdot g c + e).
Proof.
  intros g e a b c u v w x S (X & Y & Z). unfold comb, vdot in *. cbn [vx vy vz fst snd] in *. rewrite X, Y, Z.
  assert (E : e == (u + v + w) * e) by (rewrite S; ring). rewrite E at 1. ring.
Qed.
Lemma pos_zero3 : forall u v w a b c, 0 < u -> 0 < v -> 0 < w -> 0 <= a -> 0 <= b -> 0 <= c -> u * a + v * b + w * c == 0 -> a == 0 /\ b == 0 /\ c == 0.
Proof.
  intros u v w a b c U V W A B C E. assert (0 <= u * a) by nra. assert (0 <= v * b) by nra. assert (0 <= w * c) by nra.
  assert (u * a == 0) by lra. assert (v * b == 0) by lra. assert (w * c == 0) by lra. repeat split; nra.
Qed.

Lemma nonneg3 : forall u v w a b c, 0 < u -> 0 < v -> 0 < w -> 0 <= a -> 0 <= b -> 0 <= c -> 0 <= u * a + v * b + w * c.
Proof. intros. assert (0 <= u * a) by nra. assert (0 <= v * b) by nra. assert (0 <= w * c) by nra. lra. Qed.

(** Two triangles that overlap, each with no corner of the other below it, are in one plane when
    lifted. *)
Lemma lifted_together : forall h a b c p q r x, nondegenerate (a, b, c) -> nondegenerate (p, q, r) ->
  in_feature (a, b, c) full x -> in_feature (p, q, r) full x ->
  ~ under h (a, b, c) p -> ~ under h (a, b, c) q -> ~ under h (a, b, c) r ->
  ~ under h (p, q, r) a -> ~ under h (p, q, r) b -> ~ under h (p, q, r) c ->
  exists g e, lifted h g e a /\ lifted h g e b /\ lifted h g e c /\ lifted h g e p /\ lifted h g e q /\ lifted h g e r.
Proof.
  intros h a b c p q r x N N' (u & v & w & (U & V & W & S) & X) (u' & v' & w' & (U' & V' & W' & S') & X') Hp Hq Hr Ha Hb Hc. cbn [weight full] in *.
  destruct (lift_exists h a b c N) as (g & e & A & B & C). destruct (lift_exists h p q r N') as (g' & e' & P & Q & R).
  assert (L : forall z, ~ under h (a, b, c) z -> vdot g z + e <= h z) by (intros z Hz; destruct (Qlt_le_dec (h z) (vdot g z + e)) as [l | l]; [ exfalso; apply Hz; exists g, e; auto | exact l ]).
  assert (L' : forall z, ~ under h (p, q, r) z -> vdot g' z + e' <= h z) by (intros z Hz; destruct (Qlt_le_dec (h z) (vdot g' z + e')) as [l | l]; [ exfalso; apply Hz; exists g', e'; auto | exact l ]).
  pose proof (L p Hp) as Lp. pose proof (L q Hq) as Lq. pose proof (L r Hr) as Lr. pose proof (L' a Ha) as La. pose proof (L' b Hb) as Lb. pose proof (L' c Hc) as Lc.
  pose proof (affine_comb g e a b c u v w x S X) as E1. pose proof (affine_comb g' e' a b c u v w x S X) as E2.
  pose proof (affine_comb g e p q r u' v' w' x S' X') as E3. pose proof (affine_comb g' e' p q r u' v' w' x S' X') as E4.
  unfold lifted in *. clear L L' Hp Hq Hr Ha Hb Hc N N' X X'.
  assert (D1 : 0 <= u * (h a - (vdot g' a + e')) + v * (h b - (vdot g' b + e')) + w * (h c - (vdot g' c + e'))) by (apply nonneg3; lra).
  assert (D2 : 0 <= u' * (h p - (vdot g p + e)) + v' * (h q - (vdot g q + e)) + w' * (h r - (vdot g r + e))) by (apply nonneg3; lra).
  assert (D : u' * (h p - (vdot g p + e)) + v' * (h q - (vdot g q + e)) + w' * (h r - (vdot g r + e)) == 0).
  { assert (F1 : u * h a + v * h b + w * h c == vdot g x + e) by (rewrite E1, A, B, C; reflexivity).
    assert (F2 : u' * h p + v' * h q + w' * h r == vdot g' x + e') by (rewrite E4, P, Q, R; reflexivity). lra. }
  destruct (pos_zero3 u' v' w' (h p - (vdot g p + e)) (h q - (vdot g q + e)) (h r - (vdot g r + e)) U' V' W' ltac:(lra) ltac:(lra) ltac:(lra) D) as (D3 & D4 & D5).
  exists g, e. repeat split; try assumption; lra.
Qed.

(** ** Pieces *)
Section Regular.
  Variable pos : nat -> vec3.
  Variable fc : bool -> nat -> nat * nat * nat -> Prop.
  Variable unk : bool -> nat -> Prop.
  Variable tiles_of : bool -> nat -> list (nat * nat * nat).
  Variable outl : bool -> nat -> nat -> list nat.
  Notation tri := (triangle_of pos).
  Notation tile := (tile tiles_of).
  Notation vert := (vert fc outl).
  Hypothesis C : cutting pos fc unk tiles_of outl.
  Variable h : vec3 -> Q.
  Hypothesis regular : forall s F k T v y, tile s F k T -> vert s F v -> in_feature (tri T) full y ->
    (forall G i j z, neighbours (outl s F G) i j -> strictly_between y (pos v) z -> ~ on_segment (pos i) (pos j) z) -> ~ under h (tri T) (pos v).
  Hypothesis general : forall s F t G u x a b c d g e, fc s F t -> unk s F -> fc (negb s) G u -> unk (negb s) G ->
    in_feature (tri t) full x -> in_feature (tri u) full x -> zero3 (vcross (normal (tri t)) (normal (tri u))) ->
    is_vertex (tri t) (tri u) a -> is_vertex (tri t) (tri u) b -> is_vertex (tri t) (tri u) c -> is_vertex (tri t) (tri u) d -> Spec_delaunay.apart a b c d ->
    ~ (lifted h g e a /\ lifted h g e b /\ lifted h g e c /\ lifted h g e d).

  Lemma on_edge_not_full : forall T i j z, nondegenerate (tri T) -> has_vertex T i -> has_vertex T j -> i <> j -> on_segment (pos i) (pos j) z -> ~ in_feature (tri T) full z.
  Proof.
    intros T i j z N Hi Hj Nij (k & (K0 & K1) & X & Y & Z) Fz.
    destruct (Qeq_dec k 0) as [E0 | N0]; [ | destruct (Qeq_dec k 1) as [E1 | N1] ].
    - destruct (corner_feature pos T i Hi) as (m & Fm & Bm & _). assert (E : same_point (pos i) z) by (rewrite E0 in X, Y, Z; repeat split; [ rewrite X | rewrite Y | rewrite Z ]; ring).
      pose proof (feature_unique _ _ _ _ N Fz (feature_same _ _ _ _ E Fm)). subst m. discriminate.
    - destruct (corner_feature pos T j Hj) as (m & Fm & Bm & _). assert (E : same_point (pos j) z) by (rewrite E1 in X, Y, Z; repeat split; [ rewrite X | rewrite Y | rewrite Z ]; ring).
      pose proof (feature_unique _ _ _ _ N Fz (feature_same _ _ _ _ E Fm)). subst m. discriminate.
    - destruct (edge_feature pos T i j z Hi Hj Nij) as (m & Fm & Bm & _).
      { exists k. split; [ lra | ]. split; [ lra | ]. unfold mix, comb. repeat split; cbn [vx vy vz fst snd]; [ rewrite X | rewrite Y | rewrite Z ]; cbn; ring. }
      pose proof (feature_unique _ _ _ _ N Fz Fm). subst m. discriminate.
  Qed.

  (** The corners of a piece can be seen from a piece that overlaps it. *)
  Lemma overlap_visible : forall s F t k T G u l U x v, fc s F t -> unk s F -> tile s F k T -> fc (negb s) G u -> unk (negb s) G -> tile (negb s) G l U ->
    in_feature (tri T) full x -> in_feature (tri U) full x -> has_vertex U v ->
    forall G' i j z, neighbours (outl s F G') i j -> strictly_between x (pos v) z -> ~ on_segment (pos i) (pos j) z.
  Proof.
    intros s F t k T G u l U x v H Uf HT K Ug HU FT FU Hv G' i j z Nb (r & R0 & R1 & E) On.
    destruct (tile_in _ _ _ _ _ C (negb s) G u l U K HU) as (NU & Iu & Ou).
    assert (Fz : in_feature (tri U) full z).
    { apply (feature_same _ _ (mix (pos v) x (1 - r))); [ | apply toward; [ lra | lra | exact (corner_inside pos U v Hv) | exact FU ] ].
      eapply same_trans; [ | apply same_sym, E ]. unfold mix. destruct (pos v) as [ [? ?] ?], x as [ [? ?] ?]. coords. repeat split; ring. }
    destruct (proj2 (neighbours_edge _ _ _ _ _ C s F G' i j (or_introl Nb))) as (n & W & HW & Wi & Wj).
    destruct (neighbours_in _ _ _ Nb) as [Ji _]. destruct (ct_some _ _ _ _ _ C s F G') as (t' & u' & _ & _ & K' & _); [ intro X; rewrite X in Ji; destruct Ji | ].
    destruct (tile_in _ _ _ _ _ C (negb s) G' u' n W K' HW) as (NW & Iw & _).
    assert (IW : inside (tri W) z).
    { destruct On as (q & Q & X & Y & Z). apply (inside_same _ (mix (pos i) (pos j) q)); [ unfold mix; destruct (pos i) as [ [? ?] ?], (pos j) as [ [? ?] ?], z as [ [? ?] ?]; coords; repeat split; lra | ].
      apply inside_mix; [ exact Q | exact (corner_inside pos W i Wi) | exact (corner_inside pos W j Wj) ]. }
    pose proof (face_apart _ _ _ _ _ C (negb s) G G' u u' z K K' (Ou z Fz) (Iw z IW)). subst G'.
    pose proof (tile_apart _ _ _ _ _ C (negb s) G u l n U W z K HU HW Fz IW). subst n. unfold Proof_cut_faces.tile in HU, HW. rewrite HU in HW. injection HW as <-.
    exact (on_edge_not_full U i j z NU Wi Wj (neighbours_ne _ _ _ (ct_nodup _ _ _ _ _ C s F G) Nb) On Fz).
  Qed.

  Lemma regular_alike : overlap_alike pos fc unk tiles_of.
  Proof.
    intros s F t k T G u l U x H Uf HT K Ug HU FT FU.
    destruct (tile_in _ _ _ _ _ C s F t k T H HT) as (NT & It & Ot). destruct (tile_in _ _ _ _ _ C (negb s) G u l U K HU) as (NU & Iu & Ou).
    pose proof (lies_in _ _ _ _ _ C s F t k T G u x H Uf HT K FT (Iu _ (feature_inside _ _ _ FU))) as TI.
    assert (H' : fc (negb (negb s)) F t) by (rewrite negb_involutive; exact H). assert (Uf' : unk (negb (negb s)) F) by (rewrite negb_involutive; exact Uf).
    pose proof (lies_in _ _ _ _ _ C (negb s) G u l U F t x K Ug HU H' FU (It _ (feature_inside _ _ _ FT))) as UI.
    destruct (inner _ _ _ _ _ C s F t k T G u x H Uf HT K FT (Iu _ (feature_inside _ _ _ FU))) as (_ & Fu & Z).
    assert (VT : forall v, has_vertex T v -> is_vertex (tri t) (tri u) (pos v)) by (intros v Hv; exact (corner_is_vertex _ _ _ _ _ C s F t k T G u v H Uf HT K Ug TI Hv)).
    assert (VU : forall v, has_vertex U v -> is_vertex (tri t) (tri u) (pos v)).
    { intros v Hv. apply vertex_sym. exact (corner_is_vertex _ _ _ _ _ C (negb s) G u l U F t v K Ug HU H' Uf' UI Hv). }
    assert (HT' : tile (negb (negb s)) F k T) by (rewrite negb_involutive; exact HT).
    (* Vertices of a piece are vertices of the triangulation of the other face. *)
    assert (WU : forall v, has_vertex U v -> vert s F v).
    { intros v Hv. destruct (ct_all _ _ _ _ _ C s F G t u (pos v) H K Uf Ug (VU v Hv)) as (w & Jw & Ew). right. exists G.
      assert (v = w) as ->; [ | exact Jw ]. apply (ct_inj _ _ _ _ _ C (negb s) G v s F w); [ exact (ct_vert _ _ _ _ _ C _ _ _ _ _ HU Hv) | right; eauto | exact Ew ]. }
    assert (WT : forall v, has_vertex T v -> vert (negb s) G v).
    { intros v Hv. destruct (ct_all _ _ _ _ _ C s F G t u (pos v) H K Uf Ug (VT v Hv)) as (w & Jw & Ew). right. exists F. rewrite (ct_sym _ _ _ _ _ C).
      assert (v = w) as ->; [ | exact Jw ]. apply (ct_inj _ _ _ _ _ C s F v s F w); [ exact (ct_vert _ _ _ _ _ C _ _ _ _ _ HT Hv) | right; eauto | exact Ew ]. }
    assert (RU : forall v, has_vertex U v -> ~ under h (tri T) (pos v)).
    { intros v Hv. apply (regular s F k T v x HT (WU v Hv) FT). exact (overlap_visible s F t k T G u l U x v H Uf HT K Ug HU FT FU Hv). }
    assert (RT : forall v, has_vertex T v -> ~ under h (tri U) (pos v)).
    { intros v Hv. apply (regular (negb s) G l U v x HU (WT v Hv) FU). exact (overlap_visible (negb s) G u l U F t k T x v K Ug HU H' Uf' HT' FU FT Hv). }
    assert (exists g e, (forall v, has_vertex T v -> lifted h g e (pos v)) /\ forall v, has_vertex U v -> lifted h g e (pos v)) as (g & e & LT & LU).
    { clear - NT NU FT FU RU RT. destruct T as [ [a b] c], U as [ [p q] r]. cbn [triangle_of] in *.
      destruct (lifted_together h (pos a) (pos b) (pos c) (pos p) (pos q) (pos r) x NT NU FT FU) as (g & e & A & B & C & P & Q & R); try (apply RU; cbn; auto); try (apply RT; cbn; auto).
      exists g, e. split; intros v [-> | [-> | ->] ]; assumption. }
    assert (X : forall s1 F1 k1 T1 s2 F2 k2 T2 v, tile s1 F1 k1 T1 -> tile s2 F2 k2 T2 -> nondegenerate (tri T1) -> has_vertex T2 v ->
      (forall w, has_vertex T1 w -> is_vertex (tri t) (tri u) (pos w) /\ lifted h g e (pos w)) -> is_vertex (tri t) (tri u) (pos v) -> lifted h g e (pos v) -> has_vertex T1 v).
    { intros s1 F1 k1 [ [a b] c] s2 F2 k2 T2 v A1 A2 N1 Hv V1 V2 Lv. destruct (Proof_ffi_edge.distinct_corners _ _ _ N1) as (D1 & D2 & D3).
      assert (J : forall w, has_vertex (a, b, c) w -> same_point (pos w) (pos v) -> has_vertex (a, b, c) v).
      { intros w Hw E. rewrite <- (ct_inj _ _ _ _ _ C s1 F1 w s2 F2 v (ct_vert _ _ _ _ _ C _ _ _ _ _ A1 Hw) (ct_vert _ _ _ _ _ C _ _ _ _ _ A2 Hv) E). exact Hw. }
      destruct (same_point_dec (pos a) (pos v)) as [E | Na]; [ apply (J a); [ cbn; auto | exact E ] | ].
      destruct (same_point_dec (pos b) (pos v)) as [E | Nb]; [ apply (J b); [ cbn; auto | exact E ] | ].
      destruct (same_point_dec (pos c) (pos v)) as [E | Nc]; [ apply (J c); [ cbn; auto | exact E ] | ]. exfalso.
      destruct (V1 a) as [Va La]; [ cbn; auto | ]. destruct (V1 b) as [Vb Lb]; [ cbn; auto | ]. destruct (V1 c) as [Vc Lc]; [ cbn; auto | ].
      apply (general s F t G u x (pos a) (pos b) (pos c) (pos v) g e H Uf K Ug (Ot x FT) Fu Z Va Vb Vc V2); [ | auto ].
      split; [ exact D1 | ]. split; [ intro E; apply D3, same_sym, E | ]. auto. }
    intro v. split; intro Hv.
    - apply (X (negb s) G l U s F k T v HU HT NU Hv); auto.
    - apply (X s F k T (negb s) G l U v HT HU NT Hv); auto.
  Qed.
End Regular.
