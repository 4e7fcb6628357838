(** * When coplanar pieces of two meshes coincide *)
From Coq Require Import List Arith Bool QArith Lqa Lia.
From Verif Require Import Model_base Model_geometry Model_soup Model_corefine Spec_candidates Spec_defects Spec_ffi Spec_corefine Spec_mix Spec_cut.
From Verif Require Import Proof_fan Proof_extreme Proof_hull Proof_ffi_result Proof_cells Proof_outline Proof_cut Proof_cut_faces Proof_cut_edges.
Import ListNotations.
Local Open Scope nat_scope.

Lemma three_of_three : forall a b c y0 y1 y2 : vec3, ~ same_point a b -> ~ same_point b c -> ~ same_point a c ->
  (forall x, x = a \/ x = b \/ x = c -> same_point x y0 \/ same_point x y1 \/ same_point x y2) ->
  forall y, y = y0 \/ y = y1 \/ y = y2 -> same_point y a \/ same_point y b \/ same_point y c.
Proof.
  intros a b c y0 y1 y2 Nab Nbc Nac H.
  assert (X : forall p q y, same_point p y -> same_point q y -> same_point p q) by (intros p q y A B; eapply same_trans; [ exact A | apply same_sym, B ]).
  pose proof (H a (or_introl eq_refl)) as Ha. pose proof (H b (or_intror (or_introl eq_refl))) as Hb. pose proof (H c (or_intror (or_intror eq_refl))) as Hc. clear H.
  destruct Ha as [Ha | [Ha | Ha] ], Hb as [Hb | [Hb | Hb] ]; try (exfalso; exact (Nab (X _ _ _ Ha Hb)));
    destruct Hc as [Hc | [Hc | Hc] ]; try (exfalso; exact (Nac (X _ _ _ Ha Hc))); try (exfalso; exact (Nbc (X _ _ _ Hb Hc)));
    apply same_sym in Ha; apply same_sym in Hb; apply same_sym in Hc; intros y [-> | [-> | ->] ]; auto.
Qed.

Section Agree.
  Variable pos : nat -> vec3.
  Variable fc : bool -> nat -> nat * nat * nat -> Prop.
  Variable unk : bool -> nat -> Prop.
  Variable tiles_of : bool -> nat -> list (nat * nat * nat).
  Variable outl : bool -> nat -> nat -> list nat.
  Notation tri := (triangle_of pos).
  Notation tile := (tile tiles_of).
  Notation vert := (vert fc outl).
  Hypothesis C : cutting pos fc unk tiles_of outl.

  Definition overlap_alike : Prop := forall s F t k T G u l U x, fc s F t -> unk s F -> tile s F k T -> fc (negb s) G u -> unk (negb s) G -> tile (negb s) G l U ->
    in_feature (tri T) full x -> in_feature (tri U) full x -> alike T U.

  Lemma within_plane : forall T u, (forall x, inside (tri T) x -> inside (tri u) x) -> nondegenerate (tri u) ->
    forall d, (vdot (normal (tri u)) d == 0 -> vdot (normal (tri T)) d == 0)%Q.
  Proof.
    intros [ [a b] c] u I Nu d Hd. cbn [triangle_of normal] in *.
    apply (plane_dependent (normal (tri u))); [ exact (nondegenerate_normal _ Nu) | | | exact Hd ]; apply inside_plane; apply I; [ apply (corner_inside pos (a, b, c) b) | apply (corner_inside pos (a, b, c) a) | apply (corner_inside pos (a, b, c) c) | apply (corner_inside pos (a, b, c) a) ]; cbn; auto.
  Qed.

  (** Around an inner point of a piece in a face of the other mesh there are inner points of
      pieces of that face. *)
  Lemma overlap_agree : overlap_alike -> forall s F t G u k T, fc s F t -> unk s F -> fc (negb s) G u -> unk (negb s) G -> tile s F k T ->
    (forall x, inside (tri T) x -> inside (tri u) x) -> exists l U, tile (negb s) G l U /\ alike T U.
  Proof.
    intros Ov s F t G u k T H Uf K Ug HT I. destruct (tile_in _ _ _ _ _ C s F t k T H HT) as (NT & It & Ot).
    pose proof (ct_nd _ _ _ _ _ C _ _ _ H) as Nt. pose proof (ct_nd _ _ _ _ _ C _ _ _ K) as Nu.
    set (x := center (tri T)). pose proof (center_in (tri T)) as Fx. fold x in Fx. pose proof (feature_inside _ _ _ Fx) as Ix.
    destruct (tl_cover _ _ (ct_tiles _ _ _ _ _ C (negb s) G u K) x (I x Ix)) as (TU & JU & IU). apply in_map_iff in JU. destruct JU as (U & <- & JU). apply In_nth_error in JU. destruct JU as (l & HU).
    exists l, U. split; [ exact HU | ]. destruct (tile_in _ _ _ _ _ C (negb s) G u l U K HU) as (NU & Iu & Ou).
    set (y := center (tri U)). pose proof (center_in (tri U)) as Fy. fold y in Fy.
    assert (Hd : (vdot (normal (tri T)) (vsub y x) == 0)%Q).
    { apply (within_plane T u I Nu). apply inside_plane; [ apply Iu, (feature_inside _ _ _ Fy) | exact (I x Ix) ]. }
    destruct (open_move _ x _ NT Fx Hd) as (e0 & P0 & Mv).
    assert (exists e, 0 < e /\ e <= e0 /\ e <= 1)%Q as (e & Pe) by (destruct (Qlt_le_dec e0 1); [ exists e0 | exists 1%Q ]; lra).
    apply (Ov s F t k T G u l U (mix x y e) H Uf HT K Ug HU).
    - apply (feature_same _ _ _ _ (move_to x y e)). apply Mv. lra.
    - apply toward; try tauto; exact Fy.
  Qed.

  (** The corners of a piece in a face of the other mesh are vertices of the intersection. *)
  Lemma corner_is_vertex : forall s F t k T G u v, fc s F t -> unk s F -> tile s F k T -> fc (negb s) G u -> unk (negb s) G ->
    (forall x, inside (tri T) x -> inside (tri u) x) -> has_vertex T v -> is_vertex (tri t) (tri u) (pos v).
  Proof.
    intros s F t k T G u v H Uf HT K Ug I Hv. destruct (tile_in _ _ _ _ _ C s F t k T H HT) as (NT & It & _).
    pose proof (ct_nd _ _ _ _ _ C _ _ _ H) as Nt. pose proof (ct_nd _ _ _ _ _ C _ _ _ K) as Nu. pose proof (corner_inside pos T v Hv) as Iv.
    destruct (cell_cases (tri t) (tri u) (pos v) Nt Nu (conj (It _ Iv) (I _ Iv))) as [V | [(y & z & Vy & Vz & Nyz & S & B) | (Ft & Fu & _)] ]; [ exact V | exfalso | ].
    - destruct (ct_all _ _ _ _ _ C s F G t u y H K Uf Ug Vy) as (i & Ji & Ei). destruct (ct_all _ _ _ _ _ C s F G t u z H K Uf Ug Vz) as (j & Jj & Ej).
      assert (Nij : i <> j) by (intros ->; apply Nyz; eapply same_trans; [ exact Ei | apply same_sym, Ej ]).
      pose proof (ct_side _ _ _ _ _ C s F G t u i j H K Ji Jj Nij) as N. destruct (neighbours_edge _ _ _ _ _ C s F G i j) as ((l & W & HW & Wi & Wj) & _).
      { exact (N (side_same _ _ _ _ _ _ Ei Ej S)). }
      assert (B' : strictly_between (pos i) (pos j) (pos v)) by exact (between_same _ _ _ _ _ _ Ei Ej (same_refl _) B).
      pose proof (edge_feature pos W i j (pos v) Wi Wj Nij B') as (m & Fm & Bm & _).
      pose proof (tile_vertex _ _ _ _ _ C s F t l W v H HW (ct_vert _ _ _ _ _ C s F k T v HT Hv) (feature_inside _ _ _ Fm)) as Wv.
      exact (no_corner pos W i j v (pos v) (proj1 (tile_in _ _ _ _ _ C s F t l W H HW)) Wi Wj Nij B' Wv (same_refl _)).
    - destruct (ct_vert _ _ _ _ _ C s F k T v HT Hv) as [(t' & H' & Hv') | (G' & J)].
      + rewrite (ct_fun _ _ _ _ _ C s F _ _ H' H) in Hv'. destruct (corner_feature pos t v Hv') as (m & Fm & Bm & _). pose proof (feature_unique _ _ _ _ Nt Fm Ft). subst m. discriminate.
      + destruct (ct_some _ _ _ _ _ C s F G') as (t' & u' & _ & _ & K' & _); [ intro E; rewrite E in J; destruct J | ].
        pose proof (ct_vertex _ _ _ _ _ C s F G' t u' v H K' J) as V. assert (G = G').
        { apply (face_apart _ _ _ _ _ C (negb s) G G' u u' (pos v) K K' Fu). destruct V as [ [_ X] _]. exact X. }
        subst G'. rewrite (ct_fun _ _ _ _ _ C _ _ _ _ K K'). exact V.
  Qed.

  Lemma triangular_alike : (forall s F t G u x, fc s F t -> unk s F -> fc (negb s) G u -> unk (negb s) G -> in_feature (tri t) full x -> in_feature (tri u) full x ->
      zero3 (vcross (normal (tri t)) (normal (tri u))) -> exists y0 y1 y2, forall y, is_vertex (tri t) (tri u) y -> same_point y y0 \/ same_point y y1 \/ same_point y y2) ->
    overlap_alike.
  Proof.
    intros Tr s F t k T G u l U x H Uf HT K Ug HU FT FU.
    destruct (tile_in _ _ _ _ _ C s F t k T H HT) as (NT & It & Ot). destruct (tile_in _ _ _ _ _ C (negb s) G u l U K HU) as (NU & Iu & Ou).
    pose proof (lies_in _ _ _ _ _ C s F t k T G u x H Uf HT K FT (Iu _ (feature_inside _ _ _ FU))) as TI.
    assert (H' : fc (negb (negb s)) F t) by (rewrite negb_involutive; exact H).
    pose proof (lies_in _ _ _ _ _ C (negb s) G u l U F t x K Ug HU H' FU (It _ (feature_inside _ _ _ FT))) as UI.
    destruct (inner _ _ _ _ _ C s F t k T G u x H Uf HT K FT (Iu _ (feature_inside _ _ _ FU))) as (_ & Fu & Z).
    destruct (Tr s F t G u x H Uf K Ug (Ot _ FT) Fu Z) as (y0 & y1 & y2 & Hy).
    assert (VT : forall v, has_vertex T v -> same_point (pos v) y0 \/ same_point (pos v) y1 \/ same_point (pos v) y2).
    { intros v Hv. apply Hy. exact (corner_is_vertex s F t k T G u v H Uf HT K Ug TI Hv). }
    assert (VU : forall v, has_vertex U v -> same_point (pos v) y0 \/ same_point (pos v) y1 \/ same_point (pos v) y2).
    { intros v Hv. apply Hy, vertex_sym. apply (corner_is_vertex (negb s) G u l U F t v K Ug HU H'); [ rewrite negb_involutive; exact Uf | exact UI | exact Hv ]. }
    assert (X : forall s F k T s' G l U, tile s F k T -> tile s' G l U -> nondegenerate (tri U) ->
      (forall v, has_vertex T v -> same_point (pos v) y0 \/ same_point (pos v) y1 \/ same_point (pos v) y2) ->
      (forall v, has_vertex U v -> same_point (pos v) y0 \/ same_point (pos v) y1 \/ same_point (pos v) y2) -> forall v, has_vertex T v -> has_vertex U v).
    { clear - C. intros s F k T s' G l U HT HU NU VT VU v Hv. destruct U as [ [a b] c].
      destruct (Proof_ffi_edge.distinct_corners _ _ _ NU) as (D1 & D2 & D3).
      assert (Y : forall y, y = y0 \/ y = y1 \/ y = y2 -> same_point y (pos a) \/ same_point y (pos b) \/ same_point y (pos c)).
      { apply three_of_three; auto; [ intro E; apply D3, same_sym, E | ]. intros z [-> | [-> | ->] ]; apply VU; cbn; auto. }
      assert (exists w, has_vertex (a, b, c) w /\ same_point (pos v) (pos w)) as (w & Hw & E).
      { assert (exists y, (y = y0 \/ y = y1 \/ y = y2) /\ same_point (pos v) y) as (y & Jy & Ey) by (destruct (VT v Hv) as [E | [E | E] ]; eauto 6).
        destruct (Y y Jy) as [E | [E | E] ]; [ exists a | exists b | exists c ]; (split; [ cbn; auto | eapply same_trans; eassumption ]). }
      rewrite (ct_inj _ _ _ _ _ C s F v s' G w (ct_vert _ _ _ _ _ C s F k T v HT Hv) (ct_vert _ _ _ _ _ C s' G l _ w HU Hw) E). exact Hw. }
    intro v. split; [ apply (X s F k T (negb s) G l U HT HU NU VT VU) | apply (X (negb s) G l U s F k T HU HT NT VU VT) ].
  Qed.

End Agree.
