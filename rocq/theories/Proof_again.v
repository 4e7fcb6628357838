(** * The meshes that mixing and extracting give can be operands again *)
From Coq Require Import List Arith Bool QArith Lqa Lia.
From Verif Require Import Model_base Proof_base Model_geometry Model_soup Model_mesh Model_boolean Model_corefine.
From Verif Require Import Spec_boolean Spec_candidates Spec_side Spec_solid Spec_mesh Spec_conform Spec_defects Spec_ffi Spec_corefine.
From Verif Require Import Proof_extract Proof_builder Proof_fan Proof_extreme Proof_hull Proof_ffi_result Proof_cells Proof_outline Proof_bridge Proof_cut.
From Verif Require Proof_conform.
Import ListNotations.
Local Open Scope nat_scope.

Section Mesh.
  Context {P D : Type}.
  Variable coords : P -> vec3.
  Hypothesis Hinj : forall p q, same_point (coords p) (coords q) -> p = q.
  Variables (L R : soup vec3 D) (m : soup P (mixed_data D)) (border : list edge).
  Notation m3 := (located coords m).
  Hypothesis C : conforming L R m3 border.
  Definition loc (v : nat) : vec3 := match nth_error (points m) v with Some p => coords p | None => (0, 0, 0)%Q end.
  Notation tri := (triangle_of loc).
  Notation face i f := (nth_error (faces m) i = Some f).

  Lemma loc_at : forall v p, nth_error (points m) v = Some p -> loc v = coords p.
  Proof. intros v p H. unfold loc. now rewrite H. Qed.
  Lemma face_valid : forall i f v, face i f -> Spec_defects.has_vertex f v -> exists p, nth_error (points m) v = Some p.
  Proof.
    intros i [ [a b] c] v Hf Hv. destruct (cf_valid _ _ _ _ C) as (V & _). unfold valid_faces in V. rewrite Forall_forall in V.
    specialize (V _ (nth_error_In _ _ Hf)). cbn in V. rewrite !map_length in V.
    destruct (nth_error (points m) v) as [ p | ] eqn:E; [ eauto | ]. apply nth_error_None in E. destruct Hv as [ -> | [ -> | -> ] ]; lia.
  Qed.
  Lemma face_part : forall i f, face i f -> exists s, part m3 i s (tri f).
  Proof.
    intros i f Hf. assert (Hl : i < length (faces m)) by (apply nth_error_Some; congruence).
    destruct (Proof_conform.face_part _ _ _ _ C i Hl) as (s & T & HT). exists s. enough (T = tri f) as -> by exact HT.
    destruct HT as (HT & _). apply located_corners in HT. destruct HT as (t & (a & b & c & p & q & r & E & A & B & Cc & ->) & ->).
    assert (f = (a, b, c)) by congruence. subst f. cbn [triangle_of]. now rewrite (loc_at _ _ A), (loc_at _ _ B), (loc_at _ _ Cc).
  Qed.
  Lemma face_nd : forall i f, face i f -> nondegenerate (tri f).
  Proof. intros i f Hf. destruct (face_part i f Hf) as (s & HT). exact (flat_nd _ (cf_nondegenerate _ _ _ _ C i s _ HT)). Qed.
  Lemma in_incident : forall i f v, face i f -> (Spec_mesh.incident (faces m3) i v <-> Spec_defects.has_vertex f v).
  Proof.
    intros i f v Hf. split; [ intros (g & E & H) | intro H; exists f; auto ]. cbn [located faces] in E. assert (g = f) by congruence. subst g. exact H.
  Qed.
  (** An edge of [f] that meets [g] is an edge of [g]. *)
  Lemma edge_shared : forall i j f g a b x, face i f -> face j g -> a <> b -> Spec_defects.has_vertex f a -> Spec_defects.has_vertex f b ->
    strictly_between (loc a) (loc b) x -> inside (tri g) x -> Spec_defects.has_vertex g a /\ Spec_defects.has_vertex g b.
  Proof.
    intros i j f g a b x Hf Hg N Ha Hb Hx Hi.
    destruct (face_valid i f a Hf Ha) as (pa & Ea). destruct (face_valid i f b Hf Hb) as (pb & Eb). destruct (face_part j g Hg) as (s & HT).
    destruct (cf_edge _ _ _ _ C i j a b (coords pa) (coords pb) x s (tri g)) as (X1 & X2); auto.
    - now apply (in_incident i f).
    - now apply (in_incident i f).
    - cbn [located points]. now rewrite nth_error_map, Ea.
    - cbn [located points]. now rewrite nth_error_map, Eb.
    - apply open_between. now rewrite <- (loc_at _ _ Ea), <- (loc_at _ _ Eb).
    - now apply on_inside.
    - split; [ apply (in_incident j g) in X1 | apply (in_incident j g) in X2 ]; assumption.
  Qed.
  (** A face that meets the inside of another one has the same vertices. *)
  Lemma inner_shared : forall i j f g x, face i f -> face j g -> in_feature (tri f) full x -> inside (tri g) x ->
    forall v, Spec_defects.has_vertex f v <-> Spec_defects.has_vertex g v.
  Proof.
    intros i j f g x Hf Hg Hx Hi v. apply in_full in Hx. apply on_inside in Hi.
    destruct (face_part i f Hf) as (s & HT), (face_part j g Hg) as (s' & HU). destruct (Bool.bool_dec s' s) as [ -> | Ns ].
    - rewrite (cf_apart _ _ _ _ C i j s _ _ x HT HU Hx Hi) in Hg. assert (g = f) by congruence. subst g. tauto.
    - assert (s' = negb s) by (destruct s, s'; auto; congruence). subst s'.
      destruct (cf_open _ _ _ _ C i j s _ _ x HT HU Hx Hi) as (f' & g' & E1 & E2 & H). cbn [located faces] in E1, E2.
      assert (f' = f) by congruence. assert (g' = g) by congruence. subst f' g'. apply H.
  Qed.

  Lemma small_feature : forall i j f g mi x, face i f -> face j g -> in_feature (tri f) mi x -> inside (tri g) x -> bits mi <= 2 ->
    exists m', in_feature (tri g) m' x /\ bits m' = bits mi /\ forall v, In v (pick mi f) -> exists w, In w (pick m' g) /\ same_point (loc v) (loc w).
  Proof.
    intros i j f g mi x Hf Hg Hx Hi Hb. pose proof (face_nd i f Hf) as Nf. pose proof (face_nd j g Hg) as Ng. pose proof (bits_pos _ _ _ Hx) as Hb0.
    assert (Hcase : bits mi = 1 \/ bits mi = 2) by lia. destruct Hcase as [ B | B ].
    - destruct (feature_vertex loc f mi x Hx B) as (v & Hv & Pv & Ev).
      destruct (inside_feature _ _ Hi) as (m2 & F2). pose proof (bits_pos _ _ _ F2) as B0.
      destruct (bits_full m2) as [ B2 | -> ].
      + assert (Hc2 : bits m2 = 1 \/ bits m2 = 2) by lia. destruct Hc2 as [ B1 | B1 ].
        * destruct (feature_vertex loc g m2 x F2 B1) as (w & Hw & Pw & Ew). exists m2. split; [ exact F2 | ]. split; [ lia | ].
          intros v' Hv'. apply Pv in Hv'. subst v'. exists w. split; [ now apply Pw | ]. eapply same_trans; [ apply same_sym; exact Ev | exact Ew ].
        * exfalso. destruct (feature_edge loc g m2 x Ng F2 B1) as (c & d & N & Hc & Hd & _ & Hs).
          destruct (edge_shared j i g f c d x Hg Hf N Hc Hd Hs (feature_inside _ _ _ Hx)) as (Fc & Fd).
          destruct (edge_feature loc f c d x Fc Fd N Hs) as (m4 & F4 & B4 & _). rewrite (feature_unique _ _ _ _ Nf Hx F4) in B. lia.
      + exfalso. pose proof (inner_shared j i g f x Hg Hf F2 (feature_inside _ _ _ Hx) v) as E. apply E in Hv.
        destruct (corner_feature loc g v Hv) as (m4 & F4 & B4 & _).
        assert (F5 : in_feature (tri g) m4 x) by (apply (feature_same _ _ (loc v)); [ apply same_sym; exact Ev | exact F4 ]).
        rewrite <- (feature_unique _ _ _ _ Ng F2 F5) in B4. cbn in B4. discriminate.
    - destruct (feature_edge loc f mi x Nf Hx B) as (a & b & N & Ha & Hb' & Pa & Hs).
      destruct (edge_shared i j f g a b x Hf Hg N Ha Hb' Hs Hi) as (Ga & Gb).
      destruct (edge_feature loc g a b x Ga Gb N Hs) as (m' & F' & B' & P'). exists m'. split; [ exact F' | ]. split; [ congruence | ].
      intros v Hv. exists v. split; [ apply P'; now apply Pa | ]. unfold same_point. repeat split; reflexivity.
  Qed.

  Lemma meet_one_way : forall i j f g mi mj x, face i f -> face j g -> in_feature (tri f) mi x -> in_feature (tri g) mj x ->
    forall v, In v (pick mi f) -> exists w, In w (pick mj g) /\ same_point (loc v) (loc w).
  Proof.
    intros i j f g mi mj x Hf Hg Hx Hy v Hv. pose proof (face_nd i f Hf) as Nf. pose proof (face_nd j g Hg) as Ng.
    destruct (bits_full mi) as [ B | -> ].
    - destruct (small_feature i j f g mi x Hf Hg Hx (feature_inside _ _ _ Hy)) as (m' & F' & _ & Hw); [ lia | ].
      rewrite (feature_unique _ _ _ _ Ng Hy F'). now apply Hw.
    - destruct (bits_full mj) as [ B | -> ].
      + exfalso. destruct (small_feature j i g f mj x Hg Hf Hy (feature_inside _ _ _ Hx)) as (m' & F' & B' & _); [ lia | ].
        rewrite <- (feature_unique _ _ _ _ Nf Hx F') in B'. cbn in B'. lia.
      + exists v. split; [ | unfold same_point; repeat split; reflexivity ]. apply has_pick. apply (inner_shared i j f g x Hf Hg Hx (feature_inside _ _ _ Hy)).
        now apply has_pick.
  Qed.

  Lemma at_corners : forall i t, face_corners m i t -> exists f, face i f /\ tri f = triangle_of coords t /\
    forall k, (forall p, In p (pick k t) -> exists v, In v (pick k f) /\ nth_error (points m) v = Some p) /\
      (forall v, In v (pick k f) -> exists p, In p (pick k t) /\ nth_error (points m) v = Some p).
  Proof.
    intros i t (a & b & c & p & q & r & E & A & B & Cc & ->). exists (a, b, c). split; [ exact E | ]. split.
    - cbn [triangle_of]. now rewrite (loc_at _ _ A), (loc_at _ _ B), (loc_at _ _ Cc).
    - intros [ [k0 k1] k2]. split.
      + intros x Hx. destruct k0, k1, k2; cbn [pick app In] in *;
          repeat match goal with H : _ \/ _ |- _ => destruct H as [ <- | H ] | H : False |- _ => destruct H end; eauto 6.
      + intros x Hx. destruct k0, k1, k2; cbn [pick app In] in *;
          repeat match goal with H : _ \/ _ |- _ => destruct H as [ <- | H ] | H : False |- _ => destruct H end; eauto 6.
  Qed.

  Theorem conforming_simplicial : simplicial coords m.
  Proof.
    assert (W : forall i j t u mi mj x, face_corners m i t -> face_corners m j u ->
      in_feature (triangle_of coords t) mi x -> in_feature (triangle_of coords u) mj x -> forall p, In p (pick mi t) -> In p (pick mj u)).
    { intros i j t u mi mj x Ht Hu Hx Hy p Hp. destruct (at_corners i t Ht) as (f & Hf & Ef & Kf), (at_corners j u Hu) as (g & Hg & Eg & Kg).
      rewrite <- Ef in Hx. rewrite <- Eg in Hy. destruct (proj1 (Kf mi) p Hp) as (v & Hv & Ev).
      destruct (meet_one_way i j f g mi mj x Hf Hg Hx Hy v Hv) as (w & Hw & Ew). destruct (proj2 (Kg mj) w Hw) as (q & Hq & Eq).
      rewrite (loc_at _ _ Ev), (loc_at _ _ Eq) in Ew. rewrite (Hinj _ _ Ew). exact Hq. }
    intros i j t u mi mj x Ht Hu Hx Hy p. split; [ apply (W i j t u mi mj x) | apply (W j i u t mj mi x) ]; assumption.
  Qed.
End Mesh.

(** ** Choosing and turning faces *)
Definition flip_mask (k : bool * bool * bool) : bool * bool * bool := let '(k0, k1, k2) := k in (k0, k2, k1).
Lemma flip_feature : forall {P} (coords : P -> vec3) t k x, in_feature (triangle_of coords (flip t)) k x -> in_feature (triangle_of coords t) (flip_mask k) x.
Proof.
  intros P coords [ [p q] r] [ [k0 k1] k2] x (u & v & w & (Hu & Hv & Hw & E) & S). exists u, w, v. repeat split; auto; [ rewrite <- E; ring | .. ];
    destruct S as (S1 & S2 & S3); cbn [flip triangle_of comb] in *; unfold comb, vx, vy, vz in *; cbn [fst snd] in *; [ rewrite S1 | rewrite S2 | rewrite S3 ]; ring.
Qed.
Lemma flip_pick : forall {A} k (t : A * A * A) p, In p (pick k (flip t)) <-> In p (pick (flip_mask k) t).
Proof. intros A [ [k0 k1] k2] [ [x y] z] p. destruct k0, k1, k2; cbn [flip flip_mask pick app In]; tauto. Qed.

Lemma simplicial_of : forall {P D D'} (coords : P -> vec3) (m : soup P D) (s : soup P D'), simplicial coords m ->
  (forall i t, face_corners s i t -> exists j t', face_corners m j t' /\ (t = t' \/ t = flip t')) -> simplicial coords s.
Proof.
  intros P D D' coords m s H Hs.
  assert (W : forall i t k x, face_corners s i t -> in_feature (triangle_of coords t) k x ->
    exists j t' k', face_corners m j t' /\ in_feature (triangle_of coords t') k' x /\ forall p, In p (pick k t) <-> In p (pick k' t')).
  { intros i t k x Ht Hx. destruct (Hs i t Ht) as (j & t' & Hj & [ -> | -> ]).
    - exists j, t', k. split; [ exact Hj | ]. split; [ exact Hx | ]. intro p. tauto.
    - exists j, t', (flip_mask k). split; [ exact Hj | ]. split; [ exact (flip_feature coords t' k x Hx) | apply flip_pick ]. }
  intros i j t u mi mj x Ht Hu Hx Hy p.
  destruct (W i t mi x Ht Hx) as (i' & t' & mi' & Ht' & Hx' & E1), (W j u mj x Hu Hy) as (j' & u' & mj' & Hu' & Hy' & E2).
  rewrite E1, E2. exact (H i' j' t' u' mi' mj' x Ht' Hu' Hx' Hy' p).
Qed.

Lemma corners_tris : forall {P D} (s : soup P D) i t, wf_soup s -> face_corners s i t -> exists d, nth_error (tris s) i = Some (Some t, d).
Proof.
  intros P D s i t (Le & _) (a & b & c & p & q & r & E & A & B & Cc & ->).
  assert (Hi : i < length (faces s)) by (apply nth_error_Some; congruence).
  destruct (nth_error (face_data s) i) as [ d | ] eqn:Ed; [ | apply nth_error_None in Ed; unfold num_faces in Le; lia ].
  exists d. unfold tris. apply nth_error_combine; [ | exact Ed ]. rewrite nth_error_map, E. cbn [option_map tri_of]. now rewrite A, B, Cc.
Qed.
Lemma tris_corners : forall {P D} (s : soup P D) i t d, nth_error (tris s) i = Some (Some t, d) -> face_corners s i t.
Proof.
  intros P D s i t d H. unfold tris in H.
  assert (G : exists f, nth_error (faces s) i = Some f /\ tri_of (points s) f = Some t).
  { revert H. generalize (face_data s) i. induction (faces s) as [ | f fs IH ]; intros [ | e es ] [ | k ] H; cbn in H; try discriminate.
    - injection H as H _. exists f. auto.
    - apply (IH es k) in H. exact H. }
  destruct G as ([ [a b] c] & E & H'). cbn [tri_of] in H'.
  destruct (nth_error (points s) a) as [ p | ] eqn:A; [ | discriminate ]. destruct (nth_error (points s) b) as [ q | ] eqn:B; [ | discriminate ].
  destruct (nth_error (points s) c) as [ r | ] eqn:Cc; [ | discriminate ]. injection H' as <-. exists a, b, c, p, q, r. auto 10.
Qed.

Lemma extract_simplicial : forall {P D} (d0 : D) coords (m : soup P (mixed_data D)) op pf s,
  wf_mixed m -> simplicial coords m -> extract d0 m op pf = Ok s -> simplicial coords s.
Proof.
  intros P D d0 coords m op pf s W H E. destruct (extract_correct d0 m op pf W) as (s' & E' & Ws & HT & _). rewrite E in E'. injection E' as <-.
  apply (simplicial_of coords m s H). intros i t Ht. destruct (corners_tris s i t Ws Ht) as (d & Ed).
  pose proof (consists_picked m op pf s HT) as HC. unfold consists_of in HC.
  assert (G : exists j (rv : bool) t' md, nth_error (tris m) j = Some (t', md) /\ (Some t, d) = (if rv then option_map flip t' else t', data md)).
  { clear - HC Ed. revert i Ed. induction HC as [ | [j rv] td l l' (t' & md & A & B) HC IH ]; intros [ | i ] Ed; cbn in Ed; try discriminate.
    - injection Ed as ->. exists j, rv, t', md. auto.
    - exact (IH i Ed). }
  destruct G as (j & rv & t' & md & A & B). injection B as B _. destruct rv.
  - destruct t' as [ t' | ]; [ | discriminate ]. injection B as ->. exists j, t'. split; [ exact (tris_corners m j t' md A) | auto ].
  - subst t'. exists j, t. split; [ exact (tris_corners m j t md A) | auto ].
Qed.

Lemma empty_simplicial : forall {P D} (coords : P -> vec3), simplicial coords (@empty_soup P D).
Proof. intros P D coords i j t u mi mj x (a & b & c & p & q & r & E & _). destruct i; discriminate. Qed.

Lemma run_simplicial : forall {P D} (d0 : D) coords (bd : builder) op pf (r : region P D),
  wf_mixed (mixed bd) -> simplicial coords (mixed bd) -> run d0 bd op pf = Ok r -> simplicial coords (boundary r).
Proof.
  intros P D d0 coords bd op pf r W H Hr. unfold run in Hr. destruct (extract_correct d0 (mixed bd) op pf W) as (s & Es & _).
  pose proof (extract_simplicial d0 coords (mixed bd) op pf s W H Es) as Hs. rewrite Es in Hr. cbn [bind] in Hr.
  assert (Sp : forall x, simplicial coords (boundary (@special P D x))) by (intros [ | ]; apply empty_simplicial).
  unfold region_of_soup in Hr. destruct (num_faces s =? 0) eqn:En; cbn [negb] in Hr.
  - destruct (_ || _) in Hr; [ injection Hr as <-; apply Sp | ]. destruct (_ || _) in Hr; [ injection Hr as <-; apply Sp | ].
    destruct op; try discriminate Hr; try (injection Hr as <-; apply empty_simplicial).
    all: apply bind_ok in Hr; destruct Hr as (c1 & _ & Hr); destruct c1; [ injection Hr as <-; first [ apply Sp | apply empty_simplicial ] | ];
      apply bind_ok in Hr; destruct Hr as (c2 & _ & Hr); destruct c2; [ injection Hr as <-; first [ apply Sp | apply empty_simplicial ] | discriminate ].
  - injection Hr as <-. exact Hs.
Qed.

(** The constructor of the builder, given that mixing gives such a mesh. *)
Lemma build_simplicial : forall {P D} (coords : P -> vec3) mix (a b : region P D) bd,
  wf_region a -> wf_region b -> simplicial coords (boundary a) -> simplicial coords (boundary b) ->
  (kind a = BOUNDARY_DEFINED -> kind b = BOUNDARY_DEFINED -> forall m w, mix (boundary a) (boundary b) = Ok (m, w) -> wf_mixed m /\ simplicial coords m) ->
  build mix a b = Ok bd -> wf_mixed (mixed bd) /\ simplicial coords (mixed bd).
Proof.
  intros P D coords mix [ka ma] [kb mb] bd Wa Wb Sa Sb Hm H. unfold build, is_empty_or_full, is_empty, is_full in H. unfold wf_region in Wa, Wb. cbn [kind boundary] in *.
  assert (E0 : wf_mixed (@empty_soup P (mixed_data D)) /\ simplicial coords (@empty_soup P (mixed_data D))).
  { split; [ split; [ reflexivity | constructor ] | apply empty_simplicial ]. }
  assert (One : forall (o : soup P D) (k : D -> mixed_data D), wf_soup o -> simplicial coords o ->
    wf_mixed (mk_soup (points o) (faces o) (map k (face_data o))) /\ simplicial coords (mk_soup (points o) (faces o) (map k (face_data o)))).
  { intros o k (Le & W) S. split; [ split; [ cbn; rewrite map_length; exact Le | exact W ] | ].
    apply (simplicial_of coords o _ S). intros i t Ht. exists i, t. split; [ exact Ht | auto ]. }
  destruct ka, kb; cbn [region_kind_eqb orb andb] in H; try (injection H as <-; exact E0).
  - subst ma. injection H as <-. cbn [mixed]. apply One; [ apply Wb | exact Sb ].
  - subst ma. injection H as <-. cbn [mixed]. apply One; [ apply Wb | exact Sb ].
  - subst mb. injection H as <-. cbn [mixed points faces face_data empty_soup map]. rewrite !app_nil_r. apply One; [ apply Wa | exact Sa ].
  - subst mb. injection H as <-. cbn [mixed points faces face_data empty_soup map]. rewrite !app_nil_r. apply One; [ apply Wa | exact Sa ].
  - apply bind_ok in H. destruct H as ([m w] & E & H). injection H as <-. exact (Hm eq_refl eq_refl m w E).
Qed.
