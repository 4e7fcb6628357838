(** * Mixing two meshes gives a conforming mesh *)
From Coq Require Import List Arith Bool QArith Lqa Lia.
From Verif Require Import Model_base Proof_base Model_geometry Model_soup Model_mesh Model_aabb Model_points Model_boolean Model_classify Model_corefine Model_mix.
From Verif Require Import Spec_boolean Spec_candidates Spec_side Spec_solid Spec_conform Spec_defects Spec_ffi Spec_corefine Spec_mix Spec_cut Spec_delaunay.
From Verif Require Import Proof_open_shared.
From Verif Require Import Proof_corefine_all Proof_mix_faces Proof_bridge Proof_cells Proof_cut_faces Proof_cut_run Proof_cut_agree Proof_cut_mix Proof_delaunay Prop_corefine.
Import ListNotations.
Local Open Scope nat_scope.

(** The boundary of a solid consists of proper triangles, no two with the same corners. *)
Lemma solid_proper : forall {P D} (coords : P -> vec3) (m : soup P D), wf_soup m -> proper_faces (located coords m) -> proper coords m.
Proof.
  intros P D coords m [_ W] [_ N _] i Hi. destruct (nth_error (faces m) i) as [ [ [a b] c] | ] eqn:E; [ | apply nth_error_None in E; unfold num_faces in Hi; lia ].
  rewrite Forall_forall in W. destruct (W _ (nth_error_In _ _ E)) as (A & B & C).
  destruct (nth_error (points m) a) as [p | ] eqn:Ea; [ | apply nth_error_None in Ea; lia ]. destruct (nth_error (points m) b) as [q | ] eqn:Eb; [ | apply nth_error_None in Eb; lia ]. destruct (nth_error (points m) c) as [r | ] eqn:Ec; [ | apply nth_error_None in Ec; lia ].
  assert (X : face_corners m i (p, q, r)) by (exists a, b, c, p, q, r; auto 8). exists (p, q, r). split; [ exact X | ]. apply flat_nd. apply (N i). apply located_corners. exists (p, q, r). auto.
Qed.
Lemma solid_no_twins : forall {P D} (coords : P -> vec3) (m : soup P D), proper_faces (located coords m) -> no_twins m.
Proof.
  intros P D coords m [_ _ Ap] i j p q r p' q' r' Ci Cj H. symmetry.
  assert (Ti : soup_triangle (located coords m) i = Ok (coords p, coords q, coords r)) by (apply located_corners; exists (p, q, r); auto).
  assert (Tj : soup_triangle (located coords m) j = Ok (coords p', coords q', coords r')) by (apply located_corners; exists (p', q', r'); auto).
  set (x := Proof_cut.center (coords p, coords q, coords r)).
  apply (Ap i j (coords p) (coords q) (coords r) x Ti).
  - apply (in_full x (coords p, coords q, coords r)), Proof_cut.center_in.
  - exists (coords p'), (coords q'), (coords r'). split; [ exact Tj | ]. apply (on_inside x (coords p', coords q', coords r')).
    assert (K : closed (triangle_of coords (p', q', r')) full x).
    { apply (closed_pick coords (p, q, r) full); [ intros y J; exact (proj1 (H y) J) | ].
      destruct (Proof_extreme.feature_inside _ full _ (Proof_cut.center_in (coords p, coords q, coords r))) as (u & v & w & W & X). exists u, v, w. split; [ exact W | ]. split; [ cbn; auto | exact X ]. }
    destruct K as (u & v & w & W & _ & X). exists u, v, w. auto.
Qed.

(** ** Two faces at every edge *)
Section Fair.
  Context {P D : Type}.
  Variable P_eqb : P -> P -> bool.
  Hypothesis Heq : forall a b, P_eqb a b = true <-> a = b.
  Lemma point_dec : forall a b : P, {a = b} + {a <> b}.
  Proof. intros a b. destruct (P_eqb a b) eqn:E; [ left; apply Heq, E | right; intro X; apply Heq in X; congruence ]. Qed.
  Lemma points_dec : forall t u : P * P * P, (forall p, has_point t p <-> has_point u p) \/ ~ (forall p, has_point t p <-> has_point u p).
  Proof.
    assert (H1 : forall (u : P * P * P) p, has_point u p \/ ~ has_point u p).
    { intros [ [x y] z] p. cbn. destruct (point_dec p x), (point_dec p y), (point_dec p z); tauto. }
    assert (H2 : forall t u : P * P * P, (forall p, has_point t p -> has_point u p) \/ ~ (forall p, has_point t p -> has_point u p)).
    { intros [ [x y] z] u. destruct (H1 u x) as [X | X]; [ | right; intro G; apply X, G; cbn; auto ]. destruct (H1 u y) as [Y | Y]; [ | right; intro G; apply Y, G; cbn; auto ].
      destruct (H1 u z) as [Z | Z]; [ | right; intro G; apply Z, G; cbn; auto ]. left. intros p [-> | [-> | ->] ]; assumption. }
    intros t u. destruct (H2 t u) as [A | A]; [ | right; intro G; apply A; intros p; apply G ]. destruct (H2 u t) as [B | B]; [ | right; intro G; apply B; intros p; apply G ]. left. intro p. split; auto.
  Qed.
  Lemma corners_dec : forall (m : soup P D) i, (exists t, face_corners m i t) \/ ~ exists t, face_corners m i t.
  Proof.
    intros m i. destruct (nth_error (faces m) i) as [ [ [a b] c] | ] eqn:E.
    2: { right. intros (t & a & b & c & p & q & r & E' & _). congruence. }
    destruct (nth_error (points m) a) as [p | ] eqn:Ea; [ | right; intros (t & a' & b' & c' & p & q & r & E' & A & _); congruence ].
    destruct (nth_error (points m) b) as [q | ] eqn:Eb; [ | right; intros (t & a' & b' & c' & p' & q & r & E' & A & B & _); congruence ].
    destruct (nth_error (points m) c) as [r | ] eqn:Ec; [ | right; intros (t & a' & b' & c' & p' & q' & r & E' & A & B & C & _); congruence ].
    left. exists (p, q, r), a, b, c, p, q, r. auto.
  Qed.
  Lemma corners_same : forall (m : soup P D) i t u, face_corners m i t -> face_corners m i u -> t = u.
  Proof. intros m i t u (a & b & c & p & q & r & E & A & B & C & ->) (a' & b' & c' & p' & q' & r' & E' & A' & B' & C' & ->). congruence. Qed.
  Lemma coincides_dec : forall (o : soup P D) t, coincides o t \/ ~ coincides o t.
  Proof.
    intros o t.
    assert (G : forall n, (exists j u, j < n /\ face_corners o j u /\ forall p, has_point t p <-> has_point u p) \/ ~ (exists j u, j < n /\ face_corners o j u /\ forall p, has_point t p <-> has_point u p)).
    { induction n as [ | n IH]; [ right; intros (j & u & L & _); lia | ]. destruct IH as [ (j & u & L & X) | N]; [ left; exists j, u; split; [ lia | exact X ] | ].
      destruct (corners_dec o n) as [ (u & C) | Nc].
      - destruct (points_dec t u) as [E | E]; [ left; exists n, u; split; [ lia | auto ] | right ]. intros (j & u' & L & C' & E'). destruct (Nat.eq_dec j n) as [-> | Nj].
        + rewrite (corners_same _ _ _ _ C' C) in E'. exact (E E').
        + apply N. exists j, u'. split; [ lia | auto ].
      - right. intros (j & u' & L & C' & E'). destruct (Nat.eq_dec j n) as [-> | Nj]; [ apply Nc; eauto | apply N; exists j, u'; split; [ lia | auto ] ]. }
    destruct (G (num_faces o)) as [ (j & u & _ & X) | N]; [ left; exists j, u; exact X | right ]. intros (j & u & C & E). apply N. exists j, u. split; [ | auto ].
    destruct C as (a & b & c & p & q & r & E' & _). unfold num_faces. apply nth_error_Some. congruence.
  Qed.
  Lemma two_faces_fair : forall m o : soup P D, no_twins o -> two_faces_per_edge m -> two_faces_per_edge o -> fair_edges m o.
  Proof.
    intros m o Tw Tm To i t j u p q Ci Nt Cj N Tp Tq Up Uq. destruct (coincides_dec m u) as [Cu | Nu]; [ | exists j, u; auto ].
    destruct (To j u p q Cj Up Uq N) as (k & v & Nk & Ck & Vp & Vq & _). destruct (coincides_dec m v) as [Cv | Nv]; [ exfalso | exists k, v; auto ].
    destruct Cu as (i1 & t1 & C1 & E1), Cv as (i2 & t2 & C2 & E2). destruct (Tm i t p q Ci Tp Tq N) as (i' & t' & _ & _ & _ & _ & All).
    assert (X1 : i1 = i'). { destruct (All i1 t1 C1 (proj1 (E1 p) Up) (proj1 (E1 q) Uq)) as [-> | X]; [ exfalso | exact X ]. apply Nt. exists j, u. split; [ exact Cj | ]. rewrite (corners_same _ _ _ _ Ci C1). intro x. symmetry. apply E1. }
    assert (X2 : i2 = i'). { destruct (All i2 t2 C2 (proj1 (E2 p) Vp) (proj1 (E2 q) Vq)) as [-> | X]; [ exfalso | exact X ]. apply Nt. exists k, v. split; [ exact Ck | ]. rewrite (corners_same _ _ _ _ Ci C2). intro x. symmetry. apply E2. }
    subst i1 i2. rewrite (corners_same _ _ _ _ C2 C1) in E2. apply Nk. destruct v as [ [v0 v1] v2], u as [ [u0 u1] u2]. apply (Tw k j _ _ _ _ _ _ Ck Cj).
    intro x. assert (S : forall a b c : P, In x [a; b; c] <-> has_point (a, b, c) x) by (intros; cbn; intuition). rewrite !S, E1. apply E2.
  Qed.
End Fair.

(** ** Assembly *)
Theorem mixed_conforming_ways : forall {P D} P_eqb coords pbox longest_axis sort_by nth_element_by cll cpl accepts cdt_faces
    num_threads (left right : soup P D) cf,
  exact_kernel P_eqb coords pbox sort_by nth_element_by cll cpl -> cdt_constrained coords cdt_faces cf -> 1 <= num_threads ->
  wf_soup left -> wf_soup right -> proper coords left -> proper coords right -> simplicial coords left -> simplicial coords right ->
  no_twins left -> no_twins right -> fair_edges left right -> fair_edges right left ->
  corefine P_eqb coords pbox longest_axis sort_by nth_element_by cll cpl accepts num_threads left right (Ok cf) ->
  exists fs ds border,
    mixed_mesh cdt_faces cf left right = Ok (finalize (mesh_of (cf_points cf) fs ds)) /\ get_intersecting_edges cf = Ok border /\ border_shared (located coords (mk_soup (cf_points cf) fs ds)) border /\
    (triangular_overlaps coords left right \/ overlaps_agree (located coords (mk_soup (cf_points cf) fs ds)) \/
     (exists h, cdt_lowest h coords cdt_faces cf /\ no_ties h coords left right) ->
     conforming (located coords left) (located coords right) (located coords (mk_soup (cf_points cf) fs ds)) border /\
     forall A B, starting (located coords left) (located coords right) A B (located coords (mk_soup (cf_points cf) fs ds)) border).
Proof.
  intros P D P_eqb coords pbox la sb nb cll cpl accepts cdt_faces nt left right cf K Hcdt Hnt Wl Wr Pl Pr Sl Sr Tl Tr Ul Ur H.
  destruct (C38_cut_along_the_intersection _ _ _ _ _ _ _ _ _ _ _ _ _ K Hnt Pl Pr Sl Sr H) as (o & border & Hout & Htag & Rl & Rr & B & Hb).
  destruct (C38_ids_name_the_points _ _ _ _ _ _ _ _ _ _ _ _ _ K Hnt Pl Pr H) as (Il & Ir & Nl & Nr & Gl & Gr).
  destruct (C38_tags _ _ _ _ _ _ _ _ _ _ _ _ _ K Pl Pr Tl Tr H) as (Al & Ar).
  destruct (C38_one_id_per_point _ _ _ _ _ _ _ _ _ _ _ _ _ K Hnt Pl Pr Sl Sr H) as (Huse & Hone).
  pose proof (ek_coords _ _ _ _ _ _ _ K) as Hinj.
  assert (Hproper : forall s, proper coords (mesh_ left right s)) by (intros [ | ]; assumption).
  assert (Hsimp : forall s, simplicial coords (mesh_ left right s)) by (intros [ | ]; assumption).
  assert (Htwins : forall s, no_twins (mesh_ left right s)) by (intros [ | ]; assumption).
  assert (Hrecv : forall s, receives (mesh_ left right s) (ids_ cf s) (cf_points cf) (tris_ cf s) (outl_ o s)) by (intros [ | ]; assumption).
  assert (Hlen : forall s, length (ids_ cf s) = length (points (mesh_ left right s))) by (intros [ | ]; assumption).
  assert (Hids : forall s v p i, nth_error (points (mesh_ left right s)) v = Some p -> nth_error (ids_ cf s) v = Some i -> nth_error (cf_points cf) i = Some p) by (intros [ | ]; assumption).
  assert (Htl : forall s, length (tags_ cf s) = num_faces (mesh_ left right s)) by (intros [ | ]; assumption).
  assert (Hrt : forall s F t, face_corners (mesh_ left right s) F t -> exists tag, nth_error (tags_ cf s) F = Some tag /\ right_tag (mesh_ left right (negb s)) t tag) by (intros [ | ]; assumption).
  assert (Hfair : forall s, fair_edges (mesh_ left right s) (mesh_ left right (negb s))) by (intros [ | ]; assumption).
  assert (Hdata : forall s, length (face_data (mesh_ left right s)) = num_faces (mesh_ left right s)) by (intros [ | ]; [ exact (proj1 Wl) | exact (proj1 Wr) ]).
  assert (C : cutting (pos_ coords cf) (fc_ left right cf) (unk_ cf) (tiles_ cdt_faces left right cf) (outl_ o)) by (eapply run_cutting; eassumption).
  assert (Hget : forall s F, F < num_faces (mesh_ left right s) -> get_faces cdt_faces (mesh_ left right s) F (tris_ cf s) (ids_ cf s) = Ok (tiles_ cdt_faces left right cf s F)).
  { intros s F HF. assert (exists f, fc_ left right cf s F f) as (f & Hf) by (eapply face_exists; eassumption).
    eapply proj1. eapply face_tiles; eassumption. }
  destruct (mixed_keys cdt_faces left right cf Hdata Htl Hget) as (ks & fs & ds & M & Nk & Ak & Fk & Dk).
  exists fs, ds, border. split; [ exact M | ]. split; [ exact B | ].
  assert (X1 : forall s F f, fc_ left right cf s F f -> exists t, face_corners (mesh_ left right s) F t /\ at_face (cf_points cf) f = Some t) by (eapply corners_of; eassumption).
  assert (X2 : forall s F t, face_corners (mesh_ left right s) F t -> exists f, fc_ left right cf s F f /\ at_face (cf_points cf) f = Some t) by (eapply fc_of; eassumption).
  assert (X3 : forall s F f s' G g t u, fc_ left right cf s F f -> fc_ left right cf s' G g -> at_face (cf_points cf) f = Some t -> at_face (cf_points cf) g = Some u -> (forall p, has_point t p <-> has_point u p) -> Proof_cut_faces.alike f g).
  { intros s F f s' G g t u Hf Hg Af Ag. enough (Proof_cut_faces.alike f g <-> (forall p, has_point t p <-> has_point u p)) as I by exact (proj2 I). eapply alike_points; eassumption. }
  assert (X4 : forall s F f, fc_ left right cf s F f -> F < num_faces (mesh_ left right s)).
  { intros s F f Hf. destruct (X1 s F f Hf) as (t & (a & b & c & p & q & r & E & _) & _). unfold num_faces. apply nth_error_Some. congruence. }
  assert (X5 : forall f t, at_face (cf_points cf) f = Some t -> triangle_of (pos_ coords cf) f = triangle_of coords t) by (eapply tri_at; eassumption).
  assert (X6 : forall s F v, vert (fc_ left right cf) (outl_ o) s F v -> exists p, nth_error (cf_points cf) v = Some p /\ pos_ coords cf v = coords p) by (eapply run_point; eassumption).
  assert (X7 : forall s F k T, tile (tiles_ cdt_faces left right cf) s F k T -> exists f, fc_ left right cf s F f) by (eapply tile_face; eassumption).
  assert (X8 : forall s F, unk_ cf s F <-> nth_error (tags_ cf s) F = Some UNKNOWN) by (intros s F; reflexivity).
  split; [ intros a b J; cbn [located faces]; eapply whole_border_shared; eassumption | ].
  intro Ov.
  assert (OA : overlap_alike (pos_ coords cf) (fc_ left right cf) (unk_ cf) (tiles_ cdt_faces left right cf)).
  { destruct Ov as [Ov | [Ov | (h & Lo & Ti)] ].
    - eapply triangular_alike; [ eassumption | ]. eapply run_triangular; eassumption.
    - eapply overlaps_alike; eassumption.
    - eapply (regular_alike _ _ _ _ _ C h); [ eapply run_lowest; eassumption | eapply run_ties; eassumption ]. }
  pose proof (overlap_agree _ _ _ _ _ C OA) as Ag.
  assert (Fa : forall s F f G g a b, fc_ left right cf s F f -> unk_ cf s F -> fc_ left right cf (negb s) G g -> a <> b ->
    has_vertex f a -> has_vertex f b -> has_vertex g a -> has_vertex g b ->
    exists G' g', fc_ left right cf (negb s) G' g' /\ unk_ cf (negb s) G' /\ has_vertex g' a /\ has_vertex g' b) by (eapply run_fair; eassumption).
  split; [ eapply whole_conforming; eassumption | intros A0 B0; eapply whole_starting; eassumption ].
Qed.

Theorem mixed_conforming_shared : forall {P D} P_eqb coords pbox longest_axis sort_by nth_element_by cll cpl accepts cdt_faces
    num_threads (left right : soup P D) cf,
  exact_kernel P_eqb coords pbox sort_by nth_element_by cll cpl -> cdt_constrained coords cdt_faces cf -> 1 <= num_threads ->
  wf_soup left -> wf_soup right -> proper coords left -> proper coords right -> simplicial coords left -> simplicial coords right ->
  no_twins left -> no_twins right -> fair_edges left right -> fair_edges right left ->
  corefine P_eqb coords pbox longest_axis sort_by nth_element_by cll cpl accepts num_threads left right (Ok cf) ->
  exists fs ds border,
    mixed_mesh cdt_faces cf left right = Ok (finalize (mesh_of (cf_points cf) fs ds)) /\ get_intersecting_edges cf = Ok border /\ border_shared (located coords (mk_soup (cf_points cf) fs ds)) border /\
    (triangular_overlaps coords left right \/ overlaps_agree (located coords (mk_soup (cf_points cf) fs ds)) ->
     conforming (located coords left) (located coords right) (located coords (mk_soup (cf_points cf) fs ds)) border /\
     forall A B, starting (located coords left) (located coords right) A B (located coords (mk_soup (cf_points cf) fs ds)) border).
Proof.
  intros P D P_eqb coords pbox la sb nb cll cpl accepts cdt_faces nt left right cf K Hcdt Hnt Wl Wr Pl Pr Sl Sr Tl Tr Ul Ur H.
  destruct (mixed_conforming_ways _ _ _ _ _ _ _ _ _ _ _ _ _ _ K Hcdt Hnt Wl Wr Pl Pr Sl Sr Tl Tr Ul Ur H) as (fs & ds & border & E1 & E2 & E3 & E4).
  exists fs, ds, border. split; [ exact E1 | ]. split; [ exact E2 | ]. split; [ exact E3 | ]. intro Ov. apply E4. destruct Ov as [Ov | Ov]; auto.
Qed.

Theorem mixed_conforming : forall {P D} P_eqb coords pbox longest_axis sort_by nth_element_by cll cpl accepts cdt_faces
    num_threads (left right : soup P D) cf,
  exact_kernel P_eqb coords pbox sort_by nth_element_by cll cpl -> cdt_constrained coords cdt_faces cf -> 1 <= num_threads ->
  wf_soup left -> wf_soup right -> proper coords left -> proper coords right -> simplicial coords left -> simplicial coords right ->
  no_twins left -> no_twins right -> fair_edges left right -> fair_edges right left ->
  corefine P_eqb coords pbox longest_axis sort_by nth_element_by cll cpl accepts num_threads left right (Ok cf) ->
  exists fs ds border,
    mixed_mesh cdt_faces cf left right = Ok (finalize (mesh_of (cf_points cf) fs ds)) /\ get_intersecting_edges cf = Ok border /\
    (triangular_overlaps coords left right \/ overlaps_agree (located coords (mk_soup (cf_points cf) fs ds)) ->
     conforming (located coords left) (located coords right) (located coords (mk_soup (cf_points cf) fs ds)) border /\
     forall A B, starting (located coords left) (located coords right) A B (located coords (mk_soup (cf_points cf) fs ds)) border).
Proof.
  intros P D P_eqb coords pbox la sb nb cll cpl accepts cdt_faces nt left right cf K Hcdt Hnt Wl Wr Pl Pr Sl Sr Tl Tr Ul Ur H.
  destruct (mixed_conforming_shared _ _ _ _ _ _ _ _ _ _ _ _ _ _ K Hcdt Hnt Wl Wr Pl Pr Sl Sr Tl Tr Ul Ur H) as (fs & ds & border & E1 & E2 & _ & E3).
  exists fs, ds, border. auto.
Qed.
