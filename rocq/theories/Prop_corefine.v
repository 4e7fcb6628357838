(** * C38: Cutting two meshes along their intersection *)
From Coq Require Import List Arith NArith Bool QArith Qcanon Lqa Lia Permutation Sorted.
From Verif Require Import Model_base Proof_base Model_geometry Model_soup Model_region Model_points Model_ffi Model_aabb Model_parallel_do Model_candidates Model_corefine.
From Verif Require Import Spec_aabb Spec_candidates Spec_defects Spec_ffi Spec_corefine Proof_corefine_tri Proof_corefine_run Proof_corefine_all Proof_corefine_exists Proof_exact.
From Verif Require Import Proof_ffi_edge Prop_candidates.
Import ListNotations.
Local Open Scope nat_scope.

(** What is assumed about the numbers, the sorting functions and the two constructions
    from CGAL: points are compared exactly and have exact coordinates, boxes contain their
    points, sorting rearranges, and the constructions return the common point. *)
Record exact_kernel {P} (P_eqb : P -> P -> bool) (coords : P -> vec3) (pbox : P -> box)
    (sort_by : nat -> list (box * nat) -> list (box * nat)) (nth_element_by : nat -> nat -> list (box * nat) -> list (box * nat))
    (cll : P -> P -> P -> P -> P) (cpl : P -> P -> P -> P -> P -> P) : Prop := {
  ek_eqb : forall a b, P_eqb a b = true <-> a = b;
  ek_coords : forall p q, same_point (coords p) (coords q) -> p = q;
  ek_box : forall p, in_box (coords p) (pbox p);
  ek_sort : rearranges sort_by nth_element_by;
  ek_ll : ll_correct coords cll;
  ek_pl : pl_correct coords cpl
}.

(** For two meshes of proper triangles without self-intersections, and any schedule and
    order of the records: every two faces that do not coincide with faces of the other mesh
    have the outline of their intersection; the triangulation of each face of either mesh
    receives exactly its outlines; the edges that Corefine reports are exactly those of the
    outlines. *)
Theorem C38_cut_along_the_intersection : forall {P D} P_eqb coords pbox longest_axis sort_by nth_element_by cll cpl accepts
    num_threads (left right : soup P D) cf,
  exact_kernel P_eqb coords pbox sort_by nth_element_by cll cpl -> 1 <= num_threads ->
  proper coords left -> proper coords right -> simplicial coords left -> simplicial coords right ->
  corefine P_eqb coords pbox longest_axis sort_by nth_element_by cll cpl accepts num_threads left right (Ok cf) ->
  exists (outl : nat -> nat -> list nat) border,
    (forall L R t u, face_corners left L t -> face_corners right R u ->
       nth_error (cf_left_tags cf) L = Some UNKNOWN -> nth_error (cf_right_tags cf) R = Some UNKNOWN ->
       outline coords (cf_points cf) (triangle_of coords t) (triangle_of coords u) (outl L R)) /\
    (forall L R, outl L R <> [] -> nth_error (cf_left_tags cf) L = Some UNKNOWN /\ nth_error (cf_right_tags cf) R = Some UNKNOWN) /\
    receives left (cf_left_ids cf) (cf_points cf) (cf_left_tris cf) outl /\
    receives right (cf_right_ids cf) (cf_points cf) (cf_right_tris cf) (fun R L => outl L R) /\
    get_intersecting_edges cf = Ok border /\
    (forall e, In e border <-> exists L R i j, neighbours (outl L R) i j /\ edge_between i j e).
Proof.
  intros P D P_eqb coords pbox la sb nb cll cpl accepts nt left right cf [H1 H2 H3 H4 H5 H6] Hnt Pl Pr Sl Sr H.
  remember (Ok cf) as r eqn:Er. destruct H as [pl lids rids ltags rtags pairs infos0 tr pl' infos1 infos2 infos3 ltris rtris Hs Ht Hp Hr Hi S2 Fl S3 Fr | ? ? ? ? ? ? x | ? ? ? ? ? ? ? ? x | ? ? ? ? ? ? ? ? r ? ? ? ? F | ? ? ? ? ? ? ? ? ? ? ? tris r ? ? ? ? ? ? ? F | ? ? ? ? ? ? ? ? ? ? ? ? ? tris r ? ? ? ? ? ? ? ? ? F ].
  2, 3: destruct x; discriminate.
  2-4: subst r; match type of F with fails ?x _ => destruct x; cbn in F; [ destruct F | discriminate | discriminate ] end.
  injection Er as <-. cbn [cf_points cf_left_ids cf_right_ids cf_left_tags cf_right_tags cf_infos cf_left_tris cf_right_tris].
  exists (outl infos1).
  destruct (border_side P_eqb H1 coords pbox H3 la sb nb H4 cll cpl nt Hnt left right Pl Pr pl lids rids Hs ltags rtags Ht pairs _ Hp infos0 tr _ Hr pl' infos1 Hi infos2 infos3 S2 S3 (mk_corefined (pl_points pl') lids rids ltags rtags infos3 ltris rtris) eq_refl) as (border & B1 & B2).
  exists border. split; [ | split; [ | split; [ | split; [ | split; [ exact B1 | exact B2 ] ] ] ] ].
  - intros L R t u. exact (outl_outline P_eqb H1 coords H2 pbox H3 la sb nb H4 cll cpl H5 H6 nt Hnt left right Pl Pr pl lids rids Hs ltags rtags Ht pairs _ Hp infos0 tr _ Hr pl' infos1 Hi L R t u).
  - intros L R. exact (outl_tags P_eqb H1 coords pbox H3 la sb nb H4 cll cpl nt Hnt left right Pl Pr pl lids rids Hs ltags rtags Ht pairs _ Hp infos0 tr _ Hr pl' infos1 Hi L R).
  - destruct (left_side P_eqb H1 coords H2 pbox H3 la sb nb H4 cll cpl H5 H6 accepts nt Hnt left right Pl Pr Sl Sr pl lids rids Hs ltags rtags Ht pairs _ Hp infos0 tr _ Hr pl' infos1 Hi infos2 S2 _ Fl) as [ [X _] | (tris & X & Y)]; [ discriminate X | injection X as <-; exact Y ].
  - destruct (right_side P_eqb H1 coords H2 pbox H3 la sb nb H4 cll cpl H5 H6 accepts nt Hnt left right Pl Pr Sl Sr pl lids rids Hs ltags rtags Ht pairs _ Hp infos0 tr _ Hr pl' infos1 Hi infos2 infos3 S2 S3 _ Fr) as [ [X _] | (tris & X & Y)]; [ discriminate X | injection X as <-; exact Y ].
Qed.
Print Assumptions C38_cut_along_the_intersection.

(** In particular the edges that stop the propagation of tags are exactly the constraints
    of the triangulations of the left mesh, and exactly those of the right mesh. *)
Theorem C38_border_is_the_constraints : forall {P D} P_eqb coords pbox longest_axis sort_by nth_element_by cll cpl accepts
    num_threads (left right : soup P D) cf,
  exact_kernel P_eqb coords pbox sort_by nth_element_by cll cpl -> 1 <= num_threads ->
  proper coords left -> proper coords right -> simplicial coords left -> simplicial coords right ->
  corefine P_eqb coords pbox longest_axis sort_by nth_element_by cll cpl accepts num_threads left right (Ok cf) ->
  exists border, get_intersecting_edges cf = Ok border /\ forall e,
    (In e border <-> exists L t i j, In (L, t) (cf_left_tris cf) /\ joined t i j /\ edge_between i j e) /\
    (In e border <-> exists R t i j, In (R, t) (cf_right_tris cf) /\ joined t i j /\ edge_between i j e).
Proof.
  intros P D P_eqb coords pbox la sb nb cll cpl accepts nt left right cf K Hnt Pl Pr Sl Sr H.
  destruct (C38_cut_along_the_intersection _ _ _ _ _ _ _ _ _ _ _ _ _ K Hnt Pl Pr Sl Sr H) as (outl & border & _ & _ & (_ & Le & Lt) & (_ & Re & Rt) & B & Hb).
  exists border. split; [ exact B | ]. intro e. rewrite Hb.
  assert (Sw : forall i j, edge_between i j e -> edge_between j i e) by (unfold edge_between; intros i j [ [-> | ->] X]; auto).
  assert (Ne : forall (l : list nat) i j, neighbours l i j -> l <> []) by (intros l i j (k & X & _) ->; cbn in X; lia).
  split; split.
  - intros (L & R & i & j & N & E). destruct (proj2 (Le L) (ex_intro _ R (Ne _ _ _ N))) as (t & J). exists L, t, i, j. split; [ exact J | ]. split; [ | exact E ].
    apply (proj1 (Lt L t J)). eauto.
  - intros (L & t & i & j & J & X & E). apply (proj1 (Lt L t J)) in X. destruct X as (R & [X | X]); [ exists L, R, i, j | exists L, R, j, i ]; auto.
  - intros (L & R & i & j & N & E). destruct (proj2 (Re R) (ex_intro _ L (Ne _ _ _ N))) as (t & J). exists R, t, i, j. split; [ exact J | ]. split; [ | exact E ].
    apply (proj1 (Rt R t J)). eauto.
  - intros (R & t & i & j & J & X & E). apply (proj1 (Rt R t J)) in X. destruct X as (L & [X | X]); [ exists L, R, i, j | exists L, R, j, i ]; auto.
Qed.
Print Assumptions C38_border_is_the_constraints.

(** Nothing is out of range, no two handles of a constraint are equal, and nothing is
    thrown but the runtime_error for a constraint that the triangulation rejects. *)
Theorem C38_only_rejected_constraints_fail : forall {P D} P_eqb coords pbox longest_axis sort_by nth_element_by cll cpl accepts
    num_threads (left right : soup P D) r,
  exact_kernel P_eqb coords pbox sort_by nth_element_by cll cpl -> 1 <= num_threads ->
  proper coords left -> proper coords right -> simplicial coords left -> simplicial coords right ->
  corefine P_eqb coords pbox longest_axis sort_by nth_element_by cll cpl accepts num_threads left right r ->
  (exists cf, r = Ok cf) \/ (r = Throw RuntimeError /\ exists t i j, accepts t i j = false).
Proof.
  intros P D P_eqb coords pbox la sb nb cll cpl accepts nt left right r [H1 H2 H3 H4 H5 H6] Hnt Pl Pr Sl Sr H.
  destruct H as [pl lids rids ltags rtags pairs infos0 tr pl' infos1 infos2 infos3 ltris rtris Hs Ht Hp Hr Hi S2 Fl S3 Fr
    | pl lids rids ltags rtags pairs x Hs Ht Hp
    | pl lids rids ltags rtags pairs infos0 tr x Hs Ht Hp Hr
    | pl lids rids ltags rtags pairs infos0 tr r Hs Ht Hp Hr F
    | pl lids rids ltags rtags pairs infos0 tr pl' infos1 infos2 tris r Hs Ht Hp Hr Hi S2 Fl F
    | pl lids rids ltags rtags pairs infos0 tr pl' infos1 infos2 infos3 ltris tris r Hs Ht Hp Hr Hi S2 Fl S3 Fr F ].
  - left. eauto.
  - exfalso. destruct (pairs_ok coords pbox H3 la sb nb H4 nt Hnt left right Pl Pr lids rids ltags rtags Ht pairs _ Hp) as (X & _); discriminate X.
  - exfalso. destruct (records_ok P_eqb H1 coords pbox H3 la sb nb H4 nt Hnt left right Pl Pr pl lids rids Hs ltags rtags Ht pairs _ Hp infos0 tr _ Hr) as (X & _); discriminate X.
  - exfalso. destruct (insert_total P_eqb H1 coords pbox H3 la sb nb H4 cll cpl nt Hnt left right Pl Pr pl lids rids Hs ltags rtags Ht pairs _ Hp infos0 tr _ Hr) as (pl' & infos1 & X). rewrite X in F; exact F.
  - destruct (left_side P_eqb H1 coords H2 pbox H3 la sb nb H4 cll cpl H5 H6 accepts nt Hnt left right Pl Pr Sl Sr pl lids rids Hs ltags rtags Ht pairs _ Hp infos0 tr _ Hr pl' infos1 Hi infos2 S2 _ Fl) as [ [X Y] | (ts & X & Y)]; subst tris; cbn in F; [ right; auto | destruct F ].
  - destruct (right_side P_eqb H1 coords H2 pbox H3 la sb nb H4 cll cpl H5 H6 accepts nt Hnt left right Pl Pr Sl Sr pl lids rids Hs ltags rtags Ht pairs _ Hp infos0 tr _ Hr pl' infos1 Hi infos2 infos3 S2 S3 _ Fr) as [ [X Y] | (ts & X & Y)]; subst tris; cbn in F; [ right; auto | destruct F ].
Qed.
Print Assumptions C38_only_rejected_constraints_fail.

(** The tags: a face of either mesh is COPLANAR or OPPOSITE when the other mesh has a face
    with the same points, and UNKNOWN otherwise. *)
Theorem C38_tags : forall {P D} P_eqb coords pbox longest_axis sort_by nth_element_by cll cpl accepts
    num_threads (left right : soup P D) cf,
  exact_kernel P_eqb coords pbox sort_by nth_element_by cll cpl ->
  proper coords left -> proper coords right -> no_twins left -> no_twins right ->
  corefine P_eqb coords pbox longest_axis sort_by nth_element_by cll cpl accepts num_threads left right (Ok cf) ->
  (forall L t, face_corners left L t -> exists tag, nth_error (cf_left_tags cf) L = Some tag /\ right_tag right t tag) /\
  (forall R u, face_corners right R u -> exists tag, nth_error (cf_right_tags cf) R = Some tag /\ right_tag left u tag).
Proof.
  intros P D P_eqb coords pbox la sb nb cll cpl accepts nt left right cf K Pl Pr Tl Tr H.
  remember (Ok cf) as r eqn:Er. destruct H as [pl lids rids ltags rtags pairs infos0 tr pl' infos1 infos2 infos3 ltris rtris Hs Ht Hp Hr Hi S2 Fl S3 Fr | ? ? ? ? ? ? x | ? ? ? ? ? ? ? ? x | ? ? ? ? ? ? ? ? r ? ? ? ? F | ? ? ? ? ? ? ? ? ? ? ? tris r ? ? ? ? ? ? ? F | ? ? ? ? ? ? ? ? ? ? ? ? ? tris r ? ? ? ? ? ? ? ? ? F ].
  2, 3: destruct x; discriminate.
  2-4: subst r; match type of F with fails ?x _ => destruct x; cbn in F; [ destruct F | discriminate | discriminate ] end.
  injection Er as <-. cbn [cf_left_tags cf_right_tags].
  destruct (start_points_ok P_eqb (ek_eqb _ _ _ _ _ _ _ K) _ _ _ _ _ Hs) as (_ & Ll & Lr & Il & Ir & Nd).
  destruct (C21_tags_exact _ _ left right lids rids ltags rtags (clean_ids coords left _ _ Pl Tl Nd Ll Il) (clean_ids coords right _ _ Pr Tr Nd Lr Ir) Ht) as (_ & _ & A & B).
  split.
  - intros L t C. destruct (A L (corners_in _ _ _ C)) as (tag & E1 & E2). exists tag. split; [ exact E1 | ].
    exact (tag_of coords left right _ _ _ L t tag Nd Pr Ll Lr Il Ir C E2).
  - intros R u C. destruct (B R (corners_in _ _ _ C)) as (tag & E1 & E2). exists tag. split; [ exact E1 | ].
    exact (tag_of coords right left _ _ _ R u tag Nd Pl Lr Ll Ir Il C E2).
Qed.
Print Assumptions C38_tags.

(** The ids name the points: each point of either mesh has one, and no point has two. *)
Theorem C38_ids_name_the_points : forall {P D} P_eqb coords pbox longest_axis sort_by nth_element_by cll cpl accepts
    num_threads (left right : soup P D) cf,
  exact_kernel P_eqb coords pbox sort_by nth_element_by cll cpl -> 1 <= num_threads ->
  proper coords left -> proper coords right ->
  corefine P_eqb coords pbox longest_axis sort_by nth_element_by cll cpl accepts num_threads left right (Ok cf) ->
  length (cf_left_ids cf) = length (points left) /\ length (cf_right_ids cf) = length (points right) /\
  (forall v p i, nth_error (points left) v = Some p -> nth_error (cf_left_ids cf) v = Some i -> nth_error (cf_points cf) i = Some p) /\
  (forall v p i, nth_error (points right) v = Some p -> nth_error (cf_right_ids cf) v = Some i -> nth_error (cf_points cf) i = Some p) /\
  length (cf_left_tags cf) = num_faces left /\ length (cf_right_tags cf) = num_faces right.
Proof.
  intros P D P_eqb coords pbox la sb nb cll cpl accepts nt left right cf [H1 H2 H3 H4 H5 H6] Hnt Pl Pr H.
  remember (Ok cf) as r eqn:Er. destruct H as [pl lids rids ltags rtags pairs infos0 tr pl' infos1 infos2 infos3 ltris rtris Hs Ht Hp Hr Hi S2 Fl S3 Fr | ? ? ? ? ? ? x | ? ? ? ? ? ? ? ? x | ? ? ? ? ? ? ? ? r ? ? ? ? F | ? ? ? ? ? ? ? ? ? ? ? tris r ? ? ? ? ? ? ? F | ? ? ? ? ? ? ? ? ? ? ? ? ? tris r ? ? ? ? ? ? ? ? ? F ].
  2, 3: destruct x; discriminate.
  2-4: subst r; match type of F with fails ?x _ => destruct x; cbn in F; [ destruct F | discriminate | discriminate ] end.
  injection Er as <-. cbn [cf_points cf_left_ids cf_right_ids cf_left_tags cf_right_tags].
  destruct (start_points_ok P_eqb H1 _ _ _ _ _ Hs) as (_ & Ll & Lr & Il & Ir & _).
  destruct (records_ok P_eqb H1 coords pbox H3 la sb nb H4 nt Hnt left right Pl Pr pl lids rids Hs ltags rtags Ht pairs _ Hp infos0 tr _ Hr) as (_ & R1 & R2 & _).
  pose proof (Proof_corefine_rec.keep_points P_eqb H1 coords cll cpl left right pl lids rids Hs infos0 R1 pl' infos1 Hi R2) as K.
  destruct (tags_length _ _ _ _ _ _ Ht) as [T1 T2]. repeat split; eauto.
Qed.
Print Assumptions C38_ids_name_the_points.

(** No point has two ids: every id in use, by whichever mesh, names a point, and two
    different ids in use name different points. *)
Theorem C38_one_id_per_point : forall {P D} P_eqb coords pbox longest_axis sort_by nth_element_by cll cpl accepts
    num_threads (left right : soup P D) cf,
  exact_kernel P_eqb coords pbox sort_by nth_element_by cll cpl -> 1 <= num_threads ->
  proper coords left -> proper coords right -> simplicial coords left -> simplicial coords right ->
  corefine P_eqb coords pbox longest_axis sort_by nth_element_by cll cpl accepts num_threads left right (Ok cf) ->
  (forall i, in_use left right cf i -> exists p, nth_error (cf_points cf) i = Some p) /\
  forall i j p q, in_use left right cf i -> in_use left right cf j ->
    nth_error (cf_points cf) i = Some p -> nth_error (cf_points cf) j = Some q -> same_point (coords p) (coords q) -> i = j.
Proof.
  intros P D P_eqb coords pbox la sb nb cll cpl accepts nt left right cf [H1 H2 H3 H4 H5 H6] Hnt Pl Pr Sl Sr H.
  remember (Ok cf) as r eqn:Er. destruct H as [pl lids rids ltags rtags pairs infos0 tr pl' infos1 infos2 infos3 ltris rtris Hs Ht Hp Hr Hi S2 Fl S3 Fr | ? ? ? ? ? ? x | ? ? ? ? ? ? ? ? x | ? ? ? ? ? ? ? ? r ? ? ? ? F | ? ? ? ? ? ? ? ? ? ? ? tris r ? ? ? ? ? ? ? F | ? ? ? ? ? ? ? ? ? ? ? ? ? tris r ? ? ? ? ? ? ? ? ? F ].
  2, 3: destruct x; discriminate.
  2-4: subst r; match type of F with fails ?x _ => destruct x; cbn in F; [ destruct F | discriminate | discriminate ] end.
  injection Er as <-. cbn [cf_points].
  assert (Rl : receives left lids (pl_points pl') ltris (outl infos1)).
  { destruct (left_side P_eqb H1 coords H2 pbox H3 la sb nb H4 cll cpl H5 H6 accepts nt Hnt left right Pl Pr Sl Sr pl lids rids Hs ltags rtags Ht pairs _ Hp infos0 tr _ Hr pl' infos1 Hi infos2 S2 _ Fl) as [ [X _] | (tris & X & Y)]; [ discriminate X | injection X as <-; exact Y ]. }
  assert (Rr : receives right rids (pl_points pl') rtris (fun R L => outl infos1 L R)).
  { destruct (right_side P_eqb H1 coords H2 pbox H3 la sb nb H4 cll cpl H5 H6 accepts nt Hnt left right Pl Pr Sl Sr pl lids rids Hs ltags rtags Ht pairs _ Hp infos0 tr _ Hr pl' infos1 Hi infos2 infos3 S2 S3 _ Fr) as [ [X _] | (tris & X & Y)]; [ discriminate X | injection X as <-; exact Y ]. }
  assert (Use : forall i, in_use left right (mk_corefined (pl_points pl') lids rids ltags rtags infos3 ltris rtris) i -> used_id left right lids rids infos1 i).
  { unfold in_use. cbn [cf_left_ids cf_right_ids cf_left_tris cf_right_tris]. intros i [(fi & a & b & c & Hf & J) | [(fi & a & b & c & Hf & J) | (fi & t & p & [Jt | Jt] & Jv)] ].
    - left. exists fi, (a, b, c). auto.
    - right. left. exists fi, (a, b, c). auto.
    - destruct Rl as (_ & _ & Tl). destruct (Tl fi t Jt) as (_ & V & _). destruct (proj1 (V i) (ex_intro _ p Jv)) as [(a & b & c & Hf & J) | (o & J)]; [ left; exists fi, (a, b, c); auto | right; right; eauto ].
    - destruct Rr as (_ & _ & Tr). destruct (Tr fi t Jt) as (_ & V & _). destruct (proj1 (V i) (ex_intro _ p Jv)) as [(a & b & c & Hf & J) | (o & J)]; [ right; left; exists fi, (a, b, c); auto | right; right; eauto ]. }
  split.
  - intros i U. exact (use_point P_eqb H1 coords H2 pbox H3 la sb nb H4 cll cpl H5 H6 nt Hnt left right Pl Pr pl lids rids Hs ltags rtags Ht pairs _ Hp infos0 tr _ Hr pl' infos1 Hi i (Use i U)).
  - intros i j p q Ui Uj Ei Ej S. apply H2 in S. subst q.
    exact (use_one P_eqb H1 coords H2 pbox H3 la sb nb H4 cll cpl H5 H6 nt Hnt left right Pl Pr Sl Sr pl lids rids Hs ltags rtags Ht pairs _ Hp infos0 tr _ Hr pl' infos1 Hi i j p (Use i Ui) (Use j Uj) Ei Ej).
Qed.
Print Assumptions C38_one_id_per_point.

(** Every pair of such meshes whose faces are all different can be corefined, if the
    triangulation accepts every constraint: some execution ends, and so the theorems above
    are about something. *)
Theorem C38_succeeds : forall {P D} P_eqb coords pbox longest_axis sort_by nth_element_by cll cpl accepts
    num_threads (left right : soup P D),
  exact_kernel P_eqb coords pbox sort_by nth_element_by cll cpl -> 1 <= num_threads ->
  proper coords left -> proper coords right -> simplicial coords left -> simplicial coords right ->
  no_twins left -> no_twins right -> (forall t i j, accepts t i j = true) ->
  exists cf, corefine P_eqb coords pbox longest_axis sort_by nth_element_by cll cpl accepts num_threads left right (Ok cf).
Proof.
  intros P D P_eqb coords pbox la sb nb cll cpl accepts nt left right K Hnt Pl Pr Sl Sr Tl Tr Ha.
  destruct (corefine_exists P_eqb (ek_eqb _ _ _ _ _ _ _ K) coords pbox la sb nb cll cpl accepts nt left right Hnt Pl Pr Tl Tr) as (r & H).
  destruct (C38_only_rejected_constraints_fail _ _ _ _ _ _ _ _ _ _ _ _ _ K Hnt Pl Pr Sl Sr H) as [(cf & ->) | (_ & t & i & j & E)]; [ eauto | ].
  rewrite Ha in E. discriminate.
Qed.
Print Assumptions C38_succeeds.

(** ** Example *)

(** Two triangles of a square and a triangle that cuts both. *)
Definition at_ (x y z : Z) : exact := reduce (inject_Z x, inject_Z y, inject_Z z).
Definition ex_square : soup exact unit :=
  mk_soup [at_ 0 0 0; at_ 4 0 0; at_ 0 4 0; at_ 4 4 0] [(0, 1, 2); (1, 3, 2)] [tt; tt].
Definition ex_blade : soup exact unit :=
  mk_soup [at_ 1 1 (-1); at_ 1 1 3; at_ 17 1 3] [(0, 1, 2)] [tt].
Definition exact_box (p : exact) : box := let '(x, y, z) := value p in mk_box x y z x y z.

Lemma ex_kernel : exact_kernel exact_eqb value exact_box (fun _ l => l) (fun _ _ l => l) exact_ll exact_pl.
Proof.
  split.
  - exact exact_eqb_ok.
  - exact value_inj.
  - intro p. unfold exact_box, in_box. destruct (value p) as [ [x y] z]. cbn. unfold vx, vy, vz; cbn. repeat split; lra.
  - split; intros; apply Permutation_refl.
  - exact exact_ll_correct.
  - exact exact_pl_correct.
Qed.

Ltac small i H := repeat (destruct i as [ | i]; [ | try (exfalso; cbn in H; lia) ]); try (exfalso; cbn in H; lia).
Lemma ex_corners : forall i t, face_corners ex_square i t ->
  (i = 0 /\ t = (at_ 0 0 0, at_ 4 0 0, at_ 0 4 0)) \/ (i = 1 /\ t = (at_ 4 0 0, at_ 4 4 0, at_ 0 4 0)).
Proof.
  intros i t (a & b & c & p & q & r & E & A & B & C & ->).
  destruct i as [ | [ | i] ]; cbn in E; [ | | destruct i; discriminate ]; injection E as <- <- <-; cbn [nth_error points ex_square] in A, B, C;
    injection A as <-; injection B as <-; injection C as <-; auto.
Qed.
Lemma ex_corners' : forall i t, face_corners ex_blade i t -> i = 0 /\ t = (at_ 1 1 (-1), at_ 1 1 3, at_ 17 1 3).
Proof.
  intros i t (a & b & c & p & q & r & E & A & B & C & ->).
  destruct i as [ | i]; cbn in E; [ | destruct i; discriminate ]; injection E as <- <- <-; cbn [nth_error points ex_blade] in A, B, C;
    injection A as <-; injection B as <-; injection C as <-; auto.
Qed.
Lemma at_value : forall x y z, value (at_ x y z) = (inject_Z x, inject_Z y, inject_Z z).
Proof.
  assert (G : forall x, Qred (inject_Z x) = inject_Z x) by (intro x; apply Qred_identity; apply Z.gcd_1_r).
  intros x y z. unfold at_, reduce, value, vx, vy, vz. cbn [fst snd this Q2Qc]. rewrite !G. reflexivity.
Qed.
Ltac features H1 H2 :=
  let u := fresh in let v := fresh in let w := fresh in let X := fresh "X" in let Y := fresh "Y" in let Z := fresh "Z" in
  destruct H1 as (u & v & w & (? & ? & ? & ?) & X & Y & Z);
  let u := fresh in let v := fresh in let w := fresh in let X' := fresh "X" in let Y' := fresh "Y" in let Z' := fresh "Z" in
  destruct H2 as (u & v & w & (? & ? & ? & ?) & X' & Y' & Z');
  rewrite X in X'; rewrite Y in Y'; rewrite Z in Z'; clear X Y Z;
  cbn [comb vx vy vz fst snd weight] in *; unfold vx, vy, vz, inject_Z in *; cbn [fst snd] in *.
Ltac simplices := intros [ [ [ | ] [ | ] ] [ | ] ] [ [ [ | ] [ | ] ] [ | ] ] x H1 H2 y; cbn [pick app]; try reflexivity;
    first [ exfalso; features H1 H2; lra | tauto ].
Lemma ex_square_simplicial : simplicial value ex_square.
Proof.
  intros i j t u mi mj x Ci Cj. revert mi mj x. cbn [triangle_of].
  destruct (ex_corners _ _ Ci) as [ [_ ->] | [_ ->] ], (ex_corners _ _ Cj) as [ [_ ->] | [_ ->] ]; unfold triangle_of; rewrite !at_value; clear.
  all: simplices.
Qed.
Lemma ex_blade_simplicial : simplicial value ex_blade.
Proof.
  intros i j t u mi mj x Ci Cj. revert mi mj x.
  destruct (ex_corners' _ _ Ci) as [_ ->], (ex_corners' _ _ Cj) as [_ ->]; unfold triangle_of; rewrite !at_value; clear. simplices.
Qed.
Lemma ex_square_proper : proper value ex_square.
Proof.
  intros i H. destruct i as [ | [ | i] ]; [ | | exfalso; cbn in H; lia ]; eexists; (split; [ do 6 eexists; split; [ reflexivity | split; [ reflexivity | split; [ reflexivity | split; [ reflexivity | reflexivity ] ] ] ] | ]);
    unfold triangle_of; rewrite !at_value; intro X; apply (Proof_defect_edges.is_degenerate_iff (fun x => x)) in X; vm_compute in X; discriminate.
Qed.
Lemma ex_blade_proper : proper value ex_blade.
Proof.
  intros i H. destruct i as [ | i]; [ | exfalso; cbn in H; lia ]; eexists; (split; [ do 6 eexists; split; [ reflexivity | split; [ reflexivity | split; [ reflexivity | split; [ reflexivity | reflexivity ] ] ] ] | ]);
    unfold triangle_of; rewrite !at_value; intro X; apply (Proof_defect_edges.is_degenerate_iff (fun x => x)) in X; vm_compute in X; discriminate.
Qed.
Lemma at_inj : forall x y z x' y' z', at_ x y z = at_ x' y' z' -> x = x' /\ y = y' /\ z = z'.
Proof. intros x y z x' y' z' H. apply (f_equal value) in H. rewrite !at_value in H. injection H as H1 H2 H3. auto. Qed.
Lemma ex_no_twins : no_twins ex_square /\ no_twins ex_blade.
Proof.
  split.
  - intros i j p q r p' q' r' Ci Cj E. destruct (ex_corners _ _ Ci) as [ [-> X] | [-> X] ], (ex_corners _ _ Cj) as [ [-> Y] | [-> Y] ]; auto; exfalso;
      injection X as -> -> ->; injection Y as -> -> ->.
    + destruct (proj1 (E (at_ 0 0 0)) (or_introl eq_refl)) as [X | [X | [X | [ ] ] ] ]; apply at_inj in X; lia.
    + destruct (proj2 (E (at_ 0 0 0)) (or_introl eq_refl)) as [X | [X | [X | [ ] ] ] ]; apply at_inj in X; lia.
  - intros i j p q r p' q' r' Ci Cj _. destruct (ex_corners' _ _ Ci) as [-> _], (ex_corners' _ _ Cj) as [-> _]. reflexivity.
Qed.

Lemma halved : forall a b : Q, (a == b / 2 -> b == 2 * a)%Q.
Proof. intros a b H. rewrite H. field. Qed.
Ltac insides := repeat match goal with
  | H : both _ _ _ |- _ => destruct H as [ (? & ? & ? & (? & ? & ? & ?) & ? & ? & ?) (? & ? & ? & (? & ? & ? & ?) & ? & ? & ?) ]
  | H : same_point _ _ |- _ => destruct H as (? & ? & ?) end; unfold comb, middle, vx, vy, vz, inject_Z in *; cbn [fst snd] in *;
  repeat match goal with H : (_ == _ / 2)%Q |- _ => apply halved in H end.
Lemma ex_vertices : let T := triangle_of value (at_ 0 0 0, at_ 4 0 0, at_ 0 4 0) in let U := triangle_of value (at_ 1 1 (-1), at_ 1 1 3, at_ 17 1 3) in
  is_vertex T U (inject_Z 1, inject_Z 1, inject_Z 0) /\ is_vertex T U (inject_Z 3, inject_Z 1, inject_Z 0).
Proof.
  cbn zeta. unfold triangle_of. rewrite !at_value. split.
  - split.
    + split; [ exists (1#2)%Q, (1#4)%Q, (1#4)%Q | exists (3#4)%Q, (1#4)%Q, 0%Q ]; (split; [ repeat split; lra | repeat split; reflexivity ]).
    + intros [ [y0 y1] y2] [ [z0 z1] z2] H1 H2 H3. insides. unfold same_point, vx, vy, vz. cbn [fst snd]. repeat split; lra.
  - split.
    + split; [ exists 0%Q, (3#4)%Q, (1#4)%Q | exists (3#4)%Q, (1#8)%Q, (1#8)%Q ]; (split; [ repeat split; lra | repeat split; reflexivity ]).
    + intros [ [y0 y1] y2] [ [z0 z1] z2] H1 H2 H3. insides. unfold same_point, vx, vy, vz. cbn [fst snd]. repeat split; lra.
Qed.

Example C38_example : forall num_threads, 1 <= num_threads -> exists cf border,
  corefine exact_eqb value exact_box (fun _ => 0) (fun _ l => l) (fun _ _ l => l) exact_ll exact_pl (fun _ _ _ => true)
    num_threads ex_square ex_blade (Ok cf) /\
  get_intersecting_edges cf = Ok border /\ border <> [].
Proof.
  intros nt Hnt.
  destruct (C38_succeeds exact_eqb value exact_box (fun _ => 0) (fun _ l => l) (fun _ _ l => l) exact_ll exact_pl (fun _ _ _ => true)
    nt ex_square ex_blade ex_kernel Hnt ex_square_proper ex_blade_proper ex_square_simplicial ex_blade_simplicial (proj1 ex_no_twins) (proj2 ex_no_twins) (fun _ _ _ => eq_refl)) as (cf & H).
  destruct (C38_cut_along_the_intersection _ _ _ _ _ _ _ _ _ _ _ _ _ ex_kernel Hnt ex_square_proper ex_blade_proper ex_square_simplicial ex_blade_simplicial H)
    as (outl & border & Ho & _ & _ & _ & B & Hb).
  destruct (C38_tags _ _ _ _ _ _ _ _ _ _ _ _ _ ex_kernel ex_square_proper ex_blade_proper (proj1 ex_no_twins) (proj2 ex_no_twins) H) as (Tl & Tr).
  assert (Cl : face_corners ex_square 0 (at_ 0 0 0, at_ 4 0 0, at_ 0 4 0)) by (do 6 eexists; split; [ reflexivity | split; [ reflexivity | split; [ reflexivity | split; reflexivity ] ] ]).
  assert (Cr : face_corners ex_blade 0 (at_ 1 1 (-1), at_ 1 1 3, at_ 17 1 3)) by (do 6 eexists; split; [ reflexivity | split; [ reflexivity | split; [ reflexivity | split; reflexivity ] ] ]).
  exists cf, border. split; [ exact H | ]. split; [ exact B | ].
  assert (Ul : nth_error (cf_left_tags cf) 0 = Some UNKNOWN).
  { destruct (Tl 0 _ Cl) as (tag & E & R). destruct tag; cbn in R; [ exact E | destruct R | destruct R | | ]; exfalso; destruct R as (j & u & C & X); destruct (ex_corners' _ _ C) as [_ ->];
      destruct X as [X | [X | X] ]; apply (f_equal (fun t => value (fst (fst t)))) in X; vm_compute in X; discriminate. }
  assert (Ur : nth_error (cf_right_tags cf) 0 = Some UNKNOWN).
  { destruct (Tr 0 _ Cr) as (tag & E & R). destruct tag; cbn in R; [ exact E | destruct R | destruct R | | ]; exfalso; destruct R as (j & u & C & X); destruct (ex_corners _ _ C) as [ [_ ->] | [_ ->] ];
      destruct X as [X | [X | X] ]; apply (f_equal (fun t => value (fst (fst t)))) in X; vm_compute in X; discriminate. }
  destruct (Ho 0 0 _ _ Cl Cr Ul Ur) as [_ _ All _ _]. destruct ex_vertices as [V1 V2].
  destruct (All _ V1) as (i & p & Ji & Ep & Sp), (All _ V2) as (j & q & Jj & Eq & Sq).
  assert (Len : 2 <= length (outl 0 0)).
  { destruct (outl 0 0) as [ | a [ | b l] ]; cbn; [ destruct Ji | exfalso | lia ]. destruct Ji as [<- | [ ] ], Jj as [<- | [ ] ]. rewrite Ep in Eq. injection Eq as <-.
    destruct Sp as [X _], Sq as [Y _]. rewrite <- X in Y. cbv in Y. discriminate. }
  destruct (outl 0 0) as [ | a [ | b l] ] eqn:El; [ cbn in Len; lia | cbn in Len; lia | ]. intro Hn.
  assert (J : In (Nat.min a b, Nat.max a b) border).
  { apply Hb. exists 0, 0, a, b. split; [ exists 0; rewrite El; split; [ exact Len | split; [ reflexivity | rewrite Nat.mod_small by (cbn; lia); reflexivity ] ] | ]. unfold edge_between. cbn [fst snd]. destruct (Nat.le_ge_cases a b); split; try lia; [ left | right ]; f_equal; lia. }
  rewrite Hn in J. destruct J.
Qed.
