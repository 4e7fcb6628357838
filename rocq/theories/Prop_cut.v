(** * C38: corefining never fails *)
From Coq Require Import List Arith Bool QArith Lia.
From Verif Require Import Model_base Proof_base Model_geometry Model_soup Model_points Model_boolean Model_candidates Model_corefine.
From Verif Require Import Spec_candidates Spec_defects Spec_ffi Spec_corefine Spec_cut.
From Verif Require Import Proof_corefine_all Proof_corefine_exists Proof_mix_faces Proof_cut_run Proof_cut_mix Proof_accepts Prop_corefine.
Import ListNotations.
Local Open Scope nat_scope.

Lemma in_assoc_find : forall {A} F (t : A) l, NoDup (map fst l) -> In (F, t) l -> assoc_find Nat.eqb F l = Some t.
Proof.
  intros A F t l N J. unfold assoc_find. induction l as [ | [G u] l IH]; [ destruct J | ]. cbn [map fst] in N. cbn [find fst]. inversion N as [ | ? ? N1 N2]; subst.
  destruct J as [J | J].
  - injection J as -> ->. rewrite Nat.eqb_refl. reflexivity.
  - destruct (Nat.eqb_spec G F) as [-> | _]; [ destruct N1; apply in_map_iff; exists (F, t); auto | exact (IH N2 J) ].
Qed.

(** The vertices and constraints of every triangulation of a corefinement are fit for CGAL:
    the vertices are different points of the face, no constraint passes through a vertex,
    and no two constraints cross. *)
Theorem C38_constraints_are_compatible : forall {P D} P_eqb coords pbox longest_axis sort_by nth_element_by cll cpl accepts
    num_threads (left right : soup P D) cf F t,
  exact_kernel P_eqb coords pbox sort_by nth_element_by cll cpl -> 1 <= num_threads ->
  proper coords left -> proper coords right -> simplicial coords left -> simplicial coords right -> no_twins left -> no_twins right ->
  corefine P_eqb coords pbox longest_axis sort_by nth_element_by cll cpl accepts num_threads left right (Ok cf) ->
  In (F, t) (cf_left_tris cf) \/ In (F, t) (cf_right_tris cf) ->
  let vs := map (fun v => coords (fst v)) (t_vertices t) in
  (exists a b c, good_vertices vs a b c) /\ compatible vs (t_constraints t).
Proof.
  intros P D P_eqb coords pbox la sb nb cll cpl accepts nt left right cf F t K Hnt Pl Pr Sl Sr Tl Tr H Jt vs.
  destruct (C38_cut_along_the_intersection _ _ _ _ _ _ _ _ _ _ _ _ _ K Hnt Pl Pr Sl Sr H) as (o & border & Hout & Htag & Rl & Rr & _).
  destruct (C38_ids_name_the_points _ _ _ _ _ _ _ _ _ _ _ _ _ K Hnt Pl Pr H) as (Il & Ir & Nl & Nr & Gl & Gr).
  destruct (C38_tags _ _ _ _ _ _ _ _ _ _ _ _ _ K Pl Pr Tl Tr H) as (Al & Ar).
  destruct (C38_one_id_per_point _ _ _ _ _ _ _ _ _ _ _ _ _ K Hnt Pl Pr Sl Sr H) as (Huse & Hone).
  pose proof (ek_coords _ _ _ _ _ _ _ K) as Hinj.
  assert (Hproper : forall s, proper coords (mesh_ left right s)) by (intros [ | ]; assumption).
  assert (Hsimp : forall s, simplicial coords (mesh_ left right s)) by (intros [ | ]; assumption).
  assert (Htwins : forall s, no_twins (mesh_ left right s)) by (intros [ | ]; assumption).
  assert (Hrecv : forall s, receives (mesh_ left right s) (ids_ cf s) (cf_points cf) (tris_ cf s) (outl_ o s)) by (intros [ | ]; assumption).
  assert (Hlen : forall s, length (ids_ cf s) = length (points (mesh_ left right s))) by (intros [ | ]; assumption).
  assert (Hids : forall s v p i, nth_error (points (mesh_ left right s)) v = Some p -> nth_error (ids_ cf s) v = Some i -> nth_error (cf_points cf) i = Some p) by (intros [ | ]; assumption).
  assert (Htl : forall s, length (tags_ cf s) = num_faces (mesh_ left right s)) by (intros [ | ]; assumption).
  assert (Hrt : forall s F t, face_corners (mesh_ left right s) F t -> exists tag, nth_error (tags_ cf s) F = Some tag /\ right_tag (mesh_ left right (negb s)) t tag) by (intros [ | ]; assumption).
  assert (J : exists s, In (F, t) (tris_ cf s)) by (destruct Jt as [J | J]; [ exists true | exists false ]; exact J). destruct J as (s & J).
  destruct (Hrecv s) as (N & _ & R). destruct (R F t J) as (_ & _ & _ & _ & _ & _ & a & b & c & rest & Fp & _).
  assert (Hf : fc_ left right cf s F (a, b, c)) by exact Fp. apply (in_assoc_find _ _ _ N) in J.
  assert (X : (let '(x, y, z) := triangle_of (pos_ coords cf) (a, b, c) in good_vertices vs x y z) /\ compatible vs (t_constraints t)).
  { eapply proj2. eapply proj2. eapply proj2. eapply vertices; eassumption. }
  destruct X as (X & Y). split; [ | exact Y ]. cbn in X. eauto.
Qed.
Print Assumptions C38_constraints_are_compatible.

(** If the triangulation accepts every constraint that passes through no vertex and crosses
    no other, then corefining never throws and has no undefined behaviour: every execution
    returns a corefinement, *)
Theorem C38_never_fails : forall {P D} P_eqb coords pbox longest_axis sort_by nth_element_by cll cpl accepts
    num_threads (left right : soup P D) r,
  exact_kernel P_eqb coords pbox sort_by nth_element_by cll cpl -> accepts_compatible coords accepts -> 1 <= num_threads ->
  proper coords left -> proper coords right -> simplicial coords left -> simplicial coords right -> no_twins left -> no_twins right ->
  corefine P_eqb coords pbox longest_axis sort_by nth_element_by cll cpl accepts num_threads left right r ->
  exists cf, r = Ok cf.
Proof.
  intros P D P_eqb coords pbox la sb nb cll cpl accepts nt left right r K Hacc Hnt Pl Pr Sl Sr Tl Tr H.
  set (yes := fun (_ : triangulation P) (_ _ : nat) => true).
  assert (Y : forall r, corefine P_eqb coords pbox la sb nb cll cpl yes nt left right r -> exists cf, r = Ok cf).
  { intros r0 H0. destruct (C38_only_rejected_constraints_fail _ _ _ _ _ _ _ _ _ _ _ _ _ K Hnt Pl Pr Sl Sr H0) as [X | (_ & t & i & j & E)]; [ exact X | discriminate ]. }
  assert (Nb : forall cf F t, corefine P_eqb coords pbox la sb nb cll cpl yes nt left right (Ok cf) ->
    In (F, t) (cf_left_tris cf) \/ In (F, t) (cf_right_tris cf) -> ~ blocked accepts t).
  { intros cf F t H0 J. destruct (C38_constraints_are_compatible _ _ _ _ _ _ _ _ _ _ _ _ _ F t K Hnt Pl Pr Sl Sr Tl Tr H0 J) as ((a & b & c & G) & C).
    exact (blocked_not accepts coords t a b c Hacc G C). }
  destruct (C38_only_rejected_constraints_fail _ _ _ _ _ _ _ _ _ _ _ _ _ K Hnt Pl Pr Sl Sr H) as [X | (Er & _)]; [ exact X | exfalso ].
  assert (Fu : forall f key pts (m : soup P D) ids rs tris, for_ranges (triangulate P_eqb accepts f key pts m ids) rs tris -> fails tris r ->
    (forall tris', for_ranges (triangulate P_eqb yes f key pts m ids) rs tris' -> exists ts, tris' = Ok ts) ->
    exists ts F t, for_ranges (triangulate P_eqb yes f key pts m ids) rs (Ok ts) /\ In (F, t) ts /\ blocked accepts t).
  { intros f key pts m ids rs tris Fr Fa All. destruct (for_ranges_exists (triangulate P_eqb yes f key pts m ids) rs) as (tris' & Fr'). destruct (All _ Fr') as (ts & ->).
    destruct Fr as [ts0 _ | r0 e J E | r0 J E]; [ destruct Fa | | ].
    - inversion Fr' as [ts' F2 Et | | ]; subst ts'. destruct (Forall2_in_l _ _ _ _ F2 J) as ([F t] & Jt & Et).
      destruct (triangulate_sim P_eqb accepts f key pts m ids r0) as [S | (_ & S)].
      + rewrite E in S. change (Throw e = triangulate P_eqb yes f key pts m ids r0) in S. congruence.
      + exists ts, F, t. split; [ exact Fr' | ]. split; [ exact Jt | exact (S F t Et) ].
    - destruct (triangulate_sim P_eqb accepts f key pts m ids r0) as [S | (S & _)]; [ | congruence ]. rewrite E in S.
      destruct (All UB) as (ts' & X); [ | discriminate ]. apply fr_ub with r0; [ exact J | symmetry; exact S ]. }
  destruct H as [pl lids rids ltags rtags pairs infos0 tr pl' infos1 infos2 infos3 ltris rtris Hs Ht Hp Hr Hi S2 Fl S3 Fr
    | pl lids rids ltags rtags pairs x Hs Ht Hp
    | pl lids rids ltags rtags pairs infos0 tr x Hs Ht Hp Hr
    | pl lids rids ltags rtags pairs infos0 tr r Hs Ht Hp Hr F
    | pl lids rids ltags rtags pairs infos0 tr pl' infos1 infos2 tris r Hs Ht Hp Hr Hi S2 Fl F
    | pl lids rids ltags rtags pairs infos0 tr pl' infos1 infos2 infos3 ltris tris r Hs Ht Hp Hr Hi S2 Fl S3 Fr F ].
  - discriminate.
  - destruct (Y (raised_as x)) as (cf & E); [ eapply corefine_pairs; eassumption | congruence ].
  - destruct (Y (raised_as x)) as (cf & E); [ eapply corefine_records; eassumption | congruence ].
  - destruct (Y r) as (cf & E); [ eapply corefine_points; eassumption | congruence ].
  - destruct (Fu _ _ _ _ _ _ _ Fl F) as (ts & G & t & Fl' & Jt & Bt).
    + intros tris' Fl'. destruct tris' as [ts | e | ]; [ eauto | | ].
      * destruct (Y (Throw e)) as (cf & E); [ eapply corefine_left; [ .. | eassumption | reflexivity ]; eassumption | discriminate ].
      * destruct (Y UB) as (cf & E); [ eapply corefine_left; [ .. | eassumption | reflexivity ]; eassumption | discriminate ].
    + destruct (sorts_exists i_right infos2) as (infos3 & S3).
      destruct (for_ranges_exists (triangulate P_eqb yes Model_region.RIGHT_FACE i_right (pl_points pl') right rids) (ranges (length infos3) i_right infos3)) as ([ts' | e | ] & Fr).
      * eapply (Nb _ G t); [ eapply corefine_ok; eassumption | | exact Bt ]. left. exact Jt.
      * destruct (Y (Throw e)) as (cf & E); [ eapply corefine_right; [ .. | eassumption | reflexivity ]; eassumption | discriminate ].
      * destruct (Y UB) as (cf & E); [ eapply corefine_right; [ .. | eassumption | reflexivity ]; eassumption | discriminate ].
  - assert (Fl' : for_ranges (triangulate P_eqb yes Model_region.LEFT_FACE i_left (pl_points pl') left lids) (ranges (length infos2) i_left infos2) (Ok ltris)).
    { inversion Fl as [ts F2 Et | | ]; subst ts. constructor. eapply Forall2_weaken; [ | exact F2 ]. cbv beta. intros r0 t E.
      destruct (triangulate_sim P_eqb accepts Model_region.LEFT_FACE i_left (pl_points pl') left lids r0) as [S | (S & _)]; [ | congruence ]. rewrite E in S. symmetry. exact S. }
    destruct (Fu _ _ _ _ _ _ _ Fr F) as (ts & G & t & Fr' & Jt & Bt).
    + intros tris' Fr'. destruct tris' as [ts | e | ]; [ eauto | | ].
      * destruct (Y (Throw e)) as (cf & E); [ eapply corefine_right; [ .. | eassumption | reflexivity ]; eassumption | discriminate ].
      * destruct (Y UB) as (cf & E); [ eapply corefine_right; [ .. | eassumption | reflexivity ]; eassumption | discriminate ].
    + eapply (Nb _ G t); [ eapply corefine_ok; eassumption | | exact Bt ]. right. exact Jt.
Qed.
Print Assumptions C38_never_fails.

(** and some execution exists. *)
Theorem C38_returns : forall {P D} P_eqb coords pbox longest_axis sort_by nth_element_by cll cpl accepts
    num_threads (left right : soup P D),
  exact_kernel P_eqb coords pbox sort_by nth_element_by cll cpl -> accepts_compatible coords accepts -> 1 <= num_threads ->
  proper coords left -> proper coords right -> simplicial coords left -> simplicial coords right -> no_twins left -> no_twins right ->
  exists cf, corefine P_eqb coords pbox longest_axis sort_by nth_element_by cll cpl accepts num_threads left right (Ok cf).
Proof.
  intros P D P_eqb coords pbox la sb nb cll cpl accepts nt left right K Hacc Hnt Pl Pr Sl Sr Tl Tr.
  destruct (corefine_exists P_eqb (ek_eqb _ _ _ _ _ _ _ K) coords pbox la sb nb cll cpl accepts nt left right Hnt Pl Pr Tl Tr) as (r & H).
  destruct (C38_never_fails _ _ _ _ _ _ _ _ _ _ _ _ _ K Hacc Hnt Pl Pr Sl Sr Tl Tr H) as (cf & ->). eauto.
Qed.
Print Assumptions C38_returns.
