(** * C06: The faces of a result are pieces of the faces of the operands *)
From Coq Require Import List Arith NArith Bool QArith Lqa Lia Permutation.
From Verif Require Import Model_base Proof_base Model_geometry Model_soup Model_mesh Model_classify Model_local Model_aabb Model_points Model_boolean Model_corefine Model_mix.
From Verif Require Import Spec_candidates Spec_defects Spec_ffi Spec_corefine Spec_boolean Spec_mix Proof_mix Proof_mix_faces Proof_corefine_all Proof_corefine_rec Proof_exact Proof_fan.
From Verif Require Import Prop_boolean Prop_corefine.
Import ListNotations.
Local Open Scope nat_scope.

(** Mixing adds all the faces: nothing is out of range. *)
Theorem C06_mixed_mesh_exists : forall {P D} P_eqb coords pbox longest_axis sort_by nth_element_by cll cpl accepts cdt_faces
    num_threads (left right : soup P D) cf,
  exact_kernel P_eqb coords pbox sort_by nth_element_by cll cpl -> cdt_correct coords cdt_faces -> 1 <= num_threads ->
  wf_soup left -> wf_soup right ->
  proper coords left -> proper coords right -> simplicial coords left -> simplicial coords right ->
  corefine P_eqb coords pbox longest_axis sort_by nth_element_by cll cpl accepts num_threads left right (Ok cf) ->
  exists m lparts rparts, mixed_mesh cdt_faces cf left right = Ok m /\
    parts_of coords left right lparts /\ parts_of coords right left rparts /\
    forall ws, wf_mixed (take_soup (tag_writes ws m)) /\
      labels (take_soup (tag_writes ws m)) = labelled left true lparts ++ labelled right false rparts.
Proof.
  intros P D P_eqb coords pbox la sb nb cll cpl accepts cdt nt left right cf K Hcdt Hnt Wl Wr Pl Pr Sl Sr H.
  destruct (C38_cut_along_the_intersection _ _ _ _ _ _ _ _ _ _ _ _ _ K Hnt Pl Pr Sl Sr H) as (outl & border & Ho & Ht & Rl & Rr & _).
  destruct (C38_ids_name_the_points _ _ _ _ _ _ _ _ _ _ _ _ _ K Hnt Pl Pr H) as (Ll & Lr & Il & Ir & Tl & Tr).
  assert (Hb : forall L R id, In id (outl L R) -> exists t u p, face_corners left L t /\ face_corners right R u /\ nth_error (cf_points cf) id = Some p /\
    both (triangle_of coords t) (triangle_of coords u) (coords p)).
  { intros L R id J. destruct (Ht L R) as [Y Z]; [ intro X; rewrite X in J; destruct J | ].
    assert (L < num_faces left) as HL by (rewrite <- Tl; apply nth_error_Some; congruence). assert (R < num_faces right) as HR by (rewrite <- Tr; apply nth_error_Some; congruence).
    destruct (Pl L HL) as (t & Ct & _). destruct (Pr R HR) as (u & Cu & _). destruct (ol_vertex _ _ _ _ _ (Ho L R t u Ct Cu Y Z) id J) as (p & Ep & Vp & _). exists t, u, p. auto. }
  destruct (mix_faces_ok left (get_left_faces cdt cf left) true (fun fi _ ts => forall t, face_corners left fi t -> tiles (triangle_of coords t) (map (triangle_of coords) ts) /\
      (ts = [t] \/ exists j u x, face_corners right j u /\ both (triangle_of coords t) (triangle_of coords u) x)) (cf_points cf)) with (fs0 := @nil face) (ds0 := @nil (mixed_data D))
    as (fs & ds & lparts & M1 & L1 & N1 & G1 & C1).
  { apply Wl. }
  { intros fi Hfi. destruct (Pl fi Hfi) as (t & Ct & _).
    destruct (get_faces_ok coords cdt left right (cf_left_ids cf) (cf_points cf) (cf_left_tris cf) outl fi t (ek_coords _ _ _ _ _ _ _ K) Hcdt Pl Pr Ll Il Rl) as (new & ts & A & B & C); [ | exact Ct | ].
    - intros j id J. destruct (Hb _ _ _ J) as (t' & u & p & Ct' & Cu & E & B). rewrite (corners_fun _ _ _ _ Ct Ct'). eauto.
    - destruct (nth_error (cf_left_tags cf) fi) as [tag | ] eqn:Et; [ | apply nth_error_None in Et; lia ].
      exists tag, new, ts. split; [ unfold get_left_faces; rewrite (proj2 (vec_at_ok _ _ _ _) Et); cbn [bind]; rewrite A; reflexivity | ].
      split; [ exact B | ]. intros t' Ct'. rewrite <- (corners_fun _ _ _ _ Ct Ct'). exact C. }
  { reflexivity. }
  destruct (mix_faces_ok right (get_right_faces cdt cf right) false (fun fi _ ts => forall t, face_corners right fi t -> tiles (triangle_of coords t) (map (triangle_of coords) ts) /\
      (ts = [t] \/ exists j u x, face_corners left j u /\ both (triangle_of coords t) (triangle_of coords u) x)) (cf_points cf)) with (fs0 := fs) (ds0 := ds)
    as (fs' & ds' & rparts & M2 & L2 & N2 & G2 & C2).
  { apply Wr. }
  { intros fi Hfi. destruct (Pr fi Hfi) as (t & Ct & _).
    destruct (get_faces_ok coords cdt right left (cf_right_ids cf) (cf_points cf) (cf_right_tris cf) (fun R L => outl L R) fi t (ek_coords _ _ _ _ _ _ _ K) Hcdt Pr Pl Lr Ir Rr) as (new & ts & A & B & C); [ | exact Ct | ].
    - intros j id J. destruct (Hb _ _ _ J) as (u & t' & p & Cu & Ct' & E & B1 & B2). rewrite (corners_fun _ _ _ _ Ct Ct'). exists u, p. split; [ exact Cu | ]. split; [ exact E | ]. split; assumption.
    - destruct (nth_error (cf_right_tags cf) fi) as [tag | ] eqn:Et; [ | apply nth_error_None in Et; lia ].
      exists tag, new, ts. split; [ unfold get_right_faces; rewrite (proj2 (vec_at_ok _ _ _ _) Et); cbn [bind]; rewrite A; reflexivity | ].
      split; [ exact B | ]. intros t' Ct'. rewrite <- (corners_fun _ _ _ _ Ct Ct'). exact C. }
  { exact L1. }
  unfold mixed_mesh. rewrite M1. cbn [bind]. rewrite M2. cbn [bind]. eexists _, lparts, rparts. split; [ reflexivity | ]. split; [ | split ].
  - split; [ exact N1 | ]. intros fi t ts Ct E. destruct (G1 _ _ E) as (_ & X). apply X, Ct.
  - split; [ exact N2 | ]. intros fi t ts Ct E. destruct (G2 _ _ E) as (_ & X). apply X, Ct.
  - intro ws. assert (E : labels (take_soup (tag_writes ws (finalize (mesh_of (cf_points cf) fs' ds')))) = labelled left true lparts ++ labelled right false rparts).
    { rewrite labels_tagged. destruct (finalize_parts (mesh_of (cf_points cf) fs' ds')) as (-> & -> & ->). cbn [m_points m_faces m_data mesh_of]. rewrite C2, C1. reflexivity. }
    split; [ | exact E ]. split.
    + unfold take_soup, tag_writes, with_data. cbn [faces face_data m_faces m_data]. destruct (finalize_parts (mesh_of (cf_points cf) fs' ds')) as (_ & -> & ->). cbn [m_faces m_data mesh_of].
      rewrite <- (map_length unmark), unmark_writes, map_length. symmetry. exact L2.
    + unfold take_soup, tag_writes, with_data. cbn [faces points m_faces m_points]. destruct (finalize_parts (mesh_of (cf_points cf) fs' ds')) as (-> & -> & _). cbn [m_faces m_points mesh_of].
      apply Forall_forall. intros f Jf. apply in_range_of_some. intro N. apply In_nth_error in Jf. destruct Jf as (n & En).
      assert (n < length ds') by (rewrite <- L2; apply nth_error_Some; congruence). destruct (nth_error ds' n) as [d | ] eqn:Ed; [ | apply nth_error_None in Ed; lia ].
      assert (J : In (None, unmark d) (labelled left true lparts ++ labelled right false rparts)).
      { rewrite <- E, labels_tagged. destruct (finalize_parts (mesh_of (cf_points cf) fs' ds')) as (-> & -> & ->). cbn [m_faces m_points m_data mesh_of].
        apply (nth_error_In _ n). apply nth_error_combine; rewrite nth_error_map; [ rewrite En; cbn; rewrite N; reflexivity | rewrite Ed; reflexivity ]. }
      apply in_app_iff in J. destruct J as [J | J]; apply in_flat_map in J; destruct J as ([ts x] & _ & J); apply in_map_iff in J; destruct J as (t & J & _); discriminate J.
Qed.
Print Assumptions C06_mixed_mesh_exists.

(** The triangles of the mixed mesh are the pieces of the faces of the left mesh and then
    those of the right mesh, each with the data of the face it is a piece of; the pieces of
    a face tile it; a face that meets no face of the other mesh is its only piece. *)
Theorem C06_pieces_of_the_faces : forall {P D} P_eqb coords pbox longest_axis sort_by nth_element_by cll cpl accepts cdt_faces
    num_threads (left right : soup P D) m,
  exact_kernel P_eqb coords pbox sort_by nth_element_by cll cpl -> cdt_correct coords cdt_faces -> 1 <= num_threads ->
  wf_soup left -> wf_soup right ->
  proper coords left -> proper coords right -> simplicial coords left -> simplicial coords right ->
  mixes_racing P_eqb coords pbox longest_axis sort_by nth_element_by cll cpl accepts cdt_faces num_threads left right m ->
  wf_mixed m /\ exists lparts rparts, parts_of coords left right lparts /\ parts_of coords right left rparts /\
    labels m = labelled left true lparts ++ labelled right false rparts.
Proof.
  intros P D P_eqb coords pbox la sb nb cll cpl accepts cdt nt left right m K Hcdt Hnt Wl Wr Pl Pr Sl Sr [cf m0 ws H M].
  destruct (C06_mixed_mesh_exists _ _ _ _ _ _ _ _ _ _ _ _ _ _ K Hcdt Hnt Wl Wr Pl Pr Sl Sr H) as (m' & lparts & rparts & M' & A & B & C).
  rewrite M in M'. injection M' as <-. destruct (C ws) as [W E]. split; [ exact W | ]. exists lparts, rparts. auto.
Qed.
Print Assumptions C06_pieces_of_the_faces.




(** The executions in which no two threads classify at the same time are among these. *)
Theorem C06_serial_mix : forall {P D} P_eqb coords pbox longest_axis sort_by nth_element_by cll cpl accepts cdt_faces
    base1 base2 sort_around centroid side_of num_threads (left right : soup P D) m w,
  mixes P_eqb coords pbox longest_axis sort_by nth_element_by cll cpl accepts cdt_faces base1 base2 sort_around centroid side_of
    num_threads left right (Ok (m, w)) ->
  mixes_racing P_eqb coords pbox longest_axis sort_by nth_element_by cll cpl accepts cdt_faces num_threads left right m.
Proof.
  intros P D P_eqb coords pbox la sb nb cll cpl accepts cdt base1 base2 sa centroid side nt left right m w H.
  remember (Ok (m, w)) as r eqn:Er. destruct H as [cf m0 border order order' m' w' H M _ _ _ C | cf r _ F | cf r _ F | cf m0 r _ _ F | cf m0 border order order' r _ _ _ _ _ F].
  2-5: subst r; match type of F with fails ?x _ => destruct x; cbn in F; [ destruct F | discriminate | discriminate ] end.
  injection Er as <- <-. apply classified_retags in C. destruct C as (ws & ->). econstructor; eassumption.
Qed.
Print Assumptions C06_serial_mix.

Lemma selection_required : forall {P D} op pf (m : soup P (mixed_data D)), selection (labels m) (required_tris op pf m).
Proof.
  intros P D op pf m. unfold required_tris, tris.
  enough (G : forall (l : list (option (P * P * P))) (ds : list (mixed_data D)), selection (combine l (map unmark ds))
    (flat_map (fun x : option (P * P * P) * mixed_data D => let '(t, md) := x in
      match required op pf (tag md) (from_left md) with
      | Drop => []
      | Keep => [(t, data md)]
      | Reverse => [(option_map flip t, data md)]
      end) (combine l ds))) by exact (G (map (at_face (points m)) (faces m)) (face_data m)).
  induction l as [ | t l IH]; intros [ | md ds]; cbn; [ constructor | constructor | constructor | ].
  destruct (required op pf (tag md) (from_left md)); cbn [app]; [ apply sel_drop | apply sel_keep | apply sel_reverse ]; apply IH.
Qed.
Lemma selection_nil : forall {P D} l, @selection P D l [].
Proof. induction l; constructor; assumption. Qed.

(** The triangles of a result are some of the pieces of the faces of the first operand and
    then of the second, possibly reversed, with the data of the faces. *)
Theorem C06_result_selects_pieces : forall {P D} P_eqb coords pbox longest_axis sort_by nth_element_by cll cpl accepts cdt_faces
    num_threads (d0 : D) mix (a b : region P D) bd op prefer_first r,
  exact_kernel P_eqb coords pbox sort_by nth_element_by cll cpl -> cdt_correct coords cdt_faces -> 1 <= num_threads ->
  (forall m w, mix (boundary a) (boundary b) = Ok (m, w) ->
     mixes_racing P_eqb coords pbox longest_axis sort_by nth_element_by cll cpl accepts cdt_faces num_threads (boundary a) (boundary b) m) ->
  wf_region a -> wf_region b ->
  proper coords (boundary a) -> proper coords (boundary b) -> simplicial coords (boundary a) -> simplicial coords (boundary b) ->
  build mix a b = Ok bd -> run d0 bd op prefer_first = Ok r ->
  exists aparts bparts, parts_of coords (boundary a) (boundary b) aparts /\ parts_of coords (boundary b) (boundary a) bparts /\
    selection (labelled (boundary a) true aparts ++ labelled (boundary b) false bparts) (tris (boundary r)).
Proof.
  intros P D P_eqb coords pbox la sb nb cll cpl accepts cdt nt d0 mix a b bd op pf r K Hcdt Hnt Hmix Wa Wb Pa Pb Sa Sb Hb Hr.
  assert (G : wf_mixed (mixed bd) /\ exists aparts bparts, parts_of coords (boundary a) (boundary b) aparts /\ parts_of coords (boundary b) (boundary a) bparts /\
    labels (mixed bd) = labelled (boundary a) true aparts ++ labelled (boundary b) false bparts).
  { unfold build in Hb.
    assert (Wsa : wf_soup (boundary a)) by (unfold wf_region in Wa; destruct (kind a); [ rewrite Wa; repeat split; constructor | rewrite Wa; repeat split; constructor | apply Wa ]).
    assert (Wsb : wf_soup (boundary b)) by (unfold wf_region in Wb; destruct (kind b); [ rewrite Wb; repeat split; constructor | rewrite Wb; repeat split; constructor | apply Wb ]).
    destruct (is_empty_or_full a && is_empty_or_full b) eqn:E2; [ | destruct (is_empty_or_full a || is_empty_or_full b) eqn:E1 ].
    - injection Hb as <-. cbn [mixed]. apply andb_true_iff in E2. destruct E2 as [Ea Eb].
      rewrite (special_boundary a Wa Ea), (special_boundary b Wb Eb). split; [ repeat split; constructor | ]. exists [], []. split; [ apply parts_of_empty | ]. split; [ apply parts_of_empty | reflexivity ].
    - destruct (if is_empty a || is_full b then (INTERIOR, EXTERIOR) else (EXTERIOR, INTERIOR)) as [t1 t2] eqn:Et. injection Hb as <-. cbn [mixed].
      assert (boundary a = empty_soup \/ boundary b = empty_soup) as Hs by (apply orb_true_iff in E1; destruct E1; [ left | right ]; apply special_boundary; assumption).
      clear Et. destruct (whole_parts coords (boundary a) (boundary b) true t1 Pa Wsa) as (aparts & A1 & A2).
      destruct (whole_parts coords (boundary b) (boundary a) false t2 Pb Wsb) as (bparts & B1 & B2).
      destruct Hs as [Hs | Hs]; rewrite Hs in *; cbn [points faces face_data empty_soup app map] in *; rewrite ?app_nil_r.
      + split; [ apply retag_wf; exact Wsb | ]. exists [], bparts. split; [ apply parts_of_empty | ]. split; [ exact B1 | exact B2 ].
      + split; [ apply retag_wf; exact Wsa | ]. exists aparts, []. split; [ exact A1 | ]. split; [ apply parts_of_empty | rewrite A2; cbn; rewrite app_nil_r; reflexivity ].
    - apply bind_ok in Hb. destruct Hb as ([m w] & Hm & Hb). injection Hb as <-. cbn [mixed].
      exact (C06_pieces_of_the_faces _ _ _ _ _ _ _ _ _ _ _ _ _ _ K Hcdt Hnt Wsa Wsb Pa Pb Sa Sb (Hmix _ _ Hm)). }
  destruct G as (W & aparts & bparts & A & B & E). exists aparts, bparts. split; [ exact A | ]. split; [ exact B | ]. rewrite <- E.
  destruct (C02_extract_faithful P D d0 (mixed bd) op pf W) as (s & Es & _ & T & _). unfold run in Hr. rewrite Es in Hr. cbn [bind] in Hr.
  unfold region_of_soup in Hr. destruct (num_faces s =? 0) eqn:En; cbn [negb] in Hr.
  - replace (tris (boundary r)) with (@nil (option (P * P * P) * D)); [ apply selection_nil | ].
    assert (Sp : forall x, boundary (@special P D x) = empty_soup) by (intros [ | ]; reflexivity).
    assert (Q : boundary r = empty_soup); [ | rewrite Q; reflexivity ].
    destruct (_ || _) in Hr; [ injection Hr as <-; first [ apply Sp | reflexivity ] | ]. destruct (_ || _) in Hr; [ injection Hr as <-; first [ apply Sp | reflexivity ] | ].
    destruct op; try discriminate Hr; try (injection Hr as <-; reflexivity).
    all: apply bind_ok in Hr; destruct Hr as (c1 & _ & Hr); destruct c1; [ injection Hr as <-; first [ apply Sp | reflexivity ] | ];
      apply bind_ok in Hr; destruct Hr as (c2 & _ & Hr); destruct c2; [ injection Hr as <-; first [ apply Sp | reflexivity ] | discriminate ].
  - injection Hr as <-. cbn [boundary]. rewrite T. apply selection_required.
Qed.
Print Assumptions C06_result_selects_pieces.

(** Every triangle of a result, possibly reversed, is a piece of a face of an operand and
    has the data of this face. *)
Theorem C06_face_data : forall {P D} P_eqb coords pbox longest_axis sort_by nth_element_by cll cpl accepts cdt_faces
    num_threads (d0 : D) mix (a b : region P D) bd op prefer_first r,
  exact_kernel P_eqb coords pbox sort_by nth_element_by cll cpl -> cdt_correct coords cdt_faces -> 1 <= num_threads ->
  (forall m w, mix (boundary a) (boundary b) = Ok (m, w) ->
     mixes_racing P_eqb coords pbox longest_axis sort_by nth_element_by cll cpl accepts cdt_faces num_threads (boundary a) (boundary b) m) ->
  wf_region a -> wf_region b ->
  proper coords (boundary a) -> proper coords (boundary b) -> simplicial coords (boundary a) -> simplicial coords (boundary b) ->
  build mix a b = Ok bd -> run d0 bd op prefer_first = Ok r ->
  forall f t d, face_corners (boundary r) f t -> nth_error (face_data (boundary r)) f = Some d ->
    exists u, (u = t \/ u = flip t) /\
      ((exists i, piece_of coords (boundary a) (boundary b) i d u) \/ (exists i, piece_of coords (boundary b) (boundary a) i d u)).
Proof.
  intros P D P_eqb coords pbox la sb nb cll cpl accepts cdt nt d0 mix a b bd op pf r K Hcdt Hnt Hmix Wa Wb Pa Pb Sa Sb Hb Hr f t d Cf Ed.
  destruct (C06_result_selects_pieces _ _ _ _ _ _ _ _ _ _ _ _ _ _ _ _ _ _ _ K Hcdt Hnt Hmix Wa Wb Pa Pb Sa Sb Hb Hr) as (aparts & bparts & A & B & Se).
  assert (J : In (Some t, d) (tris (boundary r))).
  { destruct Cf as (i & j & k & p & q & s & E & E1 & E2 & E3 & ->). apply (nth_error_In _ f). unfold tris. apply nth_error_combine; [ | exact Ed ].
    rewrite nth_error_map, E. cbn. rewrite E1, E2, E3. reflexivity. }
  assert (G : exists u left, (u = t \/ u = flip t) /\ In (Some u, (left, d)) (labelled (boundary a) true aparts ++ labelled (boundary b) false bparts)).
  { revert J Se. generalize (tris (boundary r)). generalize (labelled (boundary a) true aparts ++ labelled (boundary b) false bparts). clear. intros l l' J Se.
    induction Se as [ | x l r _ IH | u left d' l r _ IH | u left d' l r _ IH]; [ destruct J | | | ].
    - destruct (IH J) as (u & left & X & Y). exists u, left. cbn. auto.
    - destruct J as [J | J]; [ injection J as -> ->; exists t, left; cbn; auto | ]. destruct (IH J) as (v & lf & X & Y). exists v, lf. cbn. auto.
    - destruct J as [J | J]; [ | destruct (IH J) as (v & lf & X & Y); exists v, lf; cbn; auto ].
      destruct u as [u | ]; [ | discriminate ]. cbn in J. injection J as <- ->. exists u, left. split; [ | cbn; auto ]. right. destruct u as [ [p q] s]. reflexivity. }
  destruct G as (u & left & Hu & J'). exists u. split; [ exact Hu | ]. apply in_app_iff in J'.
  destruct J' as [J' | J']; [ left | right ]; [ exact (label_piece coords _ _ _ _ _ _ _ Pa A J') | exact (label_piece coords _ _ _ _ _ _ _ Pb B J') ].
Qed.
Print Assumptions C06_face_data.

(** ** Example *)

(** The square and the triangle that cuts it (Prop_corefine.v), with a triangulation that
    inserts one point after the other: the union of the two is computed. *)
Example C06_example : forall num_threads, 1 <= num_threads ->
  let A := mk_region BOUNDARY_DEFINED ex_square in let B := mk_region BOUNDARY_DEFINED ex_blade in
  exists m bd r,
    mixes_racing exact_eqb value exact_box (fun _ => 0) (fun _ l => l) (fun _ _ l => l) exact_ll exact_pl (fun _ _ _ => true)
      (fan_faces value) num_threads ex_square ex_blade m /\
    build (fun _ _ => Ok (m, 0%N)) A B = Ok bd /\ run tt bd op_UNION true = Ok r /\
    (forall f t, face_corners (boundary r) f t -> exists u, (u = t \/ u = flip t) /\
       ((exists i, piece_of value ex_square ex_blade i tt u) \/ (exists i, piece_of value ex_blade ex_square i tt u))).
Proof.
  intros nt Hnt A B.
  assert (Ws : wf_soup ex_square) by (split; [ reflexivity | repeat constructor; cbn; lia ]).
  assert (Wb : wf_soup ex_blade) by (split; [ reflexivity | repeat constructor; cbn; lia ]).
  destruct (C38_succeeds exact_eqb value exact_box (fun _ => 0) (fun _ l => l) (fun _ _ l => l) exact_ll exact_pl (fun _ _ _ => true)
    nt ex_square ex_blade ex_kernel Hnt ex_square_proper ex_blade_proper ex_square_simplicial ex_blade_simplicial (proj1 ex_no_twins) (proj2 ex_no_twins) (fun _ _ _ => eq_refl)) as (cf & H).
  destruct (C06_mixed_mesh_exists _ _ _ _ _ _ _ _ _ _ _ _ _ _ ex_kernel (fan_correct value) Hnt Ws Wb ex_square_proper ex_blade_proper ex_square_simplicial ex_blade_simplicial H)
    as (m0 & lp & rp & M & _ & _ & W).
  set (m := take_soup (tag_writes [] m0)). destruct (W []) as [Wm _]. fold m in Wm.
  assert (Hm : mixes_racing exact_eqb value exact_box (fun _ => 0) (fun _ l => l) (fun _ _ l => l) exact_ll exact_pl (fun _ _ _ => true)
      (fan_faces value) nt ex_square ex_blade m) by (econstructor; eassumption).
  set (bd := mk_builder BOUNDARY_DEFINED BOUNDARY_DEFINED m 0%N).
  destruct (C02_extract_faithful _ _ tt m op_UNION true Wm) as (s & Es & Wf & T & _).
  assert (exists r, run tt bd op_UNION true = Ok r) as (r & Hr).
  { unfold run. cbn [mixed bd]. rewrite Es. cbn [bind]. unfold region_of_soup. destruct (num_faces s =? 0) eqn:En; cbn [negb]; eexists; reflexivity. }
  exists m, bd, r. split; [ exact Hm | ]. split; [ reflexivity | ]. split; [ exact Hr | ].
  intros f t Cf.
  assert (exists d, nth_error (face_data (boundary r)) f = Some d) as ([ ] & Ed).
  { unfold run in Hr. cbn [mixed bd] in Hr. rewrite Es in Hr. cbn [bind] in Hr. unfold region_of_soup in Hr. destruct (num_faces s =? 0) eqn:En; cbn [negb] in Hr.
    - injection Hr as <-. apply corners_in in Cf. exfalso. cbn in Cf. lia.
    - injection Hr as <-. cbn [boundary] in *. apply corners_in in Cf. destruct (nth_error (face_data s) f) eqn:E; [ eauto | ]. apply nth_error_None in E. destruct Wf as [L _]. unfold num_faces in Cf. lia. }
  refine (C06_face_data exact_eqb value exact_box (fun _ => 0) (fun _ l => l) (fun _ _ l => l) exact_ll exact_pl (fun _ _ _ => true)
      (fan_faces value) nt tt (fun _ _ => Ok (m, 0%N)) A B bd op_UNION true r ex_kernel (fan_correct value) Hnt _ (conj Ws _) (conj Wb _)
      ex_square_proper ex_blade_proper ex_square_simplicial ex_blade_simplicial eq_refl Hr f t tt Cf Ed); [ | discriminate | discriminate ].
  intros m' w' X. injection X as <- _. exact Hm.
Qed.
