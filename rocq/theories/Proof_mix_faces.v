(** * The faces of the mixed mesh are the pieces of the faces of the two meshes *)
From Coq Require Import List Arith Bool QArith Lia Lqa.
From Verif Require Import Model_base Proof_base Model_geometry Model_soup Model_mesh Model_classify Model_local Model_aabb Model_points Model_corefine Model_mix.
From Verif Require Import Spec_candidates Spec_defects Spec_ffi Spec_corefine Spec_boolean Spec_mix Proof_mix Proof_extreme Proof_exact Proof_corefine_all Proof_corefine_rec.
Import ListNotations.
Local Open Scope nat_scope.

Definition at_face {P} (pts : list P) (f : face) : option (P * P * P) :=
  let '(a, b, c) := f in
  match nth_error pts a, nth_error pts b, nth_error pts c with
  | Some x, Some y, Some z => Some (x, y, z)
  | _, _, _ => None
  end.
Definition unmark {D} (md : mixed_data D) : bool * D := (from_left md, data md).

(** Tags do not matter. *)
Lemma unmark_write : forall {D} (ds : list (mixed_data D)) w, map unmark (tag_write ds w) = map unmark ds.
Proof.
  intros D ds [f t]. unfold tag_write. cbn [fst snd]. destruct (nth_error ds f) as [d | ] eqn:E; [ | reflexivity ].
  revert f E. induction ds as [ | x ds IH]; intros [ | f] E; cbn in *; try discriminate.
  - injection E as ->. reflexivity.
  - rewrite IH by exact E. reflexivity.
Qed.
Lemma unmark_writes : forall {D} ws (ds : list (mixed_data D)), map unmark (fold_left tag_write ws ds) = map unmark ds.
Proof. intros D ws. induction ws as [ | w ws IH]; intro ds; cbn; [ reflexivity | ]. rewrite IH. apply unmark_write. Qed.

Lemma finalize_parts : forall {P D} (m : mesh P D), m_points (finalize m) = m_points m /\ m_faces (finalize m) = m_faces m /\ m_data (finalize m) = m_data m.
Proof. intros P D m. unfold finalize. destruct (fold_left _ _ _) as [ [ [? ?] ?] ?]. repeat split; reflexivity. Qed.

Lemma labels_tagged : forall {P D} (m : mesh P (mixed_data D)) ws,
  labels (take_soup (tag_writes ws m)) = combine (map (at_face (m_points m)) (m_faces m)) (map unmark (m_data m)).
Proof. intros. unfold labels, take_soup, tag_writes, with_data. cbn [points faces face_data m_points m_faces m_data]. rewrite <- (unmark_writes ws). reflexivity. Qed.

Lemma combine_app : forall {A B} (a1 a2 : list A) (b1 b2 : list B), length a1 = length b1 -> combine (a1 ++ a2) (b1 ++ b2) = combine a1 b1 ++ combine a2 b2.
Proof. induction a1 as [ | x a1 IH]; intros a2 [ | y b1] b2 H; cbn in *; try discriminate; [ reflexivity | ]. rewrite IH by lia. reflexivity. Qed.
Lemma combine_repeat : forall {A B} (l : list A) (b : B), combine l (repeat b (length l)) = map (fun a => (a, b)) l.
Proof. induction l as [ | x l IH]; intro b; cbn; [ reflexivity | ]. rewrite IH. reflexivity. Qed.

Lemma nth_error_combine : forall {A B} (l : list A) (l' : list B) n x y, nth_error l n = Some x -> nth_error l' n = Some y -> nth_error (combine l l') n = Some (x, y).
Proof. induction l as [ | a l IH]; intros [ | b l'] [ | n] x y H1 H2; cbn in *; try discriminate; [ congruence | auto ]. Qed.
Lemma in_range_of_some : forall {P} (pts : list P) f, at_face pts f <> None -> face_in_range (length pts) f.
Proof.
  intros P pts [ [a b] c] H. unfold at_face in H. unfold face_in_range.
  destruct (nth_error pts a) eqn:A; [ | congruence ]. destruct (nth_error pts b) eqn:B; [ | congruence ]. destruct (nth_error pts c) eqn:C; [ | congruence ].
  repeat split; apply nth_error_Some; congruence.
Qed.

Section MixFaces.
  Context {P D : Type}.
  (** The faces added for one operand. *)
  Lemma mix_faces_ok : forall (m : soup P D) get left (good : nat -> list face -> list (P * P * P) -> Prop) pts,
    length (face_data m) = num_faces m ->
    (forall fi, fi < num_faces m -> exists t new ts, get fi = Ok (t, new) /\ map (at_face pts) new = map Some ts /\ good fi new ts) ->
    forall fs0 (ds0 : list (mixed_data D)), length fs0 = length ds0 -> exists fs ds parts,
      mix_faces m get left (fs0, ds0) = Ok (fs, ds) /\ length fs = length ds /\ length parts = num_faces m /\
      (forall fi ts, nth_error parts fi = Some ts -> exists new, good fi new ts) /\
      combine (map (at_face pts) fs) (map unmark ds) = combine (map (at_face pts) fs0) (map unmark ds0) ++ labelled m left parts.
  Proof.
    intros m get left good pts Hlen Hget. unfold mix_faces, labelled.
    assert (G : forall k n dl (fs0 : list face) (ds0 : list (mixed_data D)), length fs0 = length ds0 -> k + n = num_faces m -> skipn k (face_data m) = dl ->
      exists fs ds parts,
      foldM (fun st fi => let '(fs, ds) := st in let* (t, new) := get fi in let* d := soup_data m fi in
        Ok (fs ++ new, ds ++ repeat (mk_mixed left t d) (length new))) (fs0, ds0) (seq k n) = Ok (fs, ds) /\ length fs = length ds /\ length parts = n /\
      (forall fi ts, nth_error parts fi = Some ts -> exists new, good (k + fi) new ts) /\
      combine (map (at_face pts) fs) (map unmark ds) = combine (map (at_face pts) fs0) (map unmark ds0) ++
        flat_map (fun x : list (P * P * P) * D => let '(ts, d) := x in map (fun t => (Some t, (left, d))) ts) (combine parts dl)).
    { intros k n. revert k. induction n as [ | n IH]; intros k dl fs0 ds0 L0 Hk Hdl; cbn [seq foldM].
      - exists fs0, ds0, []. repeat split; auto; [ intros [ | ?]; discriminate | cbn; rewrite app_nil_r; reflexivity ].
      - destruct (Hget k ltac:(lia)) as (t & new & ts & E & M & Gd). rewrite E. cbn [bind].
        assert (exists d, nth_error (face_data m) k = Some d) as [d Ed].
        { destruct (nth_error (face_data m) k) eqn:X; [ eauto | ]. apply nth_error_None in X. lia. }
        unfold soup_data. rewrite (proj2 (vec_at_ok _ _ _ _) Ed). cbn [bind].
        assert (Hdl' : dl = d :: skipn (S k) (face_data m)).
        { subst dl. clear - Ed. revert Ed. generalize (face_data m). induction k as [ | k IH]; intros [ | x l] Ed; cbn in *; try discriminate; [ congruence | apply IH, Ed ]. }
        assert (L' : length (fs0 ++ new) = length (ds0 ++ repeat (mk_mixed left t d) (length new))) by (rewrite !app_length, repeat_length; lia).
        destruct (IH (S k) (skipn (S k) (face_data m)) _ _ L' ltac:(lia) eq_refl) as (fs & ds & parts & F & L1 & L2 & Gp & C).
        exists fs, ds, (ts :: parts). split; [ exact F | ]. split; [ exact L1 | ]. split; [ cbn; lia | ]. split.
        + intros [ | fi] ts' X; cbn in X; [ injection X as <-; exists new; rewrite Nat.add_0_r; exact Gd | ].
          replace (k + S fi) with (S k + fi) by lia. eapply Gp; exact X.
        + rewrite C, !map_app, combine_app by (rewrite !map_length; exact L0). rewrite <- app_assoc. f_equal.
          subst dl. rewrite Hdl'. cbn [combine flat_map]. f_equal. rewrite M.
          replace (map unmark (repeat (mk_mixed left t d) (length new))) with (repeat (left, d) (length (map Some ts))).
          * rewrite combine_repeat. rewrite map_map. reflexivity.
          * rewrite <- M, map_length. clear. induction (length new); cbn; [ reflexivity | ]. f_equal. assumption. }
    intros fs0 ds0 L0. destruct (G 0 (num_faces m) (face_data m) fs0 ds0 L0 eq_refl eq_refl) as (fs & ds & parts & A & B & C & E & F). exists fs, ds, parts. auto.
  Qed.

  (** The faces of a triangulation. *)
  Lemma tri_faces_ok : forall (cdt_faces : triangulation P -> list (nat * nat * nat)) t (coords : P -> vec3) pts parts,
    (forall p id, In (p, id) (t_vertices t) -> nth_error pts id = Some p) ->
    Forall2 (has_corners (map (fun v => coords (fst v)) (t_vertices t))) (cdt_faces t) parts ->
    exists new ts, tri_faces cdt_faces t = Ok new /\ map (at_face pts) new = map Some ts /\ map (triangle_of coords) ts = parts.
  Proof.
    intros cdt_faces t coords pts parts Hp H. unfold tri_faces.
    assert (G : forall fs0, exists new ts, foldM (fun fs h => let '(i, j, k) := h in
      match nth_error (t_vertices t) i, nth_error (t_vertices t) j, nth_error (t_vertices t) k with
      | Some (_, a), Some (_, b), Some (_, c) => Ok (fs ++ [(a, b, c)])
      | _, _, _ => UB
      end) fs0 (cdt_faces t) = Ok (fs0 ++ new) /\ map (at_face pts) new = map Some ts /\ map (triangle_of coords) ts = parts).
    { induction H as [ | [ [i j] k] [ [p q] r] hs parts (A & B & C) _ IH]; intro fs0.
      - exists [], []. cbn. rewrite app_nil_r. auto.
      - cbn [foldM]. rewrite nth_error_map in A, B, C.
        destruct (nth_error (t_vertices t) i) as [ [p' a] | ] eqn:E1; [ | discriminate ]. destruct (nth_error (t_vertices t) j) as [ [q' b] | ] eqn:E2; [ | discriminate ].
        destruct (nth_error (t_vertices t) k) as [ [r' c] | ] eqn:E3; [ | discriminate ]. cbn in A, B, C. injection A as <-. injection B as <-. injection C as <-.
        cbn [bind]. destruct (IH (fs0 ++ [(a, b, c)])) as (new & ts & F & M & T). exists ((a, b, c) :: new), ((p', q', r') :: ts).
        split; [ rewrite F, <- app_assoc; reflexivity | ]. cbn [map]. rewrite M, T. split; [ | reflexivity ]. f_equal. unfold at_face.
        rewrite (Hp _ _ (nth_error_In _ _ E1)), (Hp _ _ (nth_error_In _ _ E2)), (Hp _ _ (nth_error_In _ _ E3)). reflexivity. }
    destruct (G []) as (new & ts & F & R). exists new, ts. auto.
  Qed.

  Lemma assoc_find_in : forall {A} fi (l : list (nat * A)) t, assoc_find Nat.eqb fi l = Some t -> In (fi, t) l.
  Proof.
    intros A fi l t. unfold assoc_find. destruct (find _ l) as [ [k x] | ] eqn:E; [ | discriminate ]. apply find_some in E. destruct E as [E X]. apply Nat.eqb_eq in X. cbn in *.
    intro H; injection H as <-. subst. exact E.
  Qed.
  Lemma assoc_find_none : forall {A} fi (l : list (nat * A)) t, assoc_find Nat.eqb fi l = None -> ~ In (fi, t) l.
  Proof.
    intros A fi l t. unfold assoc_find. destruct (find _ l) as [ [k x] | ] eqn:E; [ discriminate | ]. intros _ J. apply (find_none _ _ E) in J. cbn in J. rewrite Nat.eqb_refl in J. discriminate.
  Qed.

  Lemma normal_square : forall T, nondegenerate T -> (0 < vdot (face_normal T) (face_normal T))%Q.
  Proof.
    intros T H. apply nondegenerate_normal in H. change (normal T) with (face_normal T) in H.
    destruct (Qlt_le_dec 0 (vdot (face_normal T) (face_normal T))) as [X | X]; [ exact X | ]. exfalso. apply H. apply square_zero.
    destruct (face_normal T) as [ [a b] c]. unfold vdot, vx, vy, vz in *. cbn [fst snd] in *. nra.
  Qed.
  Lemma tiles_self : forall T, nondegenerate T -> tiles T [T].
  Proof.
    intros T H. split.
    - intros U [<- | [ ] ]. apply normal_square, H.
    - intros U x [<- | [ ] ]. auto.
    - intros x X. exists T. cbn. auto.
    - intros [ | [ | i] ] [ | [ | j] ] U V x; cbn; try discriminate; auto.
  Qed.

  Lemma corners_self : forall a b c, inside (a, b, c) a /\ inside (a, b, c) b /\ inside (a, b, c) c.
  Proof.
    intros a b c. split; [ | split ]; [ exists 1%Q, 0%Q, 0%Q | exists 0%Q, 1%Q, 0%Q | exists 0%Q, 0%Q, 1%Q ]; (split; [ repeat split; lra | ]); unfold same_point, comb; cbn [vx vy vz fst snd]; unfold vx, vy, vz; cbn [fst snd]; repeat split; ring.
  Qed.

  Lemma face_ids_ok : forall (m : soup P D) ids fi f, face_points m ids fi f -> face_ids m ids fi = Ok f.
  Proof.
    intros m ids fi f (v0 & v1 & v2 & a & b & c & E & A & B & C & ->). unfold face_ids, soup_face.
    rewrite (proj2 (vec_at_ok _ _ _ _) E). cbn [bind]. rewrite (proj2 (vec_at_ok _ _ _ _) A). cbn [bind]. rewrite (proj2 (vec_at_ok _ _ _ _) B). cbn [bind]. rewrite (proj2 (vec_at_ok _ _ _ _) C). reflexivity.
  Qed.
  Lemma face_points_fun : forall (m : soup P D) ids fi f g, face_points m ids fi f -> face_points m ids fi g -> f = g.
  Proof.
    intros m ids fi f g H G. apply face_ids_ok in H, G. congruence.
  Qed.

  (** The pieces of one face. *)
  Lemma get_faces_ok : forall (coords : P -> vec3) cdt_faces (m o : soup P D) ids pts tris outl fi t,
    (forall p q, same_point (coords p) (coords q) -> p = q) ->
    cdt_correct coords cdt_faces -> proper coords m -> proper coords o ->
    length ids = length (points m) ->
    (forall v p i, nth_error (points m) v = Some p -> nth_error ids v = Some i -> nth_error pts i = Some p) ->
    receives m ids pts tris outl ->
    (forall j id, In id (outl fi j) -> exists u p, face_corners o j u /\ nth_error pts id = Some p /\ both (triangle_of coords t) (triangle_of coords u) (coords p)) ->
    face_corners m fi t ->
    exists new ts, get_faces cdt_faces m fi tris ids = Ok new /\ map (at_face pts) new = map Some ts /\
      tiles (triangle_of coords t) (map (triangle_of coords) ts) /\
      (ts = [t] \/ exists j u x, face_corners o j u /\ both (triangle_of coords t) (triangle_of coords u) x).
  Proof.
    intros coords cdt_faces m o ids pts tris outl fi t Hc Hcdt Hm Ho Hl Hids (_ & Hex & Hrec) Hout Hf.
    assert (ND : nondegenerate (triangle_of coords t)) by (exact (proper_corners coords m fi t Hm Hf)).
    destruct Hf as (v0 & v1 & v2 & p & q & r & Ef & E0 & E1 & E2 & ->).
    assert (Gid : forall v x, nth_error (points m) v = Some x -> exists i, nth_error ids v = Some i /\ nth_error pts i = Some x).
    { intros v x X. destruct (nth_error ids v) as [i | ] eqn:E; [ exists i; split; [ reflexivity | eapply Hids; eassumption ] | ].
      apply nth_error_None in E. assert (v < length (points m)) by (apply nth_error_Some; congruence). lia. }
    destruct (Gid _ _ E0) as (a & Ia & Pa). destruct (Gid _ _ E1) as (b & Ib & Pb). destruct (Gid _ _ E2) as (c & Ic & Pc).
    assert (Fp : face_points m ids fi (a, b, c)) by (exists v0, v1, v2, a, b, c; auto).
    unfold get_faces. destruct (assoc_find Nat.eqb fi tris) as [t | ] eqn:Ea.
    - apply assoc_find_in in Ea. destruct (Hrec fi t Ea) as (_ & Hv & Hp & N1 & N2 & _ & a' & b' & c' & rest & Fp' & Es).
      pose proof (face_points_fun _ _ _ _ _ Fp Fp') as X. injection X as <- <- <-.
      assert (Hin : forall x id, In (x, id) (t_vertices t) -> inside (triangle_of coords (p, q, r)) (coords x)).
      { intros x id J. pose proof (Hp _ _ J) as X. destruct (proj1 (Hv id) (ex_intro _ x J)) as [(a' & b' & c' & Y & Z) | (j & Z)].
        - pose proof (face_points_fun _ _ _ _ _ Fp Y) as W. injection W as <- <- <-. destruct (corners_self (coords p) (coords q) (coords r)) as (K0 & K1 & K2).
          cbn in Z. destruct Z as [<- | [<- | [<- | [ ] ] ] ]; [ replace x with p by congruence | replace x with q by congruence | replace x with r by congruence ]; assumption.
        - destruct (Hout j id Z) as (u & x' & _ & W & B & _). replace x with x' by congruence. exact B. }
      destruct (t_vertices t) as [ | [p' i0] [ | [q' i1] [ | [r' i2] vs] ] ] eqn:Ev; try discriminate. cbn [map snd] in Es. injection Es as -> -> -> Es.
      assert (p' = p /\ q' = q /\ r' = r) as (-> & -> & ->).
      { pose proof (Hp p' a ltac:(cbn; auto)). pose proof (Hp q' b ltac:(cbn; auto)). pose proof (Hp r' c ltac:(cbn; auto)). repeat split; congruence. }
      destruct (Hcdt t (coords p) (coords q) (coords r) (map (fun v => coords (fst v)) vs)) as (parts & F & T).
      + rewrite Ev. reflexivity.
      + exact ND.
      + intros x J. apply in_map_iff in J. destruct J as ([y id] & <- & J). apply (Hin y id). cbn. auto.
      + intros i j x y X Y S. rewrite Ev, <- (map_map fst coords), nth_error_map in X, Y. 
        match type of X with option_map _ ?e = _ => destruct e as [x' | ] eqn:Ei; [ | discriminate ] end. match type of Y with option_map _ ?e = _ => destruct e as [y' | ] eqn:Ej; [ | discriminate ] end.
        cbn in X, Y. injection X as <-. injection Y as <-. apply Hc in S. subst y'.
        rewrite NoDup_nth_error in N2. apply N2; [ apply nth_error_Some; congruence | congruence ].
      + destruct (tri_faces_ok cdt_faces t coords pts parts) as (new & ts & A & B & C); [ rewrite Ev; exact Hp | exact F | ].
        exists new, ts. split; [ exact A | ]. split; [ exact B | ]. rewrite C. split; [ exact T | ]. right.
        destruct (proj1 (Hex fi) (ex_intro _ t Ea)) as (j & Nj). destruct (outl fi j) as [ | id l] eqn:El; [ congruence | ].
        destruct (Hout j id) as (u & x & Cu & _ & B'); [ rewrite El; cbn; auto | ]. exists j, u, (coords x). auto.
    - rewrite (face_ids_ok _ _ _ _ Fp). cbn [bind]. exists [(a, b, c)], [(p, q, r)]. split; [ reflexivity | ]. split; [ cbn; rewrite Pa, Pb, Pc; reflexivity | ].
      split; [ apply tiles_self, ND | left; reflexivity ].
  Qed.
End MixFaces.

Section Whole.
  Context {P D : Type}.
  Lemma special_boundary : forall r : region P D, wf_region r -> is_empty_or_full r = true -> boundary r = empty_soup.
  Proof. intros r W E. unfold wf_region in W. unfold is_empty_or_full, is_empty, is_full in E. destruct (kind r); cbn in E; [ exact W | exact W | discriminate ]. Qed.
  Lemma parts_of_empty : forall coords (o : soup P D), parts_of coords empty_soup o [].
  Proof. intros coords o. split; [ reflexivity | ]. intros fi t ts _ H. destruct fi; discriminate. Qed.
  Lemma retag_wf : forall (m : soup P D) left t, wf_soup m -> wf_mixed (mk_soup (points m) (faces m) (map (mk_mixed left t) (face_data m))).
  Proof. intros m left t [L F]. split; cbn; [ rewrite map_length; exact L | exact F ]. Qed.
  Lemma whole_parts : forall coords (m o : soup P D) left t, proper coords m -> wf_soup m -> exists parts, parts_of coords m o parts /\
    labels (mk_soup (points m) (faces m) (map (mk_mixed left t) (face_data m))) = labelled m left parts.
  Proof.
    intros coords m o left t Hp [Hl Hf].
    exists (map (fun f => match at_face (points m) f with Some t => [t] | None => [] end) (faces m)). split.
    - split; [ apply map_length | ]. intros fi u ts C E. rewrite nth_error_map in E. pose proof (proper_corners coords m fi u Hp C) as N.
      destruct C as (a & b & c & p & q & r & Ef & E0 & E1 & E2 & ->). rewrite Ef in E. cbn in E. rewrite E0, E1, E2 in E. injection E as <-.
      split; [ apply tiles_self, N | left; reflexivity ].
    - unfold labels, labelled. cbn [points faces face_data]. change (fun f : face => let '(a, b, c) := f in _) with (at_face (points m)). revert Hl Hf. generalize (face_data m) as ds. generalize (faces m) as fs. 
      induction fs as [ | f fs IH]; intros [ | d ds] Hl Hf; cbn in *; try discriminate; [ reflexivity | ]. inversion Hf as [ | ? ? F0 Hf']; subst. rewrite IH by (auto; lia).
      destruct f as [ [a b] c]. cbn. destruct F0 as (A & B & C).
      destruct (nth_error (points m) a) eqn:E0; [ | apply nth_error_None in E0; lia ]. destruct (nth_error (points m) b) eqn:E1; [ | apply nth_error_None in E1; lia ]. destruct (nth_error (points m) c) eqn:E2; [ | apply nth_error_None in E2; lia ].
      reflexivity.
  Qed.
  Lemma label_piece : forall coords (m o : soup P D) parts left left' d u, proper coords m -> parts_of coords m o parts -> In (Some u, (left, d)) (labelled m left' parts) ->
    exists i, piece_of coords m o i d u.
  Proof.
    intros coords m o parts left left' d u Hp [Hl Ht] J. apply in_flat_map in J. destruct J as ([ts d'] & J & J'). apply in_map_iff in J'. destruct J' as (u' & E & Ju). injection E as -> _ ->.
    apply In_nth_error in J. destruct J as (i & J). apply combine_nth_both in J. destruct J as [E1 E2]. exists i.
    assert (i < num_faces m) as Hi by (rewrite <- Hl; apply nth_error_Some; congruence). destruct (Hp i Hi) as (v & Cv & _).
    destruct (Ht i v ts Cv E1) as [T X]. exists v. split; [ exact Cv | ]. split; [ exact E2 | ]. apply (in_map (triangle_of coords)) in Ju as Ju'. split; [ intros x; apply (tl_inside _ _ T _ x Ju') | ]. split; [ apply (tl_turn _ _ T _ Ju') | ].
    destruct X as [-> | X]; [ left; destruct Ju as [<- | [ ] ]; reflexivity | right; exact X ].
  Qed.
End Whole.
