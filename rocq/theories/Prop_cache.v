(** * C40, C44: histories of triangle soups *)
From Coq Require Import List Arith Bool QArith Lqa Lia Permutation.
From Verif Require Import Model_base Proof_base Model_soup Model_aabb Spec_aabb Proof_aabb Prop_aabb Model_candidates Spec_candidates Proof_pairs.
From Verif Require Import Model_cache Spec_cache Proof_cache.
Import ListNotations.
Local Open Scope nat_scope.

(** ** C44 *)

Local Ltac same_object Hx :=
  match type of Hx with nth_error ?s ?i = Some ?x =>
    match goal with B : nth_error s i = Some ?y |- _ => lazymatch y with x => fail | _ => assert (y = x) by congruence; subst y; clear B end end end.
Local Ltac on_result tac :=
  match goal with
  | H : add_vertex _ _ = _ |- _ => tac H
  | H : add_face _ _ _ = _ |- _ => tac H
  | H : set_data _ _ _ = _ |- _ => tac H
  end.

(** In every history, an object that is not assigned to and not moved from keeps its
    points, faces and data; the points and faces added to it are appended in order, and
    nothing else happens to it, whatever is done to other objects (its copies included). *)
Theorem C44_append_only : forall P D (d0 : D) (pbox : P -> box) longest_axis sort_by nth_element_by ops st st' rs i x,
  run d0 pbox longest_axis sort_by nth_element_by st ops st' rs ->
  nth_error st i = Some x -> Forall (fun o => ~ replaces i o) ops ->
  exists x', nth_error st' i = Some x' /\
    points (o_soup x') = points (o_soup x) ++ vertices_added i ops /\
    faces (o_soup x') = faces (o_soup x) ++ faces_added i ops /\
    length (face_data (o_soup x')) = length (face_data (o_soup x)) + length (faces_added i ops) /\
    (forall fi d, nth_error (face_data (o_soup x)) fi = Some d -> Forall (fun o => ~ assigns i fi o) ops ->
       nth_error (face_data (o_soup x')) fi = Some d).
Proof. intros P D d0 pbox la sb ne ops st st' rs i x H Hx F. exact (run_effect d0 pbox la sb ne ops st st' rs i x H Hx F). Qed.
Print Assumptions C44_append_only.

(** add_vertex and add_face return consecutive indices, which lead to what was added, for
    the rest of the history. *)
Theorem C44_vertex_index : forall P D (d0 : D) (pbox : P -> box) longest_axis sort_by nth_element_by before p after st st' rs i x,
  run d0 pbox longest_axis sort_by nth_element_by st (before ++ AddVertex i p :: after) st' rs ->
  nth_error st i = Some x -> Forall (fun o => ~ replaces i o) (before ++ AddVertex i p :: after) ->
  exists n x', n = length (points (o_soup x)) + length (vertices_added i before) /\
    nth_error rs (length before) = Some (RIndex n) /\
    nth_error st' i = Some x' /\ nth_error (points (o_soup x')) n = Some p.
Proof.
  intros P D d0 pbox la sb ne before p after st st' rs i x H Hx F.
  destruct (run_effect d0 pbox la sb ne _ _ _ _ _ _ H Hx F) as (x' & Hx' & Ep & _).
  apply run_app in H. destruct H as (st1 & ra & rb & H1 & H2 & -> & L). apply Forall_app in F. destruct F as [F1 F2].
  destruct (run_effect d0 pbox la sb ne _ _ _ _ _ _ H1 Hx F1) as (x1 & Hx1 & Ep1 & _).
  inversion H2 as [ | ? ? st2 r ? ? rs' Ho Hr]; subst. inversion Ho; subst. same_object Hx1. on_result ltac:(fun H => apply vertex_grow in H; destruct H as (_ & _ & _ & ->)).
  exists (length (points (o_soup x1))), x'. rewrite Ep1, app_length. split; [ reflexivity | ]. split; [ rewrite nth_error_app2 by lia; rewrite L, Nat.sub_diag; reflexivity | ]. split; [ exact Hx' | ].
  rewrite Ep. destruct (@added_app P D i before (AddVertex i p :: after)) as [-> _]. rewrite app_assoc, nth_error_app2 by (rewrite app_length; lia). rewrite app_length, Nat.sub_diag.
  cbn [vertices_added flat_map]. rewrite Nat.eqb_refl. reflexivity.
Qed.
Print Assumptions C44_vertex_index.

Theorem C44_face_index : forall P D (d0 : D) (pbox : P -> box) longest_axis sort_by nth_element_by before f after st st' rs i x,
  run d0 pbox longest_axis sort_by nth_element_by st (before ++ AddFace i f :: after) st' rs ->
  nth_error st i = Some x -> Forall (fun o => ~ replaces i o) (before ++ AddFace i f :: after) ->
  length (face_data (o_soup x)) = length (faces (o_soup x)) ->
  exists n x', n = length (faces (o_soup x)) + length (faces_added i before) /\
    nth_error rs (length before) = Some (RIndex n) /\
    nth_error st' i = Some x' /\ nth_error (faces (o_soup x')) n = Some f /\
    length (face_data (o_soup x')) = length (faces (o_soup x')) /\
    (* the data are default data until assigned *)
    (Forall (fun o => ~ assigns i n o) after -> nth_error (face_data (o_soup x')) n = Some d0).
Proof.
  intros P D d0 pbox la sb ne before f after st st' rs i x H Hx F Ld.
  destruct (run_effect d0 pbox la sb ne _ _ _ _ _ _ H Hx F) as (x' & Hx' & _ & Ef & El & _).
  apply run_app in H. destruct H as (st1 & ra & rb & H1 & H2 & -> & L). apply Forall_app in F. destruct F as [F1 F2].
  destruct (run_effect d0 pbox la sb ne _ _ _ _ _ _ H1 Hx F1) as (x1 & Hx1 & _ & Ef1 & El1 & _).
  inversion H2 as [ | ? ? st2 r ? ? rs' Ho Hr]; subst. inversion Ho; subst. same_object Hx1. on_result ltac:(fun H => apply face_grow in H; destruct H as (E1 & E2 & E3 & ->)).
  inversion F2 as [ | ? ? _ F3]; subst.
  exists (length (faces (o_soup x1))), x'. rewrite Ef1, app_length. split; [ reflexivity | ]. split; [ rewrite nth_error_app2 by lia; rewrite L, Nat.sub_diag; reflexivity | ]. split; [ exact Hx' | ].
  split; [ | split ].
  - rewrite Ef. destruct (@added_app P D i before (AddFace i f :: after)) as [_ ->]. rewrite app_assoc, nth_error_app2 by (rewrite app_length; lia). rewrite app_length, Nat.sub_diag.
    cbn [faces_added flat_map]. rewrite Nat.eqb_refl. reflexivity.
  - rewrite El, Ef, app_length, Ld. reflexivity.
  - intro Fa. assert (Lt := at_lt _ _ _ _ Hx1). set (y := mk_object s (o_tree x1)) in *.
    assert (Hy : nth_error (list_set st1 i y) i = Some y) by (apply nth_error_list_set_eq; exact Lt).
    destruct (run_effect d0 pbox la sb ne _ _ _ _ _ _ Hr Hy F3) as (x2 & Hx2 & _ & _ & _ & K). rewrite Hx' in Hx2. injection Hx2 as <-.
    apply K; [ | exact Fa ]. unfold y. cbn [o_soup]. rewrite E3. replace (length (faces (o_soup x)) + length (faces_added i before)) with (length (face_data (o_soup x1))) by lia. apply nth_error_app_last.
Qed.
Print Assumptions C44_face_index.

(** Assigned data are read back until assigned again; an index without a face throws. *)
Theorem C44_data : forall P D (d0 : D) (pbox : P -> box) longest_axis sort_by nth_element_by fi d ops st st' rs i x,
  run d0 pbox longest_axis sort_by nth_element_by st (SetData i fi d :: ops) st' rs ->
  nth_error st i = Some x -> Forall (fun o => ~ replaces i o) ops -> Forall (fun o => ~ assigns i fi o) ops ->
  (length (face_data (o_soup x)) <= fi <-> exists rs', rs = RThrow :: rs') /\
  (fi < length (face_data (o_soup x)) -> exists x', nth_error st' i = Some x' /\ nth_error (face_data (o_soup x')) fi = Some d).
Proof.
  intros P D d0 pbox la sb ne fi d ops st st' rs i x H Hx F Fa. inversion H as [ | ? ? st1 r ? ? rs' Ho Hr]; subst. inversion Ho; subst.
  - same_object Hx. on_result ltac:(fun H => rename H into Hs). unfold set_data, vec_set in Hs. destruct (Nat.ltb_spec fi (length (face_data (o_soup x)))) as [L | L]; cbn [bind] in Hs; [ | discriminate ]. injection Hs as <-.
    split; [ split; [ lia | intros (? & X); discriminate ] | ]. intros _. set (y := mk_object _ _) in *.
    assert (Hy : nth_error (list_set st i y) i = Some y) by (apply nth_error_list_set_eq; eapply at_lt; exact Hx).
    destruct (run_effect d0 pbox la sb ne _ _ _ _ _ _ Hr Hy F) as (x2 & Hx2 & _ & _ & _ & K). exists x2. split; [ exact Hx2 | ].
    apply K; [ | exact Fa ]. unfold y. cbn [o_soup face_data]. apply nth_error_list_set_eq. exact L.
  - same_object Hx. on_result ltac:(fun H => rename H into Hs). unfold set_data, vec_set in Hs. destruct (Nat.ltb_spec fi (length (face_data (o_soup x)))) as [L | L]; cbn [bind] in Hs; [ discriminate | ].
    split; [ split; [ eauto | intros _; exact L ] | intro; lia ].
Qed.
Print Assumptions C44_data.

(** A copy has the contents of the original; from then on the two are independent. *)
Theorem C44_copy : forall P D (d0 : D) (pbox : P -> box) longest_axis sort_by nth_element_by ops st st' rs i x,
  run d0 pbox longest_axis sort_by nth_element_by st (CopyNew i :: ops) st' rs ->
  nth_error st i = Some x ->
  Forall (fun o => ~ replaces i o) ops -> Forall (fun o => ~ replaces (length st) o) ops ->
  exists x' y', nth_error st' i = Some x' /\ nth_error st' (length st) = Some y' /\
    points (o_soup x') = points (o_soup x) ++ vertices_added i ops /\
    points (o_soup y') = points (o_soup x) ++ vertices_added (length st) ops /\
    faces (o_soup x') = faces (o_soup x) ++ faces_added i ops /\
    faces (o_soup y') = faces (o_soup x) ++ faces_added (length st) ops /\
    (forall fi d, nth_error (face_data (o_soup x)) fi = Some d ->
       (Forall (fun o => ~ assigns i fi o) ops -> nth_error (face_data (o_soup x')) fi = Some d) /\
       (Forall (fun o => ~ assigns (length st) fi o) ops -> nth_error (face_data (o_soup y')) fi = Some d)).
Proof.
  intros P D d0 pbox la sb ne ops st st' rs i x H Hx F1 F2. inversion H as [ | ? ? st1 r ? ? rs' Ho Hr]; subst. inversion Ho; subst. same_object Hx.
  assert (A : nth_error (st ++ [mk_object (o_soup x) None]) i = Some x) by (rewrite nth_error_app1 by (eapply at_lt; exact Hx); exact Hx).
  assert (B : nth_error (st ++ [mk_object (o_soup x) None]) (length st) = Some (mk_object (o_soup x) None)) by apply nth_error_app_last.
  destruct (run_effect d0 pbox la sb ne _ _ _ _ _ _ Hr A F1) as (x1 & X1 & A1 & A2 & _ & A3). destruct (run_effect d0 pbox la sb ne _ _ _ _ _ _ Hr B F2) as (x2 & X2 & B1 & B2 & _ & B3).
  exists x1, x2. repeat (split; [ assumption | ]). intros fi d Hd. split; intro Fa; [ apply A3 | apply B3 ]; assumption.
Qed.
Print Assumptions C44_copy.

(** A soup constructed from vectors has them as contents, plus what is added later. *)
Theorem C44_new_from : forall P D (d0 : D) (pbox : P -> box) longest_axis sort_by nth_element_by ps fs ds ops st st' rs,
  run d0 pbox longest_axis sort_by nth_element_by st (NewFrom ps fs ds :: ops) st' rs ->
  Forall (fun o => ~ replaces (length st) o) ops ->
  exists x, nth_error st' (length st) = Some x /\
    points (o_soup x) = ps ++ vertices_added (length st) ops /\
    faces (o_soup x) = fs ++ faces_added (length st) ops /\
    (forall fi d, nth_error ds fi = Some d -> Forall (fun o => ~ assigns (length st) fi o) ops ->
       nth_error (face_data (o_soup x)) fi = Some d).
Proof.
  intros P D d0 pbox la sb ne ps fs ds ops st st' rs H F. inversion H as [ | ? ? st1 r ? ? rs' Ho Hr]; subst. inversion Ho; subst.
  destruct (run_effect d0 pbox la sb ne _ _ _ _ _ _ Hr (nth_error_app_last _ _ _) F) as (x & X & A1 & A2 & _ & A3).
  exists x. auto.
Qed.
Print Assumptions C44_new_from.

(** Moving hands over the contents; the source is left empty.  Assignment replaces the
    contents of the target by those of the source, which keeps them when it is copied. *)
Theorem C44_moved : forall P D (d0 : D) (pbox : P -> box) longest_axis sort_by nth_element_by st st' r i j x,
  nth_error st j = Some x ->
  (do_op d0 pbox longest_axis sort_by nth_element_by st (MoveNew j) st' r ->
     exists x' y', nth_error st' (length st) = Some x' /\ o_soup x' = o_soup x /\
       nth_error st' j = Some y' /\ o_soup y' = empty_soup) /\
  (do_op d0 pbox longest_axis sort_by nth_element_by st (MoveAssign i j) st' r ->
     exists x' y', nth_error st' i = Some x' /\ o_soup x' = o_soup x /\
       nth_error st' j = Some y' /\ o_soup y' = empty_soup) /\
  (do_op d0 pbox longest_axis sort_by nth_element_by st (CopyAssign i j) st' r ->
     exists x' y', nth_error st' i = Some x' /\ o_soup x' = o_soup x /\
       nth_error st' j = Some y' /\ o_soup y' = o_soup x).
Proof.
  intros P D d0 pbox la sb ne st st' r i j x Hx. pose proof (at_lt _ _ _ _ Hx) as Lj. split; [ | split ]; intro Ho; inversion Ho; subst.
  - same_object Hx. eexists. eexists. split; [ | split; [ reflexivity | split; [ | ] ] ].
    + rewrite nth_error_app2 by (rewrite length_list_set; lia). rewrite length_list_set, Nat.sub_diag. reflexivity.
    + rewrite nth_error_app1 by (rewrite length_list_set; lia). apply nth_error_list_set_eq. exact Lj.
    + reflexivity.
  - same_object Hx. match goal with H : nth_error st i = Some _ |- _ => pose proof (at_lt _ _ _ _ H) as Li end.
    eexists. eexists. split; [ apply nth_error_list_set_eq; rewrite length_list_set; exact Li | ]. split; [ reflexivity | ]. split; [ | ].
    + rewrite nth_error_list_set_neq by auto. apply nth_error_list_set_eq. exact Lj.
    + reflexivity.
  - exists x, x. auto.
  - same_object Hx. match goal with H : nth_error st i = Some _ |- _ => pose proof (at_lt _ _ _ _ H) as Li end.
    eexists. eexists. split; [ apply nth_error_list_set_eq; exact Li | ]. split; [ reflexivity | ].
    rewrite nth_error_list_set_neq by auto. split; [ exact Hx | reflexivity ].
Qed.
Print Assumptions C44_moved.

(** Region(soup): rejected exactly if there is no face; otherwise the soup is the boundary. *)
Theorem C44_region_needs_faces : forall P D (s : soup P D),
  (region_of_soup s = Throw InvalidArgument <-> faces s = []) /\
  (faces s <> [] -> exists r, region_of_soup s = Ok r /\ boundary r = s /\ kind r = BOUNDARY_DEFINED).
Proof.
  intros P D [ps [ | f fs] ds]; unfold region_of_soup; cbn; (split; [ split | ]); try discriminate; try tauto.
  intros _. eexists. split; [ reflexivity | auto ].
Qed.
Print Assumptions C44_region_needs_faces.

(** ** C40 *)

(** The faces that a query on the tree [t] returns: those of the leaves found. *)
Definition finds (t : tree (box * nat)) (meets : box -> bool) (fis : list nat) : Prop :=
  exists found leaves, get_intersecting_leaves (@fst box nat) meets t = Ok found /\
    Forall2 (fun i l => nth_error (t_leaves t) i = Some l) found leaves /\ fis = map snd leaves.

Lemma finds_unique : forall t meets fis fis', finds t meets fis -> finds t meets fis' -> fis = fis'.
Proof.
  intros t meets fis fis' (f & l & E & F & ->) (f' & l' & E' & F' & ->). rewrite E in E'. injection E' as <-. f_equal. clear E. revert l' F'.
  induction F as [ | i x f l Hx F IH]; intros l' F'; inversion F' as [ | ? y ? l'' Hy F'']; subst; [ reflexivity | ]. f_equal; [ congruence | auto ].
Qed.
Lemma tree_finds : forall P D (pbox : P -> box) longest_axis sort_by nth_element_by (m : soup P D) t meets,
  rearranges sort_by nth_element_by -> monotone meets -> aabb_tree pbox longest_axis sort_by nth_element_by m t ->
  exists fis, finds t meets fis /\ NoDup fis /\
    forall fi, In fi fis <-> fi < num_faces m /\ exists b, is_face_box pbox m fi b /\ meets b = true.
Proof.
  intros P D pbox la sb ne m t meets Hre Hm Ht. destruct Ht as [limit ls t Hls Hst].
  destruct (leaves_spec pbox m _ _ _ Hls) as (r & E & F). cbn [app] in E. subst r.
  assert (V : valid_faces m).
  { unfold valid_faces. apply Forall_forall. intros [ [a b] c] Hf. apply In_nth_error in Hf. destruct Hf as (k & Hk).
    assert (G : forall (l : list nat) r0 k0, Forall2 (fun fi e => face_bbox pbox m fi = Ok (fst e) /\ @snd box nat e = fi) l r0 -> In k0 l -> exists bx, face_bbox pbox m k0 = Ok bx).
    { clear. intros l r0 k0 F0. induction F0 as [ | fi e l r0 [A _] F0 IH]; intros [ ]; subst; eauto. }
    assert (Lk : k < num_faces m) by (apply nth_error_Some; congruence).
    destruct (G _ _ k F ltac:(apply in_seq; lia)) as (bx & Hb). unfold face_bbox, soup_triangle, soup_face, soup_point, vec_at in Hb. rewrite Hk in Hb. cbn [bind] in Hb.
    destruct (nth_error (points m) a) eqn:Ea; cbn [bind] in Hb; [ | discriminate ]. destruct (nth_error (points m) b) eqn:Eb; cbn [bind] in Hb; [ | discriminate ].
    destruct (nth_error (points m) c) eqn:Ec; cbn [bind] in Hb; [ | discriminate ]. repeat split; apply nth_error_Some; congruence. }
  rewrite (leaves_ok pbox m V) in Hls. injection Hls as <-.
  destruct (C23_query_exact _ _ _ _ _ _ _ _ meets Hre Hst Hm) as (found & leaves & Hq & Hnd & Hf & Hp).
  exists (map snd leaves). split; [ exists found, leaves; auto | ].
  assert (Hp' : Permutation (map snd leaves) (filter (fun fj => meets (the_box pbox m fj)) (seq 0 (num_faces m)))).
  { apply (Permutation_map snd) in Hp. eapply Permutation_trans; [ exact Hp | ]. clear. induction (seq 0 (num_faces m)) as [ | fj l IH]; [ apply Permutation_refl | ].
    cbn [map filter fst]. destruct (meets (the_box pbox m fj)); cbn [map snd]; [ apply perm_skip | ]; exact IH. }
  split; [ eapply Permutation_NoDup; [ apply Permutation_sym; exact Hp' | apply NoDup_filter, seq_NoDup ] | ]. intro fi.
  assert (K : forall b, fi < num_faces m -> is_face_box pbox m fi b -> meets b = true -> meets (the_box pbox m fi) = true).
  { intros b L B M. destruct (the_box_ok pbox m fi V L) as [_ [C _] ]. apply (Hm b); [ apply B; exact C | exact M ]. }
  split.
  - intro H. apply (Permutation_in _ Hp') in H. apply filter_In in H. destruct H as [H1 H2]. apply in_seq in H1. split; [ lia | ].
    exists (the_box pbox m fi). split; [ apply the_box_ok; [ exact V | lia ] | exact H2 ].
  - intros (L & b & B & M). apply (Permutation_in _ (Permutation_sym Hp')), filter_In. split; [ apply in_seq; lia | eauto ].
Qed.

(** Whatever the history, the tree that is returned answers every query correctly for the
    first [n] faces of the object, for some [n], and knows nothing of the others. *)
Theorem C40_first_faces : forall P D (d0 : D) (pbox : P -> box) longest_axis sort_by nth_element_by ops st st' rs i x t,
  rearranges sort_by nth_element_by ->
  run d0 pbox longest_axis sort_by nth_element_by [] ops st rs ->
  nth_error st i = Some x ->
  do_op d0 pbox longest_axis sort_by nth_element_by st (Tree i) st' (RTree t) ->
  exists n, n <= num_faces (o_soup x) /\
    forall meets, monotone meets -> exists fis, finds t meets fis /\ NoDup fis /\
      forall fi, In fi fis <-> fi < n /\ exists b, is_face_box pbox (o_soup x) fi b /\ meets b = true.
Proof.
  intros P D d0 pbox la sb ne ops st st' rs i x t Hre Hr Hx Ht.
  assert (I : all_inv pbox la sb ne st) by (apply (run_inv d0 pbox la sb ne _ _ _ _ Hr); intros k y Hk; destruct k; discriminate).
  assert (G : exists n, n <= num_faces (o_soup x) /\ aabb_tree pbox la sb ne (truncate (o_soup x) n) t).
  { inversion Ht; subst; same_object Hx; [ apply (I i x Hx); assumption | ]. exists (num_faces (o_soup x)). split; [ lia | ]. apply truncate_all. assumption. }
  destruct G as (n & L & A). exists n. split; [ exact L | ]. intros meets Hm. destruct (tree_finds _ _ _ _ _ _ _ _ meets Hre Hm A) as (fis & F & N & K).
  exists fis. split; [ exact F | ]. split; [ exact N | ]. intro fi. rewrite K.
  assert (Ln : num_faces (truncate (o_soup x) n) = n) by (unfold num_faces, truncate in *; cbn [faces]; apply firstn_length_le; exact L). rewrite Ln.
  assert (C : fi < n -> forall p, corner (truncate (o_soup x) n) fi p <-> corner (o_soup x) fi p).
  { intros Lf p. unfold corner, truncate. cbn [faces points]. assert (E : nth_error (firstn n (faces (o_soup x))) fi = nth_error (faces (o_soup x)) fi).
    { clear - Lf. revert fi Lf. generalize (faces (o_soup x)). induction n as [ | n IH]; intros [ | f l] [ | fi] H; cbn; try reflexivity; try lia. apply IH. lia. }
    rewrite E. tauto. }
  split; intros (Lf & b & [B1 B2] & M); (split; [ exact Lf | exists b; split; [ | exact M ] ]); specialize (C Lf); split.
  - intros p Hp. apply B1, C, Hp.
  - intros c Hc. apply B2. intros p Hp. apply Hc, C, Hp.
  - intros p Hp. apply B1, C, Hp.
  - intros c Hc. apply B2. intros p Hp. apply Hc, C, Hp.
Qed.
Print Assumptions C40_first_faces.

(** If no face is added to an object between a query and the next assignment to the object,
    the tree is the one a fresh object with the same contents would build, and every query
    sees exactly the current faces.  What is missing: the condition on the history, which
    the code does not check. *)
Theorem C40_current_partial : forall P D (d0 : D) (pbox : P -> box) longest_axis sort_by nth_element_by ops st st' rs i x t,
  rearranges sort_by nth_element_by ->
  run d0 pbox longest_axis sort_by nth_element_by [] ops st rs -> careful ops ->
  nth_error st i = Some x ->
  do_op d0 pbox longest_axis sort_by nth_element_by st (Tree i) st' (RTree t) ->
  (forall t', aabb_tree pbox longest_axis sort_by nth_element_by (o_soup x) t' -> t = t') /\
  forall meets, monotone meets -> exists fis, finds t meets fis /\ NoDup fis /\
    forall fi, In fi fis <-> fi < num_faces (o_soup x) /\ exists b, is_face_box pbox (o_soup x) fi b /\ meets b = true.
Proof.
  intros P D d0 pbox la sb ne ops st st' rs i x t Hre Hr Hc Hx Ht.
  assert (I : exact_inv pbox la sb ne (rev ops ++ []) st).
  { apply (run_exact d0 pbox la sb ne _ _ _ _ _ Hr); [ split; [ reflexivity | intros k y Hk; destruct k; discriminate ] | ]. intros b k f a E. rewrite app_nil_r. exact (Hc _ _ _ _ E). }
  assert (A : aabb_tree pbox la sb ne (o_soup x) t).
  { inversion Ht; subst; same_object Hx; [ | assumption ]. destruct I as [_ I]. apply (I i x Hx). assumption. }
  split.
  - intros t' A'. destruct A as [l ls t H1 H2], A' as [l' ls' t' H1' H2']. rewrite H1 in H1'. injection H1' as <-. exact (C23_schedule_irrelevant _ _ _ _ _ _ _ _ _ _ Hre H2 H2').
  - intros meets Hm. exact (tree_finds _ _ _ _ _ _ _ _ meets Hre Hm A).
Qed.
Print Assumptions C40_current_partial.

(** Without the condition the claim is false: build a soup with one face, query it, add a
    second face, query again; the second face is not found, not even by its own box. *)
Theorem C40_refuted : forall P D (d0 : D) (pbox : P -> box) longest_axis sort_by nth_element_by (p q r s : P),
  rearranges sort_by nth_element_by -> (forall p, proper (pbox p)) ->
  exists ops st rs x t b,
    ops = [New; AddVertex 0 p; AddVertex 0 q; AddVertex 0 r; AddFace 0 (0, 1, 2); Tree 0; AddVertex 0 s; AddFace 0 (1, 2, 3)] /\
    run d0 pbox longest_axis sort_by nth_element_by [] ops st rs /\
    nth_error st 0 = Some x /\
    do_op d0 pbox longest_axis sort_by nth_element_by st (Tree 0) st (RTree t) /\
    num_faces (o_soup x) = 2 /\ is_face_box pbox (o_soup x) 1 b /\ boxes_intersect b b = true /\
    forall fis, finds t (fun c => boxes_intersect c b) fis -> ~ In 1 fis.
Proof.
  intros P D d0 pbox la sb ne p q r s Hre Hp.
  set (m1 := @mk_soup P D [p; q; r] [(0, 1, 2)] [d0]). set (m2 := @mk_soup P D [p; q; r; s] [(0, 1, 2); (1, 2, 3)] [d0; d0]).
  assert (V1 : valid_faces m1) by (repeat constructor; cbn; lia). assert (V2 : valid_faces m2) by (repeat constructor; cbn; lia).
  destruct (C23_can_be_built _ (@fst box nat) la sb ne 0 (map (fun fi => (the_box pbox m1 fi, fi)) (seq 0 (num_faces m1)))) as (t & Ht).
  assert (A : aabb_tree pbox la sb ne m1 t) by (econstructor; [ apply leaves_ok, V1 | exact Ht ]).
  destruct (the_box_ok pbox m2 1 V2 ltac:(cbn; lia)) as [_ B].
  eexists _, [mk_object m2 (Some t)], _, (mk_object m2 (Some t)), t, (the_box pbox m2 1).
  split; [ reflexivity | ]. split; [ | split; [ reflexivity | split; [ | split; [ reflexivity | split; [ exact B | split ] ] ] ] ].
  - repeat (eapply run_cons; [ first [ apply do_new | eapply do_add_vertex; reflexivity | eapply do_add_face; reflexivity | eapply do_tree_build; [ reflexivity | reflexivity | exact A ] ] | ]). apply run_nil.
  - eapply do_tree_cached; reflexivity.
  - destruct B as [B _]. assert (Cq : corner m2 1 q) by (exists 1, 2, 3; cbn; auto).
    specialize (B _ Cq). specialize (Hp q). apply C23_boxes_share_point; destruct B as (B1 & B2 & B3 & B4 & B5 & B6), Hp as (P1 & P2 & P3).
    1, 2: repeat split; Lqa.lra.
    exists (xmin (pbox q)), (ymin (pbox q)), (zmin (pbox q)). repeat split; Lqa.lra.
  - intros fis F H. destruct (tree_finds _ _ _ _ _ _ _ _ _ Hre (C23_box_query (the_box pbox m2 1)) A) as (fis' & F' & _ & K).
    rewrite (finds_unique _ _ _ _ F F') in H. apply K in H. cbn in H. lia.
Qed.
Print Assumptions C40_refuted.

(** A careful history with queries, copies and additions, whose last query sees both faces. *)
Example C40_careful_history : forall P D (p : P),
  let ops := [New; AddVertex 0 p; AddFace 0 (0, 0, 0); CopyNew 0; Tree 0; AddFace 1 (0, 0, 0); Tree 1] : list (@op P D) in
  careful ops /\ queried (rev ops) 0 /\ queried (rev ops) 1.
Proof.
  intros P D p ops. split; [ | split ].
  - intros before i f after E Q. unfold ops in E.
    repeat (destruct before as [ | ? before]; [ cbn in E; try discriminate E; injection E as <- <- <- | cbn in E; injection E as <- E ]); try (destruct before; discriminate E); cbn in Q;
      repeat match goal with H : queried (_ :: _) _ |- _ => inversion H; clear H; subst | H : queried [] _ |- _ => inversion H end.
  - cbn. apply q_keep; [ apply q_keep; [ apply q_tree | cbn; tauto ] | cbn; tauto ].
  - apply q_tree.
Qed.

(** A history that meets the hypotheses of the theorems of C44: object 0 is filled, copied,
    the copy is changed and then assigned data. *)
Example C44_history : forall P D (d0 d1 : D) (pbox : P -> box) longest_axis sort_by nth_element_by (p q : P),
  let ops := [AddVertex 0 p; AddFace 0 (0, 0, 0); CopyNew 0; AddVertex 1 q; AddFace 1 (0, 1, 1); SetData 1 1 d1; SetData 1 2 d1] in
  run d0 pbox longest_axis sort_by nth_element_by [mk_object empty_soup None] ops
    [mk_object (mk_soup [p] [(0, 0, 0)] [d0]) None; mk_object (mk_soup [p; q] [(0, 0, 0); (0, 1, 1)] [d0; d1]) None]
    [RIndex 0; RIndex 0; RNone; RIndex 1; RIndex 1; RNone; RThrow] /\
  Forall (fun o => ~ replaces 0 o) ops /\ Forall (fun o => ~ assigns 0 0 o) ops /\
  vertices_added 0 ops = [p] /\ vertices_added 1 ops = [q] /\ faces_added 1 ops = [(0, 1, 1)].
Proof.
  intros P D d0 d1 pbox la sb ne p q ops. split; [ | repeat split; repeat constructor; cbn; try tauto; intros [ ]; discriminate ].
  repeat (eapply run_cons; [ first [ eapply do_add_vertex; reflexivity | eapply do_add_face; reflexivity | eapply do_copy_new; reflexivity | eapply do_set_data; reflexivity | eapply do_set_throw; reflexivity ] | ]). apply run_nil.
Qed.
