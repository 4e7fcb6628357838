(** * Running the threads one after another *)
From Coq Require Import List Arith Bool Lia QArith Permutation.
From Verif Require Import Model_base Model_soup Model_mesh Model_geometry Model_classify Model_local Model_corefine Model_mix Model_schedule.
From Verif Require Import Proof_base Proof_classify.
Import ListNotations.
Local Open Scope nat_scope.

Section Exec.
  Context {D : Type}.
  Notation data_ := (list (mixed_data D)).

  (** The program alone. *)
  Fixpoint exec {A} (p : prog D A) (ds : data_) : res (data_ * A) :=
    match p with
    | Done r => let* a := r in Ok (ds, a)
    | Read f k => let* d := vec_at ds f in exec (k d) ds
    | Write f t k => let* ds' := set_tag ds f t in exec k ds'
    end.

  Lemma exec_bind : forall A B (p : prog D A) (k : A -> prog D B) ds,
    exec (pbind p k) ds = let* (ds', a) := exec p ds in exec (k a) ds'.
  Proof.
    induction p as [ [ a | e | ] | f k' IH | f t p IH ]; intros k ds; cbn [pbind exec bind]; try reflexivity.
    - destruct (vec_at ds f); cbn [bind]; auto.
    - destruct (set_tag ds f t); cbn [bind]; auto.
  Qed.

  Lemma exec_fold : forall A S T (Inv : T -> Prop) (abs : T -> data_ * S) (g : T -> A -> res T) (f : S -> A -> prog D S),
    (forall s x s', Inv s -> g s x = Ok s' -> Inv s' /\ exec (f (snd (abs s)) x) (fst (abs s)) = Ok (abs s')) ->
    forall l s s', Inv s -> foldM g s l = Ok s' -> Inv s' /\ exec (pfold f (snd (abs s)) l) (fst (abs s)) = Ok (abs s').
  Proof.
    intros A S T Inv abs g f H. induction l as [ | x l IH ]; intros s s' I E; cbn [foldM pfold] in *.
    - injection E as <-. split; [ exact I | ]. cbn [exec bind]. now destruct (abs s).
    - destruct (g s x) as [ s1 | e | ] eqn:E1; cbn [bind] in E; try discriminate. destruct (H s x s1 I E1) as (I1 & X1).
      destruct (IH s1 s' I1 E) as (I2 & X2). split; [ exact I2 | ]. rewrite exec_bind, X1. cbn [bind]. destruct (abs s1). exact X2.
  Qed.

  (** *** The pieces *)
  Lemma get_tag_at : forall (ds : data_) f t, get_tag ds f = Ok t -> exists d, vec_at ds f = Ok d /\ tag d = t.
  Proof. intros ds f t H. unfold get_tag in H. destruct (vec_at ds f) as [ d | | ]; cbn [bind] in H; try discriminate. injection H as <-. eauto. Qed.

  Lemma exec_visit : forall left t ds q w x ds' q' w', propagate_visit left t (ds, q, w) x = Ok (ds', q', w') ->
    exec (@p_visit D left t (q, w) x) ds = Ok (ds', (q', w')).
  Proof.
    intros left t ds q w x ds' q' w' H. unfold propagate_visit in H. unfold p_visit. cbn [exec].
    destruct (vec_at ds x) as [ d | | ] eqn:Ed; cbn [bind] in *; try discriminate.
    destruct (face_tag_eqb (tag d) UNKNOWN); cbn [exec].
    - injection H as <- <- <-. unfold set_tag. rewrite Ed. cbn [bind]. unfold vec_set.
      assert (Hx : x < length ds). { unfold vec_at in Ed. apply nth_error_Some. destruct (nth_error ds x); [ discriminate | discriminate ]. }
      destruct (Nat.ltb_spec x (length ds)); [ reflexivity | lia ].
    - rewrite Ed. cbn [bind]. destruct (negb _); cbn [exec bind]; now injection H as <- <- <-.
  Qed.

  Lemma exec_loop : forall P (m : mesh P (mixed_data D)) border left t fuel ds q w ds' w',
    propagate_loop fuel m border left t (ds, q, w) = Ok (ds', w') -> exec (p_loop fuel m border left t (q, w)) ds = Ok (ds', w').
  Proof.
    intros P m border left t. induction fuel as [ | fuel IH ]; intros ds [ | x q ] w ds' w' H; cbn [propagate_loop p_loop] in *;
      try discriminate; try (injection H as <- <-; reflexivity).
    unfold pure. destruct (faces_around_face m x border) as [ adj | | ]; cbn [bind pbind] in *; try discriminate.
    destruct (foldM (propagate_visit left t) (ds, q, w) adj) as [ [ [ds1 q1] w1] | | ] eqn:E; cbn [bind] in H; try discriminate.
    rewrite exec_bind.
    destruct (exec_fold _ _ _ (fun _ => True) (fun s : data_ * list nat * warnings => (fst (fst s), (snd (fst s), snd s)))
      (propagate_visit left t) (p_visit left t)) with (l := adj) (s := (ds, q, w)) (s' := (ds1, q1, w1)) as (_ & X); auto.
    { intros [ [a b] c] y [ [a' b'] c'] _ Ha. split; [ exact I | ]. cbn [fst snd]. now apply exec_visit. }
    cbn [fst snd] in X. rewrite X. cbn [bind]. now apply IH.
  Qed.

  Lemma loop_parts : forall P (m m' : mesh P (mixed_data D)) border left t,
    (forall x, faces_around_face m x border = faces_around_face m' x border) ->
    forall fuel st, propagate_loop fuel m border left t st = propagate_loop fuel m' border left t st.
  Proof.
    intros P m m' border left t H. induction fuel as [ | fuel IH ]; intros [ [ds q] w]; cbn [propagate_loop]; destruct q; try reflexivity.
    rewrite H. destruct (faces_around_face m' n border); cbn [bind]; try reflexivity. destruct (foldM _ _ _); cbn [bind]; auto.
  Qed.

  Lemma exec_propagate : forall P (m : mesh P (mixed_data D)) border ds seed m' w,
    propagate (with_data m ds) border seed = Ok (m', w) ->
    exists ds', m' = with_data m ds' /\ exec (p_propagate m border seed) ds = Ok (ds', w).
  Proof.
    intros P m border ds seed m' w H. unfold propagate in H. cbn [with_data m_data m_faces] in H. unfold p_propagate. cbn [exec].
    destruct (vec_at ds seed) as [ d | | ]; cbn [bind] in *; try discriminate.
    change (mk_mesh (m_points m) (m_faces m) ds (indices m) (face_indices m)) with (with_data m ds) in H.
    rewrite (loop_parts P (with_data m ds) m) in H by reflexivity.
    destruct (propagate_loop (S (length (m_faces m))) m border (from_left d) (tag d) (ds, [seed], no_warnings)) as [ [ds' w'] | | ] eqn:E; cbn [bind] in H; try discriminate.
    injection H as <- <-. exists ds'. split; [ reflexivity | ]. now apply exec_loop.
  Qed.

  Lemma exec_untagged : forall l (ds : data_) b, has_untagged ds l = Ok b -> exec (p_has_untagged l) ds = Ok (ds, b).
  Proof.
    induction l as [ | f l IH ]; intros ds b H; unfold has_untagged in *; cbn [foldM p_has_untagged exec bind] in *; [ now injection H as <- | ].
    unfold get_tag in H at 1. destruct (vec_at ds f) as [ d | | ]; cbn [bind] in *; try discriminate.
    destruct (face_tag_eqb (tag d) UNKNOWN) eqn:Et; [ | now apply IH ].
    assert (Z : forall l', foldM (fun (acc : bool) f => if acc then Ok true else let* t := get_tag ds f in Ok (face_tag_eqb t UNKNOWN)) true l' = Ok true).
    { induction l' as [ | y l' IH' ]; [ reflexivity | exact IH' ]. }
    rewrite Z in H. injection H as <-. reflexivity.
  Qed.

  Lemma exec_overlaps : forall fs (ds ds' : data_), tag_overlaps fs ds = Ok ds' -> exec (p_overlaps fs) ds = Ok (ds', tt).
  Proof.
    intros fs ds ds' H. unfold p_overlaps, tag_overlaps in *.
    destruct (exec_fold _ _ _ (fun _ => True) (fun s : data_ => (s, tt)) (overlap_step fs) (p_overlap fs)) with (3 := H) as (_ & X); auto.
    intros s x s' _ E. split; [ exact I | ]. cbn [fst snd]. unfold overlap_step in E. unfold p_overlap, pure.
    destruct (vec_at fs x) as [ f | | ]; cbn [bind pbind exec] in *; try discriminate.
    destruct (vec_at fs ((x + 1) mod length fs)) as [ g | | ]; cbn [bind pbind exec] in *; try discriminate.
    destruct (vi_r f =? vi_r g); cbn [exec bind]; [ | now injection E as <- ].
    destruct (set_tag s (fi f) _) as [ s1 | | ]; cbn [bind] in *; try discriminate.
    destruct (set_tag s1 (fi g) _) as [ s2 | | ]; cbn [bind] in *; try discriminate. now injection E as <-.
  Qed.

  Lemma exec_is_overlap : forall A f (yes no : prog D A) ds t, get_tag ds f = Ok t ->
    exec (p_is_overlap f yes no) ds = if is_overlap_tag t then exec yes ds else exec no ds.
  Proof.
    intros A f yes no ds t H. apply get_tag_at in H. destruct H as (d & E & <-). unfold p_is_overlap. cbn [exec]. rewrite E. cbn [bind].
    destruct (tag d) eqn:Et; cbn [face_tag_eqb is_overlap_tag exec]; try reflexivity; rewrite E; cbn [bind]; rewrite Et; reflexivity.
  Qed.

  Lemma exec_pairs : forall fs (ds ds' : data_) k, tag_pairs fs ds = Ok (ds', k) -> exec (p_pairs fs) ds = Ok (ds', k).
  Proof.
    intros fs ds ds' k H. unfold p_pairs, tag_pairs in *.
    destruct (exec_fold _ _ _ (fun _ => True) (fun s : data_ * option nat => s) (pair_step fs) (p_pair fs)) with (3 := H) as (_ & X); auto.
    intros [s k0] x [s' k'] _ E. split; [ exact I | ]. cbn [fst snd]. unfold pair_step in E. unfold p_pair, pure.
    destruct (vec_at fs x) as [ f | | ]; cbn [bind pbind] in *; try discriminate.
    destruct (vec_at fs ((x + 1) mod length fs)) as [ g | | ]; cbn [bind pbind] in *; try discriminate.
    destruct (get_tag s (fi f)) as [ tf | | ] eqn:Ef; cbn [bind] in E; try discriminate.
    destruct (get_tag s (fi g)) as [ tg | | ] eqn:Eg; cbn [bind] in E; try discriminate.
    rewrite (exec_is_overlap _ _ _ _ _ _ Ef), (exec_is_overlap _ _ _ _ _ _ Eg).
    destruct (is_overlap_tag tf); cbn [orb] in E; [ now injection E as <- <- | ].
    destruct (is_overlap_tag tg); [ now injection E as <- <- | ].
    destruct (orientation_eqb (orient f) (orient g)); cbn [exec bind]; [ | now injection E as <- <- ].
    destruct (orient f); cbn [exec];
      (destruct (set_tag s (fi f) _) as [ s1 | | ]; cbn [bind] in *; try discriminate;
       destruct (set_tag s1 (fi g) _) as [ s2 | | ]; cbn [bind] in *; try discriminate; now injection E as <- <-).
  Qed.

  Lemma exec_walk : forall fs k dry (ds ds' : data_) c, walk fs k dry ds = Ok (ds', c) -> exec (p_walk fs k dry) ds = Ok (ds', c).
  Proof.
    intros fs k dry ds ds' c H. unfold walk in H. unfold p_walk, pure.
    destruct (vec_at fs k) as [ f | | ]; cbn [bind pbind exec] in *; try discriminate.
    destruct (get_tag ds (fi f)) as [ t | | ] eqn:Et; cbn [bind] in H; try discriminate. apply get_tag_at in Et. destruct Et as (d & Ed & <-).
    rewrite Ed. cbn [bind]. rewrite exec_bind.
    destruct (foldM (walk_step fs dry) (ds, tag d, orient f, true) (seq (k + 1) (length fs))) as [ [ [ [ds1 t1] o1] c1] | | ] eqn:E; cbn [bind] in H; try discriminate.
    injection H as <- <-.
    destruct (exec_fold _ _ _ (fun _ => True) (fun s : data_ * face_tag * orientation * bool => let '(a, b, c, e) := s in (a, (b, c, e)))
      (walk_step fs dry) (p_walk_step fs dry)) with (3 := E) as (_ & X); auto.
    2: { cbn [fst snd] in X. rewrite X. reflexivity. }
    clear. intros [ [ [s t] o] c] x [ [ [s' t'] o'] c'] _ E. split; [ exact I | ]. cbn [fst snd]. unfold walk_step in E. unfold p_walk_step, pure.
    destruct c; cbn [negb] in *; [ | injection E as <- <- <- <-; reflexivity ].
    destruct (vec_at fs (x mod length fs)) as [ f | | ]; cbn [bind pbind exec] in *; try discriminate.
    destruct (get_tag s (fi f)) as [ tf | | ] eqn:Ef; cbn [bind] in E; try discriminate. apply get_tag_at in Ef. destruct Ef as (d & Ed & <-).
    rewrite Ed. cbn [bind].
    destruct (face_tag_eqb (tag d) UNKNOWN).
    - destruct dry; cbn [exec bind]; [ injection E as <- <- <- <-; reflexivity | ].
      destruct (set_tag s (fi f) _) as [ s1 | | ]; cbn [bind] in *; try discriminate. injection E as <- <- <- <-. reflexivity.
    - cbn [exec]. rewrite Ed. cbn [bind]. destruct (face_tag_eqb (tag d) EXTERIOR); cbn [orb andb] in E.
      + cbn [exec]. rewrite Ed. cbn [bind]. destruct (negb _); injection E as <- <- <- <-; reflexivity.
      + cbn [exec]. rewrite Ed. cbn [bind]. destruct (face_tag_eqb (tag d) INTERIOR); cbn [andb] in E.
        * cbn [exec]. rewrite Ed. cbn [bind]. destruct (negb _); injection E as <- <- <- <-; reflexivity.
        * injection E as <- <- <- <-. reflexivity.
  Qed.

  Lemma exec_around : forall fs (ds ds' : data_), tag_around fs ds = Ok ds' -> exec (p_around fs) ds = Ok (ds', tt).
  Proof.
    intros fs ds ds' H. unfold tag_around in H. unfold p_around. rewrite exec_bind.
    destruct (tag_overlaps fs ds) as [ ds1 | | ] eqn:E1; cbn [bind] in H; try discriminate. rewrite (exec_overlaps _ _ _ E1). cbn [bind].
    rewrite exec_bind. destruct (tag_pairs fs ds1) as [ [ds2 k] | | ] eqn:E2; cbn [bind] in H; try discriminate. rewrite (exec_pairs _ _ _ _ E2). cbn [bind].
    destruct k as [ k | ]; cbn [tag_rest p_rest] in *; [ | injection H as <-; reflexivity ]. rewrite exec_bind.
    destruct (walk fs k true ds2) as [ [ds3 c] | | ] eqn:E3; cbn [bind] in H; try discriminate. rewrite (exec_walk _ _ _ _ _ _ E3). cbn [bind].
    destruct c; [ | injection H as <-; reflexivity ]. rewrite exec_bind.
    destruct (walk fs k false ds3) as [ [ds4 c] | | ] eqn:E4; cbn [bind] in H; try discriminate. rewrite (exec_walk _ _ _ _ _ _ E4). cbn [bind exec].
    now injection H as <-.
  Qed.

  Lemma exec_locally : forall base1 base2 sort (m : mesh vec3 (mixed_data D)) border e ds m' w,
    classify_locally base1 base2 sort (with_data m ds) e border = Ok (m', w) ->
    exists ds', m' = with_data m ds' /\ exec (p_locally base1 base2 sort m border e) ds = Ok (ds', w).
  Proof.
    intros base1 base2 sort m border e ds m' w H. unfold classify_locally in H. unfold p_locally, pure.
    change (faces_around_edge (with_data m ds) e) with (faces_around_edge m e) in H. cbn [with_data m_points m_data] in H.
    destruct (faces_around_edge m e) as [ l | | ]; cbn [bind pbind] in *; try discriminate. rewrite exec_bind.
    destruct (has_untagged ds l) as [ un | | ] eqn:Eu; cbn [bind] in H; try discriminate. rewrite (exec_untagged _ _ _ Eu). cbn [bind].
    destruct un; cbn [negb] in *; [ | injection H as <- <-; exists ds; split; reflexivity ].
    destruct (vec_at (m_points m) (fst e)) as [ p | | ]; cbn [bind pbind] in *; try discriminate.
    destruct (vec_at (m_points m) (snd e)) as [ q | | ]; cbn [bind pbind] in *; try discriminate.
    match type of H with context [mapM (face_around ?mm e p ?u ?v) l] => change (mapM (face_around mm e p u v) l) with (mapM (face_around m e p u v) l) in H end.
    destruct (mapM _ l) as [ fs | | ]; cbn [bind pbind] in *; try discriminate. rewrite exec_bind.
    destruct (tag_around (sort fs) ds) as [ ds1 | | ] eqn:Ea; cbn [bind] in H; try discriminate. rewrite (exec_around _ _ _ Ea). cbn [bind].
    destruct (exec_fold _ _ _ (fun s : mesh vec3 (mixed_data D) * warnings => fst s = with_data m (m_data (fst s))) (fun s => (m_data (fst s), snd s))
      (propagate_step border) (p_propagate_step m border)) with (3 := H) as (I' & X).
    - intros [mm w0] f [mm' w0'] I0 E. cbn [fst snd] in *. unfold propagate_step in E. unfold p_propagate_step. cbn [exec].
      destruct (get_tag (m_data mm) (fi f)) as [ t | | ] eqn:Et; cbn [bind] in E; try discriminate. apply get_tag_at in Et. destruct Et as (d & Ed & <-).
      rewrite Ed. cbn [bind]. destruct (face_tag_eqb (tag d) UNKNOWN); [ injection E as <- <-; split; [ exact I0 | reflexivity ] | ].
      rewrite I0 in E. destruct (propagate (with_data m (m_data mm)) border (fi f)) as [ [m1 lw] | | ] eqn:Ep; cbn [bind] in E; try discriminate.
      injection E as <- <-. destruct (exec_propagate _ m border _ _ _ _ Ep) as (ds' & -> & X). split; [ reflexivity | ].
      rewrite exec_bind, X. reflexivity.
    - reflexivity.
    - cbn [fst snd] in X. exists (m_data m'). split; [ exact I' | exact X ].
  Qed.

  Lemma exec_rep : forall P centroid side_left side_right (m : mesh P (mixed_data D)) border ds w0 x m' w,
    classify_rep centroid side_left side_right border (with_data m ds, w0) x = Ok (m', w) ->
    exists ds' lw, m' = with_data m ds' /\ w = warn_or w0 lw /\ exec (p_rep centroid side_left side_right m border x) ds = Ok (ds', lw).
  Proof.
    intros P centroid sl sr m border ds w0 x m' w H. unfold classify_rep in H. cbn [with_data m_points m_data m_faces] in H. unfold p_rep, pure. cbn [exec].
    destruct (vec_at ds x) as [ d | | ] eqn:Ed; cbn [bind] in *; try discriminate.
    destruct (vec_at (m_faces m) x) as [ [ [a b] c] | | ]; cbn [bind pbind] in *; try discriminate.
    destruct (vec_at (m_points m) a) as [ pa | | ]; cbn [bind pbind] in *; try discriminate.
    destruct (vec_at (m_points m) b) as [ pb | | ]; cbn [bind pbind] in *; try discriminate.
    destruct (vec_at (m_points m) c) as [ pc | | ]; cbn [bind pbind] in *; try discriminate.
    destruct (if from_left d then sr (centroid pa pb pc) else sl (centroid pa pb pc)) as [ side | | ]; cbn [bind pbind] in *; try discriminate.
    destruct (oriented_side_eqb side ON_BOUNDARY); [ discriminate | ]. cbn [exec].
    set (t := if oriented_side_eqb side POSITIVE_SIDE then EXTERIOR else INTERIOR) in *.
    assert (Hx : x < length ds). { unfold vec_at in Ed. apply nth_error_Some. destruct (nth_error ds x); discriminate. }
    assert (Es : set_tag ds x t = Ok (list_set ds x (retag t d))).
    { unfold set_tag. rewrite Ed. cbn [bind]. unfold vec_set. destruct (Nat.ltb_spec x (length ds)); [ reflexivity | lia ]. }
    rewrite Es. cbn [bind].
    match type of H with context [propagate ?mm border x] => change (propagate mm border x) with (propagate (with_data m (list_set ds x (retag t d))) border x) in H end.
    destruct (propagate _ border x) as [ [m1 lw] | | ] eqn:Ep; cbn [bind] in H; try discriminate. injection H as <- <-.
    destruct (exec_propagate _ m border _ _ _ _ Ep) as (ds' & -> & X). exists ds', lw. auto.
  Qed.

  (** *** As schedules *)
  Lemma steps_trans : forall A (a b c : list (prog D A) * data_), steps a b -> steps b c -> steps a c.
  Proof. intros A a b c H. induction H; auto. intro K. econstructor; eauto. Qed.

  Lemma set_middle : forall A (l1 l2 : list A) x y, list_set (l1 ++ x :: l2) (length l1) y = l1 ++ y :: l2.
  Proof. induction l1 as [ | z l1 IH ]; intros l2 x y; cbn; [ reflexivity | now rewrite IH ]. Qed.
  Lemma nth_middle : forall A (l1 l2 : list A) x, nth_error (l1 ++ x :: l2) (length l1) = Some x.
  Proof. intros. rewrite nth_error_app2 by lia. now rewrite Nat.sub_diag. Qed.

  Lemma exec_steps : forall A (p : prog D A) l1 l2 ds ds' a, exec p ds = Ok (ds', a) ->
    steps (l1 ++ p :: l2, ds) (l1 ++ Done (Ok a) :: l2, ds').
  Proof.
    induction p as [ r | f k IH | f t p IH ]; intros l1 l2 ds ds' a H; cbn [exec] in H.
    - destruct r; cbn [bind] in H; try discriminate. injection H as <- <-. constructor.
    - destruct (vec_at ds f) as [ d | | ] eqn:E; cbn [bind] in H; try discriminate. eapply steps_next; [ | exact (IH d l1 l2 _ _ _ H) ].
      rewrite <- (set_middle _ l1 l2 (Read f k) (k d)). econstructor; [ apply nth_middle | ]. cbn [access]. now rewrite E.
    - destruct (set_tag ds f t) as [ ds1 | | ] eqn:E; cbn [bind] in H; try discriminate. eapply steps_next; [ | exact (IH l1 l2 _ _ _ H) ].
      rewrite <- (set_middle _ l1 l2 (Write f t p) p). econstructor; [ apply nth_middle | ]. cbn [access]. now rewrite E.
  Qed.

  Lemma in_turn : forall A (p : A -> prog D warnings) (body : data_ * warnings -> A -> res (data_ * warnings)),
    (forall ds w x ds' w', body (ds, w) x = Ok (ds', w') -> exists lw, w' = warn_or w lw /\ exec (p x) ds = Ok (ds', lw)) ->
    forall order l1 ds w ds' w', foldM body (ds, w) order = Ok (ds', w') ->
    exists ws, steps (l1 ++ map p order, ds) (l1 ++ map (fun w => Done (Ok w)) ws, ds') /\ w' = fold_left warn_or ws w.
  Proof.
    intros A p body H. induction order as [ | x order IH ]; intros l1 ds w ds' w' E; cbn [foldM] in E.
    - injection E as <- <-. exists []. split; [ constructor | reflexivity ].
    - destruct (body (ds, w) x) as [ [ds1 w1] | | ] eqn:E1; cbn [bind] in E; try discriminate. destruct (H _ _ _ _ _ E1) as (lw & -> & X).
      destruct (IH (l1 ++ [Done (Ok lw)]) _ _ _ _ E) as (ws & S & ->). rewrite <- !app_assoc in S. cbn [app] in S.
      exists (lw :: ws). split; [ | reflexivity ]. cbn [map]. eapply steps_trans; [ exact (exec_steps _ _ l1 _ _ _ _ X) | exact S ].
  Qed.

  Lemma permuted_step : forall A (ps qs : list (prog D A)) ds c, Permutation ps qs -> step (ps, ds) c ->
    exists qs', Permutation (fst c) qs' /\ step (qs, ds) (qs', snd c).
  Proof.
    intros A ps qs ds c HP H. inversion H as [ ps0 ds0 i p p' ds' Hn Ha E1 E2 ]; subst. cbn [fst snd].
    destruct (nth_error_split ps i Hn) as (l1 & l2 & -> & <-). rewrite set_middle.
    assert (Hq : In p qs) by (apply (Permutation_in _ HP); apply in_app_iff; right; now left).
    destruct (in_split _ _ Hq) as (k1 & k2 & ->). exists (k1 ++ p' :: k2). split.
    - apply Permutation_elt. exact (Permutation_app_inv _ _ _ _ _ HP).
    - rewrite <- (set_middle _ k1 k2 p p'). econstructor; [ apply nth_middle | exact Ha ].
  Qed.

  Lemma permuted_steps : forall A (c c' : list (prog D A) * data_), steps c c' -> forall qs, Permutation (fst c) qs ->
    exists qs', Permutation (fst c') qs' /\ steps (qs, snd c) (qs', snd c').
  Proof.
    intros A c c' H. induction H as [ c | [ps ds] c1 c2 H1 _ IH ]; intros qs HP.
    - exists qs. split; [ exact HP | constructor ].
    - destruct (permuted_step _ ps qs ds c1 HP H1) as (q1 & P1 & S1). destruct (IH q1 P1) as (q2 & P2 & S2).
      exists q2. split; [ exact P2 | ]. econstructor; [ exact S1 | exact S2 ].
  Qed.

  Lemma or_permuted : forall ws ws' w, Permutation ws ws' -> fold_left warn_or ws w = fold_left warn_or ws' w.
  Proof.
    intros ws ws' w H. revert w. induction H as [ | x l l' _ IH | x y l | l l' l'' _ IH1 _ IH2 ]; intro w; cbn [fold_left]; auto.
    - f_equal. destruct w as [w1 w2], x as [x1 x2], y as [y1 y2]. unfold warn_or. cbn [first_partial second_partial].
      now destruct w1, w2, x1, x2, y1, y2.
    - now rewrite IH1.
  Qed.

  Lemma parallel_permuted : forall ps qs (ds ds' : data_) w, Permutation ps qs -> parallel ps ds (Ok (ds', w)) -> parallel qs ds (Ok (ds', w)).
  Proof.
    intros ps qs ds ds' w HP H. inversion H as [ ps' ds1 ws S E X | ps' ds1 r o S Hin Hf X ]; subst.
    - destruct (permuted_steps _ _ _ S qs HP) as (qs' & P' & S'). cbn [fst snd] in P', S'.
      apply Permutation_sym, Permutation_map_inv in P'. destruct P' as (ws' & -> & Pw).
      rewrite (or_permuted _ _ _ Pw). econstructor; [ exact S' | reflexivity ].
    - destruct r; cbn [fails] in Hf; try contradiction; discriminate.
  Qed.
End Exec.

(** The executions of Model_mix.v that succeed are among the schedules. *)
Lemma classified_scheduled : forall P D (coords : P -> vec3) base1 base2 sort_around centroid (side_of : soup P D -> P -> res oriented_side)
    border L R m order order' m' w,
  (forall l, Permutation l (order' l)) ->
  classified coords base1 base2 sort_around centroid side_of border L R m order order' = Ok (m', w) ->
  classifies coords base1 base2 sort_around centroid side_of border L R m order (Ok (m', w)).
Proof.
  intros P D coords base1 base2 sa centroid side_of border L R m order order' m' w Hp H. unfold classified in H.
  destruct (foldM (Model_mix.classify_edge coords base1 base2 sa border) (m, no_warnings) order) as [ [m1 w1] | | ] eqn:E1; cbn [bind] in H; try discriminate.
  destruct (classify_globally centroid (side_of L) (side_of R) border m1 order') as [ [m2 w2] | | ] eqn:E2; cbn [bind] in H; try discriminate.
  injection H as <- <-.
  assert (X1 : m1 = with_data m (m_data m1) /\ exists ws, steps (map (p_edge coords base1 base2 sa m border) order, m_data m) (map (fun w => Done (Ok w)) ws, m_data m1) /\
    w1 = fold_left warn_or ws no_warnings).
  { set (body := fun (st : list (mixed_data D) * warnings) e => let* (mm, w') := Model_mix.classify_edge coords base1 base2 sa border (with_data m (fst st), snd st) e in Ok (m_data mm, w')).
    assert (K : forall l mm w mm' w', mm = with_data m (m_data mm) -> foldM (Model_mix.classify_edge coords base1 base2 sa border) (mm, w) l = Ok (mm', w') ->
      mm' = with_data m (m_data mm') /\ foldM body (m_data mm, w) l = Ok (m_data mm', w')).
    { induction l as [ | e l IH ]; intros mm v mm' v' I E; cbn [foldM] in *; [ injection E as <- <-; auto | ].
      destruct (Model_mix.classify_edge coords base1 base2 sa border (mm, v) e) as [ [m3 v3] | | ] eqn:E3; cbn [bind] in E; try discriminate.
      assert (I3 : m3 = with_data m (m_data m3)).
      { unfold Model_mix.classify_edge in E3. destruct (classify_locally _ _ _ _ _ _) as [ [m4 v4] | | ]; cbn [bind] in E3; try discriminate.
        injection E3 as <- <-. rewrite I. reflexivity. }
      destruct (IH m3 v3 mm' v' I3 E) as (I4 & X). split; [ exact I4 | ]. unfold body at 1. cbn [fst snd]. rewrite <- I, E3. exact X. }
    assert (I0 : m = with_data m (m_data m)) by (destruct m; reflexivity).
    destruct (K _ _ _ _ _ I0 E1) as (I1 & X). split; [ exact I1 | ].
    apply (in_turn _ (p_edge coords base1 base2 sa m border) body) with (l1 := []) in X; [ exact X | ].
    intros ds v e ds' v' E. unfold body in E. cbn [fst snd] in E. unfold Model_mix.classify_edge in E.
    change (Model_mix.located coords (with_data m ds)) with (with_data (Model_mix.located coords m) ds) in E.
    destruct (classify_locally _ _ _ _ _ _) as [ [m4 v4] | | ] eqn:E4; cbn [bind] in E; try discriminate.
    injection E as <- <-. destruct (exec_locally _ _ _ _ _ _ _ _ _ E4) as (ds1 & -> & X4). exists v4. split; [ reflexivity | exact X4 ]. }
  destruct X1 as (I1 & ws & S1 & ->). unfold classify_globally in E2.
  destruct (find_unclassified m1 border) as [ reps | | ] eqn:E3; cbn [bind] in E2; try discriminate.
  assert (X2 : m2 = with_data m (m_data m2) /\ exists ws', steps (map (p_rep centroid (side_of L) (side_of R) m border) (order' reps), m_data m1) (map (fun w => Done (Ok w)) ws', m_data m2) /\
    w2 = fold_left warn_or ws' no_warnings).
  { set (body := fun (st : list (mixed_data D) * warnings) e => let* (mm, w') := classify_rep centroid (side_of L) (side_of R) border (with_data m (fst st), snd st) e in Ok (m_data mm, w')).
    assert (K : forall l mm w mm' w', mm = with_data m (m_data mm) -> foldM (classify_rep centroid (side_of L) (side_of R) border) (mm, w) l = Ok (mm', w') ->
      mm' = with_data m (m_data mm') /\ foldM body (m_data mm, w) l = Ok (m_data mm', w')).
    { induction l as [ | e l IH ]; intros mm v mm' v' I E; cbn [foldM] in *; [ injection E as <- <-; auto | ].
      destruct (classify_rep centroid (side_of L) (side_of R) border (mm, v) e) as [ [m3 v3] | | ] eqn:E4; cbn [bind] in E; try discriminate.
      assert (I3 : m3 = with_data m (m_data m3)).
      { rewrite I in E4. destruct (exec_rep _ _ _ _ m border _ _ _ _ _ E4) as (ds1 & lw & -> & _). reflexivity. }
      destruct (IH m3 v3 mm' v' I3 E) as (I4 & X). split; [ exact I4 | ]. unfold body at 1. cbn [fst snd]. rewrite <- I, E4. exact X. }
    destruct (K _ _ _ _ _ I1 E2) as (I2 & X). split; [ exact I2 | ].
    apply (in_turn _ (p_rep centroid (side_of L) (side_of R) m border) body) with (l1 := []) in X; [ exact X | ].
    intros ds v e ds' v' E. unfold body in E. cbn [fst snd] in E.
    destruct (classify_rep _ _ _ _ _ _) as [ [m4 v4] | | ] eqn:E4; cbn [bind] in E; try discriminate. injection E as <- <-.
    destruct (exec_rep _ _ _ _ m border _ _ _ _ _ E4) as (ds1 & lw & -> & -> & X4). exists lw. split; [ reflexivity | exact X4 ]. }
  destruct X2 as (I2 & ws' & S2 & ->). rewrite I2. rewrite I1 in E3.
  eapply cl_ok; [ econstructor; [ exact S1 | reflexivity ] | exact E3 | ].
  apply (parallel_permuted (map (p_rep centroid (side_of L) (side_of R) m border) (order' reps))).
  - apply Permutation_map, Permutation_sym, Hp.
  - econstructor; [ exact S2 | reflexivity ].
Qed.
