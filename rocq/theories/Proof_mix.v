(** * The classifications write nothing but tags *)
From Coq Require Import List Arith Bool Permutation QArith.
From Verif Require Import Model_base Proof_base Model_geometry Model_soup Model_mesh Model_classify Model_local Model_region Model_aabb Model_corefine Model_mix.
Import ListNotations.
Local Open Scope nat_scope.

Lemma foldM_pres : forall {A S} (f : S -> A -> res S) (R : S -> S -> Prop),
  (forall s, R s s) -> (forall a b c, R a b -> R b c -> R a c) -> (forall s x s', f s x = Ok s' -> R s s') ->
  forall l s s', foldM f s l = Ok s' -> R s s'.
Proof.
  intros A S f R Hr Ht Hf l. induction l as [ | x l IH]; intros s s' H; cbn in H; [ injection H as <-; apply Hr | ].
  apply bind_ok in H. destruct H as (s1 & E & H). eapply Ht; [ eapply Hf; exact E | eapply IH; exact H ].
Qed.

Section Writes.
  Context {D : Type}.
  Definition written (ds ds' : list (mixed_data D)) : Prop := exists ws, ds' = fold_left tag_write ws ds.
  Lemma written_refl : forall ds, written ds ds.
  Proof. intro ds. exists []. reflexivity. Qed.
  Lemma written_trans : forall a b c, written a b -> written b c -> written a c.
  Proof. intros a b c (w1 & ->) (w2 & ->). exists (w1 ++ w2). rewrite fold_left_app. reflexivity. Qed.
  Lemma written_set : forall (ds : list (mixed_data D)) f t d, nth_error ds f = Some d -> written ds (list_set ds f (retag t d)).
  Proof. intros ds f t d H. exists [(f, t)]. cbn. unfold tag_write. cbn. rewrite H. reflexivity. Qed.
  Lemma written_set_tag : forall (ds : list (mixed_data D)) f t ds', set_tag ds f t = Ok ds' -> written ds ds'.
  Proof.
    intros ds f t ds' H. unfold set_tag in H. apply bind_ok in H. destruct H as (d & E & H). apply vec_at_ok in E.
    unfold vec_set in H. destruct (f <? length ds); [ injection H as <-; apply written_set, E | discriminate ].
  Qed.
  Lemma written_overlaps : forall fs (ds : list (mixed_data D)) ds', tag_overlaps fs ds = Ok ds' -> written ds ds'.
  Proof.
    intros fs ds ds'. apply foldM_pres; [ apply written_refl | apply written_trans | ]. clear. intros ds i ds' H. unfold overlap_step in H.
    apply bind_ok in H. destruct H as (f & _ & H). apply bind_ok in H. destruct H as (g & _ & H). destruct (vi_r f =? vi_r g); [ | injection H as <-; apply written_refl ].
    apply bind_ok in H. destruct H as (d1 & E1 & H). apply written_set_tag in E1, H. eapply written_trans; eassumption.
  Qed.
  Lemma written_pairs : forall fs (ds : list (mixed_data D)) ds' k, tag_pairs fs ds = Ok (ds', k) -> written ds ds'.
  Proof.
    intros fs ds ds' k H. unfold tag_pairs in H. apply (foldM_pres (pair_step fs) (fun a b => written (fst a) (fst b))) in H; [ exact H | intro; apply written_refl | intros a b c; apply written_trans | ].
    clear. intros [ds k] i [ds' k'] H. unfold pair_step in H. cbn [fst].
    apply bind_ok in H. destruct H as (f & _ & H). apply bind_ok in H. destruct H as (g & _ & H). apply bind_ok in H. destruct H as (tf & _ & H). apply bind_ok in H. destruct H as (tg & _ & H).
    destruct (is_overlap_tag tf || is_overlap_tag tg); [ injection H as <- <-; apply written_refl | ].
    destruct (orientation_eqb (orient f) (orient g)); [ | injection H as <- <-; apply written_refl ].
    destruct (orient f); apply bind_ok in H; destruct H as (d1 & E1 & H); apply bind_ok in H; destruct H as (d2 & E2 & H); injection H as <- <-;
      apply written_set_tag in E1, E2; eapply written_trans; eassumption.
  Qed.
  Lemma written_walk : forall fs k dry (ds : list (mixed_data D)) ds' c, walk fs k dry ds = Ok (ds', c) -> written ds ds'.
  Proof.
    intros fs k dry ds ds' c H. unfold walk in H. apply bind_ok in H. destruct H as (f & _ & H). apply bind_ok in H. destruct H as (t & _ & H).
    apply bind_ok in H. destruct H as ([ [ [d1 t1] o1] c1] & E & H). injection H as <- <-.
    apply (foldM_pres (walk_step fs dry) (fun a b => written (fst (fst (fst a))) (fst (fst (fst b))))) in E; [ exact E | intro; apply written_refl | intros x y z; apply written_trans | ].
    clear. intros [ [ [ds t] o] c] i [ [ [ds' t'] o'] c'] H. unfold walk_step in H. cbn [fst].
    destruct (negb c); [ injection H as <- <- <- <-; apply written_refl | ].
    apply bind_ok in H. destruct H as (f & _ & H). apply bind_ok in H. destruct H as (tf & _ & H).
    destruct (face_tag_eqb tf UNKNOWN).
    - destruct dry; [ injection H as <- <- <- <-; apply written_refl | ]. apply bind_ok in H. destruct H as (d1 & E1 & H). injection H as <- _ _ _. eapply written_set_tag; eassumption.
    - match type of H with (if ?b then _ else _) = _ => destruct b end; injection H as <- _ _ _; apply written_refl.
  Qed.
  Lemma written_around : forall fs (ds : list (mixed_data D)) ds', tag_around fs ds = Ok ds' -> written ds ds'.
  Proof.
    intros fs ds ds' H. unfold tag_around in H. apply bind_ok in H. destruct H as (d1 & E1 & H). apply bind_ok in H. destruct H as ([d2 k] & E2 & H).
    apply written_overlaps in E1. apply written_pairs in E2. eapply written_trans; [ exact E1 | ]. eapply written_trans; [ exact E2 | ].
    unfold tag_rest in H. destruct k as [k | ]; [ | injection H as <-; apply written_refl ].
    apply bind_ok in H. destruct H as ([d3 c] & E3 & H). apply written_walk in E3. destruct c; [ | injection H as <-; exact E3 ].
    apply bind_ok in H. destruct H as ([d4 c4] & E4 & H). injection H as <-. apply written_walk in E4. eapply written_trans; eassumption.
  Qed.

  (** Only the data of a mesh change, and those only in their tags. *)
  Definition retagged {P} (m m' : mesh P (mixed_data D)) : Prop :=
    exists ws, m' = tag_writes ws m.
  Lemma retagged_data : forall {P} (m : mesh P (mixed_data D)) ds, written (m_data m) ds -> retagged m (with_data m ds).
  Proof. intros P m ds (ws & ->). exists ws. reflexivity. Qed.
  Lemma retagged_refl : forall {P} (m : mesh P (mixed_data D)), retagged m m.
  Proof. intros P m. exists []. destruct m; reflexivity. Qed.
  Lemma retagged_trans : forall {P} (a b c : mesh P (mixed_data D)), retagged a b -> retagged b c -> retagged a c.
  Proof. intros P a b c (w1 & ->) (w2 & ->). exists (w1 ++ w2). unfold tag_writes, with_data. cbn. rewrite fold_left_app. reflexivity. Qed.
  Lemma retagged_written : forall {P} (a b : mesh P (mixed_data D)), retagged a b -> written (m_data a) (m_data b).
  Proof. intros P a b (ws & ->). exists ws. reflexivity. Qed.

  Lemma propagate_retags : forall {P} (m : mesh P (mixed_data D)) border seed m' w, propagate m border seed = Ok (m', w) -> retagged m m'.
  Proof.
    intros P m border seed m' w H. unfold propagate in H. apply bind_ok in H. destruct H as (d & _ & H). apply bind_ok in H. destruct H as ([ds w'] & E & H). injection H as <- <-.
    apply retagged_data. remember (S (length (m_faces m))) as fuel eqn:Ef. clear Ef. revert E. generalize (no_warnings) as w0. generalize [seed] as q. generalize (m_data m) as ds0.
    induction fuel as [ | fuel IH]; intros ds0 q w0 E; cbn in E; destruct q as [ | f q]; try discriminate; try (injection E as <- <-; apply written_refl).
    apply bind_ok in E. destruct E as (adj & _ & E). apply bind_ok in E. destruct E as ([ [ds1 q1] w1] & E1 & E). apply IH in E. eapply written_trans; [ | exact E ].
    apply (foldM_pres _ (fun a b => written (fst (fst a)) (fst (fst b)))) in E1; [ exact E1 | intro; apply written_refl | intros x y z; apply written_trans | ].
    clear. intros [ [ds q] w] f [ [ds' q'] w'] H. cbn [fst]. unfold propagate_visit in H. apply bind_ok in H. destruct H as (d2 & E & H). apply vec_at_ok in E.
    destruct (face_tag_eqb (tag d2) UNKNOWN); [ injection H as <- _ _; apply written_set, E | ].
    destruct (negb (face_tag_eqb (tag d2) _)); injection H as <- _ _; apply written_refl.
  Qed.
  Lemma locally_retags : forall base1 base2 sort (m : mesh vec3 (mixed_data D)) e border m' w,
    classify_locally base1 base2 sort m e border = Ok (m', w) -> retagged m m'.
  Proof.
    intros base1 base2 sort m e border m' w H. unfold classify_locally in H. apply bind_ok in H. destruct H as (l & _ & H). apply bind_ok in H. destruct H as (un & _ & H).
    destruct (negb un); [ injection H as <- _; apply retagged_refl | ]. apply bind_ok in H. destruct H as (p & _ & H). apply bind_ok in H. destruct H as (q & _ & H). apply bind_ok in H. destruct H as (fs & _ & H).
    apply bind_ok in H. destruct H as (ds & E & H). apply written_around in E. eapply retagged_trans; [ apply retagged_data; exact E | ].
    apply (foldM_pres _ (fun a b => retagged (fst a) (fst b))) in H; [ exact H | intro; apply retagged_refl | intros x y z; apply retagged_trans | ].
    clear. intros [m w] f [m' w'] H. cbn [fst]. unfold propagate_step in H. apply bind_ok in H. destruct H as (t & _ & H). destruct (face_tag_eqb t UNKNOWN); [ injection H as <- _; apply retagged_refl | ].
    apply bind_ok in H. destruct H as ([m1 lw] & E & H). injection H as <- _. eapply propagate_retags; eassumption.
  Qed.
  Lemma globally_retags : forall {P} centroid sl sr border (m : mesh P (mixed_data D)) order m' w,
    classify_globally centroid sl sr border m order = Ok (m', w) -> retagged m m'.
  Proof.
    intros P centroid sl sr border m order m' w H. unfold classify_globally in H. apply bind_ok in H. destruct H as (reps & _ & H).
    apply (foldM_pres _ (fun a b => retagged (fst a) (fst b))) in H; [ exact H | intro; apply retagged_refl | intros x y z; apply retagged_trans | ].
    clear. intros [m w] f [m' w'] H. cbn [fst]. unfold classify_rep in H. apply bind_ok in H. destruct H as (d & Ed & H). apply bind_ok in H. destruct H as ([ [a b] c] & _ & H).
    apply bind_ok in H. destruct H as (pa & _ & H). apply bind_ok in H. destruct H as (pb & _ & H). apply bind_ok in H. destruct H as (pc & _ & H).
    cbv zeta in H. apply bind_ok in H. destruct H as (sd & _ & H). match type of H with (if ?b then _ else _) = _ => destruct b; [ discriminate | ] end.
    apply bind_ok in H. destruct H as ([m1 lw] & E & H). injection H as <- _. apply propagate_retags in E. eapply retagged_trans; [ | exact E ].
    apply retagged_data. apply vec_at_ok in Ed. apply written_set, Ed.
  Qed.
  Lemma classified_retags : forall {P} coords base1 base2 sort centroid side_of border (left right : soup P D) m order order' m' w,
    classified coords base1 base2 sort centroid side_of border left right m order order' = Ok (m', w) -> retagged m m'.
  Proof.
    intros P coords base1 base2 sort centroid side_of border left right m order order' m' w H. unfold classified in H.
    apply bind_ok in H. destruct H as ([m1 w1] & E & H). apply bind_ok in H. destruct H as ([m2 w2] & E2 & H). injection H as <- _.
    apply globally_retags in E2. eapply retagged_trans; [ | exact E2 ].
    apply (foldM_pres _ (fun a b => retagged (fst a) (fst b))) in E; [ exact E | intro; apply retagged_refl | intros x y z; apply retagged_trans | ].
    clear. intros [m w] e [m' w'] H. cbn [fst]. unfold classify_edge in H. apply bind_ok in H. destruct H as ([m1 lw] & E & H). injection H as <- _.
    apply locally_retags in E. apply retagged_data. apply retagged_written in E. exact E.
  Qed.
End Writes.
