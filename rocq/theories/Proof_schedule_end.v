(** * Every schedule ends *)
From Coq Require Import List Arith Bool Lia QArith Inverse_Image.
From Verif Require Import Model_base Model_soup Model_mesh Model_geometry Model_classify Model_local Model_corefine Model_mix Model_schedule.
From Verif Require Import Proof_base.
Import ListNotations.
Local Open Scope nat_scope.

Section Ends.
  Context {D A : Type}.
  Notation prog := (prog D A).

  Definition child (p' p : prog) : Prop := exists ds ds', access p ds = Some (p', ds').
  Definition one_moves (l' l : list prog) : Prop :=
    exists i p p', nth_error l i = Some p /\ child p' p /\ l' = list_set l i p'.

  Lemma child_done : forall r p', ~ child p' (Done r).
  Proof. intros r p' (ds & ds' & H). discriminate. Qed.

  Lemma moves_cons : forall p l l', one_moves l' (p :: l) ->
    (exists p', child p' p /\ l' = p' :: l) \/ (exists l1, one_moves l1 l /\ l' = p :: l1).
  Proof.
    intros p l l' (i & q & q' & H1 & H2 & ->). destruct i as [ | i ]; cbn in H1 |- *.
    - injection H1 as <-. left. eauto.
    - right. exists (list_set l i q'). split; [ | reflexivity ]. exists i, q, q'. auto.
  Qed.

  Lemma acc_cons : forall p, (forall p', child p' p -> forall l, Acc one_moves l -> Acc one_moves (p' :: l)) ->
    forall l, Acc one_moves l -> Acc one_moves (p :: l).
  Proof.
    intros p Hp l Hl. induction Hl as [ l Hl IH ]. constructor. intros l' H.
    destruct (moves_cons p l l' H) as [ (p' & Hc & ->) | (l1 & H1 & ->) ].
    - apply Hp; [ exact Hc | ]. constructor. exact Hl.
    - now apply IH.
  Qed.

  Lemma acc_done : forall r l, Acc one_moves l -> Acc one_moves (Done r :: l).
  Proof. intros r. apply acc_cons. intros p' Hc. destruct (child_done _ _ Hc). Qed.

  Lemma acc_prog : forall (p : prog) l, Acc one_moves l -> Acc one_moves (p :: l).
  Proof.
    induction p as [ r | f k IH | f t k IH ].
    - apply acc_done.
    - apply acc_cons. intros p' (ds & ds' & H). cbn [access] in H. destruct (vec_at ds f) as [ d | e | ]; injection H as <- _; [ apply IH | apply acc_done .. ].
    - apply acc_cons. intros p' (ds & ds' & H). cbn [access] in H. destruct (set_tag ds f t) as [ d | e | ]; injection H as <- _; [ apply IH | apply acc_done .. ].
  Qed.

  Lemma acc_all : forall l : list prog, Acc one_moves l.
  Proof.
    induction l as [ | p l IH ]; [ | now apply acc_prog ]. constructor. intros l' (i & p & p' & H & _). destruct i; discriminate.
  Qed.

  Lemma steps_end : forall c : list prog * list (mixed_data D), Acc (fun c' c => step c c') c.
  Proof.
    intros [ps ds].
    assert (G : forall ps, Acc one_moves ps -> forall ds, Acc (fun c' c => step c c') (ps, ds)).
    { clear ps ds. intros ps H. induction H as [ ps _ IH ]. intro ds. constructor. intros [ps' ds'] Hs. inversion Hs; subst.
      apply IH. exists i, p, p'. split; [ assumption | ]. split; [ exists ds, ds'; assumption | reflexivity ]. }
    apply G, acc_all.
  Qed.

  Lemma can_move : forall ps (ds : list (mixed_data D)), (forall p, In p ps -> exists r, p = Done r) \/ exists c' : list prog * list (mixed_data D), step (ps, ds) c'.
  Proof.
    induction ps as [ | p ps IH ]; intro ds; [ left; intros p [] | ].
    assert (Hp : (exists r, p = Done r) \/ exists x, access p ds = Some x).
    { destruct p as [ r | f k | f t k ]; [ left; eauto | right | right ]; cbn [access].
      - destruct (vec_at ds f); eauto.
      - destruct (set_tag ds f t); eauto. }
    destruct Hp as [ (r & ->) | ([p' ds'] & Hp) ].
    - destruct (IH ds) as [ H | (c' & H) ].
      + left. intros q [ <- | Hq ]; eauto.
      + right. inversion H; subst. eexists. apply (step_thread (Done r :: ps) ds (S i) p p' ds'); assumption.
    - right. eexists. apply (step_thread (p :: ps) ds 0 p p' ds'); [ reflexivity | exact Hp ].
  Qed.

  Lemma reaches_end : forall c : list prog * list (mixed_data D), exists ps' ds', steps c (ps', ds') /\ forall p, In p ps' -> exists r, p = Done r.
  Proof.
    intro c. induction (steps_end c) as [ [ps ds] _ IH ]. destruct (can_move ps ds) as [ H | (c' & H) ].
    - exists ps, ds. split; [ constructor | exact H ].
    - destruct (IH c' H) as (ps' & ds' & H1 & H2). exists ps', ds'. split; [ econstructor; eassumption | exact H2 ].
  Qed.
End Ends.

Lemma all_ok_or : forall D A (ps : list (prog D A)), (forall p, In p ps -> exists r, p = Done r) ->
  (exists ws, ps = map (fun w => Done (Ok w)) ws) \/ (exists e, In (Done (Throw e)) ps) \/ In (Done UB) ps.
Proof.
  induction ps as [ | p ps IH ]; intro H; [ left; exists []; reflexivity | ].
  destruct IH as [ (ws & ->) | [ (e & He) | He ] ]; [ intros q Hq; apply H; now right | | right; left; exists e; now right | right; right; now right ].
  destruct (H p (or_introl eq_refl)) as ([ a | e | ] & ->).
  - left. exists (a :: ws). reflexivity.
  - right. left. exists e. now left.
  - right. right. now left.
Qed.

Lemma parallel_ends : forall D (ps : list (prog D warnings)) ds, exists r, parallel ps ds r.
Proof.
  intros D ps ds. destruct (reaches_end (ps, ds)) as (ps' & ds' & H & Hd).
  destruct (all_ok_or _ _ ps' Hd) as [ (ws & E) | [ (e & He) | He ] ].
  - eexists. exact (par_ok ps ds ps' ds' ws H E).
  - exists (Throw e). exact (par_fails ps ds ps' ds' (Throw e) (Throw e) H He eq_refl).
  - exists UB. exact (par_fails ps ds ps' ds' UB UB H He eq_refl).
Qed.

Lemma classifies_ends : forall P D (coords : P -> vec3) base1 base2 sort_around centroid (side_of : soup P D -> P -> res oriented_side)
    border L R m order,
  exists r, classifies coords base1 base2 sort_around centroid side_of border L R m order r.
Proof.
  intros P D coords base1 base2 sa centroid side_of border L R m order.
  destruct (parallel_ends D (map (p_edge coords base1 base2 sa m border) order) (m_data m)) as ([ [ds w] | e | ] & H1).
  2: { exists (Throw e). exact (cl_local _ _ _ _ _ _ _ _ _ _ _ _ _ H1 eq_refl). }
  2: { exists UB. exact (cl_local _ _ _ _ _ _ _ _ _ _ _ _ _ H1 eq_refl). }
  destruct (find_unclassified (with_data m ds) border) as [ reps | e | ] eqn:E2.
  2: { exists (Throw e). eapply cl_find; [ exact H1 | rewrite E2; reflexivity ]. }
  2: { exists UB. eapply cl_find; [ exact H1 | rewrite E2; reflexivity ]. }
  destruct (parallel_ends D (map (p_rep centroid (side_of L) (side_of R) m border) reps) ds) as ([ [ds' w'] | e | ] & H3).
  - eexists. exact (cl_ok _ _ _ _ _ _ _ _ _ _ _ _ _ _ _ _ H1 E2 H3).
  - exists (Throw e). exact (cl_global _ _ _ _ _ _ _ _ _ _ _ _ _ _ _ _ H1 E2 H3 eq_refl).
  - exists UB. exact (cl_global _ _ _ _ _ _ _ _ _ _ _ _ _ _ _ _ H1 E2 H3 eq_refl).
Qed.
