From Coq Require Import List Arith Bool Lia.
From Verif Require Import Model_base.
Import ListNotations.

Lemma bind_ok : forall A B (m : res A) (k : A -> res B) b,
  bind m k = Ok b <-> exists a, m = Ok a /\ k a = Ok b.
Proof.
  intros A B m k b; destruct m; simpl; split; intros H; try discriminate.
  - eauto.
  - destruct H as (x & E & H). congruence.
  - destruct H as (x & E & H). congruence.
  - destruct H as (x & E & H). congruence.
Qed.

Lemma vec_at_ok : forall A (l : list A) i a, vec_at l i = Ok a <-> nth_error l i = Some a.
Proof.
  intros. unfold vec_at. destruct (nth_error l i); split; intros; congruence.
Qed.

Lemma vec_at_lt : forall A (l : list A) i, i < length l -> exists a, vec_at l i = Ok a.
Proof.
  intros A l i H. apply nth_error_Some in H. unfold vec_at.
  destruct (nth_error l i); [eauto | congruence].
Qed.

Lemma length_list_set : forall A (l : list A) i a, length (list_set l i a) = length l.
Proof. induction l; destruct i; simpl; intros; auto. Qed.

Lemma nth_error_list_set_eq : forall A (l : list A) i a,
  i < length l -> nth_error (list_set l i a) i = Some a.
Proof. induction l; destruct i; simpl; intros; try lia; auto. apply IHl. lia. Qed.

Lemma nth_error_list_set_neq : forall A (l : list A) i j a,
  i <> j -> nth_error (list_set l i a) j = nth_error l j.
Proof. induction l; destruct i, j; simpl; intros; try lia; auto. Qed.

Lemma list_set_app_last : forall A (l : list A) x a, list_set (l ++ [x]) (length l) a = l ++ [a].
Proof. induction l; simpl; intros; auto. now rewrite IHl. Qed.

Lemma foldM_app : forall A S (f : S -> A -> res S) l1 l2 s,
  foldM f s (l1 ++ l2) = bind (foldM f s l1) (fun s' => foldM f s' l2).
Proof.
  induction l1; simpl; intros; auto.
  destruct (f s a); simpl; auto.
Qed.

(** Invariant rule for loops. *)
Lemma foldM_inv : forall A S (f : S -> A -> res S) (I : list A -> S -> Prop) l s,
  I [] s ->
  (forall pre x post s, l = pre ++ x :: post -> I pre s -> exists s', f s x = Ok s' /\ I (pre ++ [x]) s') ->
  exists s', foldM f s l = Ok s' /\ I l s'.
Proof.
  intros A S f I l s H0 Hs.
  assert (G : forall post pre s, l = pre ++ post -> I pre s -> exists s', foldM f s post = Ok s' /\ I l s').
  { induction post; intros pre s1 E HI.
    - rewrite app_nil_r in E. subst. simpl. eauto.
    - simpl. destruct (Hs pre a post s1 E HI) as (s2 & E2 & I2). rewrite E2. simpl.
      apply (IHpost (pre ++ [a])); auto. now rewrite <- app_assoc. }
  apply (G l [] s); auto.
Qed.

Lemma nth_error_app_last : forall A (l : list A) x, nth_error (l ++ [x]) (length l) = Some x.
Proof. intros. rewrite nth_error_app2 by lia. now rewrite Nat.sub_diag. Qed.

Lemma combine_app : forall A B (a1 a2 : list A) (b1 b2 : list B),
  length a1 = length b1 -> combine (a1 ++ a2) (b1 ++ b2) = combine a1 b1 ++ combine a2 b2.
Proof.
  induction a1; destruct b1; simpl; intros; try discriminate; auto.
  f_equal. apply IHa1. lia.
Qed.

Lemma nth_error_seq : forall n s i, i < n -> nth_error (seq s n) i = Some (s + i).
Proof.
  induction n; simpl; intros; try lia.
  destruct i; simpl. f_equal; lia. rewrite IHn by lia. f_equal; lia.
Qed.

Lemma Forall2_len : forall A B (R : A -> B -> Prop) l1 l2, Forall2 R l1 l2 -> length l1 = length l2.
Proof. induction 1; simpl; auto. Qed.

Lemma nth_error_skipn : forall A k (l : list A) i, nth_error (skipn k l) i = nth_error l (k + i).
Proof. induction k; intros l i; simpl; auto. destruct l; simpl; auto. now destruct i. Qed.

Lemma nth_error_firstn : forall A k (l : list A) i, i < k -> nth_error (firstn k l) i = nth_error l i.
Proof. induction k; intros l i H; [lia|]. destruct l, i; simpl; auto. apply IHk. lia. Qed.
