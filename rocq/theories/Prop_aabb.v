(** * C23: box tree queries are exact *)
From Coq Require Import List Arith Bool QArith Qminmax Lia Permutation.
From Verif Require Import Model_base Proof_base Model_parallel_sort Proof_parallel_sort.
From Verif Require Import Model_forkjoin Proof_forkjoin Model_aabb Spec_aabb Proof_aabb.
Import ListNotations.
Local Open Scope nat_scope.

Section Statements.
  Variable leaf : Type.
  Variable leaf_bbox : leaf -> box.
  Variable longest_axis : option box -> nat.
  Variable sort_by : nat -> list leaf -> list leaf.
  Variable nth_element_by : nat -> nat -> list leaf -> list leaf.

  (** Building [ls] with any interleaving of the threads ended in [t]. *)
  Definition built (limit : nat) (ls : list leaf) (t : tree leaf) : Prop :=
    steps (act leaf_bbox longest_axis sort_by nth_element_by)
      (tree_program limit ls, tree_init ls) (CSkip, t).

  (** A state reached while building. *)
  Definition building (limit : nat) (ls : list leaf) (x : cmd action * tree leaf) : Prop :=
    steps (act leaf_bbox longest_axis sort_by nth_element_by)
      (tree_program limit ls, tree_init ls) x.
End Statements.

Lemma tree_program_separate : forall {leaf} limit (ls : list leaf),
  separate apart (tree_program limit ls).
Proof.
  intros leaf limit ls. unfold tree_program. destruct (Nat.ltb_spec (length ls) 2).
  - exact I.
  - apply build_separate. lia.
Qed.

(** Every leaf whose box meets the query is found exactly once and no other leaf
    is found: the positions found are distinct, and the leaves there are, as a
    multiset, the leaves given that meet the query. *)
Theorem C23_query_exact : forall leaf (leaf_bbox : leaf -> box) longest_axis sort_by nth_element_by
    limit ls t meets,
  rearranges sort_by nth_element_by ->
  built leaf leaf_bbox longest_axis sort_by nth_element_by limit ls t ->
  monotone meets ->
  exists found leaves,
    get_intersecting_leaves leaf_bbox meets t = Ok found /\
    NoDup found /\
    Forall2 (fun i l => nth_error (t_leaves t) i = Some l) found leaves /\
    Permutation leaves (filter (fun l => meets (leaf_bbox l)) ls).
Proof.
  intros leaf leaf_bbox la sb ne limit ls t meets Hre Hb Hm.
  destruct (steps_run _ _ _ apart (act_comm leaf leaf_bbox la sb ne Hre) _ _ Hb
              (tree_program_separate limit ls)) as [E _].
  cbn [fst snd run] in E.
  destruct (query_ok leaf leaf_bbox la sb ne Hre meets Hm limit ls t E) as [Hq Hp].
  exists (filter (hit leaf leaf_bbox meets t) (seq 0 (length ls))),
    (filter (fun l => meets (leaf_bbox l)) (t_leaves t)).
  split; [ exact Hq | ]. split; [ apply NoDup_filter, seq_NoDup | ]. split.
  - rewrite (Permutation_length Hp). clear. unfold hit.
    enough (H : forall pre ls, Forall2 (fun i l => nth_error (pre ++ ls) i = Some l)
      (filter (fun i => match nth_error (pre ++ ls) i with Some l => meets (leaf_bbox l) | None => false end)
         (seq (length pre) (length ls)))
      (filter (fun l => meets (leaf_bbox l)) ls)) by exact (H [] (t_leaves t)).
    intros pre ls. revert pre. induction ls as [ | l ls IH]; intro pre; cbn [length seq filter].
    + constructor.
    + rewrite nth_error_app2, Nat.sub_diag by lia. cbn [nth_error].
      specialize (IH (pre ++ [l])). rewrite <- app_assoc in IH. cbn [app] in IH.
      rewrite app_length in IH. cbn [length] in IH. rewrite Nat.add_1_r in IH.
      destruct (meets (leaf_bbox l)).
      * constructor; [ rewrite nth_error_app2, Nat.sub_diag by lia; reflexivity | exact IH ].
      * exact IH.
  - apply Permutation_sym. clear - Hp.
    induction Hp; cbn; auto.
    + destruct (meets (leaf_bbox x)); auto.
    + destruct (meets (leaf_bbox x)), (meets (leaf_bbox y)); auto. apply perm_swap.
    + eapply Permutation_trans; eassumption.
Qed.
Print Assumptions C23_query_exact.

(** Box queries are monotone, and "the boxes meet" means they have a common
    point. *)
Theorem C23_box_query : forall q, monotone (fun b => boxes_intersect b q).
Proof.
  intros q a b [H1 [H2 [H3 [H4 [H5 H6] ] ] ] ] H. unfold boxes_intersect, Qltb in *.
  rewrite negb_true_iff in *. rewrite !orb_false_iff in *. rewrite !negb_false_iff in *.
  rewrite !Qle_bool_iff in *.
  destruct H as [ [ [ [ [A1 A2] A3] A4] A5] A6].
  repeat split; eapply Qle_trans; eassumption.
Qed.
Print Assumptions C23_box_query.

Theorem C23_boxes_share_point : forall a b, proper a -> proper b ->
  (boxes_intersect a b = true <-> boxes_share_point a b).
Proof.
  intros a b [P1 [P2 P3] ] [Q1 [Q2 Q3] ]. unfold boxes_intersect, Qltb, boxes_share_point.
  rewrite negb_true_iff, !orb_false_iff, !negb_false_iff, !Qle_bool_iff. split.
  - intros [ [ [ [ [A1 A2] A3] A4] A5] A6].
    exists (Qmax (xmin a) (xmin b)), (Qmax (ymin a) (ymin b)), (Qmax (zmin a) (zmin b)).
    repeat split; try apply Q.le_max_l; try apply Q.le_max_r; apply Q.max_lub; assumption.
  - intros [x [y [z [ [A1 A2] [ [A3 A4] [ [A5 A6] [ [B1 B2] [ [B3 B4] [B5 B6] ] ] ] ] ] ] ] ].
    repeat split; eapply Qle_trans; eassumption.
Qed.
Print Assumptions C23_boxes_share_point.

(** Building never has two threads at conflicting accesses. *)
Theorem C23_race_free : forall leaf (leaf_bbox : leaf -> box) longest_axis sort_by nth_element_by
    limit ls x,
  rearranges sort_by nth_element_by ->
  building leaf leaf_bbox longest_axis sort_by nth_element_by limit ls x ->
  ~ racy conflict (fst x).
Proof.
  intros leaf leaf_bbox la sb ne limit ls x Hre Hb.
  destruct (steps_run _ _ _ apart (act_comm leaf leaf_bbox la sb ne Hre) _ _ Hb
              (tree_program_separate limit ls)) as [_ Hs].
  apply (separate_not_racy _ apart); auto. exact apart_no_conflict.
Qed.
Print Assumptions C23_race_free.

(** The schedule does not matter. *)
Theorem C23_schedule_irrelevant : forall leaf (leaf_bbox : leaf -> box) longest_axis sort_by
    nth_element_by limit limit' ls t t',
  rearranges sort_by nth_element_by ->
  built leaf leaf_bbox longest_axis sort_by nth_element_by limit ls t ->
  built leaf leaf_bbox longest_axis sort_by nth_element_by limit' ls t' -> t = t'.
Proof.
  intros leaf leaf_bbox la sb ne limit limit' ls t t' Hre H H'.
  destruct (steps_run _ _ _ apart (act_comm leaf leaf_bbox la sb ne Hre) _ _ H
              (tree_program_separate limit ls)) as [E _].
  destruct (steps_run _ _ _ apart (act_comm leaf leaf_bbox la sb ne Hre) _ _ H'
              (tree_program_separate limit' ls)) as [E' _].
  cbn [fst snd run] in E, E'. rewrite E, E'. unfold tree_program.
  destruct (length ls <? 2); [ reflexivity | ].
  assert (G : forall fuel nd f n depth s,
    run (act leaf_bbox la sb ne) (build fuel limit nd f n depth) s =
    run (act leaf_bbox la sb ne) (build fuel limit' nd f n depth) s); [ | apply G ].
  induction fuel as [ | fuel IH]; intros nd f n depth s; [ reflexivity | ].
  destruct n as [ | [ | [ | [ | n] ] ] ]; try reflexivity; cbn [build run];
    try (apply IH);
    destruct (depth <? limit), (depth <? limit'); cbn [run]; rewrite IH, (IH _ _ _ (depth + 1)); reflexivity.
Qed.
Print Assumptions C23_schedule_irrelevant.

(** Exactly n - 1 nodes are used, each given its box once, and every access is in
    bounds. *)
Theorem C23_in_bounds : forall leaf (leaf_bbox : leaf -> box) longest_axis sort_by nth_element_by
    limit ls x a,
  building leaf leaf_bbox longest_axis sort_by nth_element_by limit ls x ->
  In a (enabled (fst x)) ->
  action_in_bounds (length ls) (length ls - 1) a.
Proof.
  intros leaf leaf_bbox la sb ne limit ls x a Hb Ha.
  assert (Hin : In a (actions (tree_program limit ls))).
  { apply enabled_actions in Ha. unfold building in Hb.
    remember (tree_program limit ls, tree_init ls) as y eqn:Ey.
    change (tree_program limit ls) with (fst (tree_program limit ls, tree_init ls)).
    rewrite <- Ey. clear Ey. induction Hb; [ exact Ha | ].
    apply (step_actions _ _ _ _ _ H). apply IHHb. exact Ha. }
  unfold tree_program in Hin. destruct (Nat.ltb_spec (length ls) 2); [ destruct Hin | ].
  apply (build_in_bounds (length ls) limit 0 0 (length ls) 0); auto; lia.
Qed.
Print Assumptions C23_in_bounds.

Theorem C23_node_count : forall leaf limit (ls : list leaf),
  length (t_nodes (tree_init ls)) = length ls - 1 /\
  flat_map boxed (actions (tree_program limit ls)) = seq 0 (length ls - 1).
Proof.
  intros leaf limit ls. cbn. rewrite repeat_length. split; [ reflexivity | ].
  unfold tree_program. destruct (Nat.ltb_spec (length ls) 2).
  - destruct (length ls) as [ | [ | n] ]; [ reflexivity | reflexivity | lia ].
  - apply build_nodes. lia.
Qed.
Print Assumptions C23_node_count.

(** Building always ends: there is always a next step until everything is done,
    and no execution is longer than the size of the program. *)
Inductive exec_length {A St} (act : A -> St -> St) : nat -> cmd A * St -> cmd A * St -> Prop :=
| el_0 : forall x, exec_length act 0 x x
| el_S : forall n x y z, step act x y -> exec_length act n y z -> exec_length act (S n) x z.

Theorem C23_always_ends : forall leaf (leaf_bbox : leaf -> box) longest_axis sort_by nth_element_by
    limit ls,
  let act := act leaf_bbox longest_axis sort_by nth_element_by in
  (forall n x, exec_length act n (tree_program limit ls, tree_init ls) x ->
     n <= size (tree_program limit ls)) /\
  (forall x, steps act (tree_program limit ls, tree_init ls) x ->
     fst x = CSkip \/ exists y, step act x y).
Proof.
  intros leaf leaf_bbox la sb ne limit ls act. split.
  - intros n x H. change (size (tree_program limit ls)) with
      (size (fst (tree_program limit ls, tree_init ls))).
    induction H as [ | n x y z Hst H IH]; [ lia | ].
    apply step_size in Hst. lia.
  - intros [c s] _. destruct (progress _ _ act c s) as [ -> | [y H] ]; eauto.
Qed.
Print Assumptions C23_always_ends.

(** ** Examples *)

(** Every tree can be built. *)
Example C23_can_be_built : forall leaf (leaf_bbox : leaf -> box) longest_axis sort_by nth_element_by
    limit ls, exists t, built leaf leaf_bbox longest_axis sort_by nth_element_by limit ls t.
Proof.
  intros leaf leaf_bbox la sb ne limit ls. unfold built.
  generalize (tree_init ls) as s.
  remember (size (tree_program limit ls)) as n eqn:En.
  generalize dependent (tree_program limit ls).
  induction n as [n IH] using lt_wf_ind. intros c -> s.
  destruct (progress _ _ (act leaf_bbox la sb ne) c s) as [ -> | [ [c' s'] H] ].
  - exists s. apply steps_refl.
  - destruct (IH (size c') (step_size _ _ _ _ _ H) c' eq_refl s') as [t Ht].
    exists t. eapply steps_cons; eassumption.
Qed.

Definition ex_box (i : Q) : box := mk_box i i i (i + 1) (i + 1) (i + 1).
Definition ex_leaves : list (nat * box) :=
  [(0, ex_box 4); (1, ex_box 0); (2, ex_box 2); (3, ex_box (7#2)); (4, ex_box 9)].
Definition ex_act := act (@snd nat box) (fun _ => 0) (fun _ l => l) (fun _ _ l => rev l).

Example C23_example_rearranges :
  rearranges (fun (_ : nat) (l : list (nat * box)) => l) (fun _ _ l => rev l).
Proof. split; intros; [ apply Permutation_refl | apply Permutation_rev ]. Qed.

(** Five leaves built by two threads, the right one first. *)
Fixpoint right_first (fuel : nat) (c : cmd action) (t : tree (nat * box)) : cmd action * tree (nat * box) :=
  match fuel with
  | 0 => (c, t)
  | S fuel =>
    let fix one (c : cmd action) (t : tree (nat * box)) : cmd action * tree (nat * box) :=
      match c with
      | CSkip => (CSkip, t)
      | CAct a => (CSkip, ex_act a t)
      | CSeq CSkip c2 => (c2, t)
      | CSeq c1 c2 => let '(c1', t') := one c1 t in (CSeq c1' c2, t')
      | CPar CSkip CSkip => (CSkip, t)
      | CPar c1 CSkip => let '(c1', t') := one c1 t in (CPar c1' CSkip, t')
      | CPar c1 c2 => let '(c2', t') := one c2 t in (CPar c1 c2', t')
      end in
    let '(c', t') := one c t in right_first fuel c' t'
  end.

Example C23_example :
  exists t, right_first 40 (tree_program 1 ex_leaves) (tree_init ex_leaves) = (CSkip, t) /\
    (exists found, get_intersecting_leaves (@snd nat box) (fun b => boxes_intersect b (ex_box (5#2))) t = Ok found /\
       map (fun i => option_map fst (nth_error (t_leaves t) i)) found = [Some 3; Some 2]).
Proof.
  eexists. split; [ vm_compute; reflexivity | ]. eexists. split; vm_compute; reflexivity.
Qed.
