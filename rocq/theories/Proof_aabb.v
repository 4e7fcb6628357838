(** * Proofs about AABB_tree *)
From Coq Require Import List Arith Bool QArith Qminmax Lia Permutation.
From Verif Require Import Model_base Proof_base Model_parallel_sort Proof_parallel_sort.
From Verif Require Import Model_forkjoin Proof_forkjoin Model_aabb Spec_aabb.
Import ListNotations.
Local Open Scope nat_scope.

(** ** Boxes *)
Lemma box_in_refl : forall a, box_in a a.
Proof. intro a. repeat split; apply Qle_refl. Qed.

Lemma box_in_trans : forall a b c, box_in a b -> box_in b c -> box_in a c.
Proof. unfold box_in. intuition eapply Qle_trans; eassumption. Qed.

Lemma box_join_l : forall a b, box_in a (box_join a b).
Proof.
  intros a b. repeat split; cbn; try apply Q.le_min_l; apply Q.le_max_l.
Qed.
Lemma box_join_r : forall a b, box_in b (box_join a b).
Proof.
  intros a b. repeat split; cbn; try apply Q.le_min_r; apply Q.le_max_r.
Qed.

Definition covered (b : box) (ob : option box) : Prop :=
  exists c, ob = Some c /\ box_in b c.

Lemma covered_meets : forall meets b ob, monotone meets -> covered b ob ->
  meets b = true -> meets_opt meets ob = true.
Proof. intros meets b ob Hm [c [-> Hc] ] H. cbn. exact (Hm _ _ Hc H). Qed.

(** ** Fuel *)
Lemma div2_bounds : forall n, 4 <= n -> 2 <= n / 2 /\ n / 2 + 2 <= n.
Proof.
  intros n H. pose proof (Nat.div_mod n 2 ltac:(lia)) as D.
  pose proof (Nat.mod_upper_bound n 2 ltac:(lia)). split; lia.
Qed.

(** Leaf counts that occur. *)
Lemma build_cases : forall n, 2 <= n -> n = 2 \/ n = 3 \/ 4 <= n.
Proof. intros; lia. Qed.

Section T.
  Variable leaf : Type.
  Variable leaf_bbox : leaf -> box.
  Variable longest_axis : option box -> nat.
  Variable sort_by : nat -> list leaf -> list leaf.
  Variable nth_element_by : nat -> nat -> list leaf -> list leaf.
  Hypothesis Hre : rearranges sort_by nth_element_by.

  Notation act := (act leaf_bbox longest_axis sort_by nth_element_by).

  (** ** Locality *)
  Definition a_node (a : action) : nat :=
    match a with
    | ABbox nd _ _ | ALeft nd _ | ARight nd _ | ASort nd _ _ | ANth nd _ _ _ => nd
    end.
  Definition a_first (a : action) : nat :=
    match a with
    | ABbox _ f _ | ASort _ f _ | ANth _ f _ _ => f
    | ALeft _ _ | ARight _ _ => 0
    end.
  Definition a_last (a : action) : nat :=
    match a with
    | ABbox _ _ l | ASort _ _ l | ANth _ _ _ l => l
    | ALeft _ _ | ARight _ _ => 0
    end.
  Definition apart (a b : action) : Prop :=
    a_node a <> a_node b /\ (a_last a <= a_first b \/ a_last b <= a_first a).

  Lemma apart_no_conflict : forall a b, apart a b -> ~ conflict a b.
  Proof.
    intros a b [Hn Hr] [c Hc].
    destruct a, b; cbn in *; destruct c; cbn in Hc;
      repeat match goal with
        | H : _ \/ _ |- _ => destruct H
        | H : _ /\ _ |- _ => destruct H
        | H : LeafCell _ = NodeCell _ |- _ => discriminate H
        | H : NodeCell _ = LeafCell _ |- _ => discriminate H
        | H : NodeCell _ = NodeCell _ |- _ => injection H as H
        end; subst; try contradiction; try lia.
  Qed.

  Definition gl (a : action) (ob : option box) : list leaf -> list leaf :=
    match a with
    | ASort _ _ _ => sort_by (longest_axis ob)
    | ANth _ f m _ => nth_element_by (longest_axis ob) (m - f)
    | _ => fun l => l
    end.
  Definition gn (a : action) (ls : list leaf) (n : node) : node :=
    match a with
    | ABbox _ _ _ => mk_node (bbox_from_leaves leaf_bbox ls) (n_left n) (n_right n)
    | ALeft _ p => mk_node (n_bbox n) p (n_right n)
    | ARight _ p => mk_node (n_bbox n) (n_left n) p
    | _ => n
    end.

  Lemma list_set_same : forall {U} (l : list U) i x, nth_error l i = Some x -> list_set l i x = l.
  Proof.
    intros U l i x H. apply nth_ext. intro k. destruct (Nat.eq_dec i k) as [<- | N].
    - rewrite nth_error_list_set_eq; auto. apply nth_error_Some. congruence.
    - apply nth_error_list_set_neq. auto.
  Qed.

  Lemma set_node_id : forall ns i, set_node ns i (fun n => n) = ns.
  Proof.
    intros. unfold set_node. destruct (nth_error ns i) eqn:E; auto. apply list_set_same. exact E.
  Qed.
  Lemma set_leaves_id : forall (ls : list leaf) f l, set_leaves ls f l (fun x => x) = ls.
  Proof.
    intros. unfold set_leaves. destruct ((f <=? l) && (l <=? length ls)) eqn:E; auto.
    apply andb_true_iff in E. destruct E as [A B]. apply Nat.leb_le in A, B.
    apply splice_self; auto.
  Qed.

  Lemma act_uniform : forall a t, act a t =
    mk_tree (set_leaves (t_leaves t) (a_first a) (a_last a) (gl a (node_bbox (t_nodes t) (a_node a))))
            (set_node (t_nodes t) (a_node a) (gn a (slice (t_leaves t) (a_first a) (a_last a)))).
  Proof.
    intros a [ls ns]. destruct a as [nd f l | nd p | nd p | nd f l | nd f m l];
      cbn [Model_aabb.act a_node a_first a_last t_leaves t_nodes].
    - apply (f_equal (fun x => mk_tree x _)). symmetry. apply (set_leaves_id ls f l).
    - apply (f_equal (fun x => mk_tree x _)). symmetry. apply (set_leaves_id ls 0 0).
    - apply (f_equal (fun x => mk_tree x _)). symmetry. apply (set_leaves_id ls 0 0).
    - apply (f_equal (fun x => mk_tree _ x)). symmetry. apply (set_node_id ns nd).
    - apply (f_equal (fun x => mk_tree _ x)). symmetry. apply (set_node_id ns nd).
  Qed.

  Lemma gl_length : forall a ob l, length (gl a ob l) = length l.
  Proof.
    intros a ob l. destruct Hre as [H1 H2]. destruct a; cbn [gl]; auto; symmetry; apply Permutation_length; auto.
  Qed.

  Lemma length_set_leaves : forall (ls : list leaf) f l g, (forall x, length (g x) = length x) ->
    length (set_leaves ls f l g) = length ls.
  Proof.
    intros ls f l g Hg. unfold set_leaves. destruct ((f <=? l) && (l <=? length ls)) eqn:E; auto.
    apply andb_true_iff in E. destruct E as [A B]. apply Nat.leb_le in A, B.
    unfold splice. rewrite !app_length, firstn_length, skipn_length, Hg, length_slice by auto. lia.
  Qed.

  Lemma slice_set_other : forall (ls : list leaf) f l g a b, (forall x, length (g x) = length x) ->
    b <= f \/ l <= a -> slice (set_leaves ls f l g) a b = slice ls a b.
  Proof.
    intros ls f l g a b Hg Hd. unfold set_leaves.
    destruct ((f <=? l) && (l <=? length ls)) eqn:E; auto.
    apply andb_true_iff in E. destruct E as [A B]. apply Nat.leb_le in A, B.
    apply slice_splice_other; auto. rewrite Hg, length_slice by auto. lia.
  Qed.

  Lemma nth_set_leaves : forall (ls : list leaf) f l g k, (forall x, length (g x) = length x) ->
    nth_error (set_leaves ls f l g) k =
      if (f <=? l) && (l <=? length ls) && (f <=? k) && (k <? l)
      then nth_error (g (slice ls f l)) (k - f) else nth_error ls k.
  Proof.
    intros ls f l g k Hg. unfold set_leaves. destruct ((f <=? l) && (l <=? length ls)) eqn:E; auto.
    apply andb_true_iff in E. destruct E as [A B]. apply Nat.leb_le in A, B.
    rewrite nth_splice by (auto; rewrite Hg, length_slice by auto; lia).
    destruct (Nat.ltb_spec k f), (Nat.leb_spec f k), (Nat.ltb_spec k l); cbn; auto; lia.
  Qed.

  Lemma set_leaves_comm : forall (ls : list leaf) f l g f' l' g',
    (forall x, length (g x) = length x) -> (forall x, length (g' x) = length x) ->
    l <= f' \/ l' <= f ->
    set_leaves (set_leaves ls f l g) f' l' g' = set_leaves (set_leaves ls f' l' g') f l g.
  Proof.
    intros ls f l g f' l' g' Hg Hg' Hd. apply nth_ext. intro k.
    rewrite !nth_set_leaves by auto. rewrite !length_set_leaves by auto.
    rewrite !slice_set_other by (auto; lia).
    destruct (Nat.leb_spec f l), (Nat.leb_spec f' l'), (Nat.leb_spec f k), (Nat.leb_spec f' k),
      (Nat.ltb_spec k l), (Nat.ltb_spec k l'), (l <=? length ls), (l' <=? length ls); cbn; auto; lia.
  Qed.

  Lemma nth_set_node : forall ns i g k, nth_error (set_node ns i g) k =
    if i =? k then option_map g (nth_error ns k) else nth_error ns k.
  Proof.
    intros ns i g k. unfold set_node. destruct (Nat.eqb_spec i k) as [<- | N].
    - destruct (nth_error ns i) eqn:E; auto. cbn.
      apply nth_error_list_set_eq. apply nth_error_Some. congruence.
    - destruct (nth_error ns i) eqn:E; auto. apply nth_error_list_set_neq. auto.
  Qed.

  Lemma set_node_comm : forall ns i j g h, i <> j ->
    set_node (set_node ns i g) j h = set_node (set_node ns j h) i g.
  Proof.
    intros ns i j g h N. apply nth_ext. intro k. rewrite !nth_set_node.
    destruct (Nat.eqb_spec i k), (Nat.eqb_spec j k); auto. lia.
  Qed.

  Lemma node_bbox_other : forall ns i j g, i <> j -> node_bbox (set_node ns i g) j = node_bbox ns j.
  Proof.
    intros. unfold node_bbox. rewrite nth_set_node.
    destruct (Nat.eqb_spec i j); [ lia | reflexivity ].
  Qed.

  Lemma act_comm : forall a b t, apart a b -> act a (act b t) = act b (act a t).
  Proof.
    intros a b [ls ns] [Hn Hr]. rewrite !act_uniform. cbn [t_leaves t_nodes].
    rewrite !node_bbox_other by auto.
    rewrite !slice_set_other by (intros; auto using gl_length; lia).
    f_equal.
    - apply set_leaves_comm; auto using gl_length; lia.
    - apply set_node_comm. auto.
  Qed.

  (** ** The actions of build *)
  Lemma build_eq : forall fuel limit nd f n depth, 4 <= n ->
    build (S fuel) limit nd f n depth =
    CSeq (CAct (ABbox nd f (f + n)))
      (CSeq (CAct (ANth nd f (f + n / 2) (f + n)))
      (CSeq (CAct (ALeft nd (PNode (nd + 1))))
      (CSeq (CAct (ARight nd (PNode (nd + n / 2))))
        (if depth <? limit then
           CPar (build fuel limit (nd + 1) f (n / 2) (depth + 1))
                (build fuel limit (nd + n / 2) (f + n / 2) (n - n / 2) (depth + 1))
         else
           CSeq (build fuel limit (nd + 1) f (n / 2) (depth + 1))
                (build fuel limit (nd + n / 2) (f + n / 2) (n - n / 2) (depth + 1)))))).
  Proof.
    intros fuel limit nd f n depth H. cbn [build].
    destruct n as [ | [ | [ | [ | n] ] ] ]; try lia. reflexivity.
  Qed.

  Definition inside (nd f n : nat) (a : action) : Prop :=
    (nd <= a_node a < nd + (n - 1)) /\
    (a_last a = 0 \/ (f <= a_first a /\ a_last a <= f + n)).

  Lemma build_inside : forall fuel limit nd f n depth, 2 <= n <= fuel + 1 ->
    forall a, In a (actions (build fuel limit nd f n depth)) -> inside nd f n a.
  Proof.
    induction fuel as [ | fuel IH]; intros limit nd f n depth Hn a Ha; [ lia | ].
    destruct (build_cases n ltac:(lia)) as [-> | [-> | H4] ].
    - cbn in Ha. unfold inside. destruct Ha as [ <- | [ <- | [ <- | [] ] ] ]; cbn; lia.
    - cbn [build actions app] in Ha. unfold inside.
      destruct Ha as [ <- | [ <- | [ <- | [ <- | Ha] ] ] ]; cbn; try lia.
      apply IH in Ha; [ | lia ]. unfold inside in Ha. lia.
    - rewrite build_eq in Ha by auto. cbn [actions app] in Ha.
      destruct (div2_bounds n H4) as [D1 D2]. unfold inside.
      destruct Ha as [ <- | [ <- | [ <- | [ <- | Ha] ] ] ]; cbn [a_node a_first a_last]; try lia.
      assert (Ha' : In a (actions (build fuel limit (nd + 1) f (n / 2) (depth + 1))) \/
        In a (actions (build fuel limit (nd + n / 2) (f + n / 2) (n - n / 2) (depth + 1)))).
      { destruct (depth <? limit); cbn [actions] in Ha; apply in_app_iff in Ha; exact Ha. }
      destruct Ha' as [Ha' | Ha']; apply IH in Ha'; try lia; unfold inside in Ha'; lia.
  Qed.

  Lemma build_separate : forall fuel limit nd f n depth, 2 <= n <= fuel + 1 ->
    separate apart (build fuel limit nd f n depth).
  Proof.
    induction fuel as [ | fuel IH]; intros limit nd f n depth Hn; [ lia | ].
    destruct (build_cases n ltac:(lia)) as [-> | [-> | H4] ].
    - cbn. tauto.
    - cbn [build separate]. repeat (split; [ exact I | ]). apply IH. lia.
    - rewrite build_eq by auto. cbn [separate]. repeat (split; [ exact I | ]).
      destruct (div2_bounds n H4) as [D1 D2].
      destruct (depth <? limit); cbn [separate].
      + split; [ apply IH; lia | split; [ apply IH; lia | ] ].
        intros a b Ha Hb. apply build_inside in Ha; [ | lia ]. apply build_inside in Hb; [ | lia ].
        unfold inside, apart in *. lia.
      + split; apply IH; lia.
  Qed.

  Lemma build_in_bounds : forall fuel limit nd f n depth NL NN, 2 <= n <= fuel + 1 ->
    nd + (n - 1) <= NN -> f + n <= NL ->
    forall a, In a (actions (build fuel limit nd f n depth)) -> action_in_bounds NL NN a.
  Proof.
    induction fuel as [ | fuel IH]; intros limit nd f n depth NL NN Hn HN HL a Ha; [ lia | ].
    destruct (build_cases n ltac:(lia)) as [-> | [-> | H4] ].
    - cbn in Ha. destruct Ha as [ <- | [ <- | [ <- | [] ] ] ]; cbn; lia.
    - cbn [build actions app] in Ha.
      destruct Ha as [ <- | [ <- | [ <- | [ <- | Ha] ] ] ]; cbn; try lia.
      eapply IH in Ha; [ exact Ha | lia | lia | lia ].
    - rewrite build_eq in Ha by auto. cbn [actions app] in Ha.
      destruct (div2_bounds n H4) as [D1 D2].
      destruct Ha as [ <- | [ <- | [ <- | [ <- | Ha] ] ] ]; cbn [action_in_bounds ptr_in_bounds]; try lia.
      assert (Ha' : In a (actions (build fuel limit (nd + 1) f (n / 2) (depth + 1))) \/
        In a (actions (build fuel limit (nd + n / 2) (f + n / 2) (n - n / 2) (depth + 1)))).
      { destruct (depth <? limit); cbn [actions] in Ha; apply in_app_iff in Ha; exact Ha. }
      destruct Ha' as [Ha' | Ha']; eapply IH in Ha'; try exact Ha'; lia.
  Qed.

  (** Each node gets its box exactly once. *)
  Definition boxed (a : action) : list nat := match a with ABbox nd _ _ => [nd] | _ => [] end.

  Lemma build_nodes : forall fuel limit nd f n depth, 2 <= n <= fuel + 1 ->
    flat_map boxed (actions (build fuel limit nd f n depth)) = seq nd (n - 1).
  Proof.
    induction fuel as [ | fuel IH]; intros limit nd f n depth Hn; [ lia | ].
    destruct (build_cases n ltac:(lia)) as [-> | [-> | H4] ].
    - reflexivity.
    - cbn [build actions app flat_map boxed]. rewrite IH by lia. cbn. do 2 f_equal. lia.
    - rewrite build_eq by auto. cbn [actions app flat_map boxed].
      destruct (div2_bounds n H4) as [D1 D2].
      assert (E : forall c1 c2, flat_map boxed (actions (if depth <? limit then CPar c1 c2 else CSeq c1 c2))
        = flat_map boxed (actions c1) ++ flat_map boxed (actions c2)).
      { intros. destruct (depth <? limit); cbn [actions]; apply flat_map_app. }
      rewrite E, !IH by lia.
      replace (nd + n / 2) with (nd + 1 + (n / 2 - 1)) by lia.
      rewrite <- seq_app. replace (n - 1) with (S (n / 2 - 1 + (n - n / 2 - 1))) by lia.
      cbn [seq]. do 2 f_equal. lia.
  Qed.

  (** ** What build leaves behind *)
  Notation run := (run act).

  Fixpoint tree_ok (fuel : nat) (t : tree leaf) (nd f n : nat) : Prop :=
    match fuel with
    | 0 => False
    | S fuel =>
        exists x, nth_error (t_nodes t) nd = Some x /\
          Forall (fun l => covered (leaf_bbox l) (n_bbox x)) (slice (t_leaves t) f (f + n)) /\
          ((n = 2 /\ n_left x = PLeaf f /\ n_right x = PLeaf (f + 1)) \/
           (n = 3 /\ n_left x = PLeaf f /\ n_right x = PNode (nd + 1) /\
            tree_ok fuel t (nd + 1) (f + 1) 2) \/
           (4 <= n /\ n_left x = PNode (nd + 1) /\ n_right x = PNode (nd + n / 2) /\
            tree_ok fuel t (nd + 1) f (n / 2) /\
            tree_ok fuel t (nd + n / 2) (f + n / 2) (n - n / 2)))
    end.

  Definition same_nodes (t t' : tree leaf) (nd n : nat) : Prop :=
    forall k, nd <= k < nd + (n - 1) -> nth_error (t_nodes t') k = nth_error (t_nodes t) k.
  Definition same_leaves (t t' : tree leaf) (f n : nat) : Prop :=
    forall k, f <= k < f + n -> nth_error (t_leaves t') k = nth_error (t_leaves t) k.

  Lemma same_slice : forall t t' f n, same_leaves t t' f n ->
    slice (t_leaves t') f (f + n) = slice (t_leaves t) f (f + n).
  Proof.
    intros t t' f n H. apply nth_ext. intro k. rewrite !nth_slice.
    destruct (Nat.ltb_spec k (f + n - f)); auto. apply H. lia.
  Qed.

  Lemma tree_ok_frame : forall fuel t t' nd f n, 2 <= n ->
    same_nodes t t' nd n -> same_leaves t t' f n ->
    tree_ok fuel t nd f n -> tree_ok fuel t' nd f n.
  Proof.
    induction fuel as [ | fuel IH]; intros t t' nd f n Hn HN HL H; [ exact H | ].
    cbn [tree_ok] in *. destruct H as [x [Hx [Hc H] ] ]. exists x.
    split; [ rewrite HN by lia; exact Hx | ].
    split; [ rewrite (same_slice _ _ _ _ HL); exact Hc | ].
    destruct H as [H | [ [-> [Hl [Hr H] ] ] | [H4 [Hl [Hr [H1 H2] ] ] ] ] ].
    - left. exact H.
    - right. left. repeat (split; [ auto; fail | ]).
      apply (IH t t'); auto; intros k Hk; [ apply HN | apply HL ]; lia.
    - right. right. destruct (div2_bounds n H4) as [D1 D2]. repeat (split; [ auto; fail | ]).
      split; apply (IH t t'); auto; try lia; intros k Hk; (apply HN || apply HL); lia.
  Qed.

  Lemma bbox_fold_covers : forall ls ob,
    (forall b, covered b ob -> covered b (fold_left (fun o l => bbox_add o (leaf_bbox l)) ls ob)) /\
    Forall (fun l => covered (leaf_bbox l) (fold_left (fun o l => bbox_add o (leaf_bbox l)) ls ob)) ls.
  Proof.
    induction ls as [ | l ls IH]; intros ob; cbn [fold_left]; [ split; auto | ].
    destruct (IH (bbox_add ob (leaf_bbox l))) as [H1 H2]. split.
    - intros b [c [-> Hc] ]. apply H1. cbn. exists (box_join c (leaf_bbox l)). split; auto.
      eapply box_in_trans; [ exact Hc | apply box_join_l ].
    - constructor; [ | exact H2 ]. apply H1. destruct ob as [c | ]; cbn.
      + eexists. split; [ reflexivity | apply box_join_r ].
      + eexists. split; [ reflexivity | apply box_in_refl ].
  Qed.

  (** Everything that happens inside a range of leaves and nodes. *)
  Record local_change (t t' : tree leaf) (nd f n : nat) : Prop := {
    lc_nodes_len : length (t_nodes t') = length (t_nodes t);
    lc_leaves_len : length (t_leaves t') = length (t_leaves t);
    lc_nodes : forall k, k < nd \/ nd + (n - 1) <= k ->
      nth_error (t_nodes t') k = nth_error (t_nodes t) k;
    lc_leaves : forall k, k < f \/ f + n <= k ->
      nth_error (t_leaves t') k = nth_error (t_leaves t) k;
    lc_perm : Permutation (slice (t_leaves t) f (f + n)) (slice (t_leaves t') f (f + n))
  }.

  Lemma lc_refl : forall t nd f n, local_change t t nd f n.
  Proof. intros. constructor; auto. Qed.

  Lemma lc_trans : forall t1 t2 t3 nd f n,
    local_change t1 t2 nd f n -> local_change t2 t3 nd f n -> local_change t1 t3 nd f n.
  Proof.
    intros t1 t2 t3 nd f n [A1 A2 A3 A4 A5] [B1 B2 B3 B4 B5]. constructor; try congruence.
    - intros k Hk. rewrite B3, A3; auto.
    - intros k Hk. rewrite B4, A4; auto.
    - eapply Permutation_trans; eassumption.
  Qed.

  Lemma lc_weaken : forall t t' nd f n nd' f' n',
    f' + n' <= length (t_leaves t) ->
    local_change t t' nd f n -> nd' <= nd -> nd + (n - 1) <= nd' + (n' - 1) ->
    f' <= f -> f + n <= f' + n' -> local_change t t' nd' f' n'.
  Proof.
    intros t t' nd f n nd' f' n' Hb [A1 A2 A3 A4 A5] H1 H2 H3 H4. constructor; auto.
    - intros k Hk. apply A3. lia.
    - intros k Hk. apply A4. lia.
    - rewrite <- (slice_app (t_leaves t) f' f (f' + n')) by lia.
      rewrite <- (slice_app (t_leaves t) f (f + n) (f' + n')) by lia.
      rewrite <- (slice_app (t_leaves t') f' f (f' + n')) by lia.
      rewrite <- (slice_app (t_leaves t') f (f + n) (f' + n')) by lia.
      assert (E : forall a b, b <= f \/ f + n <= a -> slice (t_leaves t') a b = slice (t_leaves t) a b).
      { intros a b Hab. apply nth_ext. intro k. rewrite !nth_slice.
        destruct (Nat.ltb_spec k (b - a)); auto. apply A4. lia. }
      rewrite (E f' f) by lia. rewrite (E (f + n) (f' + n')) by lia.
      apply Permutation_app_head, Permutation_app_tail. exact A5.
  Qed.

  Lemma lc_act : forall a t nd f n, f + n <= length (t_leaves t) ->
    inside nd f n a -> (a_last a = 0 \/ a_first a <= a_last a) ->
    local_change t (act a t) nd f n.
  Proof.
    intros a t nd f n Hb [Hi Hr] Ho. rewrite act_uniform. destruct t as [ls ns]. cbn [t_leaves t_nodes] in *.
    constructor; cbn [t_leaves t_nodes].
    - unfold set_node. destruct (nth_error ns (a_node a)); auto. apply length_list_set.
    - apply length_set_leaves. auto using gl_length.
    - intros k Hk. rewrite nth_set_node. destruct (Nat.eqb_spec (a_node a) k); auto. lia.
    - intros k Hk. rewrite nth_set_leaves by auto using gl_length.
      destruct ((a_first a <=? a_last a) && (a_last a <=? length ls) && (a_first a <=? k) && (k <? a_last a)) eqn:E; auto.
      rewrite !andb_true_iff in E. destruct E as [ [ [E1 E2] E3] E4].
      apply Nat.leb_le in E3. apply Nat.ltb_lt in E4. lia.
    - unfold set_leaves.
      destruct ((a_first a <=? a_last a) && (a_last a <=? length ls)) eqn:E; auto.
      apply andb_true_iff in E. destruct E as [E1 E2]. apply Nat.leb_le in E1, E2.
      set (g := gl a (node_bbox ns (a_node a))).
      destruct (Nat.eq_dec (a_last a) 0) as [Z | Z].
      { assert (a_first a = 0) by lia. rewrite Z, H. unfold slice at 2. cbn.
        assert (g [] = []) as -> by (apply length_zero_iff_nil; unfold g; rewrite gl_length; reflexivity).
        unfold splice. cbn. apply Permutation_refl. }
      assert (Hg : length (g (slice ls (a_first a) (a_last a))) = a_last a - a_first a)
        by (unfold g; rewrite gl_length, length_slice by auto; lia).
      rewrite <- (slice_app ls f (a_first a) (f + n)) by lia.
      rewrite <- (slice_app ls (a_first a) (a_last a) (f + n)) by lia.
      set (ls' := splice ls (a_first a) (a_last a) (g (slice ls (a_first a) (a_last a)))).
      assert (Hl' : length ls' = length ls).
      { unfold ls', splice. rewrite !app_length, firstn_length, skipn_length, Hg. lia. }
      rewrite <- (slice_app ls' f (a_first a) (f + n)) by lia.
      rewrite <- (slice_app ls' (a_first a) (a_last a) (f + n)) by lia.
      unfold ls'. rewrite (slice_splice_other ls _ _ _ f (a_first a)) by lia.
      rewrite (slice_splice_other ls _ _ _ (a_last a) (f + n)) by lia.
      rewrite slice_splice_same by lia.
      apply Permutation_app_head, Permutation_app_tail.
      unfold g. destruct Hre as [R1 R2]. destruct a; cbn [gl]; auto.
  Qed.

  (** The first actions of build at a node leave its box right. *)
  Definition node_ready (t : tree leaf) (nd f n : nat) (l r : ptr) : Prop :=
    exists x, nth_error (t_nodes t) nd = Some x /\
      Forall (fun l => covered (leaf_bbox l) (n_bbox x)) (slice (t_leaves t) f (f + n)) /\
      n_left x = l /\ n_right x = r.

  Lemma Forall_perm : forall {U} (P : U -> Prop) a b, Permutation a b -> Forall P a -> Forall P b.
  Proof. intros. eapply Permutation_Forall; eassumption. Qed.

  Lemma node_ready_lc : forall t t' nd f n l r,
    node_ready t nd f n l r -> nth_error (t_nodes t') nd = nth_error (t_nodes t) nd ->
    Permutation (slice (t_leaves t) f (f + n)) (slice (t_leaves t') f (f + n)) ->
    node_ready t' nd f n l r.
  Proof.
    intros t t' nd f n l r [x [H1 [H2 H3] ] ] Hn Hp. exists x. rewrite Hn.
    split; [ exact H1 | split; [ exact (Forall_perm _ _ _ Hp H2) | exact H3 ] ].
  Qed.

  Lemma set_fields : forall t nd f n l r (pre : list action),
    nd < length (t_nodes t) -> f + n <= length (t_leaves t) -> 2 <= n ->
    (forall a, In a pre -> exists g, (a = ASort nd f (f + n) \/ exists m, a = ANth nd f m (f + n)) /\ g = 0) ->
    let t' := fold_left (fun t a => act a t) ([ABbox nd f (f + n)] ++ pre ++ [ALeft nd l; ARight nd r]) t in
    node_ready t' nd f n l r /\ local_change t t' nd f n.
  Proof.
    intros t nd f n l r pre Hnd Hf Hn Hpre t'.
    assert (H0 : exists x, nth_error (t_nodes (act (ABbox nd f (f + n)) t)) nd = Some x /\
      Forall (fun l => covered (leaf_bbox l) (n_bbox x))
        (slice (t_leaves (act (ABbox nd f (f + n)) t)) f (f + n))).
    { cbn [Model_aabb.act t_nodes t_leaves]. rewrite nth_set_node, Nat.eqb_refl.
      destruct (nth_error (t_nodes t) nd) as [x | ] eqn:E; [ | apply nth_error_None in E; lia ].
      cbn [option_map]. eexists. split; [ reflexivity | ]. cbn [n_bbox].
      apply (proj2 (bbox_fold_covers _ None)). }
    assert (L0 : local_change t (act (ABbox nd f (f + n)) t) nd f n).
    { apply lc_act; auto; [ | cbn; lia ]. unfold inside. cbn. lia. }
    subst t'. rewrite fold_left_app. cbn [fold_left].
    set (t0 := act (ABbox nd f (f + n)) t) in *. rewrite fold_left_app.
    assert (H1 : forall pre t0, local_change t t0 nd f n ->
      (exists x, nth_error (t_nodes t0) nd = Some x /\
        Forall (fun l => covered (leaf_bbox l) (n_bbox x)) (slice (t_leaves t0) f (f + n))) ->
      (forall a, In a pre -> exists g, (a = ASort nd f (f + n) \/ exists m, a = ANth nd f m (f + n)) /\ g = 0) ->
      let t1 := fold_left (fun t a => act a t) pre t0 in
      local_change t t1 nd f n /\
      (exists x, nth_error (t_nodes t1) nd = Some x /\
        Forall (fun l => covered (leaf_bbox l) (n_bbox x)) (slice (t_leaves t1) f (f + n)))).
    { clear pre Hpre t0 H0 L0. induction pre as [ | a pre IH]; intros t0 L0 H0 Hpre; [ auto | ].
      cbn [fold_left]. destruct (Hpre a (or_introl eq_refl)) as [_ [Ha _] ].
      assert (La : local_change t0 (act a t0) nd f n).
      { apply lc_act; [ rewrite (lc_leaves_len _ _ _ _ _ L0); auto | | ];
          destruct Ha as [-> | [m ->] ]; unfold inside; cbn; lia. }
      apply IH; [ eapply lc_trans; eassumption | | intros; apply Hpre; right; assumption ].
      destruct H0 as [x [X1 X2] ]. exists x. split.
      - destruct Ha as [-> | [m ->] ]; exact X1.
      - exact (Forall_perm _ _ _ (lc_perm _ _ _ _ _ La) X2). }
    destruct (H1 pre t0 L0 H0 Hpre) as [L1 [x [X1 X2] ] ].
    set (t1 := fold_left (fun t a => act a t) pre t0) in *. cbn [fold_left].
    assert (L2 : local_change t1 (act (ALeft nd l) t1) nd f n).
    { apply lc_act; [ rewrite (lc_leaves_len _ _ _ _ _ L1); auto | unfold inside; cbn; lia | cbn; lia ]. }
    assert (L3 : local_change (act (ALeft nd l) t1) (act (ARight nd r) (act (ALeft nd l) t1)) nd f n).
    { apply lc_act; [ rewrite (lc_leaves_len _ _ _ _ _ L2), (lc_leaves_len _ _ _ _ _ L1); auto
                    | unfold inside; cbn; lia | cbn; lia ]. }
    split.
    - exists (mk_node (n_bbox x) l r). cbn [Model_aabb.act t_nodes t_leaves].
      rewrite !nth_set_node, Nat.eqb_refl, X1. cbn. auto.
    - eapply lc_trans; [ exact L1 | eapply lc_trans; eassumption ].
  Qed.

  Lemma run_build : forall fuel limit nd f n depth t, 2 <= n <= fuel + 1 ->
    nd + (n - 1) <= length (t_nodes t) -> f + n <= length (t_leaves t) ->
    tree_ok fuel (run (build fuel limit nd f n depth) t) nd f n /\
    local_change t (run (build fuel limit nd f n depth) t) nd f n.
  Proof.
    induction fuel as [ | fuel IH]; intros limit nd f n depth t Hn HN HL; [ lia | ].
    destruct (build_cases n ltac:(lia)) as [-> | [-> | H4] ].
    - destruct (set_fields t nd f 2 (PLeaf f) (PLeaf (f + 1)) []) as [ [x [X1 [X2 [X3 X4] ] ] ] L];
        try lia; [ intros a [] | ].
      cbn [fold_left app] in *. cbn [build Proof_forkjoin.run].
      split; [ | exact L ]. cbn [tree_ok]. exists x. split; [ exact X1 | split; [ exact X2 | ] ]. auto.
    - destruct (set_fields t nd f 3 (PLeaf f) (PNode (nd + 1)) [ASort nd f (f + 3)])
        as [R L]; try lia; [ intros a [ <- | [] ]; exists 0; auto | ].
      cbn [build Proof_forkjoin.run]. cbn [fold_left app] in R, L.
      set (t1 := act (ARight nd (PNode (nd + 1))) _) in *.
      destruct (IH limit (nd + 1) (f + 1) 2 (depth + 1) t1) as [T2 L2];
        [ lia | rewrite (lc_nodes_len _ _ _ _ _ L); lia | rewrite (lc_leaves_len _ _ _ _ _ L); lia | ].
      set (t2 := run (build fuel limit (nd + 1) (f + 1) 2 (depth + 1)) t1) in *.
      assert (L2' : local_change t1 t2 nd f 3).
      { apply (lc_weaken t1 t2 (nd + 1) (f + 1) 2); auto; try lia.
        rewrite (lc_leaves_len _ _ _ _ _ L); lia. }
      split; [ | eapply lc_trans; eassumption ].
      assert (R2 : node_ready t2 nd f 3 (PLeaf f) (PNode (nd + 1))).
      { eapply node_ready_lc; [ exact R | apply (lc_nodes _ _ _ _ _ L2); lia
                              | exact (lc_perm _ _ _ _ _ L2') ]. }
      destruct R2 as [x [X1 [X2 [X3 X4] ] ] ]. cbn [tree_ok]. exists x.
      split; [ exact X1 | split; [ exact X2 | ] ]. right. left. auto.
    - destruct (div2_bounds n H4) as [D1 D2].
      destruct (set_fields t nd f n (PNode (nd + 1)) (PNode (nd + n / 2)) [ANth nd f (f + n / 2) (f + n)])
        as [R L]; try lia; [ intros a [ <- | [] ]; exists 0; eauto | ].
      rewrite build_eq by auto. cbn [Proof_forkjoin.run]. cbn [fold_left app] in R, L.
      set (t1 := act (ARight nd (PNode (nd + n / 2))) _) in *.
      destruct (IH limit (nd + 1) f (n / 2) (depth + 1) t1) as [T2 L2];
        [ lia | rewrite (lc_nodes_len _ _ _ _ _ L); lia | rewrite (lc_leaves_len _ _ _ _ _ L); lia | ].
      set (t2 := run (build fuel limit (nd + 1) f (n / 2) (depth + 1)) t1) in *.
      destruct (IH limit (nd + n / 2) (f + n / 2) (n - n / 2) (depth + 1) t2) as [T3 L3];
        [ lia
        | rewrite (lc_nodes_len _ _ _ _ _ L2), (lc_nodes_len _ _ _ _ _ L); lia
        | rewrite (lc_leaves_len _ _ _ _ _ L2), (lc_leaves_len _ _ _ _ _ L); lia | ].
      set (t3 := run (build fuel limit (nd + n / 2) (f + n / 2) (n - n / 2) (depth + 1)) t2) in *.
      assert (E : run (if depth <? limit then
           CPar (build fuel limit (nd + 1) f (n / 2) (depth + 1))
                (build fuel limit (nd + n / 2) (f + n / 2) (n - n / 2) (depth + 1))
         else
           CSeq (build fuel limit (nd + 1) f (n / 2) (depth + 1))
                (build fuel limit (nd + n / 2) (f + n / 2) (n - n / 2) (depth + 1))) t1 = t3)
        by (destruct (depth <? limit); reflexivity).
      rewrite E.
      assert (L2' : local_change t1 t2 nd f n).
      { apply (lc_weaken t1 t2 (nd + 1) f (n / 2)); auto; try lia.
        rewrite (lc_leaves_len _ _ _ _ _ L); lia. }
      assert (L3' : local_change t2 t3 nd f n).
      { apply (lc_weaken t2 t3 (nd + n / 2) (f + n / 2) (n - n / 2)); auto; try lia.
        rewrite (lc_leaves_len _ _ _ _ _ L2), (lc_leaves_len _ _ _ _ _ L); lia. }
      split; [ | eapply lc_trans; [ exact L | eapply lc_trans; eassumption ] ].
      assert (R3 : node_ready t3 nd f n (PNode (nd + 1)) (PNode (nd + n / 2))).
      { eapply node_ready_lc; [ exact R | | ].
        - rewrite (lc_nodes _ _ _ _ _ L3) by lia. apply (lc_nodes _ _ _ _ _ L2). lia.
        - eapply Permutation_trans; [ exact (lc_perm _ _ _ _ _ L2') | exact (lc_perm _ _ _ _ _ L3') ]. }
      destruct R3 as [x [X1 [X2 [X3 X4] ] ] ]. cbn [tree_ok]. exists x.
      split; [ exact X1 | split; [ exact X2 | ] ]. right. right.
      repeat (split; [ assumption | ]). split; [ | exact T3 ].
      apply (tree_ok_frame fuel t2 t3); auto.
      + intros k Hk. apply (lc_nodes _ _ _ _ _ L3). lia.
      + intros k Hk. apply (lc_leaves _ _ _ _ _ L3). lia.
  Qed.

  (** ** Queries *)
  Variable meets : box -> bool.
  Hypothesis Hmono : monotone meets.

  Definition hit (t : tree leaf) (i : nat) : bool :=
    match nth_error (t_leaves t) i with Some l => meets (leaf_bbox l) | None => false end.

  Lemma visit_leaf_hit : forall t i, i < length (t_leaves t) ->
    visit_leaf leaf leaf_bbox meets t (PLeaf i) = Ok (filter (hit t) [i]).
  Proof.
    intros t i Hi. unfold visit_leaf, get_leaf, hit. cbn [filter].
    destruct (nth_error (t_leaves t) i) as [l | ] eqn:E; [ reflexivity | ].
    apply nth_error_None in E. lia.
  Qed.

  Lemma not_met : forall t x f n,
    Forall (fun l => covered (leaf_bbox l) (n_bbox x)) (slice (t_leaves t) f (f + n)) ->
    meets_opt meets (n_bbox x) = false -> filter (hit t) (seq f n) = [].
  Proof.
    intros t x f n Hc Hm.
    destruct (filter (hit t) (seq f n)) as [ | i r] eqn:E; auto. exfalso.
    assert (Hi : In i (filter (hit t) (seq f n))) by (rewrite E; left; reflexivity).
    apply filter_In in Hi. destruct Hi as [Hi Hh]. apply in_seq in Hi.
    unfold hit in Hh. destruct (nth_error (t_leaves t) i) as [l | ] eqn:El; [ | discriminate ].
    assert (In l (slice (t_leaves t) f (f + n))) as Hin.
    { apply nth_error_In with (n := i - f). rewrite nth_slice.
      destruct (Nat.ltb_spec (i - f) (f + n - f)); [ | lia ].
      replace (f + (i - f)) with i by lia. exact El. }
    rewrite Forall_forall in Hc. specialize (Hc _ Hin).
    rewrite (covered_meets _ _ _ Hmono Hc Hh) in Hm. discriminate.
  Qed.

  Lemma traverse_ok : forall fuel t nd f n x, f + n <= length (t_leaves t) -> 2 <= n ->
    tree_ok fuel t nd f n -> nth_error (t_nodes t) nd = Some x ->
    traverse leaf_bbox meets fuel t n x = Ok (filter (hit t) (seq f n)).
  Proof.
    induction fuel as [ | fuel IH]; intros t nd f n x Hf Hn Ht Hx; [ destruct Ht | ].
    cbn [tree_ok] in Ht. destruct Ht as [x' [Hx' [Hc Ht] ] ].
    rewrite Hx in Hx'. injection Hx' as <-.
    destruct Ht as [ [-> [Hl Hr] ] | [ [-> [Hl [Hr H] ] ] | [H4 [Hl [Hr [H1 H2] ] ] ] ] ].
    - cbn [traverse]. rewrite Hl, Hr, !visit_leaf_hit by lia. cbn [bind].
      rewrite <- filter_app. cbn [seq app]. do 4 f_equal. lia.
    - cbn [traverse]. rewrite Hl, Hr, visit_leaf_hit by lia. cbn [bind get_node].
      assert (exists y, nth_error (t_nodes t) (nd + 1) = Some y /\
        Forall (fun l => covered (leaf_bbox l) (n_bbox y)) (slice (t_leaves t) (f + 1) (f + 1 + 2)))
        as [y [Hy Hcy] ].
      { destruct fuel as [ | fuel']; [ destruct H | ]. destruct H as [y [Hy [Hcy _] ] ]. eauto. }
      rewrite Hy. cbn [bind].
      replace (seq f 3) with ([f] ++ seq (f + 1) 2) by (cbn; rewrite Nat.add_1_r; reflexivity).
      rewrite filter_app. destruct (meets_opt meets (n_bbox y)) eqn:Em.
      + rewrite (IH t (nd + 1) (f + 1) 2 y) by (auto; lia). reflexivity.
      + rewrite (not_met t y (f + 1) 2 Hcy Em), app_nil_r. reflexivity.
    - destruct (div2_bounds n H4) as [D1 D2].
      assert (Hsub : forall nd' f' n', tree_ok fuel t nd' f' n' -> f' + n' <= length (t_leaves t) -> 2 <= n' ->
        exists y, get_node leaf t (PNode nd') = Ok y /\
          (if meets_opt meets (n_bbox y) then traverse leaf_bbox meets fuel t n' y else Ok [])
          = Ok (filter (hit t) (seq f' n'))).
      { intros nd' f' n' Ht' Hf' Hn'.
        assert (exists y, nth_error (t_nodes t) nd' = Some y /\
          Forall (fun l => covered (leaf_bbox l) (n_bbox y)) (slice (t_leaves t) f' (f' + n')))
          as [y [Hy Hcy] ].
        { destruct fuel as [ | fuel']; [ destruct Ht' | ]. destruct Ht' as [y [Hy [Hcy _] ] ]. eauto. }
        exists y. split; [ cbn; rewrite Hy; reflexivity | ].
        destruct (meets_opt meets (n_bbox y)) eqn:Em.
        - apply (IH t nd' f' n' y); auto.
        - rewrite (not_met t y f' n' Hcy Em). reflexivity. }
      destruct (Hsub _ _ _ H1) as [y [Gy Ty] ]; [ lia | lia | ].
      destruct (Hsub _ _ _ H2) as [z [Gz Tz] ]; [ lia | lia | ].
      assert (E : traverse leaf_bbox meets (S fuel) t n x =
        let* l := get_node leaf t (n_left x) in
        let* a := if meets_opt meets (n_bbox l) then traverse leaf_bbox meets fuel t (n / 2) l else Ok [] in
        let* r := get_node leaf t (n_right x) in
        let* b := if meets_opt meets (n_bbox r) then traverse leaf_bbox meets fuel t (n - n / 2) r else Ok [] in
        Ok (a ++ b)).
      { cbn [traverse]. destruct n as [ | [ | [ | [ | n] ] ] ]; try lia. reflexivity. }
      rewrite E, Hl, Gy. cbn [bind]. rewrite Ty. cbn [bind]. rewrite Hr, Gz. cbn [bind].
      rewrite Tz. cbn [bind]. rewrite <- filter_app, <- seq_app. do 3 f_equal. lia.
  Qed.

  Lemma query_ok : forall limit ls t,
    t = run (tree_program limit ls) (tree_init ls) ->
    get_intersecting_leaves leaf_bbox meets t = Ok (filter (hit t) (seq 0 (length ls))) /\
    Permutation ls (t_leaves t).
  Proof.
    intros limit ls t ->. unfold tree_program. destruct (Nat.ltb_spec (length ls) 2) as [L | L].
    - cbn [Proof_forkjoin.run]. split; [ | apply Permutation_refl ].
      unfold get_intersecting_leaves. cbn [t_leaves tree_init].
      destruct ls as [ | l [ | l' ls] ]; cbn [length] in *; [ reflexivity | | lia ].
      apply (visit_leaf_hit (tree_init [l]) 0). cbn. lia.
    - destruct (run_build (length ls) limit 0 0 (length ls) 0 (tree_init ls)) as [T L'].
      + lia.
      + cbn. rewrite repeat_length. lia.
      + cbn. lia.
      + set (t := run (build (length ls) limit 0 0 (length ls) 0) (tree_init ls)) in *.
        assert (Hlen : length (t_leaves t) = length ls) by exact (lc_leaves_len _ _ _ _ _ L').
        split.
        * unfold get_intersecting_leaves. rewrite Hlen.
          assert (exists x, nth_error (t_nodes t) 0 = Some x) as [x Hx].
          { destruct (nth_error (t_nodes t) 0) eqn:E; [ eauto | ].
            apply nth_error_None in E. rewrite (lc_nodes_len _ _ _ _ _ L') in E.
            cbn in E. rewrite repeat_length in E. lia. }
          destruct (length ls) as [ | [ | n] ] eqn:En; [ lia | lia | ].
          cbn [get_node]. rewrite Hx. cbn [bind].
          apply (traverse_ok (S (S n)) t 0 0 (S (S n)) x); auto; lia.
        * pose proof (lc_perm _ _ _ _ _ L') as Hp. cbn [t_leaves tree_init plus] in Hp.
          rewrite slice_all in Hp. rewrite <- Hlen, slice_all in Hp. exact Hp.
  Qed.
End T.
