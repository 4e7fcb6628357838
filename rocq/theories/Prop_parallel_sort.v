(** * C17: parallel_sort under every schedule *)
From Coq Require Import List Arith Bool Lia Permutation Sorted.
From Verif Require Import Model_base Model_parallel_sort Spec_parallel_sort Proof_base Proof_parallel_sort.
Import ListNotations.

Lemma sort_threads_pos : forall nt n, 1 <= nt -> 1 <= n -> 1 <= sort_threads nt n.
Proof.
  intros nt n N L. unfold sort_threads.
  assert (1 <= (n + 1023) / 1024); [|lia].
  apply Nat.div_str_pos. lia.
Qed.

(** Whatever the schedule, the result is sorted and a permutation of the input. *)
Theorem C17_sorts :
  forall T (comp : T -> T -> bool) sort merge num_threads l out,
    sort_contract comp sort -> merge_contract comp merge -> 1 <= num_threads ->
    parallel_sort comp sort merge num_threads l out ->
    Permutation out l /\ sorted_by comp out.
Proof.
  intros T comp sort merge nt l out Sc Mc N H.
  destruct H as [-> | Ne W | sched st Ne W St D].
  - split; [constructor | constructor].
  - apply Sc.
  - assert (W1 : 1 <= sort_threads nt (length l)).
    { apply sort_threads_pos; auto. destruct l; [congruence | cbn; lia]. }
    assert (I := sinv_steps _ _ _ Sc Mc _ _ W1 _ _ _ eq_refl St). split.
    + apply (sv_perm _ _ _ _ _ I).
    + eapply all_sorted; eauto.
Qed.
Print Assumptions C17_sorts.

(** inplace_merge is only ever called on two sorted halves. *)
Theorem C17_merge_precondition :
  forall T (comp : T -> T -> bool) sort merge w l sched st,
    sort_contract comp sort -> merge_contract comp merge -> 1 <= w ->
    ssteps comp sort merge (length l) w l sched st -> ub st = false.
Proof.
  intros T comp sort merge w l sched st Sc Mc W St.
  apply (sv_ub _ _ _ _ _ (sinv_steps _ _ _ Sc Mc _ _ W _ _ _ eq_refl St)).
Qed.
Print Assumptions C17_merge_precondition.

Lemma boundary_part : forall sz w t, t <= w -> boundary sz w t = part sz w t.
Proof.
  intros sz w t L. unfold boundary, part. destruct (t =? w) eqn:E1, (t <? w) eqn:E2; auto.
  - apply Nat.eqb_eq in E1. apply Nat.ltb_lt in E2. lia.
  - apply Nat.eqb_neq in E1. apply Nat.ltb_ge in E2. lia.
Qed.

Lemma touches_range : forall sz w t r i, t < w -> touches sz w t r i ->
  t mod 2 ^ r = 0 /\ part sz w t <= i < part sz w (Nat.min (t + 2 ^ r) w).
Proof.
  intros sz w t r i L H. destruct r as [|r].
  - cbn [touches] in H. rewrite !boundary_part in H by lia. split; [reflexivity|].
    replace (Nat.min (t + 2 ^ 0) w) with (t + 1) by (cbn; lia). exact H.
  - cbn [touches] in H. destruct H as [[k E] H]. rewrite !boundary_part in H by lia.
    split; auto. rewrite E. apply Nat.mod_mul. apply Nat.pow_nonzero. lia.
Qed.

(** Two threads that are at work at the same time have no element in common. *)
Theorem C17_no_shared_element :
  forall T (comp : T -> T -> bool) sort merge w l sched st t u r q i,
    sort_contract comp sort -> merge_contract comp merge -> 1 <= w ->
    ssteps comp sort merge (length l) w l sched st ->
    nth_error (spcs st) t = Some (Work r) -> nth_error (spcs st) u = Some (Work q) -> t <> u ->
    touches (length l) w t r i -> ~ touches (length l) w u q i.
Proof.
  intros T comp sort merge w l sched st t u r q i Sc Mc W St Ht Hu D Tt Tu.
  assert (I := sinv_steps _ _ _ Sc Mc _ _ W _ _ _ eq_refl St).
  assert (Et := sv_status _ _ _ _ _ I t _ Ht). assert (Eu := sv_status _ _ _ _ _ I u _ Hu).
  cbn in Et, Eu. subst r q.
  assert (Lt : t < w) by (rewrite <- (sv_len _ _ _ _ _ I); apply nth_error_Some; congruence).
  assert (Lu : u < w) by (rewrite <- (sv_len _ _ _ _ _ I); apply nth_error_Some; congruence).
  apply touches_range in Tt; auto. apply touches_range in Tu; auto.
  destruct Tt as [M1 R1], Tu as [M2 R2].
  assert (Pow : 2 ^ phase st <> 0) by (apply Nat.pow_nonzero; lia).
  destruct (Nat.lt_ge_cases t u) as [C | C].
  - assert (X := multiples_apart w W _ _ _ M1 M2 Pow C).
    assert (Y := part_mono (length l) w W (Nat.min (t + 2 ^ phase st) w) u ltac:(lia)). lia.
  - assert (X := multiples_apart w W _ _ _ M2 M1 Pow ltac:(lia)).
    assert (Y := part_mono (length l) w W (Nat.min (u + 2 ^ phase st) w) t ltac:(lia)). lia.
Qed.
Print Assumptions C17_no_shared_element.

(** A piece of work reads and writes only the elements the thread may touch, and
    permutes them. *)
Theorem C17_work_is_local :
  forall T (comp : T -> T -> bool) sort merge sz w t r a a',
    sort_contract comp sort -> merge_contract comp merge -> t < w -> length a = sz ->
    work comp sort merge sz w t r a = Some a' ->
    Permutation a' a /\
    (forall i, ~ touches sz w t r i -> nth_error a' i = nth_error a i) /\
    (forall b, length b = sz ->
       (forall i, touches sz w t r i -> nth_error b i = nth_error a i) ->
       exists b', work comp sort merge sz w t r b = Some b' /\
         forall i, touches sz w t r i -> nth_error b' i = nth_error a' i).
Proof.
  intros T comp sort merge sz w t r a a' Sc Mc L La H.
  assert (W : 1 <= w) by lia.
  assert (Slices : forall b f g, (forall i, f <= i < g -> nth_error b i = nth_error a i) ->
            slice b f g = slice a f g).
  { intros b f g Hb. apply nth_ext. intros k. rewrite !nth_slice.
    destruct (k <? g - f) eqn:E; auto. apply Nat.ltb_lt in E. apply Hb. lia. }
  (* the common shape: a subrange [f, g) is replaced by a permutation *)
  assert (Shape : forall f g new, f <= g -> g <= sz ->
    Permutation new (slice a f g) -> a' = splice a f g new ->
    (forall i, touches sz w t r i <-> f <= i < g) ->
    (forall b, length b = sz -> slice b f g = slice a f g ->
       work comp sort merge sz w t r b = Some (splice b f g new)) ->
    Permutation a' a /\
    (forall i, ~ touches sz w t r i -> nth_error a' i = nth_error a i) /\
    (forall b, length b = sz ->
       (forall i, touches sz w t r i -> nth_error b i = nth_error a i) ->
       exists b', work comp sort merge sz w t r b = Some b' /\
         forall i, touches sz w t r i -> nth_error b' i = nth_error a' i)).
  { intros f g new L1 L2 P -> Tc Wk.
    assert (Ln : length new = g - f).
    { rewrite (Permutation_length P). apply length_slice; lia. }
    split; [|split].
    - apply splice_perm; auto. lia.
    - intros i Ni. rewrite nth_splice by lia. rewrite Tc in Ni.
      destruct (i <? f) eqn:E1; auto. destruct (i <? g) eqn:E2; auto.
      apply Nat.ltb_ge in E1. apply Nat.ltb_lt in E2. lia.
    - intros b Lb Hb. exists (splice b f g new). split.
      + apply Wk; auto. apply Slices. intros i Hi. apply Hb. apply Tc. exact Hi.
      + intros i Hi. rewrite Tc in Hi. rewrite !nth_splice by lia.
        replace (i <? f) with false by (symmetry; apply Nat.ltb_ge; lia).
        replace (i <? g) with true by (symmetry; apply Nat.ltb_lt; lia). reflexivity. }
  destruct r as [|r].
  - cbn [work] in H. injection H as <-.
    destruct (Sc (slice a (part sz w t) (part sz w (t + 1)))) as [P _].
    eapply Shape; [| | exact P | reflexivity | |].
    + apply part_mono; lia.
    + apply part_le; lia.
    + intros i. cbn [touches]. rewrite !boundary_part by lia. tauto.
    + intros b Lb E. cbn [work]. rewrite E. reflexivity.
  - unfold work in H. replace (2 * 2 ^ r) with (2 ^ S r) in H by reflexivity.
    destruct (t mod 2 ^ S r =? 0) eqn:E.
    + apply Nat.eqb_eq in E.
      destruct (sortedb comp (slice a (part sz w t) (part sz w (Nat.min (t + 2 ^ r) w)))) eqn:S1;
        [|discriminate].
      destruct (sortedb comp (slice a (part sz w (Nat.min (t + 2 ^ r) w))
                  (part sz w (Nat.min (t + 2 ^ S r) w)))) eqn:S2; [|discriminate].
      cbn [andb] in H. injection H as <-.
      assert (S1' := proj1 (sortedb_iff comp _) S1). assert (S2' := proj1 (sortedb_iff comp _) S2).
      destruct (Mc _ _ S1' S2') as [P _].
      assert (L1 : part sz w t <= part sz w (Nat.min (t + 2 ^ r) w)) by (apply part_mono; lia).
      assert (L2 : part sz w (Nat.min (t + 2 ^ r) w) <= part sz w (Nat.min (t + 2 ^ S r) w)).
      { apply part_mono; auto. cbn. lia. }
      assert (L3 : part sz w (Nat.min (t + 2 ^ S r) w) <= sz) by (apply part_le; lia).
      rewrite slice_app in P by lia.
      eapply Shape; [| | exact P | reflexivity | |]; try lia.
      * intros i. cbn [touches]. rewrite !boundary_part by lia. split; [tauto|].
        intros Hi. split; auto. apply Nat.mod_divides in E; [|apply Nat.pow_nonzero; lia].
        destruct E as [k E]. exists k. rewrite E at 1. apply Nat.mul_comm.
      * intros b Lb Eb. unfold work. replace (2 * 2 ^ r) with (2 ^ S r) by reflexivity.
        rewrite E. cbn [Nat.eqb].
        assert (Es : forall k, nth_error (slice b (part sz w t) (part sz w (Nat.min (t + 2 ^ S r) w))) k =
                               nth_error (slice a (part sz w t) (part sz w (Nat.min (t + 2 ^ S r) w))) k)
          by (intros k; rewrite Eb; reflexivity).
        assert (Eq : forall i, part sz w t <= i < part sz w (Nat.min (t + 2 ^ S r) w) ->
                       nth_error b i = nth_error a i).
        { intros i Hi. specialize (Es (i - part sz w t)). rewrite !nth_slice in Es.
          destruct (i - part sz w t <? part sz w (Nat.min (t + 2 ^ S r) w) - part sz w t) eqn:C.
          - replace (part sz w t + (i - part sz w t)) with i in Es by lia. exact Es.
          - apply Nat.ltb_ge in C. lia. }
        rewrite (Slices b (part sz w t) (part sz w (Nat.min (t + 2 ^ r) w))) by (intros; apply Eq; lia).
        rewrite (Slices b (part sz w (Nat.min (t + 2 ^ r) w)) (part sz w (Nat.min (t + 2 ^ S r) w)))
          by (intros; apply Eq; lia).
        rewrite S1, S2. reflexivity.
    + injection H as <-. split; [apply Permutation_refl|]. split; auto.
      intros b Lb Hb. exists b. split; auto. unfold work.
      replace (2 * 2 ^ r) with (2 ^ S r) by reflexivity. rewrite E. reflexivity.
Qed.
Print Assumptions C17_work_is_local.

(** Every execution is finite and none gets stuck at the barrier. *)
Theorem C17_always_returns :
  forall T (comp : T -> T -> bool) sort merge w l sched st,
    sort_contract comp sort -> merge_contract comp merge -> 1 <= w ->
    ssteps comp sort merge (length l) w l sched st ->
    length sched <= w * (3 * Nat.log2_up w + 3) /\
    exists sched' st', ssteps comp sort merge (length l) w l (sched ++ sched') st' /\
      Forall (fun p => p = SDone) (spcs st').
Proof.
  intros T comp sort merge w l sched st Sc Mc W St. split.
  - assert (R := rank_steps _ _ _ Sc Mc _ _ W _ _ _ eq_refl St).
    assert (B := rank_bound _ _ _ W _ _ (sinv_steps _ _ _ Sc Mc _ _ W _ _ _ eq_refl St)). lia.
  - eapply scan_finish; eauto.
Qed.
Print Assumptions C17_always_returns.

(** ** The hypotheses are met *)

Fixpoint insert (a : nat) (l : list nat) : list nat :=
  match l with
  | [] => [a]
  | b :: r => if a <=? b then a :: l else b :: insert a r
  end.
Definition isort (l : list nat) : list nat := fold_right insert [] l.

Lemma insert_perm : forall a l, Permutation (insert a l) (a :: l).
Proof.
  intros a. induction l as [|b r IH]; cbn; auto. destruct (a <=? b); auto.
  apply Permutation_trans with (b :: a :: r); auto. apply perm_swap.
Qed.

Lemma isort_contract : sort_contract Nat.ltb isort.
Proof.
  intros l. induction l as [|a r [P S]]; cbn [isort fold_right].
  - split; constructor.
  - fold (isort r). split.
    + apply Permutation_trans with (a :: isort r); [apply insert_perm | auto].
    + clear P. unfold sorted_by in *. induction (isort r) as [|b q IH]; cbn.
      * repeat constructor.
      * apply StronglySorted_inv in S. destruct S as [S F]. destruct (a <=? b) eqn:E.
        -- apply Nat.leb_le in E. constructor; [constructor; auto|].
           constructor; [apply Nat.ltb_ge; exact E|].
           apply Forall_impl with (2 := F). intros c Hc. apply Nat.ltb_ge in Hc. apply Nat.ltb_ge. lia.
        -- apply Nat.leb_gt in E. constructor; auto. rewrite Forall_forall. intros c Hc.
           apply (Permutation_in _ (insert_perm a q)) in Hc. destruct Hc as [<- | Hc].
           ++ apply Nat.ltb_ge. lia.
           ++ rewrite Forall_forall in F. exact (F c Hc).
Qed.

Definition imerge (a b : list nat) : list nat := isort (a ++ b).

Lemma imerge_contract : merge_contract Nat.ltb imerge.
Proof. intros a b _ _. apply isort_contract. Qed.

(** 5000 elements and 4 threads: three rounds. *)
Example C17_example : exists out,
  parallel_sort Nat.ltb isort imerge 4 (map (fun i => i mod 7) (seq 0 5000)) out.
Proof.
  set (l := map (fun i => i mod 7) (seq 0 5000)).
  assert (Ll : length l = 5000) by (unfold l; rewrite map_length; apply seq_length).
  assert (Wt : sort_threads 4 (length l) = 4) by (rewrite Ll; vm_compute; reflexivity).
  destruct (C17_always_returns nat Nat.ltb isort imerge 4 l [] _ isort_contract imerge_contract
              ltac:(lia) (ss_nil _ _ _ _ _ _ l)) as [_ [sched [st [H D]]]].
  exists (arr st). apply ps_threads with (sched := [] ++ sched).
  - intros E. rewrite E in Ll. discriminate.
  - rewrite Wt. lia.
  - rewrite Wt. exact H.
  - exact D.
Qed.

(** Three threads (not a power of two) and nine elements, step by step; threads
    1 and 2 start before thread 0. *)
Definition run_sched (w : nat) (l : list nat) (sched : list nat) : option (sstate nat) :=
  fold_left (fun acc tid =>
    match acc with
    | Some st => sstep Nat.ltb isort imerge (length l) w st tid
    | None => None
    end) sched (Some (mk_sstate l 0 0 false (repeat (Work 0) w))).

Example C17_small_example :
  option_map (fun st => (arr st, ub st, spcs st))
    (run_sched 3 [5; 4; 3; 2; 1; 0; 9; 8; 7]
       [2; 2; 1; 0; 0; 1; 2; 1; 2; 1; 0; 0; 0; 2; 1; 1; 2; 0; 0; 1; 2]) =
  Some ([0; 1; 2; 3; 4; 5; 7; 8; 9], false, [SDone; SDone; SDone]).
Proof. vm_compute. reflexivity. Qed.
