From Coq Require Import List Arith Bool Lia Sorted Permutation.
From Verif Require Import Model_base Model_soup Model_mesh Spec_mesh Proof_base.
Import ListNotations.

Definition ple (x y : nat * nat) : Prop := fst x < fst y \/ (fst x = fst y /\ snd x <= snd y).

Lemma pair_leb_ple : forall x y, pair_leb x y = true <-> ple x y.
Proof.
  intros [a b] [c d]. unfold pair_leb, ple. simpl.
  rewrite orb_true_iff, andb_true_iff, Nat.ltb_lt, Nat.eqb_eq, Nat.leb_le. tauto.
Qed.

Lemma ple_total : forall x y, pair_leb x y = false -> ple y x.
Proof.
  intros [a b] [c d] H. destruct (pair_leb_ple (a, b) (c, d)) as (_ & H2).
  unfold ple in *. simpl in *.
  destruct (Nat.lt_trichotomy a c) as [|[|]]; try lia.
  - exfalso. rewrite H2 in H; [discriminate|lia].
  - destruct (Nat.le_gt_cases b d); [|lia]. exfalso. rewrite H2 in H; [discriminate|lia].
Qed.

Lemma ple_trans : forall x y z, ple x y -> ple y z -> ple x z.
Proof. unfold ple. intros. lia. Qed.

Lemma insert_pair_perm : forall x l, Permutation (x :: l) (insert_pair x l).
Proof.
  induction l; simpl; auto. destruct (pair_leb x a); auto.
  rewrite perm_swap. now constructor.
Qed.

Lemma sort_pairs_perm : forall l, Permutation l (sort_pairs l).
Proof.
  induction l; simpl; auto. rewrite <- insert_pair_perm. now constructor.
Qed.

Lemma insert_pair_sorted : forall x l, StronglySorted ple l -> StronglySorted ple (insert_pair x l).
Proof.
  induction l; intros H; simpl.
  - repeat constructor.
  - destruct (pair_leb x a) eqn:E.
    + constructor; auto. constructor.
      * now apply pair_leb_ple.
      * apply StronglySorted_inv in H. destruct H as (_ & H).
        eapply Forall_impl; [|exact H]. intros y Hy. eapply ple_trans; [|exact Hy]. now apply pair_leb_ple.
    + apply StronglySorted_inv in H. destruct H as (H1 & H2).
      constructor; auto.
      eapply Permutation_Forall; [apply insert_pair_perm|].
      constructor; auto. now apply ple_total.
Qed.

Lemma sort_pairs_sorted : forall l, StronglySorted ple (sort_pairs l).
Proof. induction l; simpl; [constructor|]. now apply insert_pair_sorted. Qed.

(** The sorted permutation is unique, so the choice of sorting algorithm does
    not matter. *)
Lemma sorted_perm_unique : forall l l', StronglySorted ple l -> StronglySorted ple l' ->
  Permutation l l' -> l = l'.
Proof.
  induction l; intros l' H H' HP.
  - apply Permutation_nil in HP. now subst.
  - destruct l' as [|b l']; [apply Permutation_sym, Permutation_nil in HP; discriminate|].
    apply StronglySorted_inv in H. destruct H as (H1 & H2).
    apply StronglySorted_inv in H'. destruct H' as (H1' & H2').
    assert (a = b).
    { assert (Ha : In a (b :: l')) by (eapply Permutation_in; [exact HP|simpl; auto]).
      assert (Hb : In b (a :: l)) by (eapply Permutation_in; [apply Permutation_sym; exact HP|simpl; auto]).
      destruct Ha as [|Ha]; auto. destruct Hb as [|Hb]; auto.
      rewrite Forall_forall in H2, H2'. specialize (H2 b Hb). specialize (H2' a Ha).
      destruct a, b. unfold ple in *. simpl in *. f_equal; lia. }
    subst. f_equal. apply IHl; auto. eapply Permutation_cons_inv; eauto.
Qed.

(** *** The CSR arrays *)
Definition count_lt (l : list (nat * nat)) (k : nat) : nat := length (filter (fun p => fst p <? k) l).

Definition csr_inv (pre : list (nat * nat)) (st : list nat * list nat * nat * nat) : Prop :=
  let '(idx, fidx, prev1, index) := st in
  length idx = prev1 /\ fidx = map snd pre /\ index = length pre /\
  (forall p, In p pre -> fst p < prev1) /\
  (prev1 = 0 \/ exists p, In p pre /\ S (fst p) = prev1) /\
  (forall k, k < prev1 -> nth_error idx k = Some (count_lt pre k)).

Lemma filter_all : forall A (f : A -> bool) l, (forall x, In x l -> f x = true) -> filter f l = l.
Proof.
  induction l; simpl; intros; auto. rewrite H by auto. f_equal. apply IHl. auto.
Qed.

Lemma filter_none : forall A (f : A -> bool) l, (forall x, In x l -> f x = false) -> filter f l = [].
Proof.
  induction l; simpl; intros; auto. rewrite H by auto. apply IHl. auto.
Qed.

Lemma nth_error_repeat : forall A (a : A) n i, i < n -> nth_error (repeat a n) i = Some a.
Proof. induction n; intros; try lia. destruct i; simpl; auto. apply IHn. lia. Qed.

Lemma csr_step : forall pre x st,
  csr_inv pre st -> (forall p, In p pre -> fst p <= fst x) ->
  csr_inv (pre ++ [x]) (finalize_step st x).
Proof.
  intros pre [v f] [[[idx fidx] prev1] index] (HL & HF & HI & HB & HP & HK) Hx. simpl in Hx.
  assert (Hv : prev1 <= S v).
  { destruct HP as [->|(p & Hp & <-)]; [lia|]. specialize (Hx p Hp). lia. }
  cbn [finalize_step csr_inv]. repeat split.
  - rewrite app_length, repeat_length. lia.
  - rewrite map_app. now subst.
  - rewrite app_length. simpl. lia.
  - intros p Hp. apply in_app_or in Hp. destruct Hp as [Hp|[<-|[]]]; simpl; auto.
    specialize (Hx p Hp). lia.
  - right. exists (v, f). split; auto. apply in_or_app; simpl; auto.
  - intros k Hk.
    assert (E : count_lt (pre ++ [(v, f)]) k = count_lt pre k).
    { unfold count_lt. rewrite filter_app, app_length. simpl.
      destruct (Nat.ltb_spec v k); simpl; lia. }
    rewrite E.
    destruct (Nat.lt_ge_cases k prev1).
    + rewrite nth_error_app1 by lia. auto.
    + rewrite nth_error_app2 by lia. rewrite nth_error_repeat by lia. f_equal. subst index.
      unfold count_lt. rewrite filter_all; auto. intros p Hp. apply Nat.ltb_lt. specialize (HB p Hp). lia.
Qed.

Lemma csr_fold : forall l, StronglySorted ple l ->
  csr_inv l (fold_left finalize_step l ([], [], 0, 0)).
Proof.
  intros l HS.
  assert (G : forall post pre st, l = pre ++ post -> csr_inv pre st ->
             csr_inv l (fold_left finalize_step post st)).
  { induction post; intros pre st E HI; simpl.
    - rewrite app_nil_r in E. now subst.
    - apply (IHpost (pre ++ [a])).
      + rewrite <- app_assoc. auto.
      + apply csr_step; auto. intros p Hp. subst l.
        assert (ple p a).
        { clear -HS Hp. induction pre; [contradiction|]. simpl in HS.
          apply StronglySorted_inv in HS. destruct HS as (H1 & H2).
          destruct Hp as [->|Hp]; auto. rewrite Forall_forall in H2. apply H2. apply in_or_app. simpl. auto. }
        unfold ple in *. lia. }
  apply (G l []); auto. simpl. repeat split; auto; try lia.
Qed.

Definition filter_eq (l : list (nat * nat)) (k : nat) := filter (fun p => fst p =? k) l.

Lemma sorted_split : forall l k, StronglySorted ple l ->
  l = filter (fun p => fst p <? k) l ++ filter_eq l k ++ filter (fun p => k <? fst p) l.
Proof.
  intros l k. unfold filter_eq. induction 1 as [|a l HS IH HF]; simpl; auto.
  destruct (Nat.ltb_spec (fst a) k).
  - destruct (Nat.eqb_spec (fst a) k); [lia|]. destruct (Nat.ltb_spec k (fst a)); [lia|].
    simpl. f_equal. auto.
  - assert (N : filter (fun p => fst p <? k) l = []).
    { apply filter_none. intros x Hx. rewrite Forall_forall in HF. specialize (HF x Hx).
      apply Nat.ltb_ge. unfold ple in HF. lia. }
    rewrite N in *. simpl in *.
    destruct (Nat.eqb_spec (fst a) k).
    + destruct (Nat.ltb_spec k (fst a)); [lia|]. simpl. f_equal. auto.
    + destruct (Nat.ltb_spec k (fst a)); [|lia].
      assert (N2 : filter (fun p => fst p =? k) l = []).
      { apply filter_none. intros x Hx. rewrite Forall_forall in HF. specialize (HF x Hx).
        apply Nat.eqb_neq. unfold ple in HF. lia. }
      rewrite N2 in *. simpl in *. f_equal. auto.
Qed.

Lemma count_lt_S : forall l k, StronglySorted ple l ->
  count_lt l (S k) = count_lt l k + length (filter_eq l k).
Proof.
  intros l k _. unfold count_lt, filter_eq. induction l; simpl; auto.
  destruct (Nat.ltb_spec (fst a) (S k)), (Nat.ltb_spec (fst a) k), (Nat.eqb_spec (fst a) k); simpl; lia.
Qed.

Lemma slice_filter : forall l k, StronglySorted ple l ->
  slice (map snd l) (count_lt l k) (count_lt l (S k)) = map snd (filter_eq l k).
Proof.
  intros l k HS. rewrite count_lt_S by auto. unfold slice.
  replace (count_lt l k + length (filter_eq l k) - count_lt l k) with (length (filter_eq l k)) by lia.
  rewrite skipn_map, firstn_map. f_equal.
  assert (E : skipn (count_lt l k) l = filter_eq l k ++ filter (fun p => k <? fst p) l).
  { etransitivity; [apply f_equal, (sorted_split l k HS)|]. unfold count_lt.
    rewrite skipn_app, skipn_all, Nat.sub_diag. reflexivity. }
  rewrite E, firstn_app, firstn_all, Nat.sub_diag. simpl. now rewrite app_nil_r.
Qed.

Definition csr_pairs {P D} (m : mesh P D) := sort_pairs (incidence_pairs (m_faces m)).

(** A mesh whose adjacency arrays are those computed by one [finalize]. *)
Definition finalized {P D} (m : mesh P D) : Prop :=
  exists m0 : mesh P D, indices m0 = [] /\ face_indices m0 = [] /\
    m_faces m0 = m_faces m /\
    indices m = indices (finalize m0) /\ face_indices m = face_indices (finalize m0).

Lemma in_incidence_pairs : forall fs v f, In (v, f) (incidence_pairs fs) <-> incident fs f v.
Proof.
  intros fs v f. unfold incidence_pairs, incident.
  rewrite in_flat_map. split.
  - intros ([fi [[a b] c]] & Hin & H).
    assert (Hn : nth_error fs fi = Some (a, b, c)).
    { assert (G : forall l s, In (fi, (a, b, c)) (combine (seq s (length l)) l) -> s <= fi /\ nth_error l (fi - s) = Some (a, b, c)).
      { induction l as [|x l IH]; intros s H1; simpl in *; [contradiction|].
        destruct H1 as [H1|H1].
        - injection H1 as -> ->. split; auto. now rewrite Nat.sub_diag.
        - apply IH in H1. destruct H1 as (H1 & H2). split; [lia|].
          replace (fi - s) with (S (fi - S s)) by lia. simpl. auto. }
      destruct (G fs 0 Hin) as (_ & G2). now rewrite Nat.sub_0_r in G2. }
    simpl in H. destruct H as [H|[H|[H|[]]]]; injection H as <- <-; exists (a, b, c); simpl; auto.
  - intros ([[a b] c] & Hn & H). exists (f, (a, b, c)). split.
    + assert (G : forall (l : list face) s k (t : face), nth_error l k = Some t -> In (s + k, t) (combine (seq s (length l)) l)).
      { induction l as [|x l IH]; intros s k t Hk; destruct k; simpl in *; try discriminate.
        - injection Hk as <-. left. f_equal. lia.
        - right. replace (s + S k) with (S s + k) by lia. auto. }
      apply (G fs 0 f). auto.
    + simpl in *. destruct H as [-> | [-> | ->]]; auto.
Qed.

Lemma finalized_at : forall P D (m : mesh P D), finalized m ->
  let L := csr_pairs m in
  (forall v, within_used (m_faces m) v ->
     vec_at (indices m) v = Ok (count_lt L v) /\ vec_at (indices m) (S v) = Ok (count_lt L (S v))) /\
  (forall v, ~ within_used (m_faces m) v -> vec_at (indices m) (S v) = Throw OutOfRange) /\
  face_indices m = map snd L.
Proof.
  intros P D m (m0 & Hi & Hf & Hfs & HI & HFI) L.
  unfold finalize in HI, HFI. rewrite Hi, Hf, Hfs in *. fold (csr_pairs m) in HI, HFI. fold L in HI, HFI.
  assert (HS : StronglySorted ple L) by apply sort_pairs_sorted.
  pose proof (csr_fold L HS) as HC.
  destruct (fold_left finalize_step L ([], [], 0, 0)) as [[[idx fidx] prev1] index].
  destruct HC as (HL & HF & HIx & HB & HP & HK). simpl in HI, HFI.
  assert (HU : forall v, within_used (m_faces m) v <-> v < prev1).
  { intros v. unfold within_used. split.
    - intros (f & w & Hinc & Hle). apply in_incidence_pairs in Hinc.
      assert (In (w, f) L) by (eapply Permutation_in; [apply sort_pairs_perm|exact Hinc]).
      apply HB in H. simpl in H. lia.
    - intros Hv. destruct HP as [->|([w f] & Hp & <-)]; [lia|]. exists f, w. split; [|simpl in Hv; lia].
      apply in_incidence_pairs. eapply Permutation_in; [apply Permutation_sym, sort_pairs_perm|exact Hp]. }
  assert (Hlast : forall k, prev1 <= k -> length L = count_lt L k).
  { intros k Hk. unfold count_lt. rewrite filter_all; auto. intros p Hp. apply Nat.ltb_lt.
    specialize (HB p Hp). lia. }
  rewrite HI, HFI.
  assert (HN : forall k, k <= prev1 -> nth_error (idx ++ [index]) k = Some (count_lt L k)).
  { intros k Hk. destruct (Nat.lt_ge_cases k prev1).
    - rewrite nth_error_app1 by lia. auto.
    - assert (k = prev1) by lia. subst k. rewrite <- HL. rewrite nth_error_app_last. f_equal.
      rewrite HL. rewrite HIx. apply Hlast. lia. }
  split; [|split]; auto.
  - intros v Hv. apply HU in Hv. split; apply vec_at_ok; apply HN; lia.
  - intros v Hv. rewrite HU in Hv. unfold vec_at.
    replace (nth_error (idx ++ [index]) (S v)) with (@None nat); auto.
    symmetry. apply nth_error_None. rewrite app_length. simpl. lia.
Qed.

Definition star {P D} (m : mesh P D) (v : nat) : list nat := map snd (filter_eq (csr_pairs m) v).

Lemma in_star : forall P D (m : mesh P D) v f, In f (star m v) <-> incident (m_faces m) f v.
Proof.
  intros. unfold star, filter_eq. rewrite in_map_iff. split.
  - intros ([w g] & <- & H). apply filter_In in H. destruct H as (H & E). apply Nat.eqb_eq in E. simpl in E. subst w.
    apply in_incidence_pairs. eapply Permutation_in; [apply Permutation_sym, sort_pairs_perm|exact H].
  - intros H. exists (v, f). split; auto. apply filter_In. split; [|apply Nat.eqb_refl].
    eapply Permutation_in; [apply sort_pairs_perm|]. now apply in_incidence_pairs.
Qed.

Lemma star_sorted : forall P D (m : mesh P D) v, StronglySorted le (star m v).
Proof.
  intros. unfold star, filter_eq. pose proof (sort_pairs_sorted (incidence_pairs (m_faces m))) as H.
  fold (csr_pairs m) in H.
  induction H as [|a l HS IH HF]; simpl; [constructor|].
  destruct (Nat.eqb_spec (fst a) v); auto. simpl. constructor; auto.
  apply Forall_forall. intros f Hf. apply in_map_iff in Hf. destruct Hf as (p & <- & Hp).
  apply filter_In in Hp. destruct Hp as (Hp & E). apply Nat.eqb_eq in E.
  rewrite Forall_forall in HF. specialize (HF p Hp). unfold ple in HF. lia.
Qed.

Lemma NoDup_incidence : forall fs, nondegenerate fs -> NoDup (incidence_pairs fs).
Proof.
  intros fs H. unfold incidence_pairs. generalize 0.
  induction H as [|[[a b] c] fs (H1 & H2 & H3) HF IH]; intros s; simpl; [constructor|].
  assert (NI : forall v, ~ In (v, s) (flat_map (fun x : nat * face => let '(fi, (a, b, c)) := x in [(a, fi); (b, fi); (c, fi)])
           (combine (seq (S s) (length fs)) fs))).
  { intros v Hin. apply in_flat_map in Hin. destruct Hin as ([fi [[x y] z]] & Hin & Hv).
    apply in_combine_l in Hin. apply in_seq in Hin. simpl in Hv.
    destruct Hv as [Hv|[Hv|[Hv|[]]]]; injection Hv; intros; lia. }
  repeat constructor; simpl; auto.
  - intros [Q|[Q|Q]]; try (injection Q; intros; congruence). now apply NI in Q.
  - intros [Q|Q]; try (injection Q; intros; congruence). now apply NI in Q.
Qed.

Lemma star_strict : forall P D (m : mesh P D) v, nondegenerate (m_faces m) -> StronglySorted lt (star m v).
Proof.
  intros P D m v HN. pose proof (star_sorted _ _ m v) as HS.
  assert (ND : NoDup (star m v)).
  { unfold star. assert (HD : NoDup (filter_eq (csr_pairs m) v)).
    { apply NoDup_filter. eapply Permutation_NoDup; [apply sort_pairs_perm|]. now apply NoDup_incidence. }
    assert (HE : forall p, In p (filter_eq (csr_pairs m) v) -> fst p = v).
    { intros p Hp. apply filter_In in Hp. now apply Nat.eqb_eq. }
    induction (filter_eq (csr_pairs m) v) as [|a l IH]; simpl; [constructor|].
    inversion HD; subst. constructor.
    - intros Hin. apply in_map_iff in Hin. destruct Hin as (p & E & Hp).
      assert (p = a); [|now subst].
      pose proof (HE p (or_intror Hp)). pose proof (HE a (or_introl eq_refl)).
      destruct p, a. simpl in *. congruence.
    - apply IH; auto. intros; apply HE; simpl; auto. }
  clear HN. induction HS as [|a l HS IH HF]; constructor.
  - apply IH. now inversion ND.
  - inversion ND; subst. rewrite Forall_forall in *. intros x Hx. specialize (HF x Hx).
    assert (a <> x) by (intros ->; contradiction). lia.
Qed.

(** *** Intersection of two sorted lists *)
Fixpoint inter (i : list nat) : list nat -> list nat :=
  fix aux (j : list nat) : list nat :=
    match i, j with
    | x :: i', y :: j' =>
        if x =? y then x :: inter i' j'
        else if x <? y then inter i' j
        else aux j'
    | _, _ => []
    end.

Lemma fae_skip_eq : forall x i y j, fae_skip (x :: i) (y :: j) =
  if x =? y then (x :: i, y :: j) else if x <? y then fae_skip i (y :: j) else fae_skip (x :: i) j.
Proof. reflexivity. Qed.

Lemma inter_eq : forall x i y j, inter (x :: i) (y :: j) =
  if x =? y then x :: inter i j else if x <? y then inter i (y :: j) else inter (x :: i) j.
Proof. reflexivity. Qed.

Lemma fae_skip_nil_r : forall i, fae_skip i [] = ([], []).
Proof. destruct i; reflexivity. Qed.

Lemma inter_nil_r : forall i, inter i [] = [].
Proof. destruct i; reflexivity. Qed.

Lemma fae_skip_spec : forall i j,
  fae_skip i j = ([], []) /\ inter i j = [] \/
  exists x i' j', fae_skip i j = (x :: i', x :: j') /\ inter i j = x :: inter i' j' /\
     length (x :: i') <= length i.
Proof.
  induction i as [|x i IHi]; intros j.
  - left. split; [destruct j; reflexivity|destruct j; reflexivity].
  - induction j as [|y j IHj].
    + left. split; reflexivity.
    + rewrite fae_skip_eq, inter_eq. destruct (Nat.eqb_spec x y).
      * subst. right. exists y, i, j. split; [reflexivity|]. split; [reflexivity|lia].
      * destruct (x <? y).
        -- destruct (IHi (y :: j)) as [H|(a & i' & j' & H1 & H2 & H3)]; auto.
           right. exists a, i', j'. split; [auto|]. split; [auto|]. simpl in *. lia.
        -- destruct IHj as [H|(a & i' & j' & H1 & H2 & H3)]; auto.
           right. exists a, i', j'. auto.
Qed.

Lemma fae_collect_spec : forall fuel i j, length i <= fuel ->
  fae_collect fuel (fae_skip i j) = Ok (inter i j).
Proof.
  induction fuel; intros i j H.
  - destruct i; [|simpl in H; lia]. destruct j; reflexivity.
  - destruct (fae_skip_spec i j) as [(E1 & E2)|(x & i' & j' & E1 & E2 & E3)]; rewrite E1, E2.
    + reflexivity.
    + cbn. rewrite IHfuel by (simpl in E3; lia). reflexivity.
Qed.

Lemma fae_collect_fuel : forall fuel i j, length (fst (fae_skip i j)) <= fuel ->
  fae_collect fuel (fae_skip i j) = Ok (inter i j).
Proof.
  intros fuel i j H.
  destruct (fae_skip_spec i j) as [(E1 & E2)|(x & i' & j' & E1 & E2 & E3)]; rewrite E1, E2 in *.
  - destruct fuel; reflexivity.
  - simpl in H. destruct fuel; [lia|]. cbn. rewrite fae_collect_spec by lia. reflexivity.
Qed.

Lemma in_inter : forall i j x, StronglySorted le i -> StronglySorted le j ->
  (In x (inter i j) <-> In x i /\ In x j).
Proof.
  induction i as [|a i IHi]; intros j x Hi Hj.
  - destruct j; simpl; tauto.
  - induction j as [|b j IHj].
    + simpl. tauto.
    + rewrite inter_eq.
      pose proof Hi as Hi0. pose proof Hj as Hj0.
      apply StronglySorted_inv in Hi. destruct Hi as (Hi & Fi).
      apply StronglySorted_inv in Hj. destruct Hj as (Hj & Fj).
      rewrite Forall_forall in Fi, Fj.
      destruct (Nat.eqb_spec a b).
      * subst b. simpl. rewrite IHi by auto. split; intros H.
        -- destruct H as [|(H1 & H2)]; auto.
        -- destruct H as ([|H1] & [|H2]); auto.
      * destruct (Nat.ltb_spec a b).
        -- rewrite IHi by auto. split.
           ++ intros (H1 & H2). simpl. auto.
           ++ intros (H1 & H2). split; auto. destruct H1 as [->|H1]; auto.
              exfalso. destruct H2 as [H2|H2]; [lia|]. specialize (Fj x H2). lia.
        -- rewrite IHj by auto. split.
           ++ intros (H1 & H2). simpl in *. auto.
           ++ intros (H1 & H2). split; auto. destruct H2 as [->|H2]; auto.
              exfalso. destruct H1 as [H1|H1]; [lia|]. specialize (Fi x H1). lia.
Qed.

Lemma inter_incl_l : forall i j x, In x (inter i j) -> In x i.
Proof.
  induction i as [|a i IHi]; intros j x; [destruct j; simpl; tauto|].
  induction j as [|b j IHj]; [simpl; tauto|].
  rewrite inter_eq. destruct (a =? b); [|destruct (a <? b)].
  - simpl. intros [|H]; auto. right. eapply IHi; eauto.
  - intros H. right. eapply IHi; eauto.
  - auto.
Qed.

Lemma inter_sorted : forall (R : nat -> nat -> Prop) i j, StronglySorted R i -> StronglySorted R (inter i j).
Proof.
  intros R. induction i as [|a i IHi]; intros j H; [destruct j; constructor|].
  apply StronglySorted_inv in H. destruct H as (H1 & H2).
  induction j as [|b j IHj]; [constructor|].
  rewrite inter_eq. destruct (a =? b); [|destruct (a <? b)]; auto.
  constructor; auto. rewrite Forall_forall in *. intros x Hx. apply H2. eapply inter_incl_l; eauto.
Qed.

Lemma faces_around_edge_begin_ok : forall P D (m : mesh P D) u v, finalized m ->
  within_used (m_faces m) u -> within_used (m_faces m) v ->
  faces_around_edge_begin m (u, v) = Ok (fae_skip (star m u) (star m v)).
Proof.
  intros P D m u v HF Hu Hv. pose proof (finalized_at _ _ m HF) as (HA & _ & HX). simpl in HA.
  destruct (HA u Hu) as (U1 & U2). destruct (HA v Hv) as (V1 & V2).
  unfold faces_around_edge_begin. cbn [fst snd]. rewrite U1, U2, V1, V2. cbn [bind].
  rewrite HX, !slice_filter by apply sort_pairs_sorted. reflexivity.
Qed.

Lemma faces_around_edge_ok : forall P D (m : mesh P D) u v, finalized m ->
  within_used (m_faces m) u -> within_used (m_faces m) v ->
  faces_around_edge m (u, v) = Ok (inter (star m u) (star m v)).
Proof.
  intros. unfold faces_around_edge. rewrite faces_around_edge_begin_ok by auto. cbn [bind].
  now apply fae_collect_fuel.
Qed.

Lemma faces_around_edge_exact : forall P D (m : mesh P D) u v, finalized m ->
  within_used (m_faces m) u -> within_used (m_faces m) v ->
  exists l, faces_around_edge m (u, v) = Ok l /\
    (forall f, In f l <-> incident (m_faces m) f u /\ incident (m_faces m) f v) /\
    StronglySorted le l /\
    (nondegenerate (m_faces m) -> StronglySorted lt l).
Proof.
  intros. eexists. split; [now apply faces_around_edge_ok|]. split; [|split].
  - intros f. rewrite in_inter by apply star_sorted. now rewrite !in_star.
  - apply inter_sorted, star_sorted.
  - intros. now apply inter_sorted, star_strict.
Qed.

Lemma faces_around_edge_isolated : forall P D (m : mesh P D) u v, finalized m ->
  ~ within_used (m_faces m) u \/ ~ within_used (m_faces m) v ->
  faces_around_edge m (u, v) = Throw OutOfRange.
Proof.
  intros P D m u v HF H. pose proof (finalized_at _ _ m HF) as (HA & HB & _). simpl in HA.
  unfold faces_around_edge, faces_around_edge_begin. cbn [fst snd].
  assert (Thr : forall i, exists x, vec_at (indices m) i = Ok x \/ vec_at (indices m) i = Throw OutOfRange).
  { intros i. unfold vec_at. destruct (nth_error (indices m) i); [exists n|exists 0]; auto. }
  destruct (Thr u) as (x1 & [-> | ->]); [|reflexivity]. cbn [bind].
  destruct H as [H|H].
  - rewrite (HB u H). reflexivity.
  - destruct (Thr (S u)) as (x2 & [-> | ->]); [|reflexivity]. cbn [bind].
    destruct (Thr v) as (x3 & [-> | ->]); [|reflexivity]. cbn [bind].
    rewrite (HB v H). reflexivity.
Qed.

(** *** Faces around a face *)

(** An iterator state reachable from a begin iterator: either at the end or at
    a common element, and enumerating [l]. *)
Definition fae_yields (it : fae_iter) (l : list nat) : Prop :=
  exists i j, it = fae_skip i j /\ l = inter i j.

Lemma fae_yields_nil : forall it, fae_yields it [] -> it = ([], []).
Proof.
  intros it (i & j & -> & H).
  destruct (fae_skip_spec i j) as [(E1 & E2)|(x & i' & j' & E1 & E2 & E3)]; congruence.
Qed.

Lemma fae_yields_cons : forall it x l, fae_yields it (x :: l) ->
  fae_at_end it = false /\ fae_deref it = Ok x /\
  exists it', fae_increment it = Ok it' /\ fae_yields it' l /\ length (fst it') < length (fst it).
Proof.
  intros it x l (i & j & -> & H).
  destruct (fae_skip_spec i j) as [(E1 & E2)|(a & i' & j' & E1 & E2 & E3)]; [congruence|].
  rewrite E1. rewrite E2 in H. injection H as -> ->. cbn. split; [auto|]. split; [auto|].
  eexists. split; [reflexivity|]. split; [exists i', j'; auto|].
  destruct (fae_skip_spec i' j') as [(Q1 & Q2)|(b & i'' & j'' & Q1 & Q2 & Q3)]; rewrite Q1; simpl in *; lia.
Qed.

Definition faf_yields (it : faf_iter) (l : list nat) : Prop :=
  let '(_, it1, it2, it3) := it in
  exists l1 l2 l3, fae_yields it1 l1 /\ fae_yields it2 l2 /\ fae_yields it3 l3 /\ l = l1 ++ l2 ++ l3.

Lemma faf_yields_nil : forall it, faf_yields it [] -> faf_at_end it = true /\ faf_deref it = Ok None.
Proof.
  intros [[[fi it1] it2] it3] (l1 & l2 & l3 & H1 & H2 & H3 & E).
  symmetry in E. apply app_eq_nil in E. destruct E as (-> & E). apply app_eq_nil in E. destruct E as (-> & ->).
  apply fae_yields_nil in H1. apply fae_yields_nil in H2. apply fae_yields_nil in H3. subst. split; reflexivity.
Qed.

Lemma faf_yields_cons : forall fi it1 it2 it3 x l, faf_yields (fi, it1, it2, it3) (x :: l) ->
  faf_at_end (fi, it1, it2, it3) = false /\ faf_deref (fi, it1, it2, it3) = Ok (Some x) /\
  exists it1' it2' it3',
    (if negb (fae_at_end it1) then (let* n := fae_increment it1 in Ok (fi, n, it2, it3))
     else if negb (fae_at_end it2) then (let* n := fae_increment it2 in Ok (fi, it1, n, it3))
     else (let* n := fae_increment it3 in Ok (fi, it1, it2, n))) = Ok (fi, it1', it2', it3') /\
    faf_yields (fi, it1', it2', it3') l /\ faf_size (fi, it1', it2', it3') < faf_size (fi, it1, it2, it3).
Proof.
  intros fi it1 it2 it3 x l (l1 & l2 & l3 & H1 & H2 & H3 & E).
  destruct l1 as [|y l1].
  - destruct l2 as [|y l2].
    + destruct l3 as [|y l3]; [discriminate|]. simpl in E. injection E as -> ->.
      apply fae_yields_nil in H1. apply fae_yields_nil in H2. subst it1 it2.
      apply fae_yields_cons in H3. destruct H3 as (A & B & it' & C & Y & L).
      cbn. rewrite A, B. cbn. rewrite C. cbn. split; auto. split; auto.
      exists ([], []), ([], []), it'. split; auto. split; auto.
      exists [], [], l3. repeat split; auto; exists [], []; auto.
    + simpl in E. injection E as -> ->.
      apply fae_yields_nil in H1. subst it1.
      apply fae_yields_cons in H2. destruct H2 as (A & B & it' & C & Y & L).
      cbn. rewrite A, B. cbn. rewrite C. cbn. split; auto. split; auto.
      exists ([], []), it', it3. split; auto. split.
      * exists [], l2, l3. repeat split; auto; exists [], []; auto.
      * simpl. lia.
  - simpl in E. injection E as -> ->.
    apply fae_yields_cons in H1. destruct H1 as (A & B & it' & C & Y & L).
    cbn. rewrite A, B. cbn. rewrite C. cbn. split; auto. split; auto.
    exists it', it2, it3. split; auto. split.
    + exists l1, l2, l3. repeat split; auto.
    + lia.
Qed.

Fixpoint drop_while_eq (fi : nat) (l : list nat) : list nat :=
  match l with
  | [] => []
  | x :: r => if x =? fi then drop_while_eq fi r else l
  end.

Lemma faf_increment_spec : forall l x fuel fi it1 it2 it3,
  faf_yields (fi, it1, it2, it3) (x :: l) -> faf_size (fi, it1, it2, it3) < fuel ->
  exists it1' it2' it3', faf_increment fuel (fi, it1, it2, it3) = Ok (fi, it1', it2', it3') /\
    faf_yields (fi, it1', it2', it3') (drop_while_eq fi l) /\
    faf_size (fi, it1', it2', it3') < faf_size (fi, it1, it2, it3).
Proof.
  induction l as [|y l IH]; intros x fuel fi it1 it2 it3 HY HF; destruct fuel; try lia.
  - apply faf_yields_cons in HY. destruct HY as (A & _ & i1 & i2 & i3 & E & Y & L).
    cbn [faf_increment]. rewrite A, E. cbn [bind].
    destruct (faf_yields_nil _ Y) as (_ & ->). cbn [bind]. eauto 8.
  - apply faf_yields_cons in HY. destruct HY as (A & _ & i1 & i2 & i3 & E & Y & L).
    cbn [faf_increment]. rewrite A, E. cbn [bind].
    destruct (faf_yields_cons _ _ _ _ _ _ Y) as (_ & -> & _). cbn [bind].
    destruct (Nat.eqb_spec y fi).
    + subst y. cbn [drop_while_eq]. rewrite Nat.eqb_refl.
      destruct (IH fi fuel fi i1 i2 i3 Y) as (k1 & k2 & k3 & E' & Y' & L'); [lia|].
      exists k1, k2, k3. split; auto. split; auto. lia.
    + cbn [drop_while_eq]. destruct (Nat.eqb_spec y fi); [contradiction|]. eauto 8.
Qed.

Lemma drop_filter : forall fi l, match drop_while_eq fi l with [] => [] | x :: r => x :: filter (fun y => negb (y =? fi)) r end
  = filter (fun y => negb (y =? fi)) l.
Proof.
  induction l; simpl; auto. destruct (Nat.eqb_spec a fi); simpl; auto.
Qed.

(** What the range-for visits: the first element whatever it is, then all
    elements different from the face itself. *)
Definition faf_enum (fi : nat) (l : list nat) : list nat :=
  match l with
  | [] => []
  | x :: r => x :: filter (fun y => negb (y =? fi)) r
  end.

Lemma faf_collect_spec : forall fuel l fi it1 it2 it3,
  faf_yields (fi, it1, it2, it3) l -> faf_size (fi, it1, it2, it3) <= fuel ->
  faf_collect fuel (fi, it1, it2, it3) = Ok (faf_enum fi l).
Proof.
  induction fuel; intros l fi it1 it2 it3 HY HF.
  - destruct l as [|x l].
    + cbn. destruct (faf_yields_nil _ HY) as (A & _). cbn in A. rewrite A. reflexivity.
    + apply faf_yields_cons in HY. destruct HY as (_ & _ & i1 & i2 & i3 & _ & _ & L). lia.
  - destruct l as [|x l].
    + destruct (faf_yields_nil _ HY) as (A & _). cbn [faf_collect]. rewrite A. reflexivity.
    + destruct (faf_yields_cons _ _ _ _ _ _ HY) as (A & B & _).
      cbn [faf_collect]. rewrite A, B. cbn [bind].
      destruct (faf_increment_spec l x (S (faf_size (fi, it1, it2, it3))) fi it1 it2 it3 HY) as (k1 & k2 & k3 & E & Y & L); [lia|].
      rewrite E. cbn [bind]. rewrite (IHfuel _ _ _ _ _ Y) by lia. cbn [bind].
      f_equal. unfold faf_enum. f_equal. apply drop_filter.
Qed.

Lemma edge_mem_In : forall e s, edge_mem e s = true <-> In e s.
Proof.
  intros [a b] s. unfold edge_mem. rewrite existsb_exists. split.
  - intros ([c d] & H & E). unfold edge_eqb in E. simpl in E.
    apply andb_true_iff in E. destruct E as (E1 & E2). apply Nat.eqb_eq in E1, E2. now subst.
  - intros H. exists (a, b). split; auto. unfold edge_eqb. now rewrite !Nat.eqb_refl.
Qed.

Lemma make_edge_sym : forall a b, make_edge a b = make_edge b a.
Proof.
  intros. unfold make_edge. destruct (Nat.ltb_spec b a), (Nat.ltb_spec a b); try lia; auto.
  f_equal; lia.
Qed.

Lemma inter_edge : forall P D (m : mesh P D) a b f, 
  In f (inter (star m (fst (make_edge a b))) (star m (snd (make_edge a b)))) <->
  incident (m_faces m) f a /\ incident (m_faces m) f b.
Proof.
  intros. rewrite in_inter by apply star_sorted. rewrite !in_star.
  unfold make_edge. destruct (b <? a); simpl; tauto.
Qed.

Definition around {P D} (m : mesh P D) (border : list edge) (e : edge) : list nat :=
  if edge_mem e border then [] else inter (star m (fst e)) (star m (snd e)).

Lemma faces_around_face_ok : forall P D (m : mesh P D) fi a b c border, finalized m ->
  nth_error (m_faces m) fi = Some (a, b, c) ->
  faces_around_face m fi border =
    Ok (faf_enum fi (around m border (make_edge a b) ++ around m border (make_edge b c) ++ around m border (make_edge c a))).
Proof.
  intros P D m fi a b c border HF Hn.
  assert (W : forall v, v = a \/ v = b \/ v = c -> within_used (m_faces m) v).
  { intros v Hv. exists fi, v. split; auto. exists (a, b, c). simpl. auto. }
  assert (WE : forall x y, (x = a \/ x = b \/ x = c) -> (y = a \/ y = b \/ y = c) ->
     faces_around_edge_begin m (make_edge x y) =
     Ok (fae_skip (star m (fst (make_edge x y))) (star m (snd (make_edge x y))))).
  { intros x y Hx Hy. unfold make_edge. destruct (y <? x); cbn [fst snd]; apply faces_around_edge_begin_ok; auto. }
  unfold faces_around_face, faces_around_face_begin.
  rewrite (proj2 (vec_at_ok _ _ _ _) Hn). cbn [bind].
  rewrite (WE a b), (WE b c), (WE c a) by auto. cbn [bind].
  apply faf_collect_spec; auto.
  exists (around m border (make_edge a b)), (around m border (make_edge b c)), (around m border (make_edge c a)).
  unfold around.
  assert (Y : forall e, fae_yields (if edge_mem e border then ([], []) else fae_skip (star m (fst e)) (star m (snd e)))
                  (if edge_mem e border then [] else inter (star m (fst e)) (star m (snd e)))).
  { intros e. destruct (edge_mem e border); [exists [], []; auto|eexists; eexists; eauto]. }
  auto.
Qed.

Lemma in_faf_enum : forall fi l g, g <> fi -> (In g (faf_enum fi l) <-> In g l).
Proof.
  intros fi l g H. destruct l as [|x l]; simpl; [tauto|].
  rewrite filter_In. destruct (Nat.eqb_spec g fi); [contradiction|]. simpl. tauto.
Qed.

Lemma in_around : forall P D (m : mesh P D) border a b g,
  In g (around m border (make_edge a b)) <->
  incident (m_faces m) g a /\ incident (m_faces m) g b /\ ~ In (make_edge a b) border.
Proof.
  intros. unfold around. destruct (edge_mem (make_edge a b) border) eqn:E.
  - apply edge_mem_In in E. simpl. tauto.
  - rewrite inter_edge. assert (~ In (make_edge a b) border) by (intros Q; apply edge_mem_In in Q; congruence). tauto.
Qed.

Lemma faces_around_face_exact : forall P D (m : mesh P D) fi border, finalized m ->
  fi < length (m_faces m) ->
  exists l, faces_around_face m fi border = Ok l /\
    (forall g, g <> fi -> (In g l <-> neighbour (m_faces m) border fi g)) /\
    (forall g, In g l -> g < length (m_faces m)).
Proof.
  intros P D m fi border HF Hfi.
  destruct (nth_error (m_faces m) fi) as [[[a b] c]|] eqn:Hn; [|apply nth_error_None in Hn; lia].
  eexists. split; [apply (faces_around_face_ok _ _ m fi a b c border HF Hn)|].
  assert (HI : forall g, In g (around m border (make_edge a b) ++ around m border (make_edge b c) ++ around m border (make_edge c a))
     <-> neighbour (m_faces m) border fi g).
  { intros g. rewrite !in_app_iff, !in_around. unfold neighbour, side_of. split.
    - intros [H|[H|H]].
      + exists a, b. split; [|tauto]. eexists. split; [exact Hn|]. simpl. auto.
      + exists b, c. split; [|tauto]. eexists. split; [exact Hn|]. simpl. auto.
      + exists c, a. split; [|tauto]. eexists. split; [exact Hn|]. simpl. auto.
    - intros (u & v & (t & Ht & Hs) & H1 & H2 & H3). rewrite Hn in Ht. injection Ht as <-. simpl in Hs.
      destruct Hs as [(-> & ->)|[(-> & ->)|(-> & ->)]]; tauto. }
  split.
  - intros g Hg. rewrite in_faf_enum by auto. apply HI.
  - intros g Hg. assert (Hg' : In g (around m border (make_edge a b) ++ around m border (make_edge b c) ++ around m border (make_edge c a))).
    { destruct (around m border (make_edge a b) ++ around m border (make_edge b c) ++ around m border (make_edge c a)) as [|x l]; simpl in *; auto.
      destruct Hg as [|Hg]; auto. apply filter_In in Hg. tauto. }
    apply HI in Hg'. destruct Hg' as (u & v & _ & (t & Ht & _) & _). apply nth_error_Some. congruence.
Qed.
