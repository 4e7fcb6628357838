(** * The dense graph *)
From Coq Require Import List Arith Bool NArith ZArith Lia Relations.
From Verif Require Import Model_base Proof_base Proof_mesh Model_graph Spec_graph.
Import ListNotations.

Lemma filter_length_le : forall A (f : A -> bool) l, length (filter f l) <= length l.
Proof. intros A f l. induction l as [ | x l IH]; cbn [filter length]; [ lia | ]. destruct (f x); cbn [length]; lia. Qed.

(** ** Cells *)
Lemma tri_double : forall i, 2 * (i * (i + 1) / 2) = i * (i + 1).
Proof.
  induction i as [ | i IH]; [ reflexivity | ].
  replace (S i * (S i + 1)) with (i * (i + 1) + (i + 1) * 2) by lia.
  rewrite Nat.div_add by lia. lia.
Qed.
Lemma cell_index_le : forall n i j, i <= j -> cell_index n i j = n * i + j - i * (i + 1) / 2.
Proof. intros n i j H. unfold cell_index. destruct (j <? i) eqn:E; [ apply Nat.ltb_lt in E; lia | reflexivity ]. Qed.
Lemma cell_index_sym : forall n i j, cell_index n i j = cell_index n j i.
Proof.
  intros n i j. destruct (Nat.lt_trichotomy i j) as [H | [-> | H] ]; [ | reflexivity | ].
  - rewrite cell_index_le by lia. unfold cell_index. apply Nat.ltb_lt in H. rewrite H. reflexivity.
  - rewrite (cell_index_le n j i) by lia. unfold cell_index. apply Nat.ltb_lt in H. rewrite H. reflexivity.
Qed.
Lemma cell_eq : forall n i j, i <= j -> j < n ->
  (2 * Z.of_nat (cell_index n i j) = 2 * Z.of_nat n * Z.of_nat i + 2 * Z.of_nat j - Z.of_nat i * (Z.of_nat i + 1))%Z.
Proof.
  intros n i j H1 H2. rewrite cell_index_le by exact H1. pose proof (tri_double i) as T. nia.
Qed.
Lemma cell_lt : forall n i j i' j', i <= j -> j < n -> i' <= j' -> j' < n -> i < i' ->
  cell_index n i j < cell_index n i' j'.
Proof.
  intros n i j i' j' H1 H2 H3 H4 H5. pose proof (cell_eq n i j H1 H2). pose proof (cell_eq n i' j' H3 H4).
  assert (exists d, i' = i + S d) as [d ->] by (exists (i' - i - 1); lia). nia.
Qed.
Lemma cell_inj : forall n i j i' j', i <= j -> j < n -> i' <= j' -> j' < n ->
  cell_index n i j = cell_index n i' j' -> i = i' /\ j = j'.
Proof.
  intros n i j i' j' H1 H2 H3 H4 E. destruct (Nat.lt_trichotomy i i') as [H | [-> | H] ].
  - pose proof (cell_lt n i j i' j' H1 H2 H3 H4 H). lia.
  - split; [ reflexivity | ]. pose proof (cell_eq n i' j H1 H2). pose proof (cell_eq n i' j' H3 H4). lia.
  - pose proof (cell_lt n i' j' i j H3 H4 H1 H2 H). lia.
Qed.
Lemma cell_bound : forall n i j, i < n -> j < n -> cell_index n i j < n * (n + 1) / 2.
Proof.
  assert (K : forall n i j, i <= j -> j < n -> cell_index n i j < n * (n + 1) / 2).
  { intros n i j H1 H2. pose proof (cell_eq n i j H1 H2). pose proof (tri_double n). nia. }
  intros n i j Hi Hj. destruct (Nat.le_gt_cases i j) as [H | H]; [ apply K; lia | ].
  rewrite cell_index_sym. apply K; lia.
Qed.
Lemma cell_same : forall n i j i' j', i < n -> j < n -> i' < n -> j' < n ->
  cell_index n i j = cell_index n i' j' <-> (i = i' /\ j = j') \/ (i = j' /\ j = i').
Proof.
  intros n i j i' j' A B C D. split.
  - intro E. destruct (Nat.le_gt_cases i j) as [H | H]; [ | rewrite cell_index_sym in E ];
      (destruct (Nat.le_gt_cases i' j') as [H' | H']; [ | rewrite (cell_index_sym n i' j') in E ]);
      apply cell_inj in E; lia.
  - intros [ [-> ->] | [-> ->] ]; [ reflexivity | apply cell_index_sym ].
Qed.

(** ** The meaning of the cells *)
Record rep (n : nat) (g : graph) (es : list (nat * nat)) : Prop := {
  rp_order : order g = n;
  rp_len : length (cells g) = n * (n + 1) / 2;
  rp_cell : forall i j, i < n -> j < n -> nth_error (cells g) (cell_index n i j) = Some (N.of_nat (multiplicity es i j))
}.

Lemma rep_new : forall n, rep n (new_graph n) [].
Proof.
  intro n. constructor; [ reflexivity | apply repeat_length | ]. intros i j Hi Hj. unfold new_graph. cbn [cells].
  rewrite nth_error_repeat by (apply cell_bound; assumption). reflexivity.
Qed.
Lemma rep_at : forall n g es i j, rep n g es -> i < n -> j < n -> graph_at g i j = Ok (N.of_nat (multiplicity es i j)).
Proof.
  intros n g es i j R Hi Hj. unfold graph_at. rewrite (rp_order _ _ _ R).
  replace (n <=? i) with false by (symmetry; apply Nat.leb_gt; lia).
  replace (n <=? j) with false by (symmetry; apply Nat.leb_gt; lia).
  unfold vec_at. rewrite (rp_cell _ _ _ R i j Hi Hj). reflexivity.
Qed.
Lemma multiplicity_app : forall es es' i j, multiplicity (es ++ es') i j = multiplicity es i j + multiplicity es' i j.
Proof. intros. unfold multiplicity. rewrite filter_app, app_length. reflexivity. Qed.
Lemma multiplicity_le : forall es i j, multiplicity es i j <= length es.
Proof. intros. unfold multiplicity. apply filter_length_le. Qed.
Lemma joinsb_iff : forall i j e, joinsb i j e = true <-> joins i j e.
Proof.
  intros i j [a b]. unfold joinsb, joins. cbn [fst snd]. rewrite orb_true_iff, !andb_true_iff, !Nat.eqb_eq. split.
  - intros [ [-> ->] | [-> ->] ]; auto.
  - intros [E | E]; injection E as -> ->; auto.
Qed.

Lemma rep_add : forall n g es i j, rep n g es -> i < n -> j < n -> (N.of_nat (length es) + 1 < 2 ^ 32)%N ->
  exists g', add_edge g i j = Ok g' /\ rep n g' (es ++ [(i, j)]).
Proof.
  intros n g es i j R Hi Hj B. unfold add_edge. rewrite (rep_at _ _ _ _ _ R Hi Hj). cbn [bind]. rewrite (rp_order _ _ _ R).
  unfold vec_set. rewrite (rp_len _ _ _ R).
  replace (cell_index n i j <? n * (n + 1) / 2) with true by (symmetry; apply Nat.ltb_lt; apply cell_bound; assumption).
  cbn [bind]. eexists. split; [ reflexivity | ]. constructor; cbn [order cells].
  - reflexivity.
  - rewrite length_list_set. apply (rp_len _ _ _ R).
  - intros i' j' Hi' Hj'. rewrite multiplicity_app.
    replace (multiplicity [(i, j)] i' j') with (if joinsb i' j' (i, j) then 1 else 0)
      by (unfold multiplicity; cbn [filter]; destruct (joinsb i' j' (i, j)); reflexivity).
    destruct (joinsb i' j' (i, j)) eqn:E.
    + apply joinsb_iff in E.
      assert (C : cell_index n i j = cell_index n i' j').
      { apply cell_same; try assumption. destruct E as [E | E]; injection E as -> ->; auto. }
      rewrite <- C. rewrite nth_error_list_set_eq by (rewrite (rp_len _ _ _ R); apply cell_bound; assumption).
      f_equal. assert (M : multiplicity es i j = multiplicity es i' j').
      { destruct E as [E | E]; injection E as -> ->; [ reflexivity | ]. unfold multiplicity. f_equal. apply filter_ext.
        intro e. unfold joinsb. apply orb_comm. }
      rewrite M. unfold wrap32. pose proof (multiplicity_le es i' j').
      rewrite N.mod_small by lia. lia.
    + rewrite nth_error_list_set_neq.
      * rewrite Nat.add_0_r. apply (rp_cell _ _ _ R); assumption.
      * intro C. symmetry in C. apply cell_same in C; try assumption.
        assert (K : joins i' j' (i, j)) by (unfold joins; destruct C as [ [-> ->] | [-> ->] ]; auto).
        apply joinsb_iff in K. congruence.
Qed.
Lemma rep_adds : forall es' n g es, rep n g es -> edges_below n es' -> (N.of_nat (length (es ++ es')) < 2 ^ 32)%N ->
  exists g', add_edges g es' = Ok g' /\ rep n g' (es ++ es').
Proof.
  induction es' as [ | [i j] es' IH]; intros n g es R E B.
  - exists g. rewrite app_nil_r. auto.
  - inversion E as [ | ? ? [Hi Hj] E' ]; subst. cbn [fst snd] in *. rewrite app_length in B. cbn [length] in B.
    destruct (rep_add n g es i j R Hi Hj) as (g1 & E1 & R1); [ lia | ].
    destruct (IH n g1 (es ++ [(i, j)]) R1 E') as (g2 & E2 & R2).
    + rewrite !app_length. cbn [length]. lia.
    + exists g2. split; [ | rewrite <- app_assoc in R2; exact R2 ]. unfold add_edges in *. cbn [foldM fst snd]. rewrite E1.
      cbn [bind]. exact E2.
Qed.

(** ** Degrees *)
Lemma sum_indicator : forall k n a, list_sum (map (fun j => if j =? k then 1 else 0) (seq a n)) =
  if (a <=? k) && (k <? a + n) then 1 else 0.
Proof.
  intros k n. induction n as [ | n IH]; intro a; cbn [seq map list_sum].
  - destruct (a <=? k) eqn:E1; [ | reflexivity ]. cbn [andb]. destruct (k <? a + 0) eqn:E2; [ | reflexivity ].
    apply Nat.leb_le in E1. apply Nat.ltb_lt in E2. lia.
  - change (list_sum (?x :: ?l)) with (x + list_sum l). rewrite IH.
    destruct (a =? k) eqn:E; [ apply Nat.eqb_eq in E; subst k | apply Nat.eqb_neq in E ].
    + replace (S a <=? a) with false by (symmetry; apply Nat.leb_gt; lia). cbn [andb].
      rewrite Nat.leb_refl. replace (a <? a + S n) with true by (symmetry; apply Nat.ltb_lt; lia). reflexivity.
    + rewrite Nat.add_0_l. replace (a + S n) with (S a + n) by lia.
      destruct (S a <=? k) eqn:E1, (a <=? k) eqn:E2; try reflexivity; [ apply Nat.leb_le in E1; apply Nat.leb_gt in E2; lia | ].
      apply Nat.leb_gt in E1. apply Nat.leb_le in E2. lia.
Qed.
Lemma sum_zero : forall A (l : list A) f, (forall x, In x l -> f x = 0) -> list_sum (map f l) = 0.
Proof.
  intros A l f H. induction l as [ | x l IH]; [ reflexivity | ]. cbn [map].
  change (list_sum (?x :: ?l)) with (x + list_sum l). rewrite IH, H; [ reflexivity | left; reflexivity | ].
  intros y Hy. apply H. right. exact Hy.
Qed.
Lemma sum_plus : forall A (l : list A) f g, list_sum (map (fun x => f x + g x) l) = list_sum (map f l) + list_sum (map g l).
Proof.
  intros A l f g. induction l as [ | x l IH]; [ reflexivity | ]. cbn [map].
  change (list_sum (?x :: ?l)) with (x + list_sum l). rewrite IH. cbn [list_sum]. 
  change (list_sum (f x :: map f l)) with (f x + list_sum (map f l)). change (list_sum (g x :: map g l)) with (g x + list_sum (map g l)). lia.
Qed.
Lemma sum_multiplicity : forall es n i, edges_below n es -> i < n ->
  list_sum (map (fun j => multiplicity es i j) (seq 0 n)) = incident es i.
Proof.
  intros es n i H Hi. revert Hi. induction H as [ | [a b] es [Ha Hb] H IH]; intro Hi.
  - apply sum_zero. reflexivity.
  - cbn [fst snd] in *.
    assert (E : forall j, multiplicity ((a, b) :: es) i j = (if joinsb i j (a, b) then 1 else 0) + multiplicity es i j).
    { intro j. unfold multiplicity. cbn [filter]. destruct (joinsb i j (a, b)); reflexivity. }
    rewrite (map_ext _ _ E), (sum_plus _ _ (fun j => if joinsb i j (a, b) then 1 else 0) (fun j => multiplicity es i j)).
    rewrite IH by exact Hi.
    unfold incident. cbn [filter fst snd].
    assert (K : list_sum (map (fun j => if joinsb i j (a, b) then 1 else 0) (seq 0 n)) = if (a =? i) || (b =? i) then 1 else 0).
    { unfold joinsb. cbn [fst snd]. destruct (a =? i) eqn:Ea.
      - apply Nat.eqb_eq in Ea. subst a. cbn [andb orb].
        rewrite (map_ext_in _ (fun j => if j =? b then 1 else 0)).
        + rewrite sum_indicator. cbn [Nat.leb andb]. replace (b <? 0 + n) with true by (symmetry; apply Nat.ltb_lt; lia). reflexivity.
        + intros j _. rewrite (Nat.eqb_sym b j). destruct (j =? b) eqn:Ej; [ reflexivity | ]. cbn [orb].
          destruct (i =? j) eqn:Eij; [ | reflexivity ]. cbn [andb]. apply Nat.eqb_eq in Eij. subst j.
          rewrite Nat.eqb_sym in Ej. rewrite Ej. reflexivity.
      - cbn [andb orb]. destruct (b =? i) eqn:Eb.
        + rewrite (map_ext _ (fun j => if j =? a then 1 else 0)).
          * rewrite sum_indicator. cbn [Nat.leb andb]. replace (a <? 0 + n) with true by (symmetry; apply Nat.ltb_lt; lia). reflexivity.
          * intro j. rewrite (Nat.eqb_sym a j), andb_true_r. reflexivity.
        + rewrite sum_zero; [ reflexivity | ]. intros j _. rewrite andb_false_r. reflexivity. }
    rewrite K. destruct ((a =? i) || (b =? i)); reflexivity.
Qed.

Lemma wrap32_add : forall a b, wrap32 (wrap32 a + b) = wrap32 (a + b).
Proof. intros. unfold wrap32. rewrite N.add_mod_idemp_l by discriminate. reflexivity. Qed.
Lemma degree_ok : forall n g es i, rep n g es -> edges_below n es -> i < n ->
  (N.of_nat (length es) < 2 ^ 32)%N -> degree g i = Ok (N.of_nat (incident es i)).
Proof.
  intros n g es i R E Hi B. unfold degree. rewrite (rp_order _ _ _ R).
  assert (K : forall l d, (forall j, In j l -> j < n) ->
    foldM (fun d j => let* c := graph_at g i j in Ok (wrap32 (d + c))) (wrap32 d) l =
    Ok (wrap32 (d + N.of_nat (list_sum (map (fun j => multiplicity es i j) l))))).
  { induction l as [ | j l IH]; intros d Hl; cbn [foldM].
    - cbn. rewrite N.add_0_r. reflexivity.
    - rewrite (rep_at _ _ _ _ _ R Hi (Hl j (or_introl eq_refl))). cbn [bind]. rewrite wrap32_add, IH.
      + cbn [map]. change (list_sum (?x :: ?l)) with (x + list_sum l). f_equal. f_equal. lia.
      + intros k Hk. apply Hl. right. exact Hk. }
  specialize (K (seq 0 n) 0%N). change (wrap32 0) with 0%N in K. rewrite K.
  - rewrite sum_multiplicity by assumption. unfold wrap32. rewrite N.mod_small; [ f_equal; lia | ].
    assert (incident es i <= length es) by (unfold incident; apply filter_length_le). lia.
  - intros j Hj. apply in_seq in Hj. lia.
Qed.
Lemma max_degree_ok : forall n g es, rep n g es -> edges_below n es -> (N.of_nat (length es) < 2 ^ 32)%N ->
  max_degree g = Ok (N.of_nat (list_max (map (incident es) (seq 0 n)))).
Proof.
  intros n g es R E B. unfold max_degree. rewrite (rp_order _ _ _ R).
  assert (K : forall l d, (forall j, In j l -> j < n) ->
    foldM (fun d i => let* e := degree g i in Ok (N.max d e)) d l = Ok (N.max d (N.of_nat (list_max (map (incident es) l))))).
  { induction l as [ | j l IH]; intros d Hl; cbn [foldM].
    - cbn. f_equal. lia.
    - rewrite (degree_ok _ _ _ _ R E (Hl j (or_introl eq_refl)) B). cbn [bind]. rewrite IH.
      + cbn [map]. change (list_max (?x :: ?l)) with (Nat.max x (list_max l)). f_equal. lia.
      + intros k Hk. apply Hl. right. exact Hk. }
  rewrite K; [ f_equal; lia | ]. intros j Hj. apply in_seq in Hj. lia.
Qed.

(** ** Simple graphs *)
Lemma foldM_all : forall A (f : A -> res bool) (h : A -> bool) l,
  (forall x, In x l -> f x = Ok (h x)) ->
  foldM (fun ok x => if negb ok then Ok false else f x) true l = Ok (forallb h l).
Proof.
  intros A f h l H.
  assert (F : forall l, foldM (fun ok x => if negb ok then Ok false else f x) false l = Ok false)
    by (clear; induction l as [ | x l IH]; [ reflexivity | exact IH ]).
  induction l as [ | x l IH]; [ reflexivity | ]. cbn [foldM negb forallb]. rewrite (H x (or_introl eq_refl)). cbn [bind].
  destruct (h x); [ apply IH; intros y Hy; apply H; right; exact Hy | apply F ].
Qed.
Lemma is_simple_ok : forall n g es, rep n g es -> exists b, is_simple g = Ok b /\
  (b = true <-> (forall i, i < n -> multiplicity es i i = 0) /\ (forall i j, i < j -> j < n -> multiplicity es i j <= 1)).
Proof.
  intros n g es R. unfold is_simple. rewrite (rp_order _ _ _ R).
  erewrite (foldM_all _ _ (fun i => (multiplicity es i i =? 0) && forallb (fun j => multiplicity es i j <=? 1) (seq (i + 1) (n - (i + 1))))).
  - eexists. split; [ reflexivity | ]. rewrite forallb_forall. split.
    + intro H. split.
      * intros i Hi. specialize (H i (proj2 (in_seq _ _ _) (conj (Nat.le_0_l i) Hi))).
        apply andb_true_iff in H. apply Nat.eqb_eq. tauto.
      * intros i j Hi Hj. assert (Ii : In i (seq 0 n)) by (apply in_seq; lia). specialize (H i Ii).
        apply andb_true_iff in H. destruct H as [_ H]. rewrite forallb_forall in H. apply Nat.leb_le. apply H.
        apply in_seq. lia.
    + intros [H1 H2] i Hi. apply in_seq in Hi. apply andb_true_iff. split; [ apply Nat.eqb_eq; apply H1; lia | ].
      apply forallb_forall. intros j Hj. apply in_seq in Hj. apply Nat.leb_le. apply H2; lia.
  - intros i Hi. apply in_seq in Hi. rewrite (rep_at _ _ _ i i R) by lia. cbn [bind].
    destruct (multiplicity es i i =? 0) eqn:Em.
    + apply Nat.eqb_eq in Em. rewrite Em. cbn [N.of_nat N.eqb negb andb].
      apply (foldM_all _ (fun j => let* c := graph_at g i j in Ok (c <=? 1)%N)). intros j Hj. apply in_seq in Hj.
      rewrite (rep_at _ _ _ i j R) by lia. cbn [bind]. f_equal. apply eq_iff_eq_true. rewrite N.leb_le, Nat.leb_le. split; intro; lia.
    + apply Nat.eqb_neq in Em. replace (N.of_nat (multiplicity es i i) =? 0)%N with false by (symmetry; apply N.eqb_neq; lia).
      reflexivity.
Qed.

Lemma multiplicity_two : forall es i j, 2 <= multiplicity es i j <->
  exists a e b f c, es = a ++ e :: b ++ f :: c /\ joins i j e /\ joins i j f.
Proof.
  intros es i j. split.
  - unfold multiplicity. intro H.
    assert (P : forall (l : list (nat * nat)) e r, filter (joinsb i j) l = e :: r -> exists a b, l = a ++ e :: b /\ joins i j e /\ filter (joinsb i j) b = r).
    { induction l as [ | x l IH]; intros e r Hl; cbn [filter] in Hl; [ discriminate | ].
      destruct (joinsb i j x) eqn:Ex.
      - injection Hl as -> Hr. exists [], l. repeat split; [ apply joinsb_iff; exact Ex | exact Hr ].
      - destruct (IH e r Hl) as (a & b & -> & He & Hb). exists (x :: a), b. auto. }
    destruct (filter (joinsb i j) es) as [ | e r] eqn:F; [ cbn in H; lia | ].
    destruct (P _ _ _ F) as (a & b & -> & He & Hb). destruct r as [ | f r]; [ cbn in H; lia | ].
    destruct (P _ _ _ Hb) as (b1 & c & -> & Hf & _). exists a, e, b1, f, c. auto.
  - intros (a & e & b & f & c & -> & He & Hf). apply joinsb_iff in He. apply joinsb_iff in Hf.
    rewrite multiplicity_app. unfold multiplicity. cbn [filter]. rewrite He. cbn [length].
    rewrite filter_app, app_length. cbn [filter]. rewrite Hf. cbn [length]. lia.
Qed.
Lemma multiplicity_zero : forall es i j, multiplicity es i j = 0 <-> ~ adjacent es i j.
Proof.
  intros es i j. unfold multiplicity, adjacent. split.
  - intros H A. assert (K : forall e, In e es -> joinsb i j e = false).
    { intros e He. destruct (joinsb i j e) eqn:E; [ | reflexivity ].
      assert (I : In e (filter (joinsb i j) es)) by (apply filter_In; auto). destruct (filter (joinsb i j) es); [ contradiction | discriminate ]. }
    destruct A as [A | A]; apply K in A; rewrite <- not_true_iff_false in A; apply A; apply joinsb_iff; unfold joins; auto.
  - intro N. destruct (filter (joinsb i j) es) as [ | e r] eqn:F; [ reflexivity | ]. exfalso. apply N.
    assert (I : In e (filter (joinsb i j) es)) by (rewrite F; left; reflexivity). apply filter_In in I. destruct I as [I J].
    apply joinsb_iff in J. destruct J as [-> | ->]; auto.
Qed.
Lemma multiplicity_sym : forall es i j, multiplicity es i j = multiplicity es j i.
Proof. intros. unfold multiplicity. f_equal. apply filter_ext. intro e. unfold joinsb. apply orb_comm. Qed.

Lemma simple_iff : forall n es, edges_below n es ->
  ((forall i, i < n -> multiplicity es i i = 0) /\ (forall i j, i < j -> j < n -> multiplicity es i j <= 1)) <-> simple es.
Proof.
  intros n es E. split.
  - intros [H1 H2]. split.
    + intros i I. pose proof E as E'. unfold edges_below in E'. rewrite Forall_forall in E'. specialize (E' _ I). cbn in E'.
      specialize (H1 i ltac:(lia)). apply multiplicity_zero in H1. apply H1. left. exact I.
    + intros a e b f c Hes (i & j & He & Hf).
      assert (M : 2 <= multiplicity es i j) by (apply multiplicity_two; exists a, e, b, f, c; auto).
      assert (B : i < n /\ j < n).
      { unfold edges_below in E. rewrite Forall_forall in E. assert (I : In e es) by (rewrite Hes; apply in_or_app; right; left; reflexivity).
        specialize (E _ I). destruct He as [-> | ->]; cbn in E; lia. }
      destruct B as [Bi Bj]. destruct (Nat.lt_trichotomy i j) as [L | [-> | L] ].
      * specialize (H2 i j L Bj). lia.
      * specialize (H1 j Bj). lia.
      * specialize (H2 j i L Bi). rewrite multiplicity_sym in H2. lia.
  - intros [H1 H2]. split.
    + intros i _. apply multiplicity_zero. intros [I | I]; exact (H1 i I).
    + intros i j _ _. destruct (Nat.le_gt_cases (multiplicity es i j) 1) as [L | L]; [ exact L | exfalso ].
      apply multiplicity_two in L. destruct L as (a & e & b & f & c & Hes & He & Hf). apply (H2 a e b f c Hes). eauto.
Qed.

(** ** Connected graphs *)
Definition unvisited (v : list bool) : nat := length (filter negb v).
Definition seen (v : list bool) (i : nat) : Prop := nth_error v i = Some true.

Lemma has_edge_ok : forall n g es i j, rep n g es -> i < n -> j < n ->
  exists b, has_edge g i j = Ok b /\ (b = true <-> adjacent es i j).
Proof.
  intros n g es i j R Hi Hj. unfold has_edge. rewrite (rep_at _ _ _ _ _ R Hi Hj). cbn [bind].
  eexists. split; [ reflexivity | ]. rewrite negb_true_iff, N.eqb_neq. pose proof (multiplicity_zero es i j) as M. split.
  - intro H. destruct (multiplicity es i j) eqn:E; [ lia | ]. 
    destruct (filter (joinsb i j) es) as [ | e r] eqn:F; [ unfold multiplicity in E; rewrite F in E; discriminate | ].
    assert (I : In e (filter (joinsb i j) es)) by (rewrite F; left; reflexivity). apply filter_In in I. destruct I as [I J].
    apply joinsb_iff in J. unfold adjacent. destruct J as [-> | ->]; auto.
  - intros A Z. apply M; [ lia | exact A ].
Qed.

Lemma push_ok : forall n g es i v l st, rep n g es -> i < n -> length v = n -> (forall j, In j l -> j < n) ->
  exists q, foldM (fun st j =>
      let* e := has_edge g i j in
      if negb e then Ok st
      else let* w := vec_at v j in if (w : bool) then Ok st else Ok (j :: st)) st l = Ok (q ++ st) /\
    length q <= length l /\ forall j, In j q <-> In j l /\ adjacent es i j /\ ~ seen v j.
Proof.
  intros n g es i v l. induction l as [ | j l IH]; intros st R Hi Lv Hl; cbn [foldM].
  - exists []. split; [ reflexivity | ]. split; [ cbn; lia | ]. intro j. cbn. tauto.
  - assert (Hj : j < n) by (apply Hl; left; reflexivity).
    assert (Hl' : forall k, In k l -> k < n) by (intros k Hk; apply Hl; right; exact Hk).
    destruct (has_edge_ok n g es i j R Hi Hj) as (b & Eb & Hb). rewrite Eb. cbn [bind].
    assert (Ev : exists w, nth_error v j = Some w).
    { destruct (nth_error v j) eqn:N; [ eauto | ]. apply nth_error_None in N. lia. }
    destruct Ev as [w Ew]. destruct b; cbn [negb].
    + unfold vec_at. rewrite Ew. cbn [bind]. destruct w.
      * destruct (IH st R Hi Lv Hl') as (q & Eq & Lq & Hq). exists q. split; [ exact Eq | ]. split; [ cbn [length]; lia | ].
        intro k. rewrite Hq. cbn [In]. split; [ tauto | ]. intros [ [-> | I] [A N] ]; [ | tauto ]. unfold seen in N. congruence.
      * destruct (IH (j :: st) R Hi Lv Hl') as (q & Eq & Lq & Hq). exists (q ++ [j]). split; [ rewrite <- app_assoc; exact Eq | ].
        split; [ rewrite app_length; cbn [length]; lia | ]. intro k. rewrite in_app_iff, Hq. cbn [In]. split.
        -- intros [H | [-> | [ ] ] ]; [ tauto | ]. split; [ auto | ]. split; [ apply Hb; reflexivity | ]. unfold seen. congruence.
        -- intros [ [-> | I] A]; tauto.
    + destruct (IH st R Hi Lv Hl') as (q & Eq & Lq & Hq). exists q. split; [ exact Eq | ]. split; [ cbn [length]; lia | ].
      intro k. rewrite Hq. cbn [In]. split; [ tauto | ]. intros [ [-> | I] [A N] ]; [ | tauto ].
      apply Hb in A. discriminate.
Qed.

Lemma seen_set : forall v i j, i < length v -> seen (list_set v i true) j <-> j = i \/ seen v j.
Proof.
  intros v i j H. unfold seen. destruct (Nat.eq_dec j i) as [-> | N].
  - rewrite nth_error_list_set_eq by exact H. tauto.
  - rewrite nth_error_list_set_neq by congruence. tauto.
Qed.
Lemma unvisited_set : forall v i, i < length v ->
  (seen v i -> list_set v i true = v) /\ (~ seen v i -> S (unvisited (list_set v i true)) = unvisited v).
Proof.
  intros v. induction v as [ | b v IH]; intros i H; [ cbn in H; lia | ]. destruct i as [ | i]; cbn [list_set].
  - split.
    + intro S. unfold seen in S. cbn in S. congruence.
    + intro N. destruct b; [ exfalso; apply N; reflexivity | ]. unfold unvisited. reflexivity.
  - destruct (IH i) as [A B]; [ cbn in H; lia | ]. split.
    + intro S. rewrite A by exact S. reflexivity.
    + intro N. specialize (B N). unfold unvisited in *. cbn [filter]. destruct b; cbn [negb]; [ exact B | cbn [length]; lia ].
Qed.

Record search_inv (n : nat) (es : list (nat * nat)) (v : list bool) (st : list nat) : Prop := {
  si_len : length v = n;
  si_range : forall i, In i st -> i < n;
  si_reach : forall i, seen v i \/ In i st -> clos_refl_trans nat (adjacent es) 0 i;
  si_closed : forall i j, seen v i -> adjacent es i j -> seen v j \/ In j st;
  si_above : forall a i b j, st = a ++ i :: b -> seen v i -> adjacent es i j -> seen v j \/ In j a;
  si_zero : seen v 0 \/ In 0 st
}.

Lemma search_ok : forall n g es, rep n g es -> edges_below n es -> forall fuel v st,
  search_inv n es v st -> unvisited v * (n + 1) + length st <= fuel ->
  exists v', search fuel g v st = Ok v' /\ search_inv n es v' [].
Proof.
  intros n g es R E fuel. induction fuel as [ | fuel IH]; intros v st I M.
  - destruct st as [ | i st]; [ exists v; split; [ reflexivity | exact I ] | cbn in M; lia ].
  - destruct st as [ | i st]; [ exists v; split; [ reflexivity | exact I ] | ]. cbn [search].
    assert (Hi : i < n) by (apply (si_range _ _ _ _ I); left; reflexivity).
    assert (Lv : length v = n) by apply (si_len _ _ _ _ I).
    unfold vec_set. replace (i <? length v) with true by (symmetry; apply Nat.ltb_lt; lia). cbn [bind].
    set (v1 := list_set v i true). assert (L1 : length v1 = n) by (unfold v1; rewrite length_list_set; exact Lv).
    rewrite (rp_order _ _ _ R).
    destruct (push_ok n g es i v1 (seq 0 n) st R Hi L1) as (q & Eq & Lq & Hq); [ intros j Hj; apply in_seq in Hj; lia | ].
    rewrite Eq. cbn [bind].
    assert (Sv : forall j, seen v1 j <-> j = i \/ seen v j) by (intro j; apply seen_set; lia).
    assert (Adj : forall j k, adjacent es j k -> j < n /\ k < n).
    { intros j k A. unfold edges_below in E. rewrite Forall_forall in E. destruct A as [A | A]; apply E in A; cbn in A; lia. }
    assert (Nb : forall j, adjacent es i j -> seen v1 j \/ In j q).
    { intros j A. destruct (nth_error v1 j) as [ [ | ] | ] eqn:Ej; [ left; exact Ej | | ].
      - right. apply Hq. split; [ apply in_seq; destruct (Adj _ _ A); lia | ]. split; [ exact A | unfold seen; congruence ].
      - apply nth_error_None in Ej. destruct (Adj _ _ A). lia. }
    apply IH.
    + constructor.
      * exact L1.
      * intros j Hj. apply in_app_or in Hj. destruct Hj as [Hj | Hj]; [ apply Hq in Hj; destruct Hj as [Hj _]; apply in_seq in Hj; lia | ].
        apply (si_range _ _ _ _ I). right. exact Hj.
      * assert (Ri : clos_refl_trans nat (adjacent es) 0 i) by (apply (si_reach _ _ _ _ I); right; left; reflexivity).
        intros j [Hj | Hj]; [ apply Sv in Hj; destruct Hj as [-> | Hj]; [ exact Ri | apply (si_reach _ _ _ _ I); left; exact Hj ] | ].
        apply in_app_or in Hj. destruct Hj as [Hj | Hj].
        -- apply Hq in Hj. eapply rt_trans; [ exact Ri | apply rt_step; tauto ].
        -- apply (si_reach _ _ _ _ I). right. right. exact Hj.
      * intros j k Hj A. apply Sv in Hj. destruct Hj as [-> | Hj].
        -- destruct (Nb k A) as [H | H]; [ left; exact H | right; apply in_or_app; left; exact H ].
        -- destruct (si_closed _ _ _ _ I j k Hj A) as [H | [-> | H] ].
           ++ left. apply Sv. right. exact H.
           ++ left. apply Sv. left. reflexivity.
           ++ right. apply in_or_app. right. exact H.
      * intros a k b j Hs Hk A.
        assert (Nq : ~ In k q) by (intro Hq'; apply Hq in Hq'; tauto).
        assert (Q : exists a2, a = q ++ a2 /\ st = a2 ++ k :: b).
        { clear - Hs Nq. revert a Hs. induction q as [ | x q IHq]; intros a Hs; [ exists a; auto | ].
          cbn [app] in Hs. destruct a as [ | y a]; cbn [app] in Hs.
          - injection Hs as -> _. exfalso. apply Nq. left. reflexivity.
          - injection Hs as -> Hs. destruct (IHq (fun H => Nq (or_intror H)) a Hs) as (a2 & -> & H2). exists a2. auto. }
        destruct Q as (a2 & -> & ->). rewrite in_app_iff. destruct (Nat.eq_dec k i) as [-> | Nk].
        -- destruct (Nb j A); tauto.
        -- apply Sv in Hk. destruct Hk as [-> | Hk]; [ congruence | ].
           destruct (si_above _ _ _ _ I (i :: a2) k b j eq_refl Hk A) as [H | [-> | H] ].
           ++ left. apply Sv. auto.
           ++ left. apply Sv. auto.
           ++ auto.
      * destruct (si_zero _ _ _ _ I) as [H | [H | H] ].
        -- left. apply Sv. auto.
        -- left. apply Sv. auto.
        -- right. apply in_or_app. auto.
    + destruct (unvisited_set v i) as [A B]; [ lia | ]. fold v1 in A, B. cbn [length] in M.
      rewrite app_length. rewrite seq_length in Lq.
      destruct (nth_error v i) as [ [ | ] | ] eqn:Ei.
      * assert (q = []) as ->.
        { destruct q as [ | j q]; [ reflexivity | exfalso ].
          assert (K : adjacent es i j /\ ~ seen v1 j) by (apply (Hq j); left; reflexivity). destruct K as [K1 K2].
          destruct (si_above _ _ _ _ I [] i st j eq_refl Ei K1) as [H | [ ] ]. apply K2. apply Sv. auto. }
        rewrite (A Ei). cbn [length]. lia.
      * specialize (B ltac:(unfold seen; congruence)). rewrite <- B in M. cbn [Nat.mul] in M. lia.
      * apply nth_error_None in Ei. lia.
Qed.

Lemma is_connected_ok : forall n g es, rep n g es -> edges_below n es -> 0 < n ->
  exists b, is_connected g = Ok b /\ (b = true <-> connected n es).
Proof.
  intros n g es R E Hn. unfold is_connected. rewrite (rp_order _ _ _ R).
  assert (NS : forall i, ~ seen (repeat false n) i).
  { intros i H. unfold seen in H. apply nth_error_In in H. apply repeat_spec in H. discriminate. }
  destruct (search_ok n g es R E (n * (n + 1) + 1) (repeat false n) [0]) as (v & Ev & I).
  - constructor.
    + apply repeat_length.
    + intros i [<- | [ ] ]. exact Hn.
    + intros i [H | [<- | [ ] ] ]; [ exfalso; exact (NS i H) | apply rt_refl ].
    + intros i j H. exfalso. exact (NS i H).
    + intros a i b j _ H. exfalso. exact (NS i H).
    + right. left. reflexivity.
  - unfold unvisited. assert (length (filter negb (repeat false n)) <= n) by (rewrite <- (repeat_length false n) at 2; apply filter_length_le).
    cbn [length]. nia.
  - rewrite Ev. cbn [bind]. eexists. split; [ reflexivity | ].
    assert (Adj : forall j k, adjacent es j k -> j < n /\ k < n).
    { intros j k A. unfold edges_below in E. rewrite Forall_forall in E. destruct A as [A | A]; apply E in A; cbn in A; lia. }
    assert (Rch : forall i, clos_refl_trans nat (adjacent es) 0 i -> seen v i).
    { intros i H. apply clos_rt_rtn1 in H. induction H as [ | j k A H IH].
      - destruct (si_zero _ _ _ _ I) as [H | [ ] ]. exact H.
      - destruct (si_closed _ _ _ _ I j k IH A) as [K | [ ] ]. exact K. }
    assert (Sym : forall i j, clos_refl_trans nat (adjacent es) i j -> clos_refl_trans nat (adjacent es) j i).
    { intros i j H. induction H as [i j A | i | i j k H1 IH1 H2 IH2].
      - apply rt_step. unfold adjacent in *. tauto.
      - apply rt_refl.
      - eapply rt_trans; eassumption. }
    rewrite negb_true_iff. split.
    + intros H i j Hi Hj.
      assert (All : forall k, k < n -> clos_refl_trans nat (adjacent es) 0 k).
      { intros k Hk. apply (si_reach _ _ _ _ I). left. unfold seen.
        destruct (nth_error v k) as [ [ | ] | ] eqn:Ek; [ reflexivity | | ].
        - exfalso. apply nth_error_In in Ek. assert (X : existsb negb v = true) by (apply existsb_exists; exists false; auto). congruence.
        - apply nth_error_None in Ek. pose proof (si_len _ _ _ _ I). lia. }
      eapply rt_trans; [ apply Sym; apply All; exact Hi | apply All; exact Hj ].
    + intro C. destruct (existsb negb v) eqn:X; [ | reflexivity ]. exfalso. apply existsb_exists in X.
      destruct X as (b & Ib & Hb). destruct b; [ discriminate | ]. apply In_nth_error in Ib. destruct Ib as [k Hk].
      assert (Lk : k < n) by (rewrite <- (si_len _ _ _ _ I); apply nth_error_Some; congruence).
      specialize (Rch k (C 0 k Hn Lk)). unfold seen in Rch. congruence.
Qed.
