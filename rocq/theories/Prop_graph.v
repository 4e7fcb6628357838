(** * C35: the dense graph answers graph questions correctly *)
From Coq Require Import List Arith Bool NArith Lia Relations Permutation.
From Verif Require Import Model_base Proof_base Model_graph Spec_graph Proof_graph.
Import ListNotations.

(** The packed storage: every pair of vertices has a cell inside the vector, and two
    pairs share a cell exactly when they are the same unordered pair. *)
Theorem C35_cells :
  forall n i j i' j', i < n -> j < n -> i' < n -> j' < n ->
    cell_index n i j < length (cells (new_graph n)) /\
    (cell_index n i j = cell_index n i' j' <-> (i = i' /\ j = j') \/ (i = j' /\ j = i')).
Proof.
  intros n i j i' j' Hi Hj Hi' Hj'. split.
  - cbn. rewrite repeat_length. apply cell_bound; assumption.
  - apply cell_same; assumption.
Qed.
Print Assumptions C35_cells.

(** After any sequence of additions the graph gives the number of edges between any two
    vertices, whether there is one, and the degrees. *)
Theorem C35_counts :
  forall n es, edges_below n es -> (N.of_nat (length es) < 2 ^ 32)%N ->
    exists g, add_edges (new_graph n) es = Ok g /\
      forall i j, i < n -> j < n ->
        graph_at g i j = Ok (N.of_nat (multiplicity es i j)) /\
        has_edge g i j = Ok (existsb (joinsb i j) es) /\
        degree g i = Ok (N.of_nat (incident es i)).
Proof.
  intros n es E B. destruct (rep_adds es n (new_graph n) [] (rep_new n) E B) as (g & Eg & R). exists g. split; [ exact Eg | ].
  intros i j Hi Hj. split; [ apply (rep_at n); assumption | ]. split; [ | apply (degree_ok n); assumption ].
  destruct (has_edge_ok n g es i j R Hi Hj) as (b & Eb & Hb). rewrite Eb. f_equal. apply eq_iff_eq_true. rewrite Hb, existsb_exists.
  unfold adjacent. split.
  - intros [H | H]; eexists; (split; [ exact H | apply joinsb_iff; unfold joins; auto ]).
  - intros (e & I & J). apply joinsb_iff in J. destruct J as [-> | ->]; auto.
Qed.
Print Assumptions C35_counts.

(** The largest degree is an upper bound of all degrees and the degree of some vertex. *)
Theorem C35_max_degree :
  forall n es g, edges_below n es -> (N.of_nat (length es) < 2 ^ 32)%N -> add_edges (new_graph n) es = Ok g ->
    exists d, max_degree g = Ok (N.of_nat d) /\
      (forall i, i < n -> incident es i <= d) /\ (n = 0 /\ d = 0 \/ exists i, i < n /\ incident es i = d).
Proof.
  intros n es g E B Eg. destruct (rep_adds es n (new_graph n) [] (rep_new n) E B) as (g' & Eg' & R).
  replace g' with g in * by congruence. exists (list_max (map (incident es) (seq 0 n))). split; [ apply (max_degree_ok n); assumption | ].
  split.
  - intros i Hi. pose proof (proj1 (list_max_le (map (incident es) (seq 0 n)) _) (Nat.le_refl _)) as F.
    rewrite Forall_forall in F. apply F. apply in_map. apply in_seq. lia.
  - destruct n as [ | n]; [ left; split; reflexivity | right ].
    assert (K : forall l : list nat, l <> [] -> In (list_max l) l).
    { clear. induction l as [ | x l IH]; [ congruence | ]. intros _. change (list_max (x :: l)) with (Nat.max x (list_max l)).
      destruct l as [ | y l]; [ left; cbn; lia | ]. destruct (Nat.max_spec x (list_max (y :: l))) as [ [_ ->] | [_ ->] ].
      - right. apply IH. discriminate.
      - left. reflexivity. }
    specialize (K (map (incident es) (seq 0 (S n))) ltac:(discriminate)). apply in_map_iff in K. destruct K as (i & Ei & Hi).
    exists i. apply in_seq in Hi. split; [ lia | exact Ei ].
Qed.
Print Assumptions C35_max_degree.

Theorem C35_simple :
  forall n es g, edges_below n es -> (N.of_nat (length es) < 2 ^ 32)%N -> add_edges (new_graph n) es = Ok g ->
    exists b, is_simple g = Ok b /\ (b = true <-> simple es).
Proof.
  intros n es g E B Eg. destruct (rep_adds es n (new_graph n) [] (rep_new n) E B) as (g' & Eg' & R).
  replace g' with g in * by congruence. destruct (is_simple_ok n g es R) as (b & Eb & Hb). exists b. split; [ exact Eb | ].
  rewrite Hb. apply simple_iff. exact E.
Qed.
Print Assumptions C35_simple.

(** The search terminates (its outcome is not [Throw Diverges]) with the right answer;
    for a graph without vertices it throws. *)
Theorem C35_connected :
  forall n es g, edges_below n es -> (N.of_nat (length es) < 2 ^ 32)%N -> add_edges (new_graph n) es = Ok g ->
    (0 < n -> exists b, is_connected g = Ok b /\ (b = true <-> connected n es)) /\
    (n = 0 -> is_connected g = Throw OutOfRange).
Proof.
  intros n es g E B Eg. destruct (rep_adds es n (new_graph n) [] (rep_new n) E B) as (g' & Eg' & R).
  replace g' with g in * by congruence. split.
  - intro Hn. apply is_connected_ok; assumption.
  - intros ->. unfold is_connected. rewrite (rp_order _ _ _ R). reflexivity.
Qed.
Print Assumptions C35_connected.

(** Vertices out of range are rejected and nothing is changed. *)
Theorem C35_out_of_range :
  forall g i j, order g <= i \/ order g <= j ->
    graph_at g i j = Throw OutOfRange /\ has_edge g i j = Throw OutOfRange /\ add_edge g i j = Throw OutOfRange.
Proof.
  intros g i j H.
  assert (K : graph_at g i j = Throw OutOfRange).
  { unfold graph_at. destruct (order g <=? i) eqn:Ei; [ reflexivity | ]. apply Nat.leb_gt in Ei.
    destruct (order g <=? j) eqn:Ej; [ reflexivity | ]. apply Nat.leb_gt in Ej. lia. }
  unfold has_edge, add_edge. rewrite K. auto.
Qed.
Print Assumptions C35_out_of_range.

(** A triangle with a tail and a double edge, and a separate vertex. *)
Definition ex_edges : list (nat * nat) := [(0, 1); (1, 2); (2, 0); (2, 3); (3, 2)].
Example C35_example_hypotheses : edges_below 5 ex_edges /\ (N.of_nat (length ex_edges) < 2 ^ 32)%N.
Proof. split; [ repeat constructor | reflexivity ]. Qed.
Example C35_example :
  exists g, add_edges (new_graph 5) ex_edges = Ok g /\ graph_at g 3 2 = Ok 2%N /\ degree g 2 = Ok 4%N /\
    max_degree g = Ok 4%N /\ is_simple g = Ok false /\ is_connected g = Ok false.
Proof. eexists. vm_compute. repeat split; reflexivity. Qed.
Example C35_example_connected :
  exists g, add_edges (new_graph 4) ex_edges = Ok g /\ is_connected g = Ok true.
Proof. eexists. vm_compute. split; reflexivity. Qed.
