(** * Half-edge counts and degenerate faces *)
From Coq Require Import List Arith Bool NArith QArith Lia Lqa Permutation.
From Verif Require Import Model_base Proof_base Model_soup Model_points Proof_points Model_parallel_do.
From Verif Require Import Model_candidates Spec_candidates Model_geometry.
From Verif Require Import Model_defects Spec_defects Proof_collect Proof_pairs Proof_defects.
Import ListNotations.
Local Open Scope nat_scope.

(** ** Counting half-edges *)
Lemma halfedge_eqb_ok : forall a b, halfedge_eqb a b = true <-> a = b.
Proof.
  intros [a b] [c d]. unfold halfedge_eqb. cbn [fst snd]. rewrite andb_true_iff, !Nat.eqb_eq. split; [ intros [-> ->]; reflexivity | ].
  intro E. injection E as -> ->. auto.
Qed.
Definition he_dec : forall a b : nat * nat, {a = b} + {a <> b}.
Proof. decide equality; apply Nat.eq_dec. Defined.

Lemma bump_ok : forall hes he, NoDup (map fst hes) ->
  NoDup (map fst (bump hes he)) /\
  (forall k, In k (map fst (bump hes he)) <-> k = he \/ In k (map fst hes)) /\
  forall k c, In (k, c) (bump hes he) <->
    (k <> he /\ In (k, c) hes) \/ (k = he /\ ((exists c0, In (he, c0) hes /\ c = c0 + 1) \/ (~ In he (map fst hes) /\ c = 1))).
Proof.
  intros hes he. induction hes as [ | [k0 c0] r IH]; intro D; cbn [bump].
  - split; [ repeat constructor; intros [ ] | ]. split; [ cbn; intuition | ]. intros k c. cbn [In map]. split.
    + intros [E | [ ] ]. injection E as <- <-. right. split; [ reflexivity | ]. right. auto.
    + intros [ [_ [ ] ] | [-> [ (c0 & [ ] & _) | [_ ->] ] ] ]. auto.
  - cbn [map fst] in D. apply NoDup_cons_iff in D. destruct D as [N D].
    assert (Nin : forall c, ~ In (k0, c) r) by (intros c I; apply N; apply (in_map fst) in I; exact I).
    destruct (halfedge_eqb k0 he) eqn:E.
    + apply halfedge_eqb_ok in E. subst k0. cbn [map fst]. split; [ constructor; assumption | ]. split; [ cbn; intuition | ].
      intros k c. cbn [In]. split.
      * intros [E | I]; [ injection E as <- <-; right; split; [ reflexivity | left; exists c0; auto ] | ].
        left. split; [ intros ->; exact (Nin _ I) | auto ].
      * intros [ [Nk [E | I] ] | [-> [ (c1 & [E | I] & ->) | [Nk ->] ] ] ]; [ congruence | auto | | | ].
        -- injection E as ->. auto.
        -- exfalso. exact (Nin _ I).
        -- exfalso. apply Nk. left. reflexivity.
    + assert (Nk0 : k0 <> he) by (intros ->; rewrite (proj2 (halfedge_eqb_ok he he) eq_refl) in E; discriminate).
      destruct (IH D) as (IH1 & IH2 & IH3). cbn [map fst]. split.
      * constructor; [ | exact IH1 ]. rewrite IH2. intros [-> | I]; [ congruence | contradiction ].
      * split; [ intro k; cbn [In]; rewrite IH2; intuition | ]. intros k c. cbn [In map fst]. rewrite IH3. split.
        -- intros [E' | [ [Nk I] | [-> [ (c1 & I & ->) | [Ni ->] ] ] ] ].
           ++ injection E' as <- <-. auto.
           ++ auto.
           ++ right. split; [ reflexivity | ]. left. exists c1. auto.
           ++ right. split; [ reflexivity | ]. right. split; [ intros [H | H]; [ congruence | contradiction ] | reflexivity ].
        -- intros [ [Nk [E' | I] ] | [-> [ (c1 & [E' | I] & ->) | [Ni ->] ] ] ].
           ++ auto.
           ++ auto.
           ++ injection E' as -> ->. congruence.
           ++ right. right. split; [ reflexivity | ]. left. eauto.
           ++ right. right. split; [ reflexivity | ]. right. split; [ intro H; apply Ni; right; exact H | reflexivity ].
Qed.

Definition counted (hes : list (halfedge * nat)) (L : list (nat * nat)) : Prop :=
  NoDup (map fst hes) /\ forall k c, In (k, c) hes <-> c = count_occ he_dec L k /\ 0 < c.
Lemma counted_bump : forall hes L he, counted hes L -> counted (bump hes he) (L ++ [he]).
Proof.
  intros hes L he [D H]. destruct (bump_ok hes he D) as (B1 & B2 & B3). split; [ exact B1 | ]. intros k c. rewrite B3.
  rewrite count_occ_app. cbn [count_occ].
  assert (Kin : forall k0, In k0 (map fst hes) <-> 0 < count_occ he_dec L k0).
  { intro k0. rewrite in_map_iff. split.
    - intros ([k1 c1] & E & I). cbn in E. subst k1. apply H in I. lia.
    - intro P. exists (k0, count_occ he_dec L k0). split; [ reflexivity | ]. apply H. auto. }
  destruct (he_dec he k) as [-> | N].
  - split.
    + intros [ [C _] | [_ [ (c0 & I & ->) | [Ni ->] ] ] ]; [ congruence | apply H in I; lia | ]. rewrite Kin in Ni. lia.
    + intros [-> _]. right. split; [ reflexivity | ]. destruct (count_occ he_dec L k) as [ | n] eqn:E.
      * right. split; [ rewrite Kin; lia | reflexivity ].
      * left. exists (S n). split; [ apply H; lia | reflexivity ].
  - rewrite H, Nat.add_0_r. split; [ intros [ [_ X] | [X _] ]; [ exact X | congruence ] | intro X; left; split; [ congruence | exact X ] ].
Qed.

Definition he_of (f : face) : list (nat * nat) := let '(a, b, c) := f in [(a, b); (b, c); (c, a)].
Definition all_hes {P D} (m : soup P D) : list (nat * nat) := flat_map he_of (filter properb (faces m)).

Lemma collect_ok : forall {P D} (m : soup P D), exists hes, collect_halfedges m = Ok hes /\ counted hes (all_hes m).
Proof.
  intros P D m. unfold collect_halfedges.
  rewrite (foldM_faces m (fun hes (_ : nat) (f : face) =>
    if repeated f then Ok hes else let '(a, b, c) := f in Ok (bump (bump (bump hes (a, b)) (b, c)) (c, a)))).
  assert (G : forall fs k hes L, counted hes L -> exists hes',
    foldM (fun hes (e : nat * face) => if repeated (snd e) then Ok hes
      else let '(a, b, c) := snd e in Ok (bump (bump (bump hes (a, b)) (b, c)) (c, a))) hes (combine (seq k (length fs)) fs) = Ok hes' /\
    counted hes' (L ++ flat_map he_of (filter properb fs))).
  { induction fs as [ | f fs IH]; intros k hes L H; cbn [length seq combine foldM filter flat_map fst snd].
    - exists hes. rewrite app_nil_r. auto.
    - rewrite repeated_properb. destruct (properb f); cbn [negb bind].
      + destruct f as [ [a b] c]. cbn [bind]. 
        destruct (IH (S k) (bump (bump (bump hes (a, b)) (b, c)) (c, a)) (((L ++ [(a, b)]) ++ [(b, c)]) ++ [(c, a)])) as (hes' & E & C).
        * repeat apply counted_bump. exact H.
        * exists hes'. split; [ exact E | ]. cbn [flat_map he_of]. rewrite <- !app_assoc in C. exact C.
      + apply IH. exact H. }
  destruct (G (faces m) 0 [] []) as (hes & E & C).
  - split; [ constructor | ]. intros k c. cbn. split; [ intros [ ] | lia ].
  - exists hes. auto.
Qed.

Lemma count_along : forall {P D} (m : soup P D) i j, count_occ he_dec (all_hes m) (i, j) = users_along m i j.
Proof.
  intros P D m i j. unfold all_hes, users_along. induction (faces m) as [ | f fs IH]; [ reflexivity | ]. cbn [filter].
  destruct (properb f) eqn:Pf; cbn [andb]; [ | exact IH ]. cbn [flat_map]. rewrite count_occ_app, IH.
  assert (K : count_occ he_dec (he_of f) (i, j) = if runs f i j then 1 else 0).
  { apply properb_iff in Pf. destruct f as [ [a b] c]. destruct Pf as (N1 & N2 & N3). unfold he_of, runs. cbn [count_occ].
    destruct (he_dec (a, b) (i, j)) as [E1 | E1], (he_dec (b, c) (i, j)) as [E2 | E2], (he_dec (c, a) (i, j)) as [E3 | E3];
      try (injection E1 as -> ->); try (injection E2 as -> ->); try (injection E3 as -> ->); try congruence.
    - rewrite !Nat.eqb_refl. reflexivity.
    - rewrite !Nat.eqb_refl, orb_true_r. reflexivity.
    - rewrite !Nat.eqb_refl, !orb_true_r. reflexivity.
    - destruct (Nat.eqb_spec i a), (Nat.eqb_spec j b), (Nat.eqb_spec i b), (Nat.eqb_spec j c), (Nat.eqb_spec i c), (Nat.eqb_spec j a);
        subst; cbn [andb orb]; congruence. }
  rewrite K. destruct (runs f i j); reflexivity.
Qed.

Lemma users_split : forall {P D} (m : soup P D) i j, i <> j -> users m i j = users_along m i j + users_along m j i.
Proof.
  intros P D m i j N. unfold users, users_along. induction (faces m) as [ | f fs IH]; [ reflexivity | ]. cbn [filter].
  destruct (properb f) eqn:Pf; cbn [andb]; [ | exact IH ].
  assert (K : (if has_vertexb f i && has_vertexb f j then 1 else 0) = (if runs f i j then 1 else 0) + (if runs f j i then 1 else 0)).
  { apply properb_iff in Pf. destruct f as [ [a b] c]. destruct Pf as (N1 & N2 & N3). unfold has_vertexb, runs.
    destruct (Nat.eqb_spec i a), (Nat.eqb_spec j b), (Nat.eqb_spec i b), (Nat.eqb_spec j c), (Nat.eqb_spec i c), (Nat.eqb_spec j a);
      subst; cbn [andb orb Nat.add]; first [ reflexivity | congruence ]. }
  destruct (has_vertexb f i && has_vertexb f j), (runs f i j), (runs f j i); cbn [length]; lia.
Qed.
Lemma along_proper : forall {P D} (m : soup P D) i j, 0 < users_along m i j -> i <> j.
Proof.
  intros P D m i j H. unfold users_along in H.
  destruct (filter (fun f => properb f && runs f i j) (faces m)) as [ | f fs] eqn:E; [ cbn in H; lia | ].
  assert (I : In f (filter (fun f => properb f && runs f i j) (faces m))) by (rewrite E; left; reflexivity).
  apply filter_In in I. destruct I as [_ I]. apply andb_true_iff in I. destruct I as [I1 I2]. apply properb_iff in I1.
  destruct f as [ [a b] c]. destruct I1 as (N1 & N2 & N3). unfold runs in I2.
  rewrite !orb_true_iff, !andb_true_iff, !Nat.eqb_eq in I2. intros ->. intuition congruence.
Qed.
Lemma users_sym : forall {P D} (m : soup P D) i j, users m i j = users m j i.
Proof.
  intros. unfold users. f_equal. apply filter_ext. intro f. destruct (properb f), (has_vertexb f i), (has_vertexb f j); reflexivity.
Qed.

Section Edges.
  Context {P D : Type}.
  Variable m : soup P D.
  Variables hes order : list (nat * nat * nat).
  Hypothesis C : counted hes (all_hes m).
  Hypothesis Perm : Permutation order hes.

  Lemma order_in : forall i j c, In ((i, j), c) order <-> c = users_along m i j /\ 0 < c.
  Proof.
    intros i j c. rewrite <- count_along. rewrite <- (proj2 C (i, j) c). split; apply Permutation_in; [ exact Perm | apply Permutation_sym; exact Perm ].
  Qed.
  Lemma order_nodup : NoDup (map fst order).
  Proof. eapply Permutation_NoDup; [ apply Permutation_map; apply Permutation_sym; exact Perm | apply C ]. Qed.
  Lemma find_count : forall i j, match assoc_find halfedge_eqb (i, j) hes with Some c => c | None => 0 end = users_along m i j.
  Proof.
    intros i j. destruct (assoc_find halfedge_eqb (i, j) hes) as [c | ] eqn:E.
    - apply (assoc_find_some halfedge_eqb halfedge_eqb_ok) in E. apply (proj2 C) in E. rewrite count_along in E. tauto.
    - destruct (users_along m i j) as [ | n] eqn:U; [ reflexivity | exfalso ].
      apply (assoc_find_none halfedge_eqb halfedge_eqb_ok _ _ (S n)) in E. apply E. apply (proj2 C). rewrite count_along. lia.
  Qed.
  Lemma contains_iff : forall i j, contains hes (i, j) = true <-> 0 < users_along m i j.
  Proof.
    intros i j. unfold contains. pose proof (find_count i j) as F. destruct (assoc_find halfedge_eqb (i, j) hes) as [c | ] eqn:E.
    - apply (assoc_find_some halfedge_eqb halfedge_eqb_ok) in E. apply (proj2 C) in E. split; [ lia | reflexivity ].
    - rewrite <- F. split; [ discriminate | lia ].
  Qed.

  Lemma to_edge_eq : forall x y i j, x <> y -> (to_edge (x, y) = (i, j) <-> i < j /\ ((x = i /\ y = j) \/ (x = j /\ y = i))).
  Proof.
    intros x y i j N. unfold to_edge, make_edge. cbn [fst snd]. destruct (Nat.ltb_spec y x); split; intro H0.
    - injection H0 as -> ->. auto.
    - destruct H0 as [L [ [-> ->] | [-> ->] ] ]; [ lia | reflexivity ].
    - injection H0 as -> ->. split; [ lia | auto ].
    - destruct H0 as [L [ [-> ->] | [-> ->] ] ]; [ reflexivity | lia ].
  Qed.

  (** Traversals that select entries, at most one of every two opposite ones. *)
  Lemma select_ok : forall (sel : nat -> nat -> bool) (g : nat * nat * nat -> list edge) (good : nat -> nat -> Prop),
    (forall i j c, In ((i, j), c) order -> g ((i, j), c) = if sel i j then [to_edge (i, j)] else []) ->
    (forall i j, 0 < users_along m i j -> 0 < users_along m j i -> sel i j = true -> sel j i = true -> False) ->
    (forall i j, i < j -> (good i j <-> (0 < users_along m i j /\ sel i j = true) \/ (0 < users_along m j i /\ sel j i = true))) ->
    NoDup (flat_map g order) /\ forall i j, In (i, j) (flat_map g order) <-> i < j /\ good i j.
  Proof.
    intros sel g good Hg Hex Hgood. split.
    - assert (X : forall l, NoDup (map fst l) -> (forall e, In e l -> In e order) -> NoDup (flat_map g l));
        [ | apply X; [ apply order_nodup | auto ] ].
      induction l as [ | [ [i j] c] l IH]; intros N Sub; [ constructor | ]. cbn [map fst] in N.
      apply NoDup_cons_iff in N. destruct N as [N1 N2]. cbn [flat_map].
      match goal with |- NoDup (g ?e ++ _) => replace (g e) with (if sel i j then [to_edge (i, j)] else []) by (symmetry; apply Hg with (c := c); apply Sub; left; reflexivity) end.
      specialize (IH N2 (fun e H => Sub e (or_intror H))). destruct (sel i j) eqn:S; [ | exact IH ]. cbn [app]. constructor; [ | exact IH ].
      intro I. apply in_flat_map in I. destruct I as ([ [i' j'] c'] & I & J).
      assert (O1 := proj1 (order_in i j c) (Sub _ (or_introl eq_refl))).
      assert (O2 := proj1 (order_in i' j' c') (Sub _ (or_intror I))).
      rewrite (Hg i' j' c') in J by (apply Sub; right; exact I). destruct (sel i' j') eqn:S'; [ | destruct J ].
      destruct J as [J | [ ] ]. assert (Nij : i <> j) by (apply (along_proper m); lia). assert (Nij' : i' <> j') by (apply (along_proper m); lia).
      destruct (to_edge (i, j)) as [x y] eqn:T. apply to_edge_eq in T; [ | exact Nij ]. apply to_edge_eq in J; [ | exact Nij' ].
      assert (K : (i', j') = (i, j) \/ (i', j') = (j, i)) by (destruct T as [_ [ [-> ->] | [-> ->] ] ], J as [_ [ [-> ->] | [-> ->] ] ]; auto).
      destruct K as [K | K]; injection K as -> ->.
      + apply N1. apply (in_map fst) in I. exact I.
      + apply (Hex i j); [ lia | lia | exact S | exact S' ].
    - intros i j. rewrite in_flat_map. split.
      + intros ([ [x y] c] & I & J). assert (O := proj1 (order_in x y c) I). rewrite (Hg x y c I) in J.
        destruct (sel x y) eqn:S; [ | destruct J ]. destruct J as [J | [ ] ].
        apply to_edge_eq in J; [ | apply (along_proper m); lia ]. destruct J as [L J]. split; [ exact L | ].
        apply Hgood; [ exact L | ]. destruct J as [ [-> ->] | [-> ->] ]; [ left | right ]; (split; [ lia | exact S ]).
      + intros [L G]. apply Hgood in G; [ | exact L ]. destruct G as [ [U S] | [U S] ].
        * exists ((i, j), users_along m i j). assert (I : In ((i, j), users_along m i j) order) by (apply order_in; auto).
          split; [ exact I | ]. rewrite (Hg _ _ _ I), S. left. apply to_edge_eq; [ lia | auto ].
        * exists ((j, i), users_along m j i). assert (I : In ((j, i), users_along m j i) order) by (apply order_in; auto).
          split; [ exact I | ]. rewrite (Hg _ _ _ I), S. left. apply to_edge_eq; [ lia | auto ].
  Qed.

  Lemma boundary_ok : NoDup (boundary_edges hes order) /\
    forall i j, In (i, j) (boundary_edges hes order) <-> i < j /\ users m i j = 1.
  Proof.
    unfold boundary_edges.
    apply (select_ok (fun i j => (users_along m i j =? 1) && negb (contains hes (j, i)))).
    - intros i j c I. apply order_in in I. destruct I as [-> _]. reflexivity.
    - intros i j U1 U2 S _. apply andb_true_iff in S. destruct S as [_ S]. apply contains_iff in U2. rewrite U2 in S. discriminate.
    - intros i j L. rewrite users_split by lia. rewrite !andb_true_iff, !negb_true_iff, <- !not_true_iff_false, !contains_iff, !Nat.eqb_eq.
      lia.
  Qed.
  Lemma inconsistent_ok : NoDup (inconsistent_edges hes order) /\
    forall i j, In (i, j) (inconsistent_edges hes order) <->
      i < j /\ users m i j = 2 /\ (users_along m i j = 2 \/ users_along m j i = 2).
  Proof.
    unfold inconsistent_edges.
    apply (select_ok (fun i j => (users_along m i j =? 2) && negb (contains hes (j, i)))
      _ (fun i j => users m i j = 2 /\ (users_along m i j = 2 \/ users_along m j i = 2))).
    - intros i j c I. apply order_in in I. destruct I as [-> _]. reflexivity.
    - intros i j U1 U2 S _. apply andb_true_iff in S. destruct S as [_ S]. apply contains_iff in U2. rewrite U2 in S. discriminate.
    - intros i j L. rewrite users_split by lia. rewrite !andb_true_iff, !negb_true_iff, <- !not_true_iff_false, !contains_iff, !Nat.eqb_eq.
      lia.
  Qed.
  Lemma non_manifold_ok : NoDup (non_manifold_edges hes order) /\
    forall i j, In (i, j) (non_manifold_edges hes order) <-> i < j /\ 3 <= users m i j.
  Proof.
    unfold non_manifold_edges.
    apply (select_ok (fun i j => negb ((j <? i) && (0 <? users_along m j i)) && (2 <? users_along m i j + users_along m j i))
      _ (fun i j => 3 <= users m i j)).
    - intros i j c I. apply order_in in I. destruct I as [-> _]. cbn [fst snd opposite_he]. 
      change (opposite_he (i, j)) with (j, i). rewrite find_count.
      destruct ((j <? i) && (0 <? users_along m j i)); reflexivity.
    - intros i j U1 U2 S1 S2. apply andb_true_iff in S1. apply andb_true_iff in S2. destruct S1 as [S1 _], S2 as [S2 _].
      apply Nat.ltb_lt in U1 as U1'. apply Nat.ltb_lt in U2 as U2'. rewrite U2' in S1. rewrite U1' in S2.
      rewrite andb_true_r, negb_true_iff, Nat.ltb_ge in S1, S2. pose proof (along_proper m i j U1). lia.
    - intros i j L. rewrite users_split by lia.
      rewrite !andb_true_iff, !negb_true_iff, <- !not_true_iff_false, !andb_true_iff, !Nat.ltb_lt. lia.
  Qed.
End Edges.

(** ** Degenerate faces *)
Lemma is_degenerate_iff : forall {P} (coords : P -> vec3) p q r,
  is_degenerate coords (p, q, r) = true <-> collinear (coords p) (coords q) (coords r).
Proof.
  intros P coords p q r. unfold is_degenerate. destruct (coords p) as [ [px py] pz], (coords q) as [ [qx qy] qz], (coords r) as [ [rx ry] rz].
  rewrite !andb_true_iff, !Qeq_bool_iff. unfold vcross, vsub, vx, vy, vz. cbn [fst snd]. split.
  - intros [ [Hx Hy] Hz]. exists (px, py, pz).
    assert (X : forall d, on_line (px, py, pz) d (px, py, pz)) by (intro d; exists 0%Q; repeat split; ring).
    assert (K : forall a b c a' b' c' : Q, ~ (a == 0)%Q -> (b * c' - c * b' == 0)%Q -> (c * a' - a * c' == 0)%Q -> (a * b' - b * a' == 0)%Q ->
      (a' == a' / a * a)%Q /\ (b' == a' / a * b)%Q /\ (c' == a' / a * c)%Q).
    { intros a b c a' b' c' N H1 H2 H3. split; [ field; exact N | ]. split.
      - setoid_replace b' with ((b * a') / a)%Q; [ field; exact N | ].
        setoid_replace (b * a')%Q with (a * b')%Q by lra. field. exact N.
      - setoid_replace c' with ((c * a') / a)%Q; [ field; exact N | ].
        setoid_replace (c * a')%Q with (a * c')%Q by lra. field. exact N. }
    destruct (Qeq_dec (qx - px)%Q 0) as [Ex | Nx].
    + destruct (Qeq_dec (qy - py)%Q 0) as [Ey | Ny].
      * destruct (Qeq_dec (qz - pz)%Q 0) as [Ez | Nz].
        -- exists (rx - px, ry - py, rz - pz)%Q. split; [ apply X | ]. split.
           ++ exists 0%Q. unfold vx, vy, vz. cbn [fst snd]. repeat split; lra.
           ++ exists 1%Q. unfold vx, vy, vz. cbn [fst snd]. repeat split; ring.
        -- destruct (K (qz - pz)%Q (qx - px)%Q (qy - py)%Q (rz - pz)%Q (rx - px)%Q (ry - py)%Q Nz) as (K1 & K2 & K3); [ lra | lra | lra | ].
           exists (qx - px, qy - py, qz - pz)%Q. split; [ apply X | ]. split.
           ++ exists 1%Q. unfold vx, vy, vz. cbn [fst snd]. repeat split; ring.
           ++ exists ((rz - pz) / (qz - pz))%Q. unfold vx, vy, vz. cbn [fst snd]. repeat split; lra.
      * destruct (K (qy - py)%Q (qz - pz)%Q (qx - px)%Q (ry - py)%Q (rz - pz)%Q (rx - px)%Q Ny) as (K1 & K2 & K3); [ lra | lra | lra | ].
        exists (qx - px, qy - py, qz - pz)%Q. split; [ apply X | ]. split.
        -- exists 1%Q. unfold vx, vy, vz. cbn [fst snd]. repeat split; ring.
        -- exists ((ry - py) / (qy - py))%Q. unfold vx, vy, vz. cbn [fst snd]. repeat split; lra.
    + destruct (K (qx - px)%Q (qy - py)%Q (qz - pz)%Q (rx - px)%Q (ry - py)%Q (rz - pz)%Q Nx) as (K1 & K2 & K3); [ lra | lra | lra | ].
      exists (qx - px, qy - py, qz - pz)%Q. split; [ apply X | ]. split.
      * exists 1%Q. unfold vx, vy, vz. cbn [fst snd]. repeat split; ring.
      * exists ((rx - px) / (qx - px))%Q. unfold vx, vy, vz. cbn [fst snd]. repeat split; lra.
  - intros ([ [ox oy] oz] & [ [dx dy] dz] & (t & T1 & T2 & T3) & (u & U1 & U2 & U3) & (w & W1 & W2 & W3)).
    unfold vx, vy, vz in *. cbn [fst snd] in *. rewrite T1, T2, T3, U1, U2, U3, W1, W2, W3. repeat split; ring.
Qed.

Lemma non_trivial_ok : forall {P D} (coords : P -> vec3) (m : soup P D) nt fis x, valid_faces m -> 1 <= nt ->
  non_trivial_degenerate_faces coords nt m fis x ->
  x = None /\ NoDup fis /\ forall fi, In fi fis <-> exists f p q r, nth_error (faces m) fi = Some f /\ proper f /\
    face_corners m fi (p, q, r) /\ collinear (coords p) (coords q) (coords r).
Proof.
  intros P D coords m nt fis x V Hnt (tr & R).
  set (h := fun fi => match degenerate_body coords m fi with Ok l => l | _ => [] end).
  assert (B : forall fi, fi < num_faces m -> exists f p q r, nth_error (faces m) fi = Some f /\ face_corners m fi (p, q, r) /\
    degenerate_body coords m fi = Ok (if properb f && is_degenerate coords (p, q, r) then [fi] else [])).
  { intros fi Hfi. destruct (valid_corners m fi V Hfi) as (v0 & v1 & v2 & p0 & p1 & p2 & Hf & H0 & H1 & H2).
    exists (v0, v1, v2), p0, p1, p2. split; [ exact Hf | ]. split; [ exists v0, v1, v2, p0, p1, p2; auto | ].
    unfold degenerate_body, soup_triangle, soup_face, soup_point, vec_at. rewrite Hf. cbn [bind]. rewrite repeated_properb.
    destruct (properb (v0, v1, v2)); cbn [negb andb]; [ | reflexivity ]. rewrite H0, H1, H2. cbn [bind].
    destruct (is_degenerate coords (p0, p1, p2)); reflexivity. }
  destruct (collect Nat.eq_dec (degenerate_body coords m) h (seq 0 (num_faces m)) nt tr fis x) as [E1 E2]; [ | exact Hnt | exact R | ].
  - intros fi I. apply in_seq in I. destruct (B fi ltac:(lia)) as (f & p & q & r & _ & _ & E). unfold h. rewrite E. reflexivity.
  - split; [ exact E1 | ].
    assert (Hh : forall fi, fi < num_faces m -> h fi = [] \/ h fi = [fi]).
    { intros fi L. destruct (B fi L) as (f & p & q & r & _ & _ & E). unfold h. rewrite E.
      destruct (properb f && is_degenerate coords (p, q, r)); auto. }
    assert (N : NoDup (flat_map h (seq 0 (num_faces m)))).
    { assert (S : forall n k, k + n = num_faces m -> NoDup (flat_map h (seq k n)) /\ forall i, In i (flat_map h (seq k n)) -> k <= i).
      { induction n as [ | n IH]; intros k Hk; cbn [seq flat_map]; [ split; [ constructor | intros i [ ] ] | ].
        destruct (IH (S k) ltac:(lia)) as [I1 I2]. destruct (Hh k ltac:(lia)) as [-> | ->]; cbn [app].
        - split; [ exact I1 | ]. intros i Hi. apply I2 in Hi. lia.
        - split; [ constructor; [ intro Hi; apply I2 in Hi; lia | exact I1 ] | ]. intros i [-> | Hi]; [ lia | apply I2 in Hi; lia ]. }
      apply (S (num_faces m) 0). reflexivity. }
    split; [ eapply Permutation_NoDup; [ apply Permutation_sym; exact E2 | exact N ] | ].
    intro fi. transitivity (In fi (flat_map h (seq 0 (num_faces m)))).
    + split; apply Permutation_in; [ exact E2 | apply Permutation_sym; exact E2 ].
    + rewrite in_flat_map. split.
      * intros (k & Hk & I). apply in_seq in Hk. destruct (B k ltac:(lia)) as (f & p & q & r & Hf & Hc & E).
        unfold h in I. rewrite E in I. destruct (properb f && is_degenerate coords (p, q, r)) eqn:K; [ | destruct I ].
        destruct I as [-> | [ ] ]. apply andb_true_iff in K. rewrite properb_iff, is_degenerate_iff in K. exists f, p, q, r. tauto.
      * intros (f & p & q & r & Hf & Pf & Hc & Hcol). assert (L : fi < num_faces m) by (apply nth_error_Some; congruence).
        exists fi. split; [ apply in_seq; lia | ]. destruct (B fi L) as (f' & p' & q' & r' & Hf' & Hc' & E).
        assert (f' = f) by congruence. subst f'.
        assert ((p', q', r') = (p, q, r)).
        { destruct Hc as (a & b & c & ? & ? & ? & A1 & A2 & A3 & A4 & ->). destruct Hc' as (a' & b' & c' & ? & ? & ? & A1' & A2' & A3' & A4' & ->). congruence. }
        unfold h. rewrite E, H. apply properb_iff in Pf. apply is_degenerate_iff in Hcol. rewrite Pf, Hcol. left. reflexivity.
Qed.
