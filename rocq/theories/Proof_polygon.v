(** * Points in convex position and the walk around them *)
From Coq Require Import List Arith Bool NArith Lia Permutation.
From Verif Require Import Model_base Proof_base Model_region Model_ffi.
Import ListNotations.
Local Open Scope nat_scope.

Section Sorting.
  Context {A : Type}.
  Variable lt : A -> A -> Prop.
  Variable P : A -> Prop.
  Hypothesis trans : forall x y z, P x -> P y -> P z -> lt x y -> lt y z -> lt x z.
  Hypothesis total : forall x y, P x -> P y -> x <> y -> lt x y \/ lt y x.
  Lemma sorted_exists : forall l, NoDup l -> Forall P l ->
    exists l', Permutation l l' /\ ForallOrdPairs lt l'.
  Proof.
    induction l as [ | a l IH]; intros D F; [ exists []; split; constructor | ].
    inversion D as [ | ? ? Na D']; subst. inversion F as [ | ? ? Pa F']; subst. destruct (IH D' F') as (l' & Pl & S).
    assert (Na' : ~ In a l') by (intro X; apply Na; eapply Permutation_in; [ apply Permutation_sym; exact Pl | exact X ]).
    assert (F2 : Forall P l') by (eapply Permutation_Forall; eassumption).
    assert (Ins : exists l2, Permutation (a :: l') l2 /\ ForallOrdPairs lt l2).
    { clear IH D F D' F' Pl Na. induction l' as [ | b l' IH]; [ exists [a]; split; [ reflexivity | repeat constructor ] | ].
      inversion S as [ | ? ? Sb S']; subst. inversion F2 as [ | ? ? Pb F3]; subst.
      destruct (total a b Pa Pb) as [H | H].
      - intro E. apply Na'. left. auto.
      - exists (a :: b :: l'). split; [ reflexivity | ]. constructor; [ | exact S ]. constructor; [ exact H | ].
        rewrite Forall_forall in *. intros c Hc. apply (trans a b c); auto.
      - destruct IH as (l2 & P2 & S2); [ exact S' | intro X; apply Na'; right; exact X | exact F3 | ].
        exists (b :: l2). split; [ rewrite perm_swap; constructor; exact P2 | ]. constructor; [ | exact S2 ].
        eapply Permutation_Forall; [ exact P2 | ]. constructor; assumption. }
    destruct Ins as (l2 & P2 & S2). exists l2. split; [ | exact S2 ]. rewrite <- P2. constructor. exact Pl.
  Qed.
  Lemma ordered_nth : forall l d i j, ForallOrdPairs lt l -> i < j < length l -> lt (nth i l d) (nth j l d).
  Proof.
    induction l as [ | a l IH]; intros d i j S H; [ cbn in H; lia | ]. inversion S as [ | ? ? Sa S']; subst. cbn [length] in H.
    destruct j as [ | j]; [ lia | ]. destruct i as [ | i]; cbn [nth]; [ | apply IH; [ exact S' | lia ] ].
    rewrite Forall_forall in Sa. apply Sa. apply nth_In. lia.
  Qed.
End Sorting.

Section Convex.
  Variable n : nat.
  Variable ccw : nat -> nat -> nat -> Prop.
  Hypothesis rot : forall i j k, ccw i j k -> ccw j k i.
  Hypothesis orient : forall i j k, i < n -> j < n -> k < n -> i <> j -> j <> k -> i <> k -> ccw i j k \/ ccw j i k.
  Hypothesis asym : forall i j k, ccw i j k -> ccw j i k -> False.
  (** No point is inside the triangle of three others. *)
  Hypothesis outer : forall i j k l, i < n -> j < n -> k < n -> l < n -> ccw l j k -> ccw i l k -> ccw i j l -> False.
  Lemma ccw_distinct : forall i j k, ccw i j k -> i <> j /\ j <> k /\ i <> k.
  Proof.
    intros i j k H. repeat split; intro E; subst.
    - exact (asym _ _ _ H H).
    - pose proof (rot _ _ _ H) as H'. exact (asym _ _ _ H' H').
    - pose proof (rot _ _ _ (rot _ _ _ H)) as H'. exact (asym _ _ _ H' H').
  Qed.

  Definition convex (c : list nat) : Prop := forall i j k, i < j -> j < k -> k < length c -> ccw (nth i c 0) (nth j c 0) (nth k c 0).
  Lemma convex_exists : 0 < n -> exists c, Permutation (seq 0 n) (0 :: c) /\ convex (0 :: c).
  Proof.
    intro Hn. destruct n as [ | m] eqn:En; [ lia | ]. cbn [seq].
    destruct (sorted_exists (ccw 0) (fun x => x < S m /\ x <> 0)) with (l := seq 1 m) as (c & Pc & So).
    - intros x y z [Lx Nx] [Ly Ny] [Lz Nz] H1 H2.
      destruct (Nat.eq_dec x z) as [E | E]; [ subst z; exfalso; exact (asym _ _ _ (rot _ _ _ H1) (rot _ _ _ H2)) | ].
      destruct (orient 0 x z) as [K | K]; [ lia | lia | lia | lia | lia | lia | exact K | exfalso ].
      apply (outer x y z 0); try lia; [ exact H2 | exact K | apply rot in H1; exact H1 ].
    - intros x y [Lx Nx] [Ly Ny] E. destruct (orient 0 x y) as [K | K]; [ lia | lia | lia | lia | lia | lia | auto | right ].
      apply rot in K. exact K.
    - apply seq_NoDup.
    - rewrite Forall_forall. intros x Hx. apply in_seq in Hx. lia.
    - exists c. split; [ constructor; exact Pc | ]. intros i j k Hij Hjk Hk. cbn [length] in Hk.
      assert (Lc : forall p, p < length c -> nth p c 0 < S m /\ nth p c 0 <> 0).
      { intros p Hp. assert (X : In (nth p c 0) (seq 1 m)) by (eapply Permutation_in; [ apply Permutation_sym; exact Pc | apply nth_In; exact Hp ]). apply in_seq in X. lia. }
      assert (O : forall p q, p < q < length c -> ccw 0 (nth p c 0) (nth q c 0)) by (intros p q H; apply (ordered_nth (ccw 0)); assumption).
      destruct i as [ | i]; destruct j as [ | j]; try lia; destruct k as [ | k]; try lia; cbn [nth].
      + apply O. lia.
      + pose proof (Lc i ltac:(lia)) as Li. pose proof (Lc j ltac:(lia)) as Lj. pose proof (Lc k ltac:(lia)) as Lk.
        pose proof (O i j ltac:(lia)) as Oij. pose proof (O j k ltac:(lia)) as Ojk. pose proof (O i k ltac:(lia)) as Oik.
        pose proof (ccw_distinct _ _ _ Oij). pose proof (ccw_distinct _ _ _ Ojk). pose proof (ccw_distinct _ _ _ Oik).
        destruct (orient (nth i c 0) (nth j c 0) (nth k c 0)) as [K | K]; try lia; [ exact K | exfalso ].
        apply (outer 0 (nth i c 0) (nth k c 0) (nth j c 0)); try lia; assumption.
  Qed.

  Variable adj : nat -> nat -> Prop.
  Hypothesis adj_sym : forall i j, adj i j -> adj j i.
  Hypothesis adj_support : forall i j k l, i < n -> j < n -> k < n -> l < n -> adj i j -> ccw i j k -> ccw j i l -> False.
  Hypothesis support_adj : forall i j, i < n -> j < n -> i <> j -> (forall k, k < n -> k <> i -> k <> j -> ccw i j k) -> adj i j.
  Definition cyclic (c : list nat) : Prop := forall i j, i < j -> j < length c ->
    (adj (nth i c 0) (nth j c 0) <-> j = i + 1 \/ (i = 0 /\ j = length c - 1)).
  Lemma convex_cyclic : forall c, Permutation (seq 0 n) c -> convex c -> cyclic c.
  Proof.
    intros c Pc Cc i j Hij Hj.
    assert (Lc : length c = n) by (apply Permutation_length in Pc; rewrite seq_length in Pc; auto).
    assert (Rc : forall p, p < length c -> nth p c 0 < n).
    { intros p Hp. assert (X : In (nth p c 0) (seq 0 n)) by (eapply Permutation_in; [ apply Permutation_sym; exact Pc | apply nth_In; exact Hp ]). apply in_seq in X. lia. }
    assert (Dc : NoDup c) by (eapply Permutation_NoDup; [ exact Pc | apply seq_NoDup ]).
    assert (At : forall k, k < n -> exists p, p < length c /\ nth p c 0 = k).
    { intros k Hk. apply In_nth. eapply Permutation_in; [ exact Pc | ]. apply in_seq. lia. }
    assert (Ne : forall p q, p < length c -> q < length c -> p <> q -> nth p c 0 <> nth q c 0).
    { intros p q Hp Hq N E. apply N. apply (proj1 (NoDup_nth c 0) Dc p q Hp Hq E). }
    split.
    - intro A. destruct (Nat.eq_dec j (i + 1)) as [E | E]; [ auto | ]. destruct (Nat.eq_dec i 0) as [E0 | E0].
      + destruct (Nat.eq_dec j (length c - 1)) as [E1 | E1]; [ auto | exfalso ].
        apply (adj_support (nth i c 0) (nth j c 0) (nth (j + 1) c 0) (nth (i + 1) c 0)); try (apply Rc; lia); [ exact A | apply Cc; lia | ].
        apply rot, rot. apply Cc; lia.
      + exfalso. apply (adj_support (nth i c 0) (nth j c 0) (nth 0 c 0) (nth (i + 1) c 0)); try (apply Rc; lia); [ exact A | | ].
        * apply rot. apply Cc; lia.
        * apply rot, rot. apply Cc; lia.
    - intros [-> | [-> ->] ].
      + apply support_adj; try (apply Rc; lia); [ apply Ne; lia | ]. intros k Hk N1 N2. destruct (At k Hk) as (p & Hp & <-).
        assert (p <> i) by (intros ->; auto). assert (p <> i + 1) by (intros ->; auto).
        destruct (Nat.lt_ge_cases p i); [ apply rot; apply Cc; lia | apply Cc; lia ].
      + apply adj_sym. apply support_adj; try (apply Rc; lia); [ apply Ne; lia | ]. intros k Hk N1 N2. destruct (At k Hk) as (p & Hp & <-).
        assert (p <> 0) by (intros ->; auto). assert (p <> length c - 1) by (intros ->; auto). apply rot, rot. apply Cc; lia.
  Qed.

  (** The same cycle the other way around. *)
  Definition back (c : list nat) : list nat := match c with [] => [] | a :: r => a :: rev r end.
  Lemma nth_back : forall c i, 0 < i -> i < length c -> nth i (back c) 0 = nth (length c - i) c 0.
  Proof.
    intros [ | a r] i H0 H; [ cbn in H; lia | ]. destruct i as [ | i]; [ lia | ]. cbn [back nth length] in *. rewrite rev_nth by lia.
    replace (S (length r) - S i) with (S (length r - S i)) by lia. reflexivity.
  Qed.
  Lemma length_back : forall c, length (back c) = length c.
  Proof. intros [ | a r]; cbn; [ reflexivity | rewrite rev_length; reflexivity ]. Qed.
  Lemma cyclic_back : forall c, cyclic c -> cyclic (back c).
  Proof.
    intros c H i j Hij Hj. rewrite length_back in *. rewrite (nth_back c j) by lia. destruct (Nat.eq_dec i 0) as [-> | Ni].
    - replace (nth 0 (back c) 0) with (nth 0 c 0) by (destruct c; reflexivity). rewrite (H 0 (length c - j)) by lia. lia.
    - rewrite (nth_back c i) by lia.
      split; [ intro A; apply adj_sym in A; apply (H (length c - j) (length c - i)) in A; lia | intro A ]. apply adj_sym. apply (H (length c - j) (length c - i)); lia.
  Qed.
End Convex.

(** ** The walk *)
Section Walk.
  Variable n : nat.
  Variable adj : nat -> nat -> Prop.
  Variable inters : list (region * region).
  Variable edges : list (nat * nat).
  Hypothesis Hn : length inters = n.
  Hypothesis N3 : 3 <= n.
  Hypothesis N6 : n <= 6.
  Hypothesis adj_sym : forall i j, adj i j -> adj j i.
  Hypothesis edges_ok : forall i j, In (i, j) edges <-> i < j /\ j < n /\ adj i j.
  Definition hull_at (i : nat) : region := match nth_error inters i with Some e => convex_hull (fst e) (snd e) | None => 0%N end.

  Lemma next_ok : forall visited es i, length visited = n -> (forall j k, In (j, k) es -> j < n /\ k < n) ->
    (exists j, (In (i, j) es \/ In (j, i) es) /\ nth_error visited j = Some false) ->
    exists j, next_inter visited es i = Ok j /\ (In (i, j) es \/ In (j, i) es) /\ nth_error visited j = Some false.
  Proof.
    intros visited es i Lv. induction es as [ | [j k] es IH]; intros R (x & E & V); [ destruct E as [ [ ] | [ ] ] | ]. cbn [next_inter].
    destruct (R j k (or_introl eq_refl)) as [Rj Rk].
    assert (Vk : exists b, vec_at visited k = Ok b /\ nth_error visited k = Some b).
    { destruct (vec_at_lt bool visited k) as (b & Hb); [ lia | ]. exists b. split; [ exact Hb | apply vec_at_ok; exact Hb ]. }
    assert (Vj : exists b, vec_at visited j = Ok b /\ nth_error visited j = Some b).
    { destruct (vec_at_lt bool visited j) as (b & Hb); [ lia | ]. exists b. split; [ exact Hb | apply vec_at_ok; exact Hb ]. }
    destruct Vk as (bk & -> & Nk). destruct Vj as (bj & -> & Nj).
    assert (IH' : (exists x, (In (i, x) es \/ In (x, i) es) /\ nth_error visited x = Some false) ->
      exists x, next_inter visited es i = Ok x /\ (In (i, x) ((j, k) :: es) \/ In (x, i) ((j, k) :: es)) /\ nth_error visited x = Some false).
    { intro H. destruct IH as (y & Y1 & Y2 & Y3); [ intros; apply R; right; assumption | exact H | ]. exists y. split; [ exact Y1 | ]. split; [ | exact Y3 ]. destruct Y2; [ left; right | right; right ]; assumption. }
    destruct (j =? i) eqn:Eji; cbn [bind andb].
    - apply Nat.eqb_eq in Eji. subst j. destruct bk; cbn [negb andb].
      + destruct (k =? i) eqn:Eki; cbn [bind andb].
        * apply Nat.eqb_eq in Eki. subst k. rewrite Nk in Nj. injection Nj as <-. cbn [negb andb]. apply IH'. exists x. split; [ | exact V ].
          destruct E as [ [E | E] | [E | E] ]; auto; injection E as <-; congruence.
        * cbn [bind andb]. apply IH'. exists x. split; [ | exact V ]. destruct E as [ [E | E] | [E | E] ]; auto; injection E; intros; subst; [ congruence | ].
          rewrite Nat.eqb_refl in Eki. discriminate.
      + exists k. split; [ reflexivity | ]. split; [ left; left; reflexivity | exact Nk ].
    - cbn [negb andb]. destruct (k =? i) eqn:Eki; cbn [bind andb].
      + apply Nat.eqb_eq in Eki. subst k. destruct bj; cbn [negb andb].
        * apply IH'. exists x. split; [ | exact V ]. destruct E as [ [E | E] | [E | E] ]; auto; injection E; intros; subst; [ rewrite Nat.eqb_refl in Eji; discriminate | congruence ].
        * exists j. split; [ reflexivity | ]. split; [ right; left; reflexivity | exact Nj ].
      + apply IH'. exists x. split; [ | exact V ]. destruct E as [ [E | E] | [E | E] ]; auto; injection E; intros; subst; [ rewrite Nat.eqb_refl in Eji | rewrite Nat.eqb_refl in Eki ]; discriminate.
  Qed.

  (** After [t + 1] steps along a cycle. *)
  Lemma walk_ok : forall c, Permutation (seq 0 n) c -> cyclic adj c -> forall rest t fuel visited,
    t + 1 + rest = n -> rest < fuel -> (t = 0 -> rest = 0) -> length visited = n ->
    (forall p, p < n -> nth_error visited (nth p c 0) = Some (p <? t)) ->
    walk fuel inters edges visited (nth t c 0) (map hull_at (firstn t c)) = Ok (map hull_at c).
  Proof.
    intros c Pc Cc.
    assert (Lc : length c = n) by (apply Permutation_length in Pc; rewrite seq_length in Pc; auto).
    assert (Rc : forall p, p < n -> nth p c 0 < n).
    { intros p Hp. assert (X : In (nth p c 0) (seq 0 n)) by (eapply Permutation_in; [ apply Permutation_sym; exact Pc | apply nth_In; lia ]). apply in_seq in X. lia. }
    assert (Dc : NoDup c) by (eapply Permutation_NoDup; [ exact Pc | apply seq_NoDup ]).
    assert (Ne : forall p q, p < n -> q < n -> p <> q -> nth p c 0 <> nth q c 0).
    { intros p q Hp Hq N E. apply N. rewrite <- Lc in Hp, Hq. apply (proj1 (NoDup_nth c 0) Dc p q Hp Hq E). }
    assert (At : forall k, k < n -> exists p, p < n /\ nth p c 0 = k).
    { intros k Hk. rewrite <- Lc. apply In_nth. eapply Permutation_in; [ exact Pc | ]. apply in_seq. lia. }
    assert (Fs : forall t, t < n -> firstn (S t) c = firstn t c ++ [nth t c 0]).
    { intros t Ht. rewrite <- (firstn_skipn t c) at 1. rewrite firstn_app, firstn_length, Lc, (Nat.min_l t n) by lia. replace (S t - t) with 1 by lia.
      rewrite firstn_firstn, Nat.min_r by lia. f_equal. destruct (skipn t c) as [ | y r] eqn:Es.
      - exfalso. assert (X : length (skipn t c) = 0) by (rewrite Es; reflexivity). rewrite skipn_length in X. lia.
      - cbn [firstn]. f_equal. rewrite <- (firstn_skipn t c) at 1. rewrite app_nth2; rewrite firstn_length, Lc, Nat.min_l by lia; [ | lia ]. rewrite Nat.sub_diag, Es. reflexivity. }
    induction rest as [ | rest IH]; intros t fuel visited Ht Hf H0 Lv Hv; (destruct fuel as [ | fuel]; [ lia | ]); cbn [walk].
    all: pose proof (Rc t ltac:(lia)) as Rt; destruct (nth_error inters (nth t c 0)) as [e | ] eqn:Ee; [ | apply nth_error_None in Ee; lia ].
    all: unfold vec_at at 1; rewrite Ee; cbn [bind].
    all: assert (Lf : length (map hull_at (firstn t c)) = t) by (rewrite map_length, firstn_length; lia).
    all: unfold push6; replace (length (map hull_at (firstn t c)) <? 6) with true by (symmetry; apply Nat.ltb_lt; lia); cbn [bind].
    all: assert (Eh : map hull_at (firstn t c) ++ [convex_hull (fst e) (snd e)] = map hull_at (firstn (S t) c)) by (rewrite Fs by lia; rewrite map_app; cbn [map]; unfold hull_at at 3; rewrite Ee; reflexivity).
    all: rewrite Eh; unfold vec_set; replace (nth t c 0 <? length visited) with true by (symmetry; apply Nat.ltb_lt; lia); cbn [bind].
    all: rewrite map_length, firstn_length, Lc, Hn, Nat.min_l by lia.
    - replace (S t) with n by lia. rewrite Nat.eqb_refl. rewrite <- Lc, firstn_all. reflexivity.
    - replace (S t =? n) with false by (symmetry; apply Nat.eqb_neq; lia).
      set (visited' := list_set visited (nth t c 0) true).
      assert (Hv' : forall p, p < n -> nth_error visited' (nth p c 0) = Some (p <? S t)).
      { intros p Hp. unfold visited'. destruct (Nat.eq_dec p t) as [-> | Np].
        - rewrite nth_error_list_set_eq by lia. f_equal. symmetry. apply Nat.ltb_lt. lia.
        - rewrite nth_error_list_set_neq by (apply Ne; lia). rewrite Hv by exact Hp. f_equal.
          destruct (p <? t) eqn:X; symmetry; [ apply Nat.ltb_lt; apply Nat.ltb_lt in X; lia | apply Nat.ltb_ge; apply Nat.ltb_ge in X; lia ]. }
      assert (Lv' : length visited' = n) by (unfold visited'; rewrite length_list_set; exact Lv).
      assert (T0 : t <> 0) by (intro X; specialize (H0 X); lia).
      assert (Nb : forall i j, In (i, j) edges \/ In (j, i) edges -> adj i j /\ i < n /\ j < n /\ i <> j).
      { intros i j [X | X]; apply edges_ok in X; repeat split; try lia; [ tauto | apply adj_sym; tauto ]. }
      assert (Bn : forall i j, adj i j -> i < n -> j < n -> i <> j -> In (i, j) edges \/ In (j, i) edges).
      { intros i j A Li Lj Nij. rewrite !edges_ok. destruct (Nat.lt_ge_cases i j); [ left | right ]; repeat split; try lia; auto. }
      destruct (next_ok visited' edges (nth t c 0) Lv') as (x & -> & X1 & X2).
      + intros j k X. apply edges_ok in X. lia.
      + exists (nth (S t) c 0). split; [ | rewrite Hv' by lia; f_equal; apply Nat.ltb_ge; lia ].
        apply Bn; try (apply Rc; lia); [ apply Cc; lia | apply Ne; lia ].
      + cbn [bind]. apply Nb in X1. destruct X1 as (A & _ & Lx & Nx). destruct (At x Lx) as (p & Hp & <-).
        rewrite Hv' in X2 by exact Hp. injection X2 as X2. apply Nat.ltb_ge in X2.
        assert (Ep : p = S t).
        { destruct (Nat.eq_dec p (S t)) as [E | E]; [ exact E | exfalso ]. apply (Cc t p) in A; lia. }
        subst p. apply IH; try assumption; lia.
  Qed.

  (** The whole walk: some cycle that starts with the first intersection. *)
  Lemma walk_all : forall r f6, 5 <= f6 -> Permutation (seq 0 n) (0 :: r) -> cyclic adj (0 :: r) ->
    exists c, Permutation (seq 0 n) c /\ cyclic adj c /\
      walk (S f6) inters edges (repeat false n) 0 [] = Ok (map hull_at c).
  Proof.
    intros r f6 F6 Pr Cr. set (c := 0 :: r) in *.
    assert (Lc : length c = n) by (apply Permutation_length in Pr; rewrite seq_length in Pr; auto).
    cbn [walk].
    destruct (nth_error inters 0) as [e | ] eqn:Ee; [ | apply nth_error_None in Ee; lia ]. unfold vec_at at 1. rewrite Ee. cbn [bind].
    unfold push6. cbn [length Nat.ltb Nat.leb bind app]. unfold vec_set. rewrite repeat_length. replace (0 <? n) with true by (symmetry; apply Nat.ltb_lt; lia). cbn [bind].
    rewrite Hn. replace (1 =? n) with false by (symmetry; apply Nat.eqb_neq; lia).
    set (visited := list_set (repeat false n) 0 true).
    assert (Lv : length visited = n) by (unfold visited; rewrite length_list_set, repeat_length; reflexivity).
    assert (V : forall x, x < n -> nth_error visited x = Some (x =? 0)).
    { intros x Hx. unfold visited. destruct x as [ | x]; [ apply nth_error_list_set_eq; rewrite repeat_length; lia | ].
      rewrite nth_error_list_set_neq by lia. cbn [Nat.eqb]. apply nth_error_repeat. exact Hx. }
    assert (Both : forall c, Permutation (seq 0 n) c -> cyclic adj c -> nth 0 c 0 = 0 -> walk f6 inters edges visited (nth 1 c 0) [convex_hull (fst e) (snd e)] = Ok (map hull_at c)).
    { intros d Pd Cd E0. assert (Ld : length d = n) by (apply Permutation_length in Pd; rewrite seq_length in Pd; auto).
      replace [convex_hull (fst e) (snd e)] with (map hull_at (firstn 1 d)).
      - apply (walk_ok d Pd Cd (n - 2)); try lia. intros p Hp.
        assert (Dd : NoDup d) by (eapply Permutation_NoDup; [ exact Pd | apply seq_NoDup ]).
        assert (Rp : nth p d 0 < n). { assert (X : In (nth p d 0) (seq 0 n)) by (eapply Permutation_in; [ apply Permutation_sym; exact Pd | apply nth_In; lia ]). apply in_seq in X. lia. }
        rewrite V by exact Rp. f_equal. destruct (Nat.eq_dec p 0) as [-> | Np]; [ rewrite E0; reflexivity | ].
        replace (p <? 1) with false by (symmetry; apply Nat.ltb_ge; lia). apply Nat.eqb_neq. intro X. apply Np.
        apply (proj1 (NoDup_nth d 0) Dd p 0); [ lia | lia | rewrite E0; exact X ].
      - destruct d as [ | y d]; [ cbn in Ld; lia | ]. cbn in E0. subst y. cbn [firstn map]. unfold hull_at. rewrite Ee. reflexivity. }
    assert (Ne1 : exists c', Permutation (seq 0 n) c' /\ cyclic adj c' /\ nth 0 c' 0 = 0 /\ next_inter visited edges 0 = Ok (nth 1 c' 0)).
    { destruct (next_ok visited edges 0 Lv) as (x & Ex & X1 & X2).
      - intros j k X. apply edges_ok in X. lia.
      - assert (A : adj (nth 0 c 0) (nth 1 c 0)) by (apply Cr; lia).
        assert (R1 : nth 1 c 0 < n). { assert (X : In (nth 1 c 0) (seq 0 n)) by (eapply Permutation_in; [ apply Permutation_sym; exact Pr | apply nth_In; lia ]). apply in_seq in X. lia. }
        assert (Dr : NoDup c) by (eapply Permutation_NoDup; [ exact Pr | apply seq_NoDup ]).
        assert (N1 : nth 1 c 0 <> 0). { intro X. change 0 with (nth 0 c 0) in X at 2. apply (proj1 (NoDup_nth c 0) Dr 1 0) in X; lia. }
        exists (nth 1 c 0). split; [ left; apply edges_ok; split; [ lia | split; [ exact R1 | exact A ] ] | rewrite V by exact R1; f_equal; apply Nat.eqb_neq; exact N1 ].
      - assert (A : adj 0 x /\ x < n /\ x <> 0).
        { destruct X1 as [X1 | X1]; apply edges_ok in X1; [ repeat split; [ tauto | lia | lia ] | lia ]. }
        destruct A as (A & Lx & Nx).
        assert (Ix : exists p, p < n /\ nth p c 0 = x). { rewrite <- Lc. apply In_nth. eapply Permutation_in; [ exact Pr | ]. apply in_seq. lia. }
        destruct Ix as (p & Hp & Ep). assert (Np : p <> 0) by (intro X; subst p; apply Nx; rewrite <- Ep; reflexivity).
        change 0 with (nth 0 c 0) in A at 1. rewrite <- Ep in A. apply (Cr 0 p) in A; [ | lia | lia ].
        destruct A as [A | [_ A] ].
        + exists c. split; [ exact Pr | ]. split; [ exact Cr | ]. split; [ reflexivity | ]. rewrite Ex. f_equal. rewrite <- Ep. f_equal. lia.
        + exists (back c). split; [ unfold c, back; eapply perm_trans; [ exact Pr | ]; constructor; apply Permutation_rev | ].
          split; [ apply cyclic_back; assumption | ]. split; [ reflexivity | ]. rewrite Ex. f_equal. rewrite nth_back by lia. rewrite <- Ep. f_equal. exact A. }
    destruct Ne1 as (c' & P' & C' & Z' & ->). cbn [bind]. exists c'. split; [ exact P' | ]. split; [ exact C' | ]. apply Both; assumption.
  Qed.
End Walk.
