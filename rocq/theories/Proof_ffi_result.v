(** * The result of the face intersection *)
From Coq Require Import List Arith Bool NArith QArith Lqa Lia Setoid Permutation.
From Verif Require Import Model_base Proof_base Model_geometry Model_region Model_points Model_ffi.
From Verif Require Import Spec_defects Spec_ffi Proof_extreme Proof_hull Proof_ffi_orient Proof_ffi_calls Proof_ffi_plane Proof_ffi_edge Proof_ffi_all Proof_polygon Proof_ffi_order Proof_pairs.
Import ListNotations.
Local Open Scope nat_scope.

(** ** The pairs of vertices on a common edge *)
Lemma side_union : forall b m m', convex_hull (side b m) (side b m') = side b (union m m').
Proof. intros [ | ] [ [ [ | ] [ | ] ] [ | ] ] [ [ [ | ] [ | ] ] [ | ] ]; reflexivity. Qed.
Lemma union_bits : forall m m', bits m <> 0 -> bits (union m m') <> 0.
Proof. intros [ [ [ | ] [ | ] ] [ | ] ] [ [ [ | ] [ | ] ] [ | ] ] H; cbn in *; lia. Qed.
Definition adjb (e e' : mask * mask) : bool := (bits (union (fst e) (fst e')) =? 2) || (bits (union (snd e) (snd e')) =? 2).
Lemma on_common_edge_ok : forall e e', bits (fst e) <> 0 -> bits (snd e) <> 0 -> on_common_edge (enc e) (enc e') = Ok (adjb e e').
Proof.
  intros [m k] [m' k'] Hm Hk. unfold on_common_edge, enc, adjb. cbn [fst snd] in *. rewrite !side_union.
  pose proof (union_bits m m' Hm) as B1. pose proof (union_bits k k' Hk) as B2. rewrite !side_dim by assumption. cbn [bind].
  replace (bits (union m m') - 1 =? 1) with (bits (union m m') =? 2) by (destruct (bits (union m m')) as [ | [ | [ | b] ] ]; try reflexivity; lia).
  replace (bits (union k k') - 1 =? 1) with (bits (union k k') =? 2) by (destruct (bits (union k k')) as [ | [ | [ | b] ] ]; try reflexivity; lia).
  destruct (bits (union m m') =? 2); reflexivity.
Qed.

Section Edges.
  Variable lst : list (mask * mask).
  Hypothesis Hb : forall e, In e lst -> bits (fst e) <> 0 /\ bits (snd e) <> 0.
  Notation n := (length lst).
  Notation ent := (fun i => nth i lst none).
  Definition row (i : nat) : list (nat * nat) := map (pair i) (filter (fun j => adjb (ent i) (ent j)) (seq (i + 1) (n - (i + 1)))).
  Definition pairs : list (nat * nat) := flat_map row (seq 0 (n - 1)).
  Lemma in_pairs : forall i j, In (i, j) pairs <-> i < j /\ j < n /\ adjb (ent i) (ent j) = true.
  Proof.
    intros i j. unfold pairs. rewrite in_flat_map. split.
    - intros (i' & Hi & J). apply in_map_iff in J. destruct J as (j' & E & J). injection E as <- <-. apply filter_In in J. destruct J as [J A]. apply in_seq in J. split; [ lia | ]. split; [ lia | exact A ].
    - intros (H1 & H2 & A). exists i. split; [ apply in_seq; lia | ]. apply in_map. apply filter_In. split; [ apply in_seq; lia | exact A ].
  Qed.
  Lemma rows_nodup : forall l, NoDup l -> NoDup (flat_map row l).
  Proof.
    induction l as [ | i l IH]; intro D; [ constructor | ]. inversion D as [ | ? ? Ni D']; subst. cbn [flat_map]. apply NoDup_app_disjoint; [ | apply IH; exact D' | ].
    - unfold row. apply FinFun.Injective_map_NoDup; [ intros x y H; injection H; auto | apply NoDup_filter, seq_NoDup ].
    - intros [x y] A B. apply in_map_iff in A. destruct A as (j & E & _). injection E as <- _. apply in_flat_map in B. destruct B as (i' & Hi & B). apply in_map_iff in B. destruct B as (j' & E & _).
      injection E as -> _. auto.
  Qed.
  Lemma ent_at : forall i, i < n -> vec_at (map enc lst) i = Ok (enc (ent i)) /\ In (ent i) lst.
  Proof.
    intros i Hi. split; [ | apply nth_In; exact Hi ]. apply vec_at_ok. rewrite nth_error_map, (nth_error_nth' lst none) by exact Hi. reflexivity.
  Qed.
  Lemma inter_edges_ok : length pairs <= 6 -> inter_edges (map enc lst) = Ok pairs.
  Proof.
    intro H. unfold inter_edges. rewrite map_length. unfold pairs in *.
    assert (In' : forall i l acc, i < n -> (forall j, In j l -> j < n) ->
      length (acc ++ map (pair i) (filter (fun j => adjb (ent i) (ent j)) l)) <= 6 ->
      foldM (fun edges j => let* rj := vec_at (map enc lst) j in let* b := on_common_edge (enc (ent i)) rj in if b then push6 edges (i, j) else Ok edges) acc l =
      Ok (acc ++ map (pair i) (filter (fun j => adjb (ent i) (ent j)) l))).
    { intros i l. induction l as [ | j l IH]; intros acc Hi Hl Le; [ cbn; rewrite app_nil_r; reflexivity | ]. cbn [foldM].
      destruct (ent_at j (Hl j (or_introl eq_refl))) as [-> Ij]. cbn [bind]. destruct (Hb _ (proj2 (ent_at i Hi))) as [B1 B2]. rewrite on_common_edge_ok by assumption. cbn [bind filter] in *.
      destruct (adjb (ent i) (ent j)); cbn [bind].
      - cbn [map] in Le |- *. rewrite app_length in Le. cbn [length] in Le. unfold push6. replace (length acc <? 6) with true by (symmetry; apply Nat.ltb_lt; lia). cbn [bind].
        rewrite IH; [ rewrite <- app_assoc; reflexivity | exact Hi | intros x Hx; apply Hl; right; exact Hx | ]. rewrite <- app_assoc, app_length. cbn [app length]. lia.
      - apply IH; [ exact Hi | intros x Hx; apply Hl; right; exact Hx | exact Le ]. }
    assert (Out : forall l acc, (forall i, In i l -> i < n) -> length (acc ++ flat_map row l) <= 6 ->
      foldM (fun edges i => let* ri := vec_at (map enc lst) i in
        foldM (fun edges j => let* rj := vec_at (map enc lst) j in let* b := on_common_edge ri rj in if b then push6 edges (i, j) else Ok edges) edges (seq (i + 1) (n - (i + 1)))) acc l =
      Ok (acc ++ flat_map row l)).
    { induction l as [ | i l IH]; intros acc Hl Le; [ cbn; rewrite app_nil_r; reflexivity | ]. cbn [foldM flat_map].
      assert (Hi : i < n) by (apply Hl; left; reflexivity). destruct (ent_at i Hi) as [-> Ii]. cbn [bind]. cbn [flat_map] in Le. rewrite app_assoc in Le.
      rewrite In'; [ | exact Hi | intros j Hj; apply in_seq in Hj; lia | rewrite app_length in Le; unfold row in Le at 1; lia ]. cbn [bind]. fold (row i).
      rewrite IH, app_assoc; [ reflexivity | intros x Hx; apply Hl; right; exact Hx | exact Le ]. }
    rewrite Out; [ reflexivity | intros i Hi; apply in_seq in Hi; lia | exact H ].
  Qed.
  (** One or two vertices need no order. *)
  Lemma small_ok : n <= 2 -> ordered_result (map enc lst) = Ok (map (hull_at (map enc lst)) (seq 0 n)).
  Proof.
    intro H. unfold ordered_result. rewrite map_length. replace (n <=? 2) with true by (symmetry; apply Nat.leb_le; exact H).
    destruct lst as [ | e1 [ | e2 [ | e3 l] ] ]; cbn in *; try reflexivity. lia.
  Qed.
End Edges.

(** ** Segments *)
Section Segments.
  Local Open Scope Q_scope.
  Lemma on_segment_mix : forall y z x, on_segment y z x <-> exists t, 0 <= t <= 1 /\ same_point x (mix y z t).
  Proof. intros y z x. unfold on_segment, same_point, mix. cbn [vx vy vz fst snd]. reflexivity. Qed.
  Lemma segment_same : forall y z y' z' x x', same_point y y' -> same_point z z' -> same_point x x' -> on_segment y z x -> on_segment y' z' x'.
  Proof.
    intros y z y' z' x x' (A & B & C) (D & E & F) (G & H & I) (t & T & X & Y & Z). exists t. split; [ exact T | ].
    rewrite <- A, <- B, <- C, <- D, <- E, <- F, <- G, <- H, <- I. auto.
  Qed.
  Lemma side_same : forall l r y z y' z', same_point y y' -> same_point z z' -> is_side l r y z -> is_side l r y' z'.
  Proof.
    intros l r y z y' z' A B H u v U V M. destruct (H u v U V) as [X Y].
    - eapply segment_same; [ apply same_sym; exact A | apply same_sym; exact B | apply same_refl | exact M ].
    - split; [ apply (segment_same y z y' z' u u A B (same_refl _) X) | apply (segment_same y z y' z' v v A B (same_refl _) Y) ].
  Qed.
  Lemma side_sym : forall l r y z, is_side l r y z -> is_side l r z y.
  Proof.
    assert (K : forall y z x, on_segment y z x -> on_segment z y x).
    { intros y z x (t & T & X & Y & Z). exists (1 - t). split; [ lra | ]. rewrite X, Y, Z. repeat split; ring. }
    intros l r y z H u v U V M. destruct (H u v U V (K _ _ _ M)). auto.
  Qed.
  (** A point of the intersection on the line of two vertices lies between them. *)
  Lemma line_between : forall l r y z x, is_vertex l r y -> is_vertex l r z -> ~ same_point y z -> both l r x ->
    zero3 (vcross (vsub z y) (vsub x y)) -> on_segment y z x.
  Proof.
    intros l r y z x Vy Vz N Bx Z.
    assert (Nd : ~ zero3 (vsub z y)) by (intros (A & B & C); apply N; destruct y as [ [? ?] ?], z as [ [? ?] ?]; pts; repeat split; lra).
    destruct (parallel _ _ Nd Z) as (t & E).
    destruct (Qlt_le_dec t 0) as [T0 | T0]; [ exfalso | destruct (Qlt_le_dec 1 t) as [T1 | T1]; [ exfalso | ] ].
    - assert (P : 0 < 1 - t) by lra. assert (Et : / (1 - t) * (1 - t) == 1) by (field; lra). set (s := / (1 - t)) in *.
      assert (S0 : 0 < s) by (apply Qinv_lt_0_compat; exact P). assert (S1 : s < 1) by nra.
      destruct (vertex_mix l r y x z (1 - s) Vy Bx (proj1 Vz)) as [_ X]; [ lra | lra | | exact (N X) ].
      destruct y as [ [i0 i1] i2], z as [ [j0 j1] j2], x as [ [k0 k1] k2]. destruct E as (E0 & E1 & E2). pts.
      assert (K : forall a b c, c - a == t * (b - a) -> a == (1 - (1 - s)) * c + (1 - s) * b).
      { intros a b c H. assert (Ec : c == a + t * (b - a)) by lra. rewrite Ec. setoid_replace ((1 - (1 - s)) * (a + t * (b - a)) + (1 - s) * b) with (b + (s * (1 - t)) * (a - b)) by ring. rewrite Et. ring. }
      repeat split; apply K; assumption.
    - assert (Et : / t * t == 1) by (field; lra). set (s := / t) in *.
      assert (S0 : 0 < s) by (apply Qinv_lt_0_compat; lra). assert (S1 : s < 1) by nra.
      destruct (vertex_mix l r z y x s Vz (proj1 Vy) Bx) as [X _]; [ lra | lra | | exact (N (same_sym _ _ X)) ].
      destruct y as [ [i0 i1] i2], z as [ [j0 j1] j2], x as [ [k0 k1] k2]. destruct E as (E0 & E1 & E2). pts.
      assert (K : forall a b c, c - a == t * (b - a) -> b == (1 - s) * a + s * c).
      { intros a b c H. assert (Ec : c == a + t * (b - a)) by lra. rewrite Ec. setoid_replace ((1 - s) * a + s * (a + t * (b - a))) with (a + (s * t) * (b - a)) by ring. rewrite Et. ring. }
      repeat split; apply K; assumption.
    - exists t. split; [ lra | ]. destruct y as [ [i0 i1] i2], z as [ [j0 j1] j2], x as [ [k0 k1] k2]. destruct E as (E0 & E1 & E2). pts. repeat split; lra.
  Qed.
  (** Two vertices with a common zero coordinate in one of the triangles. *)
  Lemma zero_side : forall (l r t : triangle) y z u v c, (c < 3)%nat -> nondegenerate t -> (forall x, both l r x -> inside t x) ->
    is_vertex l r y -> is_vertex l r z -> ~ same_point y z -> one u -> one v -> same_point y (cmb t u) -> same_point z (cmb t v) ->
    crd c u == 0 -> crd c v == 0 -> is_side l r y z.
  Proof.
    intros l r t y z u v c Hc Nt In_t Vy Vz N Ou Ov Yu Zv Zu0 Zv0 p q Bp Bq (s & S & M).
    assert (K : forall x, both l r x -> exists w, one w /\ same_point x (cmb t w) /\ 0 <= crd c w).
    { intros x Bx. destruct (In_t x Bx) as (w0 & w1 & w2 & (P0 & P1 & P2 & Sw) & X). exists (w0, w1, w2). split; [ exact Sw | ]. split; [ exact X | ]. destruct c as [ | [ | c] ]; assumption. }
    destruct (K p Bp) as (a & Oa & Pa & A0). destruct (K q Bq) as (b & Ob & Qb & B0).
    assert (E : crd c a + crd c b == 0).
    { destruct a as [ [a0 a1] a2] eqn:Ea, b as [ [b0 b1] b2] eqn:Eb, u as [ [u0 u1] u2] eqn:Eu, v as [ [v0 v1] v2] eqn:Ev. unfold one, cmb in *.
      destruct (comb_inj t (a0 + b0) (a1 + b1) (a2 + b2) (2 * ((1 - s) * u0 + s * v0)) (2 * ((1 - s) * u1 + s * v1)) (2 * ((1 - s) * u2 + s * v2)) Nt) as (E0 & E1 & E2).
      - transitivity ((a0 + a1 + a2) + (b0 + b1 + b2)); [ ring | ]. transitivity (2 * ((1 - s) * (u0 + u1 + u2) + s * (v0 + v1 + v2))); [ rewrite Oa, Ob, Ou, Ov; ring | ring ].
      - destruct t as [ [i j] k]. destruct M as (M0 & M1 & M2), Pa as (G0 & G1 & G2), Qb as (H0 & H1 & H2), Yu as (Y0 & Y1 & Y2), Zv as (Z0 & Z1 & Z2).
        unfold middle, same_point, comb in *. cbn [vx vy vz fst snd] in *. rewrite G0, H0, Y0, Z0 in M0. rewrite G1, H1, Y1, Z1 in M1. rewrite G2, H2, Y2, Z2 in M2.
        assert (Hf : forall e g, e / 2 == g -> e == 2 * g) by (intros e g Heg; rewrite <- Heg; field).
        apply Hf in M0. apply Hf in M1. apply Hf in M2. repeat split; lra.
      - destruct c as [ | [ | c] ]; cbn in *; [ rewrite E0 | rewrite E1 | rewrite E2 ]; rewrite Zu0, Zv0; ring. }
    assert (Fin : forall x w, both l r x -> one w -> same_point x (cmb t w) -> crd c w == 0 -> on_segment y z x).
    { intros x w Bx Ow Xw W0. apply (line_between l r y z x Vy Vz N Bx). destruct (cross_bdet t y z x u v w Ou Ov Ow Yu Zv Xw) as (X & Y & Z).
      unfold zero3. rewrite X, Y, Z. unfold scale. cbn [vx vy vz fst snd]. rewrite (bdet_column c u v w Hc Zu0 Zv0 W0). repeat split; ring. }
    split; [ apply (Fin p a); auto; lra | apply (Fin q b); auto; lra ].
  Qed.
  (** At most two vertices: the intersection is the segment. *)
  Lemma two_hull : forall l r y z, nondegenerate l -> nondegenerate r -> (forall x, is_vertex l r x -> same_point x y \/ same_point x z) ->
    forall x, both l r x -> on_segment y z x.
  Proof.
    intros l r y z Nl Nr H.
    assert (K : forall x, both l r x -> on_segment y z x).
    { intros x B. apply (hull_vertices l r x Nl Nr) in B. destruct B as (w & F & T & X).
      assert (G : forall w, Forall (fun e => 0 <= fst e /\ is_vertex l r (snd e)) w -> exists al be, 0 <= al /\ 0 <= be /\ al + be == total w /\ same_point (wsum w) (lin al y be z)).
      { clear w F T X. induction w as [ | [c p] w IH]; intro F.
        - exists 0, 0. cbn. repeat split; try lra; ring.
        - inversion F as [ | ? ? [Pc Vp] F']; subst. cbn [fst snd] in *. destruct (IH F') as (al & be & A & B & S & (X & Y & Z)).
          destruct (H p Vp) as [ (E0 & E1 & E2) | (E0 & E1 & E2) ].
          + exists (c + al), be. cbn [total wsum]. split; [ lra | ]. split; [ lra | ]. split; [ lra | ]. unfold same_point, lin in *. cbn [vx vy vz fst snd] in *.
            rewrite E0, E1, E2, X, Y, Z. repeat split; ring.
          + exists al, (c + be). cbn [total wsum]. split; [ lra | ]. split; [ lra | ]. split; [ lra | ]. unfold same_point, lin in *. cbn [vx vy vz fst snd] in *.
            rewrite E0, E1, E2, X, Y, Z. repeat split; ring. }
      destruct (G w F) as (al & be & A & B & S & Y). rewrite T in S. exists be. split; [ lra | ]. assert (E : al == 1 - be) by lra.
      destruct X as (X0 & X1 & X2), Y as (Y0 & Y1 & Y2). unfold lin in *. cbn [vx vy vz fst snd] in *. rewrite X0, X1, X2, Y0, Y1, Y2, E. repeat split; ring. }
    exact K.
  Qed.
  Lemma two_side : forall l r y z, nondegenerate l -> nondegenerate r -> (forall x, is_vertex l r x -> same_point x y \/ same_point x z) -> is_side l r y z.
  Proof. intros l r y z Nl Nr H u v U V _. split; apply (two_hull l r y z Nl Nr H); assumption. Qed.
End Segments.

(** ** The whole list *)
Section Result.
  Variables L R : triangle.
  Hypothesis NL : nondegenerate L.
  Hypothesis NR : nondegenerate R.
  Variable lst : list (mask * mask).
  Hypothesis Dl : NoDup lst.
  Hypothesis Il : forall m k, In (m, k) lst <-> meet L R m k.
  Notation n := (length lst).
  Variable f : nat -> vec3 * tri * tri.
  Hypothesis Hf : forall i, i < n -> located L R lst i (f i).
  Notation px := (px f).
  Notation adj := (adj lst).

  Lemma lst_bits : forall e, In e lst -> bits (fst e) <> 0 /\ bits (snd e) <> 0.
  Proof. intros [m k] H. apply Il in H. destruct H as ((x & A & B) & _). split; eapply in_feature_bits; eassumption. Qed.
  Lemma adjb_adj : forall i j, adjb (nth i lst none) (nth j lst none) = true <-> adj i j.
  Proof. intros i j. unfold adjb, Proof_ffi_order.adj. rewrite orb_true_iff, !Nat.eqb_eq. reflexivity. Qed.

  Definition zc (m m' : mask) : nat := if negb (bit 0 m || bit 0 m') then 0 else if negb (bit 1 m || bit 1 m') then 1 else 2.
  Definition code (i j : nat) : nat :=
    let e := nth i lst none in let e' := nth j lst none in
    if bits (union (fst e) (fst e')) =? 2 then zc (fst e) (fst e') else 3 + zc (snd e) (snd e').
  Lemma zc_ok : forall m m', bits (union m m') = 2 -> zc m m' < 3 /\ bit (zc m m') m = false /\ bit (zc m m') m' = false.
  Proof. intros [ [ [ | ] [ | ] ] [ | ] ] [ [ [ | ] [ | ] ] [ | ] ] H; cbn in *; try lia; repeat split; lia. Qed.
  (** The coordinate with this number. *)
  Definition zero_at (c : nat) (i : nat) : Prop := if c <? 3 then (crd c (ul f i) == 0)%Q else (crd (c - 3) (ur f i) == 0)%Q.
  Lemma code_ok : forall i j, i < n -> j < n -> adj i j -> code i j < 6 /\ zero_at (code i j) i /\ zero_at (code i j) j.
  Proof.
    intros i j Hi Hj A. destruct (located_f L R lst f Hf i Hi) as (_ & _ & _ & _ & W1 & W2). destruct (located_f L R lst f Hf j Hj) as (_ & _ & _ & _ & W3 & W4).
    unfold code, zero_at, Proof_ffi_order.adj in *. cbn zeta. destruct (bits (union (fst (nth i lst none)) (fst (nth j lst none))) =? 2) eqn:E.
    - apply Nat.eqb_eq in E. destruct (zc_ok _ _ E) as (Z & B1 & B2). replace (zc (fst (nth i lst none)) (fst (nth j lst none)) <? 3) with true by (symmetry; apply Nat.ltb_lt; exact Z).
      split; [ lia | ]. split; [ eapply bit_crd in B1; [ exact B1 | exact Z | exact W1 ] | eapply bit_crd in B2; [ exact B2 | exact Z | exact W3 ] ].
    - apply Nat.eqb_neq in E. assert (E' : bits (union (snd (nth i lst none)) (snd (nth j lst none))) = 2) by tauto. destruct (zc_ok _ _ E') as (Z & B1 & B2).
      replace (3 + zc (snd (nth i lst none)) (snd (nth j lst none)) <? 3) with false by (symmetry; apply Nat.ltb_ge; lia).
      replace (3 + zc (snd (nth i lst none)) (snd (nth j lst none)) - 3) with (zc (snd (nth i lst none)) (snd (nth j lst none))) by lia.
      split; [ lia | ]. split; [ eapply bit_crd in B1; [ exact B1 | exact Z | exact W2 ] | eapply bit_crd in B2; [ exact B2 | exact Z | exact W4 ] ].
  Qed.
  Lemma three_zero : forall c i j k, c < 6 -> i < n -> j < n -> k < n -> i <> j -> j <> k -> i <> k -> zero_at c i -> zero_at c j -> zero_at c k -> False.
  Proof.
    intros c i j k Hc Hi Hj Hk A B C X Y Z. unfold zero_at in *. destruct (c <? 3) eqn:E.
    - apply Nat.ltb_lt in E. apply (proj1 (no_three L R NL NR lst Dl Il f Hf c i j k E Hi Hj Hk A B C)). auto.
    - apply Nat.ltb_ge in E. apply (proj2 (no_three L R NL NR lst Dl Il f Hf (c - 3) i j k ltac:(lia) Hi Hj Hk A B C)). auto.
  Qed.
  Lemma code_inj : forall i j i' j', i < n -> j < n -> i' < n -> j' < n -> i <> j -> i' <> j' -> adj i j -> adj i' j' -> code i j = code i' j' ->
    (i' = i \/ i' = j) /\ (j' = i \/ j' = j).
  Proof.
    intros i j i' j' Hi Hj Hi' Hj' N N' A A' E. destruct (code_ok i j Hi Hj A) as (C & Z1 & Z2). destruct (code_ok i' j' Hi' Hj' A') as (_ & Z3 & Z4). rewrite <- E in Z3, Z4.
    split.
    - destruct (Nat.eq_dec i' i), (Nat.eq_dec i' j); auto. exfalso. apply (three_zero (code i j) i j i'); auto.
    - destruct (Nat.eq_dec j' i), (Nat.eq_dec j' j); auto. exfalso. apply (three_zero (code i j) i j j'); auto.
  Qed.
  Lemma pairs_bound : length (pairs lst) <= 6.
  Proof.
    assert (D : NoDup (map (fun e => code (fst e) (snd e)) (pairs lst))).
    { assert (G : forall l, NoDup l -> incl l (pairs lst) -> NoDup (map (fun e => code (fst e) (snd e)) l)).
      { induction l as [ | [i j] l IH]; intros D I; [ constructor | ]. inversion D as [ | ? ? Ni D']; subst. cbn [map]. constructor; [ | apply IH; [ exact D' | intros x Hx; apply I; right; exact Hx ] ].
        intro J. apply in_map_iff in J. destruct J as ([i' j'] & E & J). cbn [fst snd] in E.
        pose proof (I _ (or_introl eq_refl)) as K. apply in_pairs in K. pose proof (I _ (or_intror J)) as K'. apply in_pairs in K'.
        rewrite adjb_adj in K, K'. apply Ni. assert (X : (i' = i \/ i' = j) /\ (j' = i \/ j' = j)) by (apply code_inj; try lia; try tauto; auto).
        replace i with i' by lia. replace j with j' by lia. exact J. }
      apply G; [ apply rows_nodup, seq_NoDup | intros x Hx; exact Hx ]. }
    assert (I : incl (map (fun e => code (fst e) (snd e)) (pairs lst)) (seq 0 6)).
    { intros c J. apply in_map_iff in J. destruct J as ([i j] & <- & J). apply in_pairs in J. rewrite adjb_adj in J. cbn [fst snd]. apply in_seq. pose proof (code_ok i j ltac:(lia) ltac:(lia) ltac:(tauto)). lia. }
    pose proof (NoDup_incl_length D I) as X. rewrite map_length, seq_length in X. exact X.
  Qed.
  (** A cycle has as many edges as vertices. *)
  Lemma count_bound : forall c, Permutation (seq 0 n) c -> cyclic adj c -> 3 <= n -> n <= 6.
  Proof.
    intros c Pc Cc N3.
    assert (Lc : length c = n) by (apply Permutation_length in Pc; rewrite seq_length in Pc; auto).
    assert (Rc : forall p, p < n -> nth p c 0 < n).
    { intros p Hp. assert (X : In (nth p c 0) (seq 0 n)) by (eapply Permutation_in; [ apply Permutation_sym; exact Pc | apply nth_In; lia ]). apply in_seq in X. lia. }
    assert (Dc : NoDup c) by (eapply Permutation_NoDup; [ exact Pc | apply seq_NoDup ]).
    assert (Ne : forall p q, p < n -> q < n -> nth p c 0 = nth q c 0 -> p = q).
    { intros p q Hp Hq E. rewrite <- Lc in Hp, Hq. apply (proj1 (NoDup_nth c 0) Dc p q Hp Hq E). }
    set (nx := fun p => if p + 1 =? n then 0 else p + 1).
    assert (Hnx : forall p, p < n -> nx p < n /\ nx p <> p /\ adj (nth p c 0) (nth (nx p) c 0)).
    { intros p Hp. unfold nx. destruct (p + 1 =? n) eqn:E.
      - apply Nat.eqb_eq in E. split; [ lia | ]. split; [ lia | ]. apply Proof_ffi_order.adj_sym. apply Cc; lia.
      - apply Nat.eqb_neq in E. split; [ lia | ]. split; [ lia | ]. apply Cc; lia. }
    assert (D : NoDup (map (fun p => code (nth p c 0) (nth (nx p) c 0)) (seq 0 n))).
    { assert (G : forall l, NoDup l -> (forall p, In p l -> p < n) -> NoDup (map (fun p => code (nth p c 0) (nth (nx p) c 0)) l)).
      { induction l as [ | p l IH]; intros D I; [ constructor | ]. inversion D as [ | ? ? Ni D']; subst. cbn [map]. constructor; [ | apply IH; [ exact D' | intros x Hx; apply I; right; exact Hx ] ].
        intro J. apply in_map_iff in J. destruct J as (q & E & J). pose proof (I p (or_introl eq_refl)) as Hp. pose proof (I q (or_intror J)) as Hq.
        destruct (Hnx p Hp) as (P1 & P2 & P3). destruct (Hnx q Hq) as (Q1 & Q2 & Q3).
        assert (X : (nth q c 0 = nth p c 0 \/ nth q c 0 = nth (nx p) c 0) /\ (nth (nx q) c 0 = nth p c 0 \/ nth (nx q) c 0 = nth (nx p) c 0)).
        { apply code_inj; try (apply Rc; assumption); try assumption; [ intro Y; apply Ne in Y; [ lia | assumption | assumption ] | intro Y; apply Ne in Y; [ lia | assumption | assumption ] | congruence ]. }
        assert (Nqp : q <> p) by (intros ->; auto). destruct X as ([X | X] & Y); [ apply Ne in X; auto | ]. apply Ne in X; [ | assumption | assumption ].
        destruct Y as [Y | Y]; apply Ne in Y; try assumption; unfold nx in X, Y, P2, Q2; destruct (p + 1 =? n) eqn:E1, (q + 1 =? n) eqn:E2; rewrite ?Nat.eqb_eq, ?Nat.eqb_neq in *; lia. }
      apply G; [ apply seq_NoDup | intros p Hp; apply in_seq in Hp; lia ]. }
    assert (I : incl (map (fun p => code (nth p c 0) (nth (nx p) c 0)) (seq 0 n)) (seq 0 6)).
    { intros x J. apply in_map_iff in J. destruct J as (p & <- & J). apply in_seq in J. destruct (Hnx p ltac:(lia)) as (P1 & P2 & P3). apply in_seq.
      pose proof (code_ok _ _ (Rc p ltac:(lia)) (Rc _ P1) P3). lia. }
    pose proof (NoDup_incl_length D I) as X. rewrite map_length, !seq_length in X. exact X.
  Qed.

  Lemma adj_side : forall i j, i < n -> j < n -> i <> j -> adj i j -> is_side L R (px i) (px j).
  Proof.
    intros i j Hi Hj N A. apply (adj_iff L R NL NR lst Dl f Hf i j Hi Hj N) in A. destruct A as (c & Hc & A).
    destruct (located_f L R lst f Hf i Hi) as (O1 & O2 & X1 & X2 & _). destruct (located_f L R lst f Hf j Hj) as (O3 & O4 & X3 & X4 & _).
    assert (Ns : ~ same_point (px i) (px j)) by (intro X; apply N; apply (px_distinct L R NL NR lst Dl f Hf); assumption).
    pose proof (px_vertex L R NL NR lst Il f Hf i Hi) as V1. pose proof (px_vertex L R NL NR lst Il f Hf j Hj) as V2.
    destruct A as [ [A B] | [A B] ].
    - apply (zero_side L R L (px i) (px j) (ul f i) (ul f j) c); try assumption. intros x [X _]. exact X.
    - apply (zero_side L R R (px i) (px j) (ur f i) (ur f j) c); try assumption. intros x [_ X]. exact X.
  Qed.

  Lemma result_ok : exists c, Permutation (seq 0 n) c /\ n <= 6 /\
    ordered_result (map enc lst) = Ok (map (hull_at (map enc lst)) c) /\
    forall p, p < n -> is_side L R (px (nth p c 0)) (px (nth ((p + 1) mod n) c 0)).
  Proof.
    destruct (Nat.le_gt_cases n 2) as [H | H].
    - exists (seq 0 n). split; [ reflexivity | ]. split; [ lia | ]. split; [ apply small_ok; [ apply lst_bits | exact H ] | ]. intros p Hp.
      apply two_side; try assumption. intros x V. destruct (vertex_px L R NL NR lst Il f Hf x V) as (i & Hi & E).
      assert (Hq : (p + 1) mod n < n) by (apply Nat.mod_upper_bound; lia). rewrite !seq_nth by assumption. cbn [Nat.add].
      assert (Ei : i = p \/ i = (p + 1) mod n).
      { destruct (Nat.eq_dec n 1) as [E1 | E1]; [ lia | ]. assert (E2 : n = 2) by lia. rewrite E2 in *. assert (Hp' : p = 0 \/ p = 1) by lia. destruct Hp' as [-> | ->]; cbn; lia. }
      destruct Ei as [<- | <-]; auto.
    - destruct (convex_exists n (ccw f)) as (r & Pr & Cr).
      + apply ccw_rot.
      + apply (ccw_orient L R NL NR lst Dl Il f Hf).
      + apply ccw_asym.
      + apply (ccw_outer L R NL NR lst Dl Il f Hf).
      + lia.
      + assert (Cy : cyclic adj (0 :: r)).
        { apply (convex_cyclic n (ccw f)).
          - apply ccw_rot.
          - apply Proof_ffi_order.adj_sym.
          - apply (adj_support L R NL NR lst Dl Il f Hf).
          - apply (support_adj L R NL NR lst Dl Il f Hf). lia.
          - exact Pr.
          - exact Cr. }
        pose proof (count_bound _ Pr Cy ltac:(lia)) as N6.
        destruct (walk_all n adj (map enc lst) (pairs lst)) with (r := r) (f6 := 6) as (c & Pc & Cc & W); try assumption; try lia.
        * apply map_length.
        * apply Proof_ffi_order.adj_sym.
        * intros i j. rewrite in_pairs, adjb_adj. reflexivity.
        * exists c. split; [ exact Pc | ]. split; [ exact N6 | ].
          assert (Lc : length c = n) by (apply Permutation_length in Pc; rewrite seq_length in Pc; auto).
          assert (Rc : forall p, p < n -> nth p c 0 < n).
          { intros p Hp. assert (X : In (nth p c 0) (seq 0 n)) by (eapply Permutation_in; [ apply Permutation_sym; exact Pc | apply nth_In; lia ]). apply in_seq in X. lia. }
          assert (Dc : NoDup c) by (eapply Permutation_NoDup; [ exact Pc | apply seq_NoDup ]).
          assert (Ne : forall p q, p < n -> q < n -> p <> q -> nth p c 0 <> nth q c 0).
          { intros p q Hp Hq X E. rewrite <- Lc in Hp, Hq. apply X. apply (proj1 (NoDup_nth c 0) Dc p q Hp Hq E). }
          split.
          -- unfold ordered_result. rewrite map_length. replace (n <=? 2) with false by (symmetry; apply Nat.leb_gt; exact H).
             rewrite inter_edges_ok by (try apply lst_bits; apply pairs_bound). cbn [bind]. replace (6 <? n) with false by (symmetry; apply Nat.ltb_ge; exact N6). exact W.
          -- intros p Hp. destruct (Nat.eq_dec (p + 1) n) as [E | E].
             ++ rewrite E, Nat.mod_same by lia. apply side_sym. apply adj_side; try (apply Rc; lia); [ apply Ne; lia | apply Cc; lia ].
             ++ rewrite Nat.mod_small by lia. apply adj_side; try (apply Rc; lia); [ apply Ne; lia | apply Cc; lia ].
  Qed.
End Result.
