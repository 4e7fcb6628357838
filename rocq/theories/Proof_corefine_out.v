(** * Outlines, constraints and edges *)
From Coq Require Import List Arith NArith Bool QArith Lqa Lia Permutation.
From Verif Require Import Model_base Proof_base Model_geometry Model_soup Model_region Model_points Model_ffi Model_corefine.
From Verif Require Import Spec_points Spec_candidates Spec_defects Spec_ffi Spec_corefine Proof_extreme Proof_hull Proof_ffi_orient Proof_ffi_calls Proof_ffi_edge
  Proof_ffi_plane Proof_ffi_all Prop_ffi Prop_points Proof_corefine_geo Proof_corefine_ids Proof_corefine_tri.
Import ListNotations.
Local Open Scope nat_scope.

(** ** Neighbours *)
Lemma combine_tl : forall (l : list nat) k x y, nth_error (combine l (tl l)) k = Some (x, y) <-> nth_error l k = Some x /\ nth_error l (S k) = Some y.
Proof.
  induction l as [ | a l IH]; intros k x y; [ destruct k; cbn; intuition discriminate | ].
  destruct l as [ | b l]; [ destruct k as [ | [ | k] ]; cbn; intuition discriminate | ].
  destruct k as [ | k]; [ cbn; split; [ intro H; injection H as <- <-; auto | intros [H1 H2]; congruence ] | ].
  change (nth_error (combine (a :: b :: l) (tl (a :: b :: l))) (S k)) with (nth_error (combine (b :: l) l) k).
  change (nth_error (combine (b :: l) (tl (b :: l))) k = Some (x, y) <-> nth_error (b :: l) k = Some x /\ nth_error (b :: l) (S k) = Some y). apply IH.
Qed.
Lemma nth_last : forall (l : list nat) d, l <> [] -> nth_error l (length l - 1) = Some (last l d).
Proof.
  induction l as [ | a l IH]; intros d H; [ congruence | ]. destruct l as [ | b l]; [ reflexivity | ].
  cbn [length]. replace (S (S (length l)) - 1) with (S (length (b :: l) - 1)) by (cbn; lia). cbn [nth_error]. rewrite (IH d) by discriminate. reflexivity.
Qed.
Lemma chain_neighbours : forall ids x y, In (x, y) (chain ids) -> neighbours ids x y.
Proof.
  intros ids x y H. unfold chain in H. apply in_app_or in H. destruct H as [H | H].
  - apply In_nth_error in H. destruct H as (k & H). apply combine_tl in H. destruct H as [H1 H2].
    assert (S k < length ids) by (apply nth_error_Some; congruence). exists k. rewrite Nat.mod_small by lia. rewrite Nat.add_1_r. split; [ lia | auto ].
  - destruct (2 <? length ids) eqn:E; [ | destruct H ]. apply Nat.ltb_lt in E. destruct H as [H | [ ] ]. injection H as <- <-.
    exists (length ids - 1). replace (length ids - 1 + 1) with (length ids) by lia. rewrite Nat.mod_same by lia. split; [ lia | ].
    destruct ids as [ | a ids]; [ cbn in E; lia | ]. split; [ apply nth_last; discriminate | reflexivity ].
Qed.
Lemma neighbours_chain : forall ids x y, neighbours ids x y -> In (x, y) (chain ids) \/ In (y, x) (chain ids).
Proof.
  intros ids x y (k & L & H1 & H2). assert (k < length ids) by (apply nth_error_Some; congruence).
  destruct (Nat.eq_dec (k + 1) (length ids)) as [E | E].
  - rewrite E, Nat.mod_same in H2 by lia. destruct (2 <? length ids) eqn:E2.
    + left. unfold chain. rewrite E2. apply in_or_app. right. left. assert (ids <> []) by (destruct ids; cbn in L; [ lia | discriminate ]).
      assert (Hl := nth_last ids 0 H0). replace (length ids - 1) with k in Hl by lia. rewrite Hl in H1. injection H1 as <-.
      destruct ids; [ congruence | ]. cbn in H2. injection H2 as <-. reflexivity.
    + apply Nat.ltb_ge in E2. right. unfold chain. apply in_or_app. left. apply nth_error_In with (n := 0). apply combine_tl. split; [ exact H2 | ]. replace 1 with k by lia. exact H1.
  - rewrite Nat.mod_small in H2 by lia. left. unfold chain. apply in_or_app. left. apply nth_error_In with (n := k). apply combine_tl. rewrite Nat.add_1_r in H2. auto.
Qed.

(** ** The edges of a record *)
Lemma info_edges_ok : forall i, exists l, info_edges i = Ok l /\ forall e, In e l <-> exists x y, neighbours (i_ids i) x y /\ edge_between x y e.
Proof.
  intro i. unfold info_edges. set (ids := i_ids i). set (n := length ids). destruct (n <? 2) eqn:En.
  - apply Nat.ltb_lt in En. exists []. split; [ reflexivity | ]. intro e. split; [ intros [ ] | ]. intros (x & y & (k & L & _) & _). fold n in L. lia.
  - apply Nat.ltb_ge in En. set (j := fun k => if k <? n - 1 then k + 1 else 0). set (g := fun k => make_edge (nth k ids 0) (nth (j k) ids 0)).
    assert (F : forall ks acc, (forall k, In k ks -> k < n) ->
      foldM (fun es k => let j := if k <? n - 1 then k + 1 else 0 in let* a := vec_at ids k in let* b := vec_at ids j in Ok (es ++ [make_edge a b])) acc ks = Ok (acc ++ map g ks)).
    { induction ks as [ | k ks IH]; intros acc H; [ cbn; rewrite app_nil_r; reflexivity | ]. cbn [foldM map].
      assert (Hk : k < n) by (apply H; left; reflexivity). assert (Hj : j k < n) by (unfold j; destruct (k <? n - 1) eqn:E; [ apply Nat.ltb_lt in E; lia | lia ]).
      unfold vec_at. fold (j k). rewrite (nth_error_nth' ids 0 Hk), (nth_error_nth' ids 0 Hj). cbn [bind]. rewrite IH by (intros; apply H; right; assumption).
      rewrite <- app_assoc. reflexivity. }
    rewrite F by (intros k J; apply in_seq in J; lia). cbn [app]. eexists. split; [ reflexivity | ].
    assert (Eg : forall x y e, make_edge x y = e <-> edge_between x y e).
    { intros x y [u v]. unfold make_edge, edge_between. destruct (y <? x) eqn:E; [ apply Nat.ltb_lt in E | apply Nat.ltb_ge in E ]; cbn [fst snd]; split.
      - intro H. injection H as <- <-. split; [ auto | lia ].
      - intros [ [H | H] L]; injection H as -> ->; [ lia | reflexivity ].
      - intro H. injection H as <- <-. split; [ auto | lia ].
      - intros [ [H | H] L]; injection H as -> ->; [ reflexivity | ]. assert (x = y) by lia. subst. reflexivity. }
    assert (Ej : forall k, k < n -> j k = (k + 1) mod n).
    { intros k Hk. unfold j. destruct (k <? n - 1) eqn:E; [ apply Nat.ltb_lt in E; rewrite Nat.mod_small by lia; reflexivity | apply Nat.ltb_ge in E; replace (k + 1) with n by lia; rewrite Nat.mod_same by lia; reflexivity ]. }
    intro e. rewrite in_map_iff. split.
    + intros (k & H & J). apply in_seq in J. assert (Hk : k < n) by lia. exists (nth k ids 0), (nth (j k) ids 0). split; [ | apply Eg; exact H ].
      exists k. fold n. split; [ exact En | ]. split; [ apply nth_error_nth'; exact Hk | ]. rewrite <- Ej by exact Hk. apply nth_error_nth'. fold n. rewrite Ej by exact Hk. apply Nat.mod_upper_bound. lia.
    + intros (x & y & (k & L & H1 & H2) & H). fold n in L, H2. assert (Hk : k < n) by (apply nth_error_Some; congruence). exists k. split; [ | apply in_seq; lia ].
      unfold g. rewrite Ej by exact Hk. apply Eg. rewrite (nth_error_nth _ _ 0 H1), (nth_error_nth _ _ 0 H2). exact H.
Qed.

Lemma edges_ok : forall {P} (cf : corefined P), exists l, get_intersecting_edges cf = Ok l /\
  forall e, In e l <-> exists i x y, In i (cf_infos cf) /\ neighbours (i_ids i) x y /\ edge_between x y e.
Proof.
  intros P cf. unfold get_intersecting_edges. induction (cf_infos cf) as [ | i r IH] using rev_ind.
  - exists []. split; [ reflexivity | ]. intro e. split; [ intros [ ] | intros (i & x & y & [ ] & _) ].
  - destruct IH as (l & El & Hl). destruct (info_edges_ok i) as (m & Em & Hm). exists (l ++ m).
    split; [ rewrite foldM_app, El; cbn [bind foldM]; rewrite Em; reflexivity | ].
    intro e. rewrite in_app_iff, Hl, Hm. split.
    + intros [(j & x & y & J & H) | (x & y & H)]; [ exists j, x, y; split; [ apply in_or_app; auto | exact H ] | exists i, x, y; split; [ apply in_or_app; right; left; reflexivity | exact H ] ].
    + intros (j & x & y & J & H). apply in_app_or in J. destruct J as [J | [<- | [ ] ] ]; [ left; eauto | right; eauto ].
Qed.

(** ** Which corner *)
Lemma left_part_side : forall m k, left_part (convex_hull (side true m) (side false k)) = m /\ right_part (convex_hull (side true m) (side false k)) = k.
Proof. intros [ [ [ | ] [ | ] ] [ | ] ] [ [ [ | ] [ | ] ] [ | ] ]; split; reflexivity. Qed.
Lemma feature_bits : forall T m x, in_feature T m x -> bits m <> 0.
Proof. intros T [ [ [ | ] [ | ] ] [ | ] ] x (u & v & w & (A & B & C & S) & _) E; cbn in E; try lia. cbn in A, B, C. rewrite A, B, C in S. discriminate S. Qed.

Section Insert.
  Context {P : Type}.
  Variable P_eqb : P -> P -> bool.
  Lemma tri_insert_left : forall (t : triangulation P) p id m k, t_face t = LEFT_FACE -> bits m <> 0 ->
    (bits m <> 1 -> tri_insert P_eqb t p id (convex_hull (side true m) (side false k)) = Ok (insert_in P_eqb t p id)) /\
    (bits m = 1 -> exists n, tri_insert P_eqb t p id (convex_hull (side true m) (side false k)) = Ok (t, n) /\
       forall a b c : nat, exists x, nth_error [a; b; c] n = Some x /\ pick m (a, b, c) = [x]).
  Proof.
    intros t p id m k Hf Hb. unfold tri_insert. rewrite Hf. rewrite (proj1 (side_parts m k)).
    destruct m as [ [ [ | ] [ | ] ] [ | ] ]; cbn in Hb; try lia; (split; [ intro H; cbn in H; try lia; reflexivity | intro H; cbn in H; try lia ]).
    - exists 0. split; [ reflexivity | ]. intros a b c. exists a. auto.
    - exists 1. split; [ reflexivity | ]. intros a b c. exists b. auto.
    - exists 2. split; [ reflexivity | ]. intros a b c. exists c. auto.
  Qed.
  Lemma tri_insert_right : forall (t : triangulation P) p id m k, t_face t = RIGHT_FACE -> bits k <> 0 ->
    (bits k <> 1 -> tri_insert P_eqb t p id (convex_hull (side true m) (side false k)) = Ok (insert_in P_eqb t p id)) /\
    (bits k = 1 -> exists n, tri_insert P_eqb t p id (convex_hull (side true m) (side false k)) = Ok (t, n) /\
       forall a b c : nat, exists x, nth_error [a; b; c] n = Some x /\ pick k (a, b, c) = [x]).
  Proof.
    intros t p id m k Hf Hb. unfold tri_insert. rewrite Hf. rewrite (proj2 (side_parts m k)).
    destruct k as [ [ [ | ] [ | ] ] [ | ] ]; cbn in Hb; try lia; (split; [ intro H; cbn in H; try lia; reflexivity | intro H; cbn in H; try lia ]).
    - exists 0. split; [ reflexivity | ]. intros a b c. exists a. auto.
    - exists 1. split; [ reflexivity | ]. intros a b c. exists b. auto.
    - exists 2. split; [ reflexivity | ]. intros a b c. exists c. auto.
  Qed.
End Insert.
