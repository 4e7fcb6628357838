(** * The records of Corefine *)
From Coq Require Import List Arith NArith Bool QArith Lqa Lia Permutation.
From Verif Require Import Model_base Proof_base Model_geometry Model_soup Model_region Model_points Model_ffi Model_corefine.
From Verif Require Import Spec_points Spec_defects Spec_ffi Spec_corefine Proof_extreme Proof_hull Proof_ffi_orient Proof_ffi_calls Proof_ffi_edge
  Proof_ffi_plane Proof_ffi_all Prop_ffi Prop_points Proof_corefine_geo Proof_corefine_ids.
Import ListNotations.
Local Open Scope nat_scope.

Section Run.
  Context {P D : Type}.
  Variable P_eqb : P -> P -> bool.
  Hypothesis Heq : forall a b, P_eqb a b = true <-> a = b.

  (** ** The points of the two meshes *)
  Lemma insert_points_run : forall ps pl ids0,
    fold_left (fun st p => let '(pl', id) := pl_insert P_eqb (fst st) p in (pl', snd st ++ [id])) ps (pl, ids0) =
    (fst (pl_run P_eqb pl (map OpInsert ps)), ids0 ++ snd (pl_run P_eqb pl (map OpInsert ps))).
  Proof.
    induction ps as [ | p ps IH]; intros pl ids0; cbn [fold_left map pl_run fst snd].
    - rewrite app_nil_r. reflexivity.
    - unfold pl_do. destruct (pl_insert P_eqb pl p) as [pl' id]. rewrite IH. destruct (pl_run P_eqb pl' (map OpInsert ps)) as [pl2 ids2]. cbn [fst snd].
      rewrite <- app_assoc. reflexivity.
  Qed.
  Lemma pl_run_app : forall o1 o2 pl, pl_run P_eqb pl (o1 ++ o2) =
    (fst (pl_run P_eqb (fst (pl_run P_eqb pl o1)) o2), snd (pl_run P_eqb pl o1) ++ snd (pl_run P_eqb (fst (pl_run P_eqb pl o1)) o2)).
  Proof.
    induction o1 as [ | o o1 IH]; intros o2 pl; cbn [app pl_run fst snd].
    - destruct (pl_run P_eqb pl o2); reflexivity.
    - destruct (pl_do P_eqb pl o) as [pl1 id]. rewrite IH. destruct (pl_run P_eqb pl1 o1) as [pl2 ids2]. cbn [fst snd].
      destruct (pl_run P_eqb pl2 o2) as [pl3 ids3]. cbn [fst snd]. destruct id; reflexivity.
  Qed.
  Lemma inserted_map : forall ps : list P, inserted (map OpInsert ps) = ps.
  Proof. induction ps as [ | p ps IH]; [ reflexivity | ]. unfold inserted in *. cbn [map flat_map app]. rewrite IH. reflexivity. Qed.

  Lemma start_points_ok : forall (left right : soup P D) pl lids rids, start_points P_eqb left right = (pl, lids, rids) ->
    pl_check pl = false /\ length lids = length (points left) /\ length rids = length (points right) /\
    (forall v p i, nth_error (points left) v = Some p -> nth_error lids v = Some i -> nth_error (pl_points pl) i = Some p) /\
    (forall v p i, nth_error (points right) v = Some p -> nth_error rids v = Some i -> nth_error (pl_points pl) i = Some p) /\
    NoDup (pl_points pl).
  Proof.
    intros left right pl lids rids H. unfold start_points, insert_points in H. rewrite !insert_points_run in H. cbn [app] in H. injection H as <- <- <-.
    set (ops := map OpInsert (points left) ++ map OpInsert (points right)).
    assert (Hs : ~ In OpStop ops).
    { unfold ops. rewrite <- map_app. intro J. apply in_map_iff in J. destruct J as (? & J & _). discriminate. }
    assert (E := pl_run_app (map OpInsert (points left)) (map OpInsert (points right)) (pl_start pl_empty)). fold ops in E.
    set (pl1 := fst (pl_run P_eqb (pl_start pl_empty) (map OpInsert (points left)))) in *. set (l1 := snd (pl_run P_eqb (pl_start pl_empty) (map OpInsert (points left)))) in *.
    set (pl2 := fst (pl_run P_eqb pl1 (map OpInsert (points right)))) in *. set (l2 := snd (pl_run P_eqb pl1 (map OpInsert (points right)))) in *.
    assert (Ei : inserted ops = points left ++ points right) by (unfold ops; rewrite <- map_app; apply inserted_map).
    assert (Len : forall ps pl, length (snd (pl_run P_eqb pl (map OpInsert ps))) = length ps).
    { clear. induction ps as [ | p ps IH]; intro pl; cbn [map pl_run]; [ reflexivity | ]. unfold pl_do. destruct (pl_insert P_eqb pl p) as [pl' id].
      specialize (IH pl'). destruct (pl_run P_eqb pl' (map OpInsert ps)). cbn [snd length] in *. congruence. }
    assert (L1 : length l1 = length (points left)) by apply Len. assert (L2 : length l2 = length (points right)) by apply Len.
    destruct (C19_ids_name_points P P_eqb Heq ops [] pl2 (l1 ++ l2) pl2 [] Hs E eq_refl) as (L & U & A & De). rewrite Ei in *.
    assert (G : forall m p i, nth_error (points left ++ points right) m = Some p -> nth_error (l1 ++ l2) m = Some i -> nth_error (pl_points pl2) i = Some p).
    { intros m p i X Y. destruct (A m p i X Y) as [Z _]. apply vec_at_ok in Z. exact Z. }
    cbn [pl_stop pl_check pl_points]. split; [ reflexivity | ]. split; [ exact L1 | ]. split; [ exact L2 | ]. split; [ | split ].
    - intros v p i X Y. assert (v < length (points left)) by (apply nth_error_Some; congruence).
      apply (G v); rewrite nth_error_app1 by lia; assumption.
    - intros v p i X Y. apply (G (length (points left) + v)).
      + rewrite nth_error_app2 by lia. replace (length (points left) + v - length (points left)) with v by lia. exact X.
      + rewrite nth_error_app2 by lia. replace (length (points left) + v - length l1) with v by lia. exact Y.
    - apply NoDup_nth_error. intros i j Hi Eij. assert (Hj : j < length (pl_points pl2)) by (apply nth_error_Some; rewrite <- Eij; apply nth_error_Some; exact Hi).
      assert (Ii := proj1 (De i) Hi). assert (Ij := proj1 (De j) Hj). apply In_nth_error in Ii, Ij. destruct Ii as (mi & Mi), Ij as (mj & Mj).
      assert (Si : exists p, nth_error (points left ++ points right) mi = Some p).
      { destruct (nth_error (points left ++ points right) mi) eqn:X; [ eauto | ]. apply nth_error_None in X. assert (mi < length (l1 ++ l2)) by (apply nth_error_Some; congruence). lia. }
      assert (Sj : exists p, nth_error (points left ++ points right) mj = Some p).
      { destruct (nth_error (points left ++ points right) mj) eqn:X; [ eauto | ]. apply nth_error_None in X. assert (mj < length (l1 ++ l2)) by (apply nth_error_Some; congruence). lia. }
      destruct Si as (pi & Si), Sj as (pj & Sj). apply (U mi mj pi pj i j Si Mi Sj Mj). assert (X := G _ _ _ Si Mi). assert (Y := G _ _ _ Sj Mj). congruence.
  Qed.

  (** ** The requests *)
  Variable cll : P -> P -> P -> P -> P.
  Variable cpl : P -> P -> P -> P -> P -> P.

  Lemma in_run_app : forall r1 r2 st st1 ids1 st2 ids2, in_run P_eqb cll cpl st r1 = Ok (st1, ids1) -> in_run P_eqb cll cpl st1 r2 = Ok (st2, ids2) ->
    in_run P_eqb cll cpl st (r1 ++ r2) = Ok (st2, ids1 ++ ids2).
  Proof.
    induction r1 as [ | rq r1 IH]; intros r2 st st1 ids1 st2 ids2 H1 H2.
    - injection H1 as <- <-. exact H2.
    - cbn [in_run app] in *. apply bind_ok in H1. destruct H1 as ([st' id] & E & H1). cbn [fst snd] in H1. apply bind_ok in H1. destruct H1 as ([st'' ids'] & E' & H1). cbn [fst snd] in H1. injection H1 as <- <-.
      rewrite E. cbn [bind fst snd]. rewrite (IH r2 _ _ _ _ _ E' H2). reflexivity.
  Qed.

  Definition sym_req (t u : face) (sym : Model_region.region) : request :=
    let '(a, b, c) := t in let '(p, q, r) := u in
    mk_req (intersection sym LEFT_FACE) a b c (intersection sym RIGHT_FACE) p q r.

  Lemma insert_syms_run : forall a b c p q r syms st ids0 st' ids', foldM (insert_sym P_eqb cll cpl a b c p q r) (st, ids0) syms = Ok (st', ids') ->
    exists ids, in_run P_eqb cll cpl st (map (sym_req (a, b, c) (p, q, r)) syms) = Ok (st', ids) /\ ids' = ids0 ++ ids /\ length ids = length syms.
  Proof.
    intros a b c p q r. induction syms as [ | s syms IH]; intros st ids0 st' ids' H.
    - injection H as <- <-. exists []. rewrite app_nil_r. auto.
    - cbn [foldM] in H. apply bind_ok in H. destruct H as ([st1 ids1] & E & H). unfold insert_sym in E at 1. cbn [fst snd] in E.
      apply bind_ok in E. destruct E as ([ins id] & E & E1). injection E1 as <- <-. apply IH in H. destruct H as (ids & R & -> & L).
      exists (id :: ids). cbn [map in_run]. change (sym_req (a, b, c) (p, q, r) s) with (mk_req (intersection s LEFT_FACE) a b c (intersection s RIGHT_FACE) p q r). unfold in_do. cbn [rq_lr rq_a rq_b rq_c rq_rr rq_p rq_q rq_r]. rewrite E. cbn [bind fst snd]. rewrite R. cbn [bind fst snd].
      rewrite <- app_assoc. cbn [app length]. auto.
  Qed.

  Variables left right : soup P D.
  Variables lids rids : list nat.

  Definition info_reqs (i : info) : list request :=
    match face_ids left lids (i_left i), face_ids right rids (i_right i) with
    | Ok t, Ok u => map (sym_req t u) (i_syms i)
    | _, _ => []
    end.
  Definition filled (i i' : info) : Prop :=
    i_left i' = i_left i /\ i_right i' = i_right i /\ i_syms i' = i_syms i /\ length (i_ids i') = length (i_syms i) /\
    (exists t, face_ids left lids (i_left i) = Ok t) /\ (exists u, face_ids right rids (i_right i) = Ok u).

  Lemma insert_infos_run : forall infos st acc st' acc', Forall (fun i => i_ids i = []) infos ->
    foldM (insert_info P_eqb cll cpl left right lids rids) (st, acc) infos = Ok (st', acc') ->
    exists new, acc' = acc ++ new /\ Forall2 filled infos new /\
      in_run P_eqb cll cpl st (flat_map info_reqs infos) = Ok (st', flat_map i_ids new).
  Proof.
    induction infos as [ | i infos IH]; intros st acc st' acc' Fi H.
    - injection H as <- <-. exists []. rewrite app_nil_r. split; [ reflexivity | ]. split; [ constructor | reflexivity ].
    - inversion Fi as [ | ? ? Ei Fi']; subst. cbn [foldM] in H. apply bind_ok in H. destruct H as ([st1 acc1] & E & H). unfold insert_info in E at 1. cbn [fst snd] in E.
      apply bind_ok in E. destruct E as ([ [a b] c] & E1 & E). apply bind_ok in E. destruct E as ([ [p q] r] & E2 & E). apply bind_ok in E. destruct E as ([ins ids] & E3 & E). injection E as <- <-.
      rewrite Ei in E3. apply insert_syms_run in E3. destruct E3 as (ids' & R & -> & L). cbn [app] in *.
      apply IH in H; [ | exact Fi' ]. destruct H as (new & -> & Fn & R'). exists (mk_info (i_left i) (i_right i) (i_syms i) ids' :: new).
      rewrite <- app_assoc. split; [ reflexivity | ]. split.
      + constructor; [ | exact Fn ]. unfold filled. cbn [i_left i_right i_syms i_ids]. rewrite E1, E2. repeat split; eauto.
      + cbn [flat_map i_ids]. eapply in_run_app; [ | exact R' ]. unfold info_reqs. rewrite E1, E2. exact R.
  Qed.

  Lemma filled_position : forall infos new, Forall2 filled infos new -> forall i, In i new ->
    exists t u, face_ids left lids (i_left i) = Ok t /\ face_ids right rids (i_right i) = Ok u /\ length (i_ids i) = length (i_syms i) /\
      forall n sym id, nth_error (i_syms i) n = Some sym -> nth_error (i_ids i) n = Some id ->
      exists k, nth_error (flat_map info_reqs infos) k = Some (sym_req t u sym) /\ nth_error (flat_map i_ids new) k = Some id.
  Proof.
    induction 1 as [ | i0 i' infos new F FF IH]; intros i J; [ destruct J | ].
    assert (Ll : length (info_reqs i0) = length (i_ids i')).
    { destruct F as (_ & _ & _ & L & (t & Et) & (u & Eu)). unfold info_reqs. rewrite Et, Eu, map_length. congruence. }
    destruct J as [<- | J].
    - destruct F as (E1 & E2 & E3 & L & (t & Et) & (u & Eu)). exists t, u. rewrite E1, E2, E3. split; [ exact Et | ]. split; [ exact Eu | ]. split; [ exact L | ].
      intros n sym id X Y. exists n. cbn [flat_map]. split.
      + rewrite nth_error_app1; [ | rewrite Ll; apply nth_error_Some; congruence ]. unfold info_reqs. rewrite Et, Eu, nth_error_map, X. reflexivity.
      + rewrite nth_error_app1; [ exact Y | apply nth_error_Some; congruence ].
    - destruct (IH i J) as (t & u & A & B & C & K). exists t, u. split; [ exact A | ]. split; [ exact B | ]. split; [ exact C | ]. intros n sym id X Y. destruct (K n sym id X Y) as (k & K1 & K2).
      exists (length (info_reqs i0) + k). cbn [flat_map]. rewrite !nth_error_app2 by lia. rewrite Ll at 2. rewrite Ll in *.
      replace (length (i_ids i') + k - length (i_ids i')) with k by lia. split; assumption.
  Qed.
  Lemma filled_old : forall infos new, Forall2 filled infos new -> forall i, In i infos -> exists i', In i' new /\ filled i i'.
  Proof. induction 1 as [ | i0 i' infos new F FF IH]; intros i J; [ destruct J | ]; destruct J as [<- | J]; [ exists i'; split; [ left | ]; auto | destruct (IH i J) as (x & X & Y); exists x; split; [ right | ]; auto ]. Qed.
  Lemma filled_new : forall infos new, Forall2 filled infos new -> forall i', In i' new -> exists i, In i infos /\ filled i i'.
  Proof. induction 1 as [ | i0 i' infos new F FF IH]; intros i J; [ destruct J | ]; destruct J as [<- | J]; [ exists i0; split; [ left | ]; auto | destruct (IH i J) as (x & X & Y); exists x; split; [ right | ]; auto ]. Qed.
  Lemma reqs_of : forall infos rq, In rq (flat_map info_reqs infos) -> exists i t u sym, In i infos /\ face_ids left lids (i_left i) = Ok t /\
    face_ids right rids (i_right i) = Ok u /\ In sym (i_syms i) /\ rq = sym_req t u sym.
  Proof.
    intros infos rq J. apply in_flat_map in J. destruct J as (i & Ji & J). unfold info_reqs in J.
    destruct (face_ids left lids (i_left i)) as [t | | ] eqn:Et; try destruct J. destruct (face_ids right rids (i_right i)) as [u | | ] eqn:Eu; try destruct J.
    apply in_map_iff in J. destruct J as (sym & <- & J). exists i, t, u, sym. auto.
  Qed.

  (** The other way around. *)
  Lemma in_run_split : forall r1 r2 st st2 ids, in_run P_eqb cll cpl st (r1 ++ r2) = Ok (st2, ids) ->
    exists st1 ids1 ids2, in_run P_eqb cll cpl st r1 = Ok (st1, ids1) /\ in_run P_eqb cll cpl st1 r2 = Ok (st2, ids2).
  Proof.
    induction r1 as [ | rq r1 IH]; intros r2 st st2 ids H.
    - exists st, [], ids. split; [ reflexivity | exact H ].
    - cbn [in_run app] in *. apply bind_ok in H. destruct H as ([st' id] & E & H). cbn [fst snd] in H. apply bind_ok in H. destruct H as ([st'' ids'] & E' & H). injection H as <- <-.
      destruct (IH _ _ _ _ E') as (st1 & ids1 & ids2 & A & B). exists st1, (id :: ids1), ids2. rewrite E. cbn [bind fst snd]. rewrite A. split; [ reflexivity | exact B ].
  Qed.
  Lemma insert_syms_total : forall a b c p q r syms st ids0 st' ids, in_run P_eqb cll cpl st (map (sym_req (a, b, c) (p, q, r)) syms) = Ok (st', ids) ->
    foldM (insert_sym P_eqb cll cpl a b c p q r) (st, ids0) syms = Ok (st', ids0 ++ ids).
  Proof.
    intros a b c p q r. induction syms as [ | s syms IH]; intros st ids0 st' ids H.
    - injection H as <- <-. rewrite app_nil_r. reflexivity.
    - cbn [map in_run] in H. apply bind_ok in H. destruct H as ([st1 id] & E & H). cbn [fst snd] in H. apply bind_ok in H. destruct H as ([st2 ids'] & E' & H). injection H as <- <-.
      change (insert P_eqb cll cpl st (intersection s LEFT_FACE) a b c (intersection s RIGHT_FACE) p q r = Ok (st1, id)) in E.
      cbn [foldM]. unfold insert_sym at 1. cbn [fst snd]. rewrite E. cbn [bind fst snd]. rewrite (IH _ _ _ _ E'). rewrite <- app_assoc. reflexivity.
  Qed.
  Lemma insert_infos_total : forall infos st acc st' ids, Forall (fun i => (exists t, face_ids left lids (i_left i) = Ok t) /\ (exists u, face_ids right rids (i_right i) = Ok u)) infos ->
    in_run P_eqb cll cpl st (flat_map info_reqs infos) = Ok (st', ids) ->
    exists acc', foldM (insert_info P_eqb cll cpl left right lids rids) (st, acc) infos = Ok (st', acc').
  Proof.
    induction infos as [ | i infos IH]; intros st acc st' ids F H.
    - injection H as <- <-. exists acc. reflexivity.
    - inversion F as [ | ? ? [([ [a b] c] & Et) ([ [p q] r] & Eu)] F']; subst. cbn [flat_map] in H. apply in_run_split in H. destruct H as (st1 & ids1 & ids2 & H1 & H2).
      unfold info_reqs in H1. rewrite Et, Eu in H1. apply insert_syms_total with (ids0 := i_ids i) in H1.
      cbn [foldM]. unfold insert_info at 1. cbn [fst snd]. rewrite Et, Eu. cbn [bind]. rewrite H1. cbn [bind fst snd]. exact (IH _ _ _ _ F' H2).
  Qed.
End Run.
