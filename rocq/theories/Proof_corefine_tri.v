(** * The triangulations of Corefine *)
From Coq Require Import List Arith NArith Bool QArith Lia Permutation Sorted.
From Verif Require Import Model_base Proof_base Model_geometry Model_soup Model_region Model_points Model_ffi Model_corefine.
Import ListNotations.
Local Open Scope nat_scope.

(** ** Ranges *)
Lemma upper_split : forall key k l, StronglySorted (fun i j => key i <= key j) l -> (forall i, In i l -> k <= key i) ->
  let '(x, y) := upper key k l in l = x ++ y /\ (forall i, In i x -> key i = k) /\ (forall i, In i y -> k < key i) /\
    StronglySorted (fun i j => key i <= key j) y.
Proof.
  intros key k. induction l as [ | i l IH]; intros St Hk; cbn [upper].
  - repeat split; try (intros ? [ ]); constructor.
  - inversion St as [ | ? ? St' Fi]; subst. destruct (k <? key i) eqn:E.
    + apply Nat.ltb_lt in E. split; [ reflexivity | ]. split; [ intros ? [ ] | ]. split; [ | exact St ].
      intros j [<- | J]; [ exact E | ]. rewrite Forall_forall in Fi. specialize (Fi j J). lia.
    + apply Nat.ltb_ge in E. specialize (IH St' (fun j J => Hk j (or_intror J))). destruct (upper key k l) as [x y].
      destruct IH as (-> & A & B & C). split; [ reflexivity | ]. split; [ | split; [ exact B | exact C ] ].
      intros j [<- | J]; [ assert (k <= key i) by (apply Hk; left; reflexivity); lia | exact (A j J) ].
Qed.
Lemma ranges_ok : forall key fuel l, length l <= fuel -> StronglySorted (fun i j => key i <= key j) l ->
  exists ks, Forall2 (fun k r => r <> [] /\ (exists before after, l = before ++ r ++ after) /\ forall i, In i r <-> In i l /\ key i = k) ks (ranges fuel key l) /\ NoDup ks /\
    (forall i, In i l -> In (key i) ks) /\ (forall k, In k ks -> exists i, In i l /\ key i = k).
Proof.
  intros key. induction fuel as [ | fuel IH]; intros l Hl St.
  - destruct l; [ | cbn in Hl; lia ]. exists []. cbn [ranges]. repeat split; try constructor; intros ? [ ].
  - destruct l as [ | i l]; [ exists []; cbn [ranges]; repeat split; try constructor; intros ? [ ] | ].
    cbn [ranges]. inversion St as [ | ? ? St' Fi]; subst. rewrite Forall_forall in Fi.
    assert (U := upper_split key (key i) l St' Fi). destruct (upper key (key i) l) as [x y]. destruct U as (-> & A & B & C).
    cbn [length] in Hl. rewrite app_length in Hl. destruct (IH y ltac:(lia) C) as (ks & F & N & J & J').
    exists (key i :: ks). split; [ | split; [ | split ] ].
    + constructor.
      * split; [ discriminate | ]. split; [ exists [], y; reflexivity | ]. intro j. cbn [In]. rewrite in_app_iff. split.
        -- intros [<- | X]; [ auto | ]. split; [ auto | exact (A j X) ].
        -- intros [ [<- | [X | X] ] E]; auto. specialize (B j X). lia.
      * clear - F A B. assert (G : forall k, In k ks \/ ~ In k ks) by (intro k; destruct (in_dec Nat.eq_dec k ks); auto).
        assert (Y : forall k r, (r <> [] /\ (exists b a, y = b ++ r ++ a) /\ (forall j, In j r <-> In j y /\ key j = k)) ->
          r <> [] /\ (exists b a, i :: x ++ y = b ++ r ++ a) /\ (forall j, In j r <-> In j (i :: x ++ y) /\ key j = k)).
        { intros k r (Nr & (b & a & E) & H). split; [ exact Nr | ]. split; [ exists ((i :: x) ++ b), a; rewrite E, <- app_assoc; reflexivity | ]. intro j. rewrite H. cbn [In]. rewrite in_app_iff.
          assert (Gk : key i < k). { destruct r as [ | j0 r]; [ congruence | ]. destruct (proj1 (H j0) (or_introl eq_refl)) as [Y <-]. exact (B j0 Y). }
          split; [ tauto | ]. intros [ [<- | [X | X] ] E']; [ lia | specialize (A j X); lia | auto ]. }
        clear - F Y. induction F as [ | k r ks rs H F IH]; constructor; auto.
    + constructor; [ | exact N ]. intro X. destruct (J' _ X) as (j & Jj & E). specialize (B j Jj). lia.
    + intros j [<- | X]; [ left; reflexivity | ]. apply in_app_or in X. destruct X as [X | X]; [ left; symmetry; exact (A j X) | right; exact (J j X) ].
    + intros k [<- | X]; [ exists i; cbn; auto | ]. destruct (J' k X) as (j & Y & E). exists j. split; [ right; apply in_or_app; auto | exact E ].
Qed.

(** ** One triangulation *)
Section Tri.
  Context {P : Type}.
  Variable P_eqb : P -> P -> bool.
  Hypothesis Heq : forall a b, P_eqb a b = true <-> a = b.
  Variable accepts : triangulation P -> nat -> nat -> bool.
  Variable pts : list P.
  (** The ids that may come up here, with their points. *)
  Variable known : nat -> P -> Prop.
  Hypothesis K1 : forall i p, known i p -> nth_error pts i = Some p.
  Hypothesis K2 : forall i j p, known i p -> known j p -> i = j.
  Variable f : Model_region.region.
  Variables a b c : nat.
  Variables pa pb pc : P.

  Definition joins (vs : list (P * nat)) (h e : nat * nat) : Prop :=
    (exists p, nth_error vs (fst h) = Some (p, fst e)) /\ (exists p, nth_error vs (snd h) = Some (p, snd e)).
  Record tri_inv (t : triangulation P) (es : list (nat * nat)) : Prop := {
    ti_face : t_face t = f;
    ti_corners : exists rest, t_vertices t = (pa, a) :: (pb, b) :: (pc, c) :: rest;
    ti_known : Forall (fun v => known (snd v) (fst v)) (t_vertices t);
    ti_nodup : NoDup (map fst (t_vertices t));
    ti_handles : forall id vh, In (id, vh) (t_handles t) -> exists p, nth_error (t_vertices t) vh = Some (p, id);
    ti_cons : Forall2 (joins (t_vertices t)) (t_constraints t) es
  }.

  Lemma assoc_in : forall id (l : list (nat * nat)) vh, assoc_find Nat.eqb id l = Some vh -> In (id, vh) l.
  Proof.
    intros id l vh H. unfold assoc_find in H. destruct (find (fun e => fst e =? id) l) as [ [k v] | ] eqn:E; [ | discriminate ].
    apply find_some in E. destruct E as [J E]. cbn [fst] in E. apply Nat.eqb_eq in E. injection H as <-. subst. exact J.
  Qed.
  Lemma find_index_some : forall {A} (g : A -> bool) l n, find_index g l = Some n -> exists x, nth_error l n = Some x /\ g x = true.
  Proof.
    intros A g. induction l as [ | x l IH]; intros n H; cbn in H; [ discriminate | ].
    destruct (g x) eqn:E; [ injection H as <-; exists x; auto | ]. destruct (find_index g l) as [m | ]; [ | discriminate ]. cbn in H. injection H as <-. exact (IH m eq_refl).
  Qed.
  Lemma find_index_none : forall {A} (g : A -> bool) l, find_index g l = None -> forall x, In x l -> g x = false.
  Proof.
    intros A g. induction l as [ | x l IH]; intros H y J; [ destruct J | ]. cbn in H. destruct (g x) eqn:E; [ discriminate | ].
    destruct (find_index g l) as [m | ]; [ discriminate | ]. destruct J as [<- | J]; auto.
  Qed.
  Lemma set_info_same : forall vs vh (p : P) id, nth_error vs vh = Some (p, id) -> set_info vh id vs = vs.
  Proof.
    intros vs vh p id H. unfold set_info. rewrite H. revert vh H. induction vs as [ | v vs IH]; intros [ | vh] H; cbn in *; try discriminate; [ congruence | ].
    f_equal. apply IH. exact H.
  Qed.
  Lemma nth_app_some : forall {A} (l l' : list A) n x, nth_error l n = Some x -> nth_error (l ++ l') n = Some x.
  Proof. intros A l l' n x H. rewrite nth_error_app1; [ exact H | apply nth_error_Some; congruence ]. Qed.
  Lemma joins_app : forall vs vs' h e, joins vs h e -> joins (vs ++ vs') h e.
  Proof. intros vs vs' h e [ [p A] [q B] ]. split; [ exists p | exists q ]; apply nth_app_some; assumption. Qed.
  Lemma joins_all : forall vs vs' hs es, Forall2 (joins vs) hs es -> Forall2 (joins (vs ++ vs')) hs es.
  Proof. intros vs vs' hs es H. induction H; constructor; auto. apply joins_app. assumption. Qed.

  Lemma insert_in_ok : forall t es p id, tri_inv t es -> known id p ->
    exists t' vh new, insert_in P_eqb t p id = (t', vh) /\ tri_inv t' es /\ nth_error (t_vertices t') vh = Some (p, id) /\
      t_vertices t' = t_vertices t ++ new /\ (forall v, In v new -> v = (p, id)).
  Proof.
    intros t es p id I Hk. unfold insert_in. destruct (assoc_find Nat.eqb id (t_handles t)) as [vh | ] eqn:E.
    - exists t, vh, []. rewrite app_nil_r. split; [ reflexivity | ]. split; [ exact I | ]. apply assoc_in in E. destruct (ti_handles _ _ I _ _ E) as (q & Q).
      assert (q = p). { assert (X := ti_known _ _ I). rewrite Forall_forall in X. specialize (X _ (nth_error_In _ _ Q)). cbn [fst snd] in X. apply K1 in X, Hk. congruence. }
      subst q. split; [ exact Q | ]. split; [ reflexivity | intros ? [ ] ].
    - unfold cdt_insert. destruct (find_index (fun v => P_eqb (fst v) p) (t_vertices t)) as [vh | ] eqn:G.
      + apply find_index_some in G. destruct G as ([q i] & Q & Eq). cbn [fst] in Eq. apply Heq in Eq. subst q.
        assert (i = id). { assert (X := ti_known _ _ I). rewrite Forall_forall in X. specialize (X _ (nth_error_In _ _ Q)). cbn [fst snd] in X. exact (K2 _ _ _ X Hk). }
        subst i. exists (mk_tri (t_face t) (set_info vh id (t_vertices t)) (t_handles t ++ [(id, vh)]) (t_constraints t)), vh, [].
        rewrite (set_info_same _ _ _ _ Q). rewrite app_nil_r. split; [ reflexivity | ]. cbn [t_vertices]. split.
        * destruct I as [I1 I2 I3 I4 I5 I6]. split; auto. intros id' vh' J. apply in_app_or in J. destruct J as [J | [J | [ ] ] ]; [ exact (I5 _ _ J) | injection J as <- <-; exists p; exact Q ].
        * split; [ exact Q | ]. split; [ reflexivity | intros ? [ ] ].
      + assert (N := find_index_none _ _ G). set (vs := t_vertices t ++ [(p, id)]).
        assert (Q : nth_error vs (length (t_vertices t)) = Some (p, id)) by (unfold vs; rewrite nth_error_app2, Nat.sub_diag by lia; reflexivity).
        cbn [t_face t_vertices t_handles t_constraints]. exists (mk_tri (t_face t) (set_info (length (t_vertices t)) id vs) (t_handles t ++ [(id, length (t_vertices t))]) (t_constraints t)), (length (t_vertices t)), [(p, id)].
        rewrite (set_info_same _ _ _ _ Q). split; [ reflexivity | ]. cbn [t_vertices]. split.
        * destruct I as [I1 I2 I3 I4 I5 I6]. split; cbn [t_face t_vertices t_handles t_constraints].
          -- exact I1.
          -- destruct I2 as (rest & E2). unfold vs. rewrite E2. exists (rest ++ [(p, id)]). reflexivity.
          -- unfold vs. apply Forall_app. split; [ exact I3 | constructor; [ exact Hk | constructor ] ].
          -- unfold vs. rewrite map_app. cbn [map fst]. apply (Permutation_NoDup (Permutation_cons_append _ _)). constructor; [ | exact I4 ].
             intro J. apply in_map_iff in J. destruct J as ([q i] & <- & J). specialize (N _ J). cbn [fst] in N. rewrite (proj2 (Heq q q) eq_refl) in N. discriminate.
          -- intros id' vh' J. apply in_app_or in J. destruct J as [J | [J | [ ] ] ]; [ destruct (I5 _ _ J) as (q & X); exists q; apply nth_app_some; exact X | injection J as <- <-; exists p; exact Q ].
          -- apply joins_all. exact I6.
        * split; [ exact Q | ]. split; [ reflexivity | ]. intros v [<- | [ ] ]. reflexivity.
  Qed.

  (** One point of an intersection. *)
  Definition good (e : nat * Model_region.region) : Prop :=
    exists p, known (fst e) p /\ forall t : triangulation P, t_face t = f ->
      tri_insert P_eqb t p (fst e) (snd e) = Ok (insert_in P_eqb t p (fst e)) \/
      exists n, tri_insert P_eqb t p (fst e) (snd e) = Ok (t, n) /\ nth_error [a; b; c] n = Some (fst e).

  Lemma tri_insert_ok : forall t es id sym, tri_inv t es -> good (id, sym) ->
    exists p t' vh new, nth_error pts id = Some p /\ tri_insert P_eqb t p id sym = Ok (t', vh) /\ tri_inv t' es /\ nth_error (t_vertices t') vh = Some (p, id) /\
      t_vertices t' = t_vertices t ++ new /\ (forall v, In v new -> v = (p, id)).
  Proof.
    intros t es id sym I (p & Hk & H). cbn [fst snd] in *. exists p. destruct (H t (ti_face _ _ I)) as [E | (n & E & Hn)].
    - destruct (insert_in_ok t es p id I Hk) as (t' & vh & new & E' & X). exists t', vh, new. rewrite E, E'. split; [ exact (K1 _ _ Hk) | auto ].
    - exists t, n, []. rewrite app_nil_r. split; [ exact (K1 _ _ Hk) | ]. split; [ exact E | ]. split; [ exact I | ].
      destruct (ti_corners _ _ I) as (rest & Ec). assert (exists q, nth_error (t_vertices t) n = Some (q, id)) as (q & Q).
      { rewrite Ec. destruct n as [ | [ | [ | n] ] ]; cbn in Hn |- *; [ | | | destruct n; discriminate ]; injection Hn as <-; eauto. }
      assert (q = p). { assert (X := ti_known _ _ I). rewrite Forall_forall in X. specialize (X _ (nth_error_In _ _ Q)). cbn [fst snd] in X. apply K1 in X, Hk. congruence. }
      subst q. split; [ exact Q | ]. split; [ reflexivity | intros ? [ ] ].
  Qed.

  Definition rejected : Prop := exists t i j, accepts t i j = false.

  Lemma constraint_ok : forall t es i j p q id jd, tri_inv t es -> nth_error (t_vertices t) i = Some (p, id) -> nth_error (t_vertices t) j = Some (q, jd) -> id <> jd ->
    (insert_constraint accepts t i j = Throw RuntimeError /\ rejected) \/
    exists t', insert_constraint accepts t i j = Ok t' /\ tri_inv t' (es ++ [(id, jd)]) /\ t_vertices t' = t_vertices t.
  Proof.
    intros t es i j p q id jd I Hi Hj N. unfold insert_constraint. destruct (i =? j) eqn:E; [ apply Nat.eqb_eq in E; subst; congruence | ].
    destruct (accepts t i j) eqn:A; [ right | left; split; [ reflexivity | exists t, i, j; exact A ] ].
    eexists. split; [ reflexivity | ]. split; [ | reflexivity ]. destruct I as [I1 I2 I3 I4 I5 I6]. split; cbn [t_face t_vertices t_handles t_constraints]; auto.
    apply Forall2_app; [ exact I6 | ]. constructor; [ | constructor ]. split; cbn [fst snd]; eauto.
  Qed.

  Lemma insert_one_first : forall t es id sym, tri_inv t es -> good (id, sym) ->
    exists p t' vh new, insert_one P_eqb accepts pts (t, None, None) (id, sym) = Ok (t', Some vh, Some vh) /\ tri_inv t' es /\ nth_error (t_vertices t') vh = Some (p, id) /\
      t_vertices t' = t_vertices t ++ new /\ (forall v, In v new -> v = (p, id)).
  Proof.
    intros t es id sym I G. destruct (tri_insert_ok t es id sym I G) as (p & t' & vh & new & Hp & E & X). exists p, t', vh, new. split; [ | exact X ].
    unfold insert_one, vec_at. rewrite Hp. cbn [bind]. rewrite E. reflexivity.
  Qed.

  Lemma insert_more : forall l t es first prev p0 id0, tri_inv t es -> Forall good l -> NoDup (id0 :: map fst l) ->
    nth_error (t_vertices t) prev = Some (p0, id0) ->
    (foldM (insert_one P_eqb accepts pts) (t, Some first, Some prev) l = Throw RuntimeError /\ rejected) \/
    exists t' last pl new, foldM (insert_one P_eqb accepts pts) (t, Some first, Some prev) l = Ok (t', Some first, Some last) /\
      tri_inv t' (es ++ combine (id0 :: map fst l) (map fst l)) /\ nth_error (t_vertices t') last = Some (pl, List.last (map fst l) id0) /\
      t_vertices t' = t_vertices t ++ new /\ (forall v, In v new -> In (snd v) (map fst l)) /\
      (forall id, In id (map fst l) -> exists p, In (p, id) (t_vertices t')).
  Proof.
    induction l as [ | [id sym] l IH]; intros t es first prev p0 id0 I G N Hp.
    - right. exists t, prev, p0, []. cbn [map combine foldM last]. rewrite !app_nil_r. split; [ reflexivity | ]. split; [ exact I | ]. split; [ exact Hp | ]. repeat split; intros ? [ ].
    - inversion G as [ | ? ? G1 G2]; subst. cbn [map fst] in N. inversion N as [ | ? ? N1 N2]; subst.
      destruct (tri_insert_ok t es id sym I G1) as (p & t1 & vh & new1 & Hq & E & I1 & Q & V1 & W1).
      assert (Hp1 : nth_error (t_vertices t1) prev = Some (p0, id0)) by (rewrite V1; apply nth_app_some; exact Hp).
      assert (Nid : id0 <> id) by (intros ->; apply N1; left; reflexivity).
      cbn [foldM]. unfold insert_one at 1 3, vec_at. rewrite Hq. cbn [bind]. rewrite E. cbn [bind].
      destruct (constraint_ok t1 es prev vh p0 p id0 id I1 Hp1 Q Nid) as [ [-> R] | (t2 & -> & I2 & V2)]; [ left; auto | ]. cbn [bind].
      rewrite <- V2 in Q. destruct (IH t2 _ first vh p id I2 G2 N2 Q) as [R | (t3 & last & pl & new & -> & I3 & L3 & V3 & W3 & A3)]; [ left; exact R | right ].
      exists t3, last, pl, (new1 ++ new). split; [ reflexivity | ]. cbn [map fst combine]. rewrite <- app_assoc in I3. split; [ exact I3 | ].
      split; [ rewrite L3; f_equal; f_equal; clear; generalize id0, id; induction (map fst l) as [ | x m IH]; intros u v; [ reflexivity | cbn [List.last]; destruct m; [ reflexivity | apply IH ] ] | ].
      split; [ rewrite V3, V2, V1, app_assoc; reflexivity | ]. split.
      + intros v J. apply in_app_or in J. destruct J as [J | J]; [ left; rewrite (W1 v J); reflexivity | right; exact (W3 v J) ].
      + intros k [<- | J]; [ | exact (A3 k J) ]. exists p. rewrite V3. apply in_or_app. left. exact (nth_error_In _ _ Q).
  Qed.

  (** The constraints of one intersection. *)
  Definition chain (ids : list nat) : list (nat * nat) :=
    combine ids (tl ids) ++ (if 2 <? length ids then [(last ids 0, hd 0 ids)] else []).

  Lemma insert_intersection_ok : forall t es i, tri_inv t es -> length (i_ids i) = length (i_syms i) -> Forall good (combine (i_ids i) (i_syms i)) -> NoDup (i_ids i) ->
    (insert_intersection P_eqb accepts pts t i = Throw RuntimeError /\ rejected) \/
    exists t' new, insert_intersection P_eqb accepts pts t i = Ok t' /\ tri_inv t' (es ++ chain (i_ids i)) /\
      t_vertices t' = t_vertices t ++ new /\ (forall v, In v new -> In (snd v) (i_ids i)) /\ (forall id, In id (i_ids i) -> exists p, In (p, id) (t_vertices t')).
  Proof.
    intros t es i I L G N. unfold insert_intersection. set (l := combine (i_ids i) (i_syms i)) in *.
    assert (El : map fst l = i_ids i). { unfold l. clear - L. revert L. generalize (i_syms i). induction (i_ids i) as [ | x m IH]; intros [ | y s] L; cbn in *; try lia; [ reflexivity | ]. f_equal. apply IH. lia. }
    rewrite <- El in N |- *. rewrite !map_length. clear El L. clearbody l. destruct l as [ | [id sym] l].
    - right. exists t, []. cbn. rewrite !app_nil_r. split; [ reflexivity | ]. split; [ exact I | ]. repeat split; intros ? [ ].
    - inversion G as [ | ? ? G1 G2]; subst. destruct (insert_one_first t es id sym I G1) as (p & t1 & vh & new1 & E & I1 & Q & V1 & W1).
      cbn [foldM]. rewrite E. cbn [bind]. destruct (insert_more l t1 es vh vh p id I1 G2 N Q) as [ [-> R] | (t2 & last & pl & new & -> & I2 & L2 & V2 & W2 & A2)]; [ left; auto | ].
      cbn [bind]. assert (Wn : forall v, In v (new1 ++ new) -> In (snd v) (map fst ((id, sym) :: l))).
      { intros v J. apply in_app_or in J. destruct J as [J | J]; [ left; rewrite (W1 v J); reflexivity | right; exact (W2 v J) ]. }
      assert (An : forall k, In k (map fst ((id, sym) :: l)) -> exists p, In (p, k) (t_vertices t2)).
      { intros k [<- | J]; [ | exact (A2 k J) ]. exists p. rewrite V2. apply in_or_app. left. exact (nth_error_In _ _ Q). }
      assert (Vn : t_vertices t2 = t_vertices t ++ new1 ++ new) by (rewrite V2, V1, app_assoc; reflexivity).
      unfold chain. rewrite map_length. destruct (2 <? length ((id, sym) :: l)) eqn:E2.
      + assert (Q2 : nth_error (t_vertices t2) vh = Some (p, id)) by (rewrite V2; apply nth_app_some; exact Q).
        assert (Nl : List.last (map fst l) id <> id).
        { apply Nat.ltb_lt in E2. cbn [length] in E2. cbn [map fst] in N. inversion N as [ | ? ? N1 N2]; subst. intro X. apply N1. rewrite <- X.
          assert (l <> []) by (destruct l; [ cbn in E2; lia | discriminate ]). clear - H. assert (map fst l <> []) by (destruct l; cbn; congruence). generalize id. induction (map fst l) as [ | x m IH]; intro d; [ congruence | ].
          destruct m; [ left; reflexivity | right; apply IH; discriminate ]. }
        destruct (constraint_ok t2 _ last vh pl p _ id I2 L2 Q2 Nl) as [ [-> R] | (t3 & -> & I3 & V3)]; [ left; auto | right ].
        exists t3, (new1 ++ new). split; [ reflexivity | ]. rewrite V3. split; [ | auto ].
        cbn [map fst tl hd]. rewrite <- app_assoc in I3. replace (List.last (id :: map fst l) 0) with (List.last (map fst l) id); [ exact I3 | ].
        clear. generalize id, 0. induction (map fst l) as [ | x m IH]; intros d e; [ reflexivity | ]. change (List.last (d :: x :: m) e) with (List.last (x :: m) e). rewrite <- (IH x e).
        clear. revert d x. induction m as [ | y m IH]; intros d x; [ reflexivity | ]. change (List.last (x :: y :: m) d) with (List.last (y :: m) d). rewrite (IH d y), (IH x y). reflexivity.
      + right. exists t2, (new1 ++ new). split; [ reflexivity | ]. rewrite app_nil_r. split; [ exact I2 | auto ].
  Qed.

  Lemma insert_all : forall range t es, tri_inv t es ->
    (forall i, In i range -> length (i_ids i) = length (i_syms i) /\ Forall good (combine (i_ids i) (i_syms i)) /\ NoDup (i_ids i)) ->
    (foldM (insert_intersection P_eqb accepts pts) t range = Throw RuntimeError /\ rejected) \/
    exists t' new, foldM (insert_intersection P_eqb accepts pts) t range = Ok t' /\ tri_inv t' (es ++ flat_map (fun i => chain (i_ids i)) range) /\
      t_vertices t' = t_vertices t ++ new /\ (forall v, In v new -> exists i, In i range /\ In (snd v) (i_ids i)) /\
      (forall i id, In i range -> In id (i_ids i) -> exists p, In (p, id) (t_vertices t')).
  Proof.
    induction range as [ | i range IH]; intros t es I H.
    - right. exists t, []. cbn. rewrite !app_nil_r. split; [ reflexivity | ]. split; [ exact I | ]. split; [ reflexivity | ]. split; [ intros ? [ ] | intros ? ? [ ] ].
    - destruct (H i (or_introl eq_refl)) as (H1 & H2 & H3). cbn [foldM flat_map].
      destruct (insert_intersection_ok t es i I H1 H2 H3) as [ [-> R] | (t1 & new1 & -> & I1 & V1 & W1 & A1)]; [ left; auto | ]. cbn [bind].
      destruct (IH t1 _ I1 (fun j J => H j (or_intror J))) as [R | (t2 & new2 & -> & I2 & V2 & W2 & A2)]; [ left; exact R | right ].
      exists t2, (new1 ++ new2). split; [ reflexivity | ]. rewrite <- app_assoc in I2. split; [ exact I2 | ]. split; [ rewrite V2, V1, app_assoc; reflexivity | ]. split.
      + intros v J. apply in_app_or in J. destruct J as [J | J]; [ exists i; split; [ left; reflexivity | exact (W1 v J) ] | destruct (W2 v J) as (j & X & Y); exists j; split; [ right | ]; assumption ].
      + intros j id [<- | J] Jd; [ | exact (A2 j id J Jd) ]. destruct (A1 id Jd) as (p & X). exists p. rewrite V2. apply in_or_app. left. exact X.
  Qed.
  Lemma tri_new_ok : known a pa -> known b pb -> known c pc -> NoDup [pa; pb; pc] -> tri_inv (tri_new f pa pb pc a b c) [].
  Proof.
    intros A B C N. split; cbn [tri_new t_face t_vertices t_handles t_constraints]; auto.
    - exists []. reflexivity.
    - intros ? ? [ ].
  Qed.
End Tri.
