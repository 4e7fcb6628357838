(** * The triangulations of one mesh *)
From Coq Require Import List Arith NArith Bool QArith Lia Permutation Sorted.
From Verif Require Import Model_base Proof_base Model_geometry Model_soup Model_region Model_points Model_ffi Model_corefine.
From Verif Require Import Spec_candidates Spec_defects Spec_ffi Spec_corefine Proof_corefine_tri Proof_corefine_out.
Import ListNotations.
Local Open Scope nat_scope.

Section Side.
  Context {P D : Type}.
  Variable P_eqb : P -> P -> bool.
  Hypothesis Heq : forall a b, P_eqb a b = true <-> a = b.
  Variable accepts : triangulation P -> nat -> nat -> bool.
  Variable pts : list P.
  Variable known : nat -> P -> Prop.
  Hypothesis K1 : forall i p, known i p -> nth_error pts i = Some p.
  Hypothesis K2 : forall i j p, known i p -> known j p -> i = j.
  Variable f : Model_region.region.
  Variable m : soup P D.
  Variable ids : list nat.
  Variable key : info -> nat.

  Definition usable (i : info) : Prop :=
    exists a b c pa pb pc, face_ids m ids (key i) = Ok (a, b, c) /\ known a pa /\ known b pb /\ known c pc /\ NoDup [pa; pb; pc] /\
      length (i_ids i) = length (i_syms i) /\ NoDup (i_ids i) /\ Forall (good P_eqb known f a b c) (combine (i_ids i) (i_syms i)).

  (** What the triangulation of a face is, in terms of the records of that face. *)
  Definition tri_facts (fi : nat) (sel : info -> Prop) (t : triangulation P) : Prop :=
    (forall i j, joined t i j <-> exists r, sel r /\ (neighbours (i_ids r) i j \/ neighbours (i_ids r) j i)) /\
    (forall id, (exists p, In (p, id) (t_vertices t)) <->
       (exists a b c, face_points m ids fi (a, b, c) /\ In id [a; b; c]) \/ exists r, sel r /\ In id (i_ids r)) /\
    (forall p id, In (p, id) (t_vertices t) -> nth_error pts id = Some p) /\
    NoDup (map snd (t_vertices t)) /\ NoDup (map fst (t_vertices t)) /\
    (forall h k, In (h, k) (t_constraints t) -> h < length (t_vertices t) /\ k < length (t_vertices t)) /\
    exists a b c rest, face_points m ids fi (a, b, c) /\ map snd (t_vertices t) = a :: b :: c :: rest.

  Lemma face_ids_points : forall fi a b c, face_ids m ids fi = Ok (a, b, c) <-> face_points m ids fi (a, b, c).
  Proof.
    intros fi a b c. unfold face_ids, soup_face. split.
    - intro H. apply bind_ok in H. destruct H as ([ [v0 v1] v2] & E & H). apply bind_ok in H. destruct H as (x & E0 & H). apply bind_ok in H. destruct H as (y & E1 & H). apply bind_ok in H. destruct H as (z & E2 & H).
      apply vec_at_ok in E, E0, E1, E2. injection H as <- <- <-. exists v0, v1, v2, x, y, z. auto.
    - intros (v0 & v1 & v2 & x & y & z & E & E0 & E1 & E2 & H). injection H as <- <- <-. unfold vec_at. rewrite E. cbn [bind]. rewrite E0, E1, E2. reflexivity.
  Qed.

  Lemma triangulate_ok : forall any rest, (forall i, In i (any :: rest) -> key i = key any) -> (forall i, In i (any :: rest) -> usable i) ->
    (triangulate P_eqb accepts f key pts m ids (any :: rest) = Throw RuntimeError /\ rejected accepts) \/
    exists t, triangulate P_eqb accepts f key pts m ids (any :: rest) = Ok (key any, t) /\ tri_facts (key any) (fun i => In i (any :: rest)) t.
  Proof.
    intros any rest Hkey Hus. destruct (Hus any (or_introl eq_refl)) as (a & b & c & pa & pb & pc & Ef & Ka & Kb & Kc & Nd & _).
    assert (G : forall i, In i (any :: rest) -> length (i_ids i) = length (i_syms i) /\ Forall (good P_eqb known f a b c) (combine (i_ids i) (i_syms i)) /\ NoDup (i_ids i)).
    { intros i J. destruct (Hus i J) as (a' & b' & c' & _ & _ & _ & E & _ & _ & _ & _ & A & B & C). rewrite (Hkey i J), Ef in E. injection E as <- <- <-. auto. }
    unfold triangulate. rewrite Ef. cbn [bind]. unfold vec_at. rewrite (K1 _ _ Ka), (K1 _ _ Kb), (K1 _ _ Kc). cbn [bind].
    set (range := any :: rest) in *.
    destruct (insert_all P_eqb Heq accepts pts known K1 K2 f a b c pa pb pc range _ [] (tri_new_ok known f a b c pa pb pc Ka Kb Kc Nd) G) as [ [-> R] | (t & new & -> & I & V & W & A)]; [ left; auto | right ].
    exists t. split; [ reflexivity | ]. cbn [app] in I. assert (Ik := ti_known _ _ _ _ _ _ _ _ _ _ I). rewrite Forall_forall in Ik.
    assert (Ip : forall p id, In (p, id) (t_vertices t) -> nth_error pts id = Some p) by (intros p id J; apply K1; exact (Ik _ J)).
    assert (Nf := ti_nodup _ _ _ _ _ _ _ _ _ _ I).
    assert (Ns : NoDup (map snd (t_vertices t))).
    { clear - Ip Nf. induction (t_vertices t) as [ | [p i] vs IH]; [ constructor | ]. cbn [map fst snd] in *. inversion Nf as [ | ? ? N1 N2]; subst. constructor.
      - intro J. apply in_map_iff in J. destruct J as ([q j] & E & J). cbn [snd] in E. subst j. assert (X := Ip p i (or_introl eq_refl)). assert (Y := Ip q i (or_intror J)). apply N1. apply in_map_iff. exists (q, i). split; [ cbn; congruence | exact J ].
      - apply IH; [ intros; apply Ip; right; assumption | exact N2 ]. }
    assert (Fid : forall h p q i j, nth_error (t_vertices t) h = Some (p, i) -> nth_error (t_vertices t) h = Some (q, j) -> i = j) by (intros; congruence).
    assert (Uid : forall h k p q i, nth_error (t_vertices t) h = Some (p, i) -> nth_error (t_vertices t) k = Some (q, i) -> h = k).
    { intros h k p q i Hh Hk. apply (proj1 (NoDup_nth_error _) Ns); [ rewrite map_length; apply nth_error_Some; congruence | rewrite !nth_error_map, Hh, Hk; reflexivity ]. }
    assert (Ic := ti_cons _ _ _ _ _ _ _ _ _ _ I).
    assert (C1 : forall h k, In (h, k) (t_constraints t) -> exists i j p q, nth_error (t_vertices t) h = Some (p, i) /\ nth_error (t_vertices t) k = Some (q, j) /\ In (i, j) (flat_map (fun i => chain (i_ids i)) range)).
    { clear - Ic. induction Ic as [ | [h' k'] [i j] hs es [ [p X] [q Y] ] F IH]; intros h k J; [ destruct J | ]. destruct J as [J | J].
      - injection J as -> ->. exists i, j, p, q. cbn [fst snd] in *. split; [ exact X | ]. split; [ exact Y | left; reflexivity ].
      - destruct (IH _ _ J) as (i' & j' & p' & q' & A & B & C). exists i', j', p', q'. split; [ exact A | ]. split; [ exact B | right; exact C ]. }
    assert (C2 : forall i j, In (i, j) (flat_map (fun i => chain (i_ids i)) range) -> exists h k p q, In (h, k) (t_constraints t) /\ nth_error (t_vertices t) h = Some (p, i) /\ nth_error (t_vertices t) k = Some (q, j)).
    { clear - Ic. induction Ic as [ | [h k] [i' j'] hs es [ [p X] [q Y] ] F IH]; intros i j J; [ destruct J | ]. destruct J as [J | J].
      - injection J as -> ->. exists h, k, p, q. cbn [fst snd] in *. split; [ left; reflexivity | auto ].
      - destruct (IH _ _ J) as (h' & k' & p' & q' & A & B & C). exists h', k', p', q'. split; [ right; exact A | auto ]. }
    split; [ | split; [ | split; [ exact Ip | split; [ exact Ns | split; [ exact Nf | split ] ] ] ] ].
    3: { intros h k J. destruct (C1 _ _ J) as (i & j & p & q & A1 & A2 & _). split; apply nth_error_Some; congruence. }
    3: { destruct (ti_corners _ _ _ _ _ _ _ _ _ _ I) as (rest' & Ev). exists a, b, c, (map snd rest'). split; [ apply face_ids_points; exact Ef | ]. rewrite Ev. reflexivity. }
    - intros i j. split.
      + intros (h & k & p & q & [J | J] & Hh & Hk).
        * destruct (C1 _ _ J) as (i' & j' & p' & q' & A1 & A2 & A3). rewrite Hh in A1. injection A1 as <- <-. rewrite Hk in A2. injection A2 as <- <-. apply in_flat_map in A3. destruct A3 as (r & Jr & A3). exists r. split; [ exact Jr | left; apply chain_neighbours; exact A3 ].
        * destruct (C1 _ _ J) as (i' & j' & p' & q' & A1 & A2 & A3). rewrite Hk in A1. injection A1 as <- <-. rewrite Hh in A2. injection A2 as <- <-. apply in_flat_map in A3. destruct A3 as (r & Jr & A3). exists r. split; [ exact Jr | right; apply chain_neighbours; exact A3 ].
      + intros (r & Jr & H). assert (X : In (i, j) (chain (i_ids r)) \/ In (j, i) (chain (i_ids r))) by (destruct H as [H | H]; apply neighbours_chain in H; tauto).
        destruct X as [X | X]; destruct (C2 _ _ (proj2 (in_flat_map _ _ _) (ex_intro _ r (conj Jr X)))) as (h & k & p & q & J & Hh & Hk); [ exists h, k, p, q | exists k, h, q, p ]; auto.
    - intro id. split.
      + intros (p & J). rewrite V in J. apply in_app_or in J. destruct J as [J | J].
        * left. exists a, b, c. split; [ apply face_ids_points; exact Ef | ]. cbn [tri_new t_vertices] in J. destruct J as [J | [J | [J | [ ] ] ] ]; injection J as <- <-; cbn; auto.
        * right. destruct (W _ J) as (r & Jr & Y). exists r. auto.
      + intros [(a' & b' & c' & Fp & J) | (r & Jr & J)].
        * apply face_ids_points in Fp. rewrite Ef in Fp. injection Fp as <- <- <-. rewrite V. cbn [tri_new t_vertices app]. destruct J as [<- | [<- | [<- | [ ] ] ] ]; eexists; cbn; eauto.
        * exact (A r id Jr J).
  Qed.

  Variable infos sorted : list info.
  Hypothesis Hus : forall i, In i infos -> usable i.
  Hypothesis Hsort : sorts key infos sorted.

  Lemma ranges_facts : forall res, for_ranges (triangulate P_eqb accepts f key pts m ids) (ranges (length sorted) key sorted) res ->
    (res = Throw RuntimeError /\ rejected accepts) \/
    exists tris, res = Ok tris /\ NoDup (map fst tris) /\ (forall fi, (exists t, In (fi, t) tris) <-> exists i, In i infos /\ key i = fi) /\
      forall fi t, In (fi, t) tris -> tri_facts fi (fun i => In i infos /\ key i = fi) t.
  Proof.
    intros res H. destruct Hsort as [Pm St]. destruct (ranges_ok key (length sorted) sorted (le_n _) St) as (ks & F & Nk & J1 & J2).
    assert (R : forall k r, (r <> [] /\ (exists before after, sorted = before ++ r ++ after) /\ forall i, In i r <-> In i sorted /\ key i = k) ->
      (triangulate P_eqb accepts f key pts m ids r = Throw RuntimeError /\ rejected accepts) \/
      exists t, triangulate P_eqb accepts f key pts m ids r = Ok (k, t) /\ tri_facts k (fun i => In i infos /\ key i = k) t).
    { intros k r (Ne & _ & Hr). destruct r as [ | any rest]; [ congruence | ].
      assert (Ek : key any = k) by (apply (proj1 (Hr any)); left; reflexivity). subst k.
      destruct (triangulate_ok any rest) as [X | (t & Et & Ft)].
      - intros i J. apply Hr in J. tauto.
      - intros i J. apply Hr in J. apply Hus. eapply Permutation_in; [ apply Permutation_sym; exact Pm | tauto ].
      - left. exact X.
      - right. exists t. split; [ exact Et | ]. assert (Q : forall i, In i (any :: rest) <-> In i infos /\ key i = key any).
        { intro i. rewrite Hr. split; intros [A B]; (split; [ | exact B ]); [ exact (Permutation_in _ (Permutation_sym Pm) A) | exact (Permutation_in _ Pm A) ]. }
        destruct Ft as (F1 & F2 & F3). split; [ | split; [ | exact F3 ] ].
        + intros i j. rewrite F1. split; intros (r & A & B); exists r; (split; [ apply Q; exact A | exact B ]).
        + intros id. rewrite F2. split; (intros [X | (r & A & B)]; [ left; exact X | right; exists r; split; [ apply Q; exact A | exact B ] ]). }
    assert (Rn : forall r, In r (ranges (length sorted) key sorted) -> (triangulate P_eqb accepts f key pts m ids r = Throw RuntimeError /\ rejected accepts) \/ exists x, triangulate P_eqb accepts f key pts m ids r = Ok x).
    { clear - F R. intros r J. induction F as [ | k r' ks rs H F IH]; [ destruct J | ]. destruct J as [<- | J]; [ | exact (IH J) ]. destruct (R _ _ H) as [X | (t & X & _)]; [ left; exact X | right; eauto ]. }
    inversion H as [ts Hts | r e Jr Er | r Jr Er]; subst.
    - right. exists ts. split; [ reflexivity | ].
      assert (Fk : Forall2 (fun k x => fst x = k /\ tri_facts k (fun i => In i infos /\ key i = k) (snd x)) ks ts).
      { clear - F R Hts. revert ts Hts. induction F as [ | k r ks rs H F IH]; intros ts Hts; inversion Hts as [ | ? x ? xs E E']; subst; constructor; [ | apply IH; exact E' ].
        destruct (R _ _ H) as [ [X _] | (t & X & Y)]; rewrite E in X; [ discriminate | injection X as ->; auto ]. }
      assert (Em : map fst ts = ks). { clear - Fk. induction Fk as [ | k x ks xs [E _] F IH]; cbn; congruence. }
      split; [ rewrite Em; exact Nk | ]. split.
      + intro fi. split.
        * intros (t & J). assert (Jk : In fi ks) by (rewrite <- Em; apply in_map_iff; exists (fi, t); auto). destruct (J2 _ Jk) as (i & Ji & E). exists i. split; [ eapply Permutation_in; [ apply Permutation_sym; exact Pm | exact Ji ] | exact E ].
        * intros (i & Ji & E). assert (Jk := J1 i (Permutation_in _ Pm Ji)). rewrite E, <- Em in Jk. apply in_map_iff in Jk. destruct Jk as ([x t] & E' & J). cbn in E'. subst x. eauto.
      + intros fi t J. clear - Fk J. induction Fk as [ | k x ks xs [E H] F IH]; [ destruct J | ]. destruct J as [-> | J]; [ cbn [fst snd] in *; subst k; exact H | exact (IH J) ].
    - left. destruct (Rn r Jr) as [ [E X] | (x & E)]; rewrite Er in E; [ injection E as ->; auto | discriminate ].
    - destruct (Rn r Jr) as [ [E X] | (x & E)]; rewrite Er in E; discriminate.
  Qed.
End Side.
