(** * Corefine *)
From Coq Require Import List Arith NArith Bool QArith Lqa Lia Permutation Sorted.
From Verif Require Import Model_base Proof_base Model_geometry Model_soup Model_region Model_points Model_ffi Model_aabb Model_parallel_do Model_candidates Model_corefine.
From Verif Require Import Spec_aabb Spec_points Spec_candidates Spec_defects Spec_ffi Spec_corefine Proof_extreme Proof_hull Proof_ffi_orient Proof_ffi_calls Proof_ffi_edge
  Proof_ffi_plane Proof_ffi_all Prop_ffi Prop_points Prop_candidates Proof_collect Proof_candidates Proof_corefine_geo Proof_corefine_ids Proof_corefine_run Proof_corefine_rec Proof_corefine_tri Proof_corefine_out Proof_corefine_side.
Import ListNotations.
Local Open Scope nat_scope.

Lemma do_writes_length : forall tr s, length (fst (fold_left do_write tr s)) = length (fst s) /\ length (snd (fold_left do_write tr s)) = length (snd s).
Proof.
  induction tr as [ | w tr IH]; intro s; [ auto | ]. cbn [fold_left]. destruct (IH (do_write s w)) as [-> ->]. unfold do_write.
  destruct (tw_a w); cbn [fst snd]; rewrite length_list_set; auto.
Qed.
Lemma tags_length : forall {P D} (left right : soup P D) lp rp lt rt, find_coplanar_faces left right lp rp lt rt ->
  length lt = num_faces left /\ length rt = num_faces right.
Proof.
  intros P D left right lp rp lt rt H. inversion H as [? ? L C | ? ? L C]; subst; inversion C as [tab bodies tr K F I E].
  - assert (X := do_writes_length tr (repeat UNKNOWN (num_faces left), repeat UNKNOWN (num_faces right))). rewrite E in X. cbn [fst snd] in X. rewrite !repeat_length in X. exact X.
  - assert (X := do_writes_length tr (repeat UNKNOWN (num_faces right), repeat UNKNOWN (num_faces left))). rewrite E in X. cbn [fst snd] in X. rewrite !repeat_length in X. tauto.
Qed.
Lemma info_eq_dec : forall x y : info, {x = y} + {x <> y}.
Proof. decide equality; try apply list_eq_dec; auto using N.eq_dec, Nat.eq_dec. Qed.

Lemma ids_points : forall {P D} (m : soup P D) ids fi g f, face_ids m ids fi = Ok g -> face_points m ids fi f -> g = f.
Proof.
  intros P D m ids fi g f E H. destruct H as (v0 & v1 & v2 & p0 & p1 & p2 & Hf & H0 & H1 & H2 & ->). unfold face_ids, soup_face, vec_at in E.
  rewrite Hf in E. cbn [bind] in E. rewrite H0, H1, H2 in E. cbn [bind] in E. injection E as <-. reflexivity.
Qed.

Section All.
  Context {P D : Type}.
  Variable P_eqb : P -> P -> bool.
  Hypothesis Heq : forall a b, P_eqb a b = true <-> a = b.
  Variable coords : P -> vec3.
  Hypothesis Hinj : forall p q, same_point (coords p) (coords q) -> p = q.
  Variable pbox : P -> box.
  Hypothesis Hbox : forall p, in_box (coords p) (pbox p).
  Variable longest_axis : option box -> nat.
  Variable sort_by : nat -> list (box * nat) -> list (box * nat).
  Variable nth_element_by : nat -> nat -> list (box * nat) -> list (box * nat).
  Hypothesis Hre : rearranges sort_by nth_element_by.
  Variable cll : P -> P -> P -> P -> P.
  Variable cpl : P -> P -> P -> P -> P -> P.
  Hypothesis Hll : ll_correct coords cll.
  Hypothesis Hpl : pl_correct coords cpl.
  Variable accepts : triangulation P -> nat -> nat -> bool.
  Variable num_threads : nat.
  Hypothesis Hnt : 1 <= num_threads.
  Variables left right : soup P D.
  Hypothesis Pl : proper coords left.
  Hypothesis Pr : proper coords right.
  Hypothesis Sl : simplicial coords left.
  Hypothesis Sr : simplicial coords right.
  Variable pl : point_list P.
  Variables lids rids : list nat.
  Hypothesis Hstart : start_points P_eqb left right = (pl, lids, rids).
  Variables ltags rtags : list face_tag.
  Hypothesis Htags : find_coplanar_faces left right lids rids ltags rtags.
  Variable pairs : list (nat * nat).
  Variable px : option (option exn).
  Hypothesis Hpairs : find_pairs pbox longest_axis sort_by nth_element_by num_threads left right ltags rtags pairs px.

  Lemma corners_in : forall (m : soup P D) fi t, face_corners m fi t -> fi < num_faces m.
  Proof. intros m fi t (a & b & c & p & q & r & H & _). unfold num_faces. apply nth_error_Some. congruence. Qed.
  Lemma proper_corners : forall (m : soup P D) fi t, proper coords m -> face_corners m fi t -> nondegenerate (triangle_of coords t).
  Proof. intros m fi t H C. destruct (H fi (corners_in _ _ _ C)) as (t' & C' & N). rewrite (corners_fun _ _ _ _ C C'). exact N. Qed.
  Lemma proper_valid : forall m : soup P D, proper coords m -> valid_faces m.
  Proof.
    intros m H. apply Forall_forall. intros f J. apply In_nth_error in J. destruct J as (fi & E).
    destruct (H fi) as (t & (a & b & c & p & q & r & E' & A & B & C & _) & _); [ unfold num_faces; apply nth_error_Some; congruence | ].
    rewrite E in E'. injection E' as ->. repeat split; apply nth_error_Some; congruence.
  Qed.
  Lemma corners_triangle : forall (m : soup P D) fi p q r, face_corners m fi (p, q, r) -> soup_triangle m fi = Ok (p, q, r).
  Proof.
    intros m fi p q r (a & b & c & p' & q' & r' & E & A & B & C & X). injection X as <- <- <-.
    unfold soup_triangle, soup_face, soup_point, vec_at. rewrite E. cbn [bind]. rewrite A, B, C. reflexivity.
  Qed.

  Lemma pairs_ok : px = None /\ NoDup pairs /\ (forall L R, In (L, R) pairs -> nth_error ltags L = Some UNKNOWN /\ nth_error rtags R = Some UNKNOWN /\ L < num_faces left /\ R < num_faces right) /\
    forall L R t u x, face_corners left L t -> face_corners right R u -> nth_error ltags L = Some UNKNOWN -> nth_error rtags R = Some UNKNOWN ->
      both (triangle_of coords t) (triangle_of coords u) x -> In (L, R) pairs.
  Proof.
    destruct (tags_length _ _ _ _ _ _ Htags) as [L1 L2].
    destruct (C22_pairs_exact P D pbox longest_axis sort_by nth_element_by num_threads left right ltags rtags pairs px Hre (proper_valid _ Pl) (proper_valid _ Pr) L1 L2 Hnt Hpairs) as (X & N & I).
    split; [ exact X | ]. split; [ exact N | ]. split.
    - intros L R J. apply I in J. destruct J as (A & B & _). split; [ exact A | ]. split; [ exact B | ]. rewrite <- L1, <- L2. split; apply nth_error_Some; congruence.
    - intros L R [ [p q] r] [ [p' q'] r'] x Cl Cr Tl Tr [ (u & v & w & (U1 & U2 & U3 & U4) & S) (u' & v' & w' & (V1 & V2 & V3 & V4) & S') ].
      eapply (C22_no_intersection_missed P D pbox coords longest_axis sort_by nth_element_by num_threads left right ltags rtags pairs px L R p q r p' q' r' x Hre Hbox (proper_valid _ Pl) (proper_valid _ Pr) L1 L2 Hnt Hpairs Tl Tr (corners_triangle _ _ _ _ _ Cl) (corners_triangle _ _ _ _ _ Cr)).
      + exists u, v, w. destruct S as (S1 & S2 & S3). auto 8.
      + exists u', v', w'. destruct S' as (S1 & S2 & S3). auto 8.
  Qed.

  (** ** The records *)
  Let nm := named (D := D) pl.
  Lemma pair_record : forall L R, L < num_faces left -> R < num_faces right -> exists t u a b c p q r syms, nm left lids L t (a, b, c) /\ nm right rids R u (p, q, r) /\
    nondegenerate (triangle_of coords t) /\ nondegenerate (triangle_of coords u) /\
    face_face_intersection coords (pl_points pl) a b c p q r = Ok syms /\
    pair_body coords (pl_points pl) left right lids rids (L, R) = Ok (match syms with [] => [] | _ => [mk_info L R syms []] end).
  Proof.
    intros L R HL HR. destruct (Pl L HL) as (t & Ct & Nt). destruct (Pr R HR) as (u & Cu & Nu).
    destruct (named_left P_eqb Heq left right pl lids rids Hstart L t Ct) as ([ [a b] c] & Nl). destruct (named_right P_eqb Heq left right pl lids rids Hstart R u Cu) as ([ [p q] r] & Nr).
    destruct (C36_exact coords (pl_points pl) a b c p q r _ _ (named_triangle coords _ _ _ _ _ _ _ _ Nl) (named_triangle coords _ _ _ _ _ _ _ _ Nr) Nt Nu) as (syms & E & _).
    exists t, u, a, b, c, p, q, r, syms. split; [ exact Nl | ]. split; [ exact Nr | ]. split; [ exact Nt | ]. split; [ exact Nu | ]. split; [ exact E | ].
    unfold pair_body. rewrite (proj1 (proj2 Nl)), (proj1 (proj2 Nr)). cbn [bind]. rewrite E. cbn [bind]. destruct syms; reflexivity.
  Qed.

  Variable infos0 : list info.
  Variable tr : list (nat * label (list info) (option exn)).
  Variable ix : option (option exn).
  Hypothesis Hrec : parallel_do (to_body (pair_body coords (pl_points pl) left right lids rids)) append_post pairs true num_threads [] [] tr infos0 ix.

  Lemma records_ok : ix = None /\ Forall (fun i => i_ids i = []) infos0 /\ Forall (from_ffi coords left right pl lids rids) infos0 /\
    (forall i, In i infos0 -> i_syms i <> [] /\ In (i_left i, i_right i) pairs) /\
    NoDup (map (fun i => (i_left i, i_right i)) infos0) /\
    forall L R a b c p q r s syms, In (L, R) pairs -> face_ids left lids L = Ok (a, b, c) -> face_ids right rids R = Ok (p, q, r) ->
      face_face_intersection coords (pl_points pl) a b c p q r = Ok (s :: syms) -> In (mk_info L R (s :: syms) []) infos0.
  Proof.
    destruct pairs_ok as (_ & Nd & Pin & _).
    set (h := fun pr => match pair_body coords (pl_points pl) left right lids rids pr with Ok l => l | _ => [] end).
    assert (Hh : forall pr, In pr pairs -> pair_body coords (pl_points pl) left right lids rids pr = Ok (h pr)).
    { intros [L R] J. destruct (Pin L R J) as (_ & _ & HL & HR). destruct (pair_record L R HL HR) as (t & u & a & b & c & p & q & r & syms & _ & _ & _ & _ & _ & E). unfold h. rewrite E. reflexivity. }
    destruct (collect info_eq_dec _ h pairs num_threads tr infos0 ix Hh Hnt Hrec) as [Ex Pm]. split; [ exact Ex | ].
    assert (G : forall i, In i infos0 -> i_ids i = [] /\ i_syms i <> [] /\ In (i_left i, i_right i) pairs /\ from_ffi coords left right pl lids rids i).
    { intros i J. eapply Permutation_in in J; [ | exact Pm ]. apply in_flat_map in J. destruct J as ([L R] & Jp & J).
      destruct (Pin L R Jp) as (_ & _ & HL & HR). destruct (pair_record L R HL HR) as (t & u & a & b & c & p & q & r & syms & N1 & N2 & N3 & N4 & N5 & E). unfold h in J. rewrite E in J.
      destruct syms as [ | s syms]; [ destruct J | ]. destruct J as [<- | [ ] ]. cbn [i_ids i_syms i_left i_right]. split; [ reflexivity | ]. split; [ discriminate | ]. split; [ exact Jp | ].
      exists t, u, a, b, c, p, q, r. cbn [i_ids i_syms i_left i_right]. auto. }
    split; [ apply Forall_forall; intros i J; apply G; exact J | ]. split; [ apply Forall_forall; intros i J; apply G; exact J | ]. split; [ intros i J; destruct (G i J) as (_ & A & B & _); auto | ]. split.
    - eapply Permutation_NoDup; [ apply Permutation_map, Permutation_sym; exact Pm | ].
      assert (Hs : forall pr, In pr pairs -> map (fun i => (i_left i, i_right i)) (h pr) = [] \/ map (fun i => (i_left i, i_right i)) (h pr) = [pr]).
      { intros [L R] Jp. destruct (Pin L R Jp) as (_ & _ & HL & HR). destruct (pair_record L R HL HR) as (t & u & a & b & c & p & q & r & syms & N1 & N2 & N3 & N4 & N5 & E). unfold h. rewrite E.
        destruct syms as [ | s syms]; [ left | right ]; reflexivity. }
      clear - Nd Hs. induction pairs as [ | pr ps IH]; [ constructor | ]. inversion Nd as [ | ? ? N1 N2]; subst. cbn [flat_map]. rewrite map_app.
      assert (IH' := IH N2 (fun p J => Hs p (or_intror J))). destruct (Hs pr (or_introl eq_refl)) as [-> | ->]; [ exact IH' | ]. cbn [app]. constructor; [ | exact IH' ].
      intro J. apply N1. clear - J Hs. assert (X : forall p, In p ps -> map (fun i => (i_left i, i_right i)) (h p) = [] \/ map (fun i => (i_left i, i_right i)) (h p) = [p]) by (intros; apply Hs; right; assumption).
      clear Hs. induction ps as [ | p ps IH]; [ destruct J | ]. cbn [flat_map] in J. rewrite map_app in J. apply in_app_or in J. destruct J as [J | J].
      + destruct (X p (or_introl eq_refl)) as [E | E]; rewrite E in J; [ destruct J | destruct J as [<- | [ ] ]; left; reflexivity ].
      + right. apply IH; [ exact J | intros; apply X; right; assumption ].
    - intros L R a b c p q r s syms J E1 E2 E3. eapply Permutation_in; [ apply Permutation_sym; exact Pm | ]. apply in_flat_map. exists (L, R). split; [ exact J | ].
      unfold h, pair_body. rewrite E1, E2. cbn [bind]. rewrite E3. cbn [bind]. left. reflexivity.
  Qed.

  Lemma insert_total : exists pl' infos1, insert_infos P_eqb cll cpl pl left right lids rids infos0 = Ok (pl', infos1).
  Proof.
    destruct records_ok as (_ & Hno & Hf & _).
    assert (Hv := reqs_valid coords left right pl lids rids infos0 Hf).
    destruct (C20_one_id_per_feature_partial P P_eqb cll cpl pl _ (unchecked P_eqb Heq left right pl lids rids Hstart) Hv) as (st & ids & E & _).
    destruct (insert_infos_total P_eqb cll cpl left right lids rids infos0 (in_new pl) [] st ids) as (acc & A); [ | exact E | ].
    - eapply Forall_impl; [ | exact Hf ]. intros i (t & u & a & b & c & p & q & r & N1 & N2 & _). split; eexists; [ apply N1 | apply N2 ].
    - exists (in_points st), acc. unfold insert_infos. rewrite A. reflexivity.
  Qed.

  Variable pl' : point_list P.
  Variable infos1 : list info.
  Hypothesis Hins : insert_infos P_eqb cll cpl pl left right lids rids infos0 = Ok (pl', infos1).

  Lemma keys_filled : map (fun i => (i_left i, i_right i)) infos1 = map (fun i => (i_left i, i_right i)) infos0 /\ Forall2 (filled left right lids rids) infos0 infos1.
  Proof.
    destruct records_ok as (_ & Hno & _). destruct (fill P_eqb cll cpl left right pl lids rids infos0 Hno pl' infos1 Hins) as (st & _ & F & _). split; [ | exact F ].
    clear - F. induction F as [ | i i' is is' (E1 & E2 & _) F IH]; [ reflexivity | ]. cbn [map]. rewrite E1, E2, IH. reflexivity.
  Qed.
  Lemma ids_nonempty : forall i, In i infos1 -> i_ids i <> [].
  Proof.
    intros i J. destruct keys_filled as [_ F]. destruct (filled_new _ _ _ _ _ _ F i J) as (i0 & J0 & (E1 & E2 & E3 & L & _)).
    destruct records_ok as (_ & _ & _ & G & _). destruct (G i0 J0) as [Ne _]. intro E. rewrite E in L. destruct (i_syms i0); [ congruence | discriminate ].
  Qed.

  Definition outl (L R : nat) : list nat :=
    match find (fun i => (i_left i =? L) && (i_right i =? R)) infos1 with Some i => i_ids i | None => [] end.
  Lemma outl_in : forall i, In i infos1 -> outl (i_left i) (i_right i) = i_ids i.
  Proof.
    intros i J. unfold outl. destruct (find _ infos1) as [i' | ] eqn:E.
    - apply find_some in E. destruct E as [J' E]. apply andb_true_iff in E. destruct E as [E1 E2]. apply Nat.eqb_eq in E1, E2.
      assert (N : NoDup (map (fun i => (i_left i, i_right i)) infos1)) by (rewrite (proj1 keys_filled); apply records_ok).
      f_equal. clear - J J' E1 E2 N. induction infos1 as [ | a l IH]; [ destruct J | ]. cbn [map] in N. inversion N as [ | ? ? N1 N2]; subst.
      destruct J as [-> | J], J' as [-> | J']; auto; exfalso; apply N1; apply in_map_iff; [ exists i' | exists i ]; (split; [ congruence | assumption ]).
    - exfalso. apply (find_none _ _ E) in J. rewrite !Nat.eqb_refl in J. discriminate.
  Qed.
  Lemma outl_some : forall L R, outl L R <> [] -> exists i, In i infos1 /\ i_left i = L /\ i_right i = R /\ i_ids i = outl L R.
  Proof.
    intros L R H. unfold outl in *. destruct (find _ infos1) as [i | ] eqn:E; [ | congruence ]. apply find_some in E. destruct E as [J E]. apply andb_true_iff in E. destruct E as [E1 E2]. apply Nat.eqb_eq in E1, E2. exists i. auto.
  Qed.
  Lemma outl_tags : forall L R, outl L R <> [] -> nth_error ltags L = Some UNKNOWN /\ nth_error rtags R = Some UNKNOWN.
  Proof.
    intros L R H. destruct (outl_some L R H) as (i & J & <- & <- & _). destruct keys_filled as [_ F]. destruct (filled_new _ _ _ _ _ _ F i J) as (i0 & J0 & (-> & -> & _)).
    destruct records_ok as (_ & _ & _ & G & _). destruct (G i0 J0) as [_ Jp]. destruct pairs_ok as (_ & _ & Pin & _). destruct (Pin _ _ Jp) as (A & B & _). auto.
  Qed.

  Lemma outl_outline : forall L R t u, face_corners left L t -> face_corners right R u -> nth_error ltags L = Some UNKNOWN -> nth_error rtags R = Some UNKNOWN ->
    outline coords (pl_points pl') (triangle_of coords t) (triangle_of coords u) (outl L R).
  Proof.
    intros L R t u Ct Cu Tl Tr. destruct records_ok as (_ & Hno & Hf & _ & _ & Hall).
    destruct (outl L R) as [ | id ids] eqn:Eo.
    - assert (Empty : ~ exists x, inside (triangle_of coords t) x /\ inside (triangle_of coords u) x).
      { assert (HL := corners_in _ _ _ Ct). assert (HR := corners_in _ _ _ Cu). destruct (pair_record L R HL HR) as (t' & u' & a & b & c & p & q & r & syms & N1 & N2 & N3 & N4 & E & _).
        rewrite (corners_fun _ _ _ _ Ct (proj1 N1)), (corners_fun _ _ _ _ Cu (proj1 N2)).
        assert (H1 := named_triangle coords _ _ _ _ _ _ _ _ N1). assert (H2 := named_triangle coords _ _ _ _ _ _ _ _ N2).
        destruct syms as [ | s syms]; [ apply (C36_empty coords _ _ _ _ _ _ _ _ _ H1 H2 N3 N4); exact E | ]. intros (x & X1 & X2). 
        destruct pairs_ok as (_ & _ & _ & Pall). assert (Jp := Pall L R t' u' x (proj1 N1) (proj1 N2) Tl Tr (conj X1 X2)).
        assert (J0 := Hall L R a b c p q r s syms Jp (proj1 (proj2 N1)) (proj1 (proj2 N2)) E). destruct keys_filled as [_ F]. destruct (filled_old _ _ _ _ _ _ F _ J0) as (i & J & (A & B & _)). cbn [i_left i_right] in A, B.
        assert (X := outl_in i J). rewrite A, B, Eo in X. apply (ids_nonempty i J). symmetry. exact X. }
      split.
      + constructor.
      + intros ? [ ].
      + intros x [ [X1 X2] _]. exfalso. apply Empty. eauto.
      + intros ? ? ? ? [ ].
      + intros i j p q (k & Lk & _). cbn in Lk. lia.
    - destruct (outl_some L R) as (i & J & <- & <- & E); [ congruence | ]. rewrite <- Eo, <- E.
      destruct (record_outline P_eqb Heq coords Hinj cll cpl Hll Hpl left right pl lids rids Hstart infos0 Hno pl' infos1 Hins Hf i J) as (t' & u' & Ct' & Cu' & O).
      rewrite (corners_fun _ _ _ _ Ct Ct'), (corners_fun _ _ _ _ Cu Cu'). exact O.
  Qed.

  (** An id in use names its point, and no other id in use does. *)
  Definition used_id (id : nat) : Prop :=
    (exists fi f, face_points left lids fi f /\ In id (list3 f)) \/ (exists fi f, face_points right rids fi f /\ In id (list3 f)) \/ exists L R, In id (outl L R).
  Lemma use_known : forall id, used_id id -> exists p, known_left coords left right pl lids rids infos0 pl' infos1 id p \/ known_right coords left right pl lids rids infos0 pl' infos1 id p.
  Proof.
    intros id. destruct records_ok as (_ & Hno & Hf & _).
    pose proof (keep_points P_eqb Heq coords cll cpl left right pl lids rids Hstart infos0 Hno pl' infos1 Hins Hf) as Keep.
    intros [(fi & f & Hp & J) | [(fi & f & Hp & J) | (L & R & J)] ].
    - destruct (Pl fi (face_points_lt _ _ _ _ Hp)) as (t & Ct & Nt). destruct (named_left P_eqb Heq left right pl lids rids Hstart fi t Ct) as (g & N).
      assert (g = f) as -> by (eapply ids_points; [ apply N | exact Hp ]). destruct (named_point pl _ _ _ _ _ _ N J) as (x & X).
      exists x. left. split; [ exact (Keep _ _ X) | ]. left. exists fi, t, f. auto.
    - destruct (Pr fi (face_points_lt _ _ _ _ Hp)) as (t & Ct & Nt). destruct (named_right P_eqb Heq left right pl lids rids Hstart fi t Ct) as (g & N).
      assert (g = f) as -> by (eapply ids_points; [ apply N | exact Hp ]). destruct (named_point pl _ _ _ _ _ _ N J) as (x & X).
      exists x. right. split; [ exact (Keep _ _ X) | ]. left. exists fi, t, f. auto.
    - destruct (outl_some L R) as (i & Ji & <- & <- & E); [ intro E; rewrite E in J; destruct J | ]. rewrite <- E in J.
      destruct (entries P_eqb Heq coords Hinj cll cpl Hll Hpl left right pl lids rids Hstart infos0 Hno pl' infos1 Hins Hf i Ji) as (t & u & ft & fu & _ & _ & _ & _ & _ & Len & En).
      apply In_nth_error in J. destruct J as (n & Hn). destruct (nth_error (i_syms i) n) as [sym | ] eqn:Hs; [ | apply nth_error_None in Hs; assert (n < length (i_ids i)) by (apply nth_error_Some; congruence); lia ].
      destruct (En n sym id Hs Hn) as (m & k & y & Y). exists y. left. split; [ apply (en_point _ _ _ _ _ _ _ _ _ _ _ _ _ _ _ _ _ _ _ _ Y) | ]. right. exists (i_left i), (i_right i), sym, t, u, ft, fu, m, k. exact Y.
  Qed.
  Lemma use_point : forall id, used_id id -> exists p, nth_error (pl_points pl') id = Some p.
  Proof. intros id U. destruct (use_known id U) as (p & [ [E _] | [E _] ]); eauto. Qed.
  Lemma use_one : forall i j p, used_id i -> used_id j -> nth_error (pl_points pl') i = Some p -> nth_error (pl_points pl') j = Some p -> i = j.
  Proof.
    intros i j p Ui Uj Ei Ej. destruct records_ok as (_ & Hno & Hf & _). destruct (use_known i Ui) as (p1 & K1). destruct (use_known j Uj) as (p2 & K2).
    assert (p1 = p) as -> by (destruct K1 as [ [E _] | [E _] ]; congruence). assert (p2 = p) as -> by (destruct K2 as [ [E _] | [E _] ]; congruence).
    exact (either_one P_eqb Heq coords cll cpl left right pl lids rids Hstart infos0 Hno pl' infos1 Hins Hf Sl Sr i j p K1 K2).
  Qed.

  Variables infos2 infos3 : list info.
  Hypothesis Sort2 : sorts i_left infos1 infos2.
  Hypothesis Sort3 : sorts i_right infos2 infos3.

  Lemma left_side : forall r, for_ranges (triangulate P_eqb accepts LEFT_FACE i_left (pl_points pl') left lids) (ranges (length infos2) i_left infos2) r ->
    (r = Throw RuntimeError /\ rejected accepts) \/ exists tris, r = Ok tris /\ receives left lids (pl_points pl') tris outl.
  Proof.
    intros r H. destruct records_ok as (_ & Hno & Hf & _).
    destruct (ranges_facts P_eqb Heq accepts (pl_points pl') (known_left coords left right pl lids rids infos0 pl' infos1) (fun i p K => proj1 K)
      (left_one P_eqb Heq coords cll cpl left right pl lids rids Hstart infos0 Hno pl' infos1 Hins Hf Sl Sr) LEFT_FACE left lids i_left infos1 infos2
      (usable_left P_eqb Heq coords Hinj cll cpl Hll Hpl left right pl lids rids Hstart infos0 Hno pl' infos1 Hins Hf) Sort2 r H) as [X | (tris & -> & Nd & Ex & Tf)]; [ left; exact X | right ].
    exists tris. split; [ reflexivity | ]. split; [ exact Nd | ].
    assert (Key : forall fi (Q : list nat -> Prop), ~ Q [] -> ((exists r, (In r infos1 /\ i_left r = fi) /\ Q (i_ids r)) <-> exists o, Q (outl fi o))).
    { intros fi Q Q0. split.
      - intros (r' & (J & <-) & H'). exists (i_right r'). rewrite (outl_in _ J). exact H'.
      - intros (o & H'). destruct (outl_some fi o) as (r' & J & E1 & E2 & E3); [ intro E; rewrite E in H'; exact (Q0 H') | ]. exists r'. rewrite E3. auto. }
    split.
    - intro fi. rewrite Ex. split.
      + intros (i & J & <-). exists (i_right i). rewrite (outl_in _ J). exact (ids_nonempty i J).
      + intros (o & H'). destruct (outl_some fi o H') as (i & J & E & _). eauto.
    - intros fi t J. destruct (Tf fi t J) as (T1 & T2 & T3). split; [ | split; [ | exact T3 ] ].
      + intros i j. rewrite T1. apply (Key fi (fun l => neighbours l i j \/ neighbours l j i)). intros [(k & Lk & _) | (k & Lk & _)]; cbn in Lk; lia.
      + intro id. rewrite T2. assert (X := Key fi (fun l => In id l) (fun F => F)). cbn beta in X. rewrite X. tauto.
  Qed.
  Lemma right_side : forall r, for_ranges (triangulate P_eqb accepts RIGHT_FACE i_right (pl_points pl') right rids) (ranges (length infos3) i_right infos3) r ->
    (r = Throw RuntimeError /\ rejected accepts) \/ exists tris, r = Ok tris /\ receives right rids (pl_points pl') tris (fun R L => outl L R).
  Proof.
    intros r H. destruct records_ok as (_ & Hno & Hf & _).
    assert (Sort3' : sorts i_right infos1 infos3). { destruct Sort2 as [P2 _], Sort3 as [P3 S3]. split; [ eapply Permutation_trans; eassumption | exact S3 ]. }
    destruct (ranges_facts P_eqb Heq accepts (pl_points pl') (known_right coords left right pl lids rids infos0 pl' infos1) (fun i p K => proj1 K)
      (right_one P_eqb Heq coords cll cpl left right pl lids rids Hstart infos0 Hno pl' infos1 Hins Hf Sl Sr) RIGHT_FACE right rids i_right infos1 infos3
      (usable_right P_eqb Heq coords Hinj cll cpl Hll Hpl left right pl lids rids Hstart infos0 Hno pl' infos1 Hins Hf) Sort3' r H) as [X | (tris & -> & Nd & Ex & Tf)]; [ left; exact X | right ].
    exists tris. split; [ reflexivity | ]. split; [ exact Nd | ].
    assert (Key : forall fi (Q : list nat -> Prop), ~ Q [] -> ((exists r, (In r infos1 /\ i_right r = fi) /\ Q (i_ids r)) <-> exists o, Q (outl o fi))).
    { intros fi Q Q0. split.
      - intros (r' & (J & <-) & H'). exists (i_left r'). rewrite (outl_in _ J). exact H'.
      - intros (o & H'). destruct (outl_some o fi) as (r' & J & E1 & E2 & E3); [ intro E; rewrite E in H'; exact (Q0 H') | ]. exists r'. rewrite E3. auto. }
    split.
    - intro fi. rewrite Ex. split.
      + intros (i & J & <-). exists (i_left i). rewrite (outl_in _ J). exact (ids_nonempty i J).
      + intros (o & H'). destruct (outl_some o fi H') as (i & J & _ & E & _). eauto.
    - intros fi t J. destruct (Tf fi t J) as (T1 & T2 & T3). split; [ | split; [ | exact T3 ] ].
      + intros i j. rewrite T1. apply (Key fi (fun l => neighbours l i j \/ neighbours l j i)). intros [(k & Lk & _) | (k & Lk & _)]; cbn in Lk; lia.
      + intro id. rewrite T2. assert (X := Key fi (fun l => In id l) (fun F => F)). cbn beta in X. rewrite X. tauto.
  Qed.
  Lemma border_side : forall cf : corefined P, cf_infos cf = infos3 -> exists border, get_intersecting_edges cf = Ok border /\
    forall e, In e border <-> exists L R i j, neighbours (outl L R) i j /\ edge_between i j e.
  Proof.
    intros cf E. destruct (edges_ok cf) as (l & El & Hl). exists l. split; [ exact El | ]. intro e. rewrite Hl, E.
    assert (Pm : forall i, In i infos3 <-> In i infos1). { destruct Sort2 as [P2 _], Sort3 as [P3 _]. intro i. split; intro J; [ exact (Permutation_in _ (Permutation_sym P2) (Permutation_in _ (Permutation_sym P3) J)) | exact (Permutation_in _ P3 (Permutation_in _ P2 J)) ]. }
    split.
    - intros (i & x & y & J & N & B). apply Pm in J. exists (i_left i), (i_right i), x, y. rewrite (outl_in _ J). auto.
    - intros (L & R & x & y & N & B). destruct (outl_some L R) as (i & J & _ & _ & Ei); [ intro X; rewrite X in N; destruct N as (k & Lk & _); cbn in Lk; lia | ]. exists i, x, y. rewrite Ei. split; [ apply Pm; exact J | auto ].
  Qed.
End All.
