(** * One id per point *)
From Coq Require Import List Arith NArith Bool QArith Lqa Lia Permutation.
From Verif Require Import Model_base Proof_base Model_geometry Model_soup Model_region Model_points Model_ffi Model_corefine.
From Verif Require Import Spec_points Spec_candidates Spec_defects Spec_ffi Spec_corefine Proof_extreme Proof_hull Proof_ffi_orient Proof_ffi_calls Proof_ffi_edge
  Proof_ffi_plane Proof_ffi_all Prop_ffi Prop_points Proof_corefine_geo Proof_corefine_ids Proof_corefine_run
  Proof_corefine_tri Proof_corefine_out Proof_corefine_side.
Import ListNotations.
Local Open Scope nat_scope.

(** A feature given by three points and by their three ids. *)
Lemma pick_same : forall {A B} (R : A -> B -> Prop) (t : A * A * A) (f : B * B * B) m,
  (let '(x, y, z) := t in let '(a, b, c) := f in R x a /\ R y b /\ R z c) -> Forall2 R (pick m t) (pick m f).
Proof. intros A B R [ [x y] z] [ [a b] c] [ [ [ | ] [ | ] ] [ | ] ] (H1 & H2 & H3); cbn; repeat constructor; assumption. Qed.
Lemma pick_nodup : forall {A} m (x y z : A), NoDup [x; y; z] -> NoDup (pick m (x, y, z)).
Proof.
  intros A [ [ [ | ] [ | ] ] [ | ] ] x y z H; cbn; inversion H as [ | ? ? N1 H1]; subst; inversion H1 as [ | ? ? N2 H2]; subst; repeat constructor; cbn in *; intuition.
Qed.

Section Rec.
  Context {P D : Type}.
  Variable P_eqb : P -> P -> bool.
  Hypothesis Heq : forall a b, P_eqb a b = true <-> a = b.
  Variable coords : P -> vec3.
  Hypothesis Hinj : forall p q, same_point (coords p) (coords q) -> p = q.
  Variable cll : P -> P -> P -> P -> P.
  Variable cpl : P -> P -> P -> P -> P -> P.
  Hypothesis Hll : ll_correct coords cll.
  Hypothesis Hpl : pl_correct coords cpl.
  Variables left right : soup P D.
  Variable pl : point_list P.
  Variables lids rids : list nat.
  Hypothesis Hstart : start_points P_eqb left right = (pl, lids, rids).

  (** The ids of a face. *)
  Definition named (m : soup P D) (ids : list nat) (fi : nat) (t : P * P * P) (f : face) : Prop :=
    face_corners m fi t /\ face_ids m ids fi = Ok f /\
    let '(x, y, z) := t in let '(a, b, c) := f in
    nth_error (pl_points pl) a = Some x /\ nth_error (pl_points pl) b = Some y /\ nth_error (pl_points pl) c = Some z.

  Lemma named_left : forall fi t, face_corners left fi t -> exists f, named left lids fi t f.
  Proof.
    intros fi t H. destruct (start_points_ok P_eqb Heq _ _ _ _ _ Hstart) as (_ & Ll & _ & A & _).
    destruct H as (v0 & v1 & v2 & x & y & z & Hf & H0 & H1 & H2 & ->).
    assert (G : forall v p, nth_error (points left) v = Some p -> exists i, nth_error lids v = Some i).
    { intros v p X. destruct (nth_error lids v) eqn:E; [ eauto | ]. apply nth_error_None in E. assert (v < length (points left)) by (apply nth_error_Some; congruence). lia. }
    destruct (G _ _ H0) as (a & Ha), (G _ _ H1) as (b & Hb), (G _ _ H2) as (c & Hc).
    exists (a, b, c). split; [ exists v0, v1, v2, x, y, z; auto | ]. split.
    - unfold face_ids, soup_face, vec_at. rewrite Hf. cbn [bind]. rewrite Ha, Hb, Hc. reflexivity.
    - split; [ | split ]; eapply A; eassumption.
  Qed.
  Lemma named_right : forall fi t, face_corners right fi t -> exists f, named right rids fi t f.
  Proof.
    intros fi t H. destruct (start_points_ok P_eqb Heq _ _ _ _ _ Hstart) as (_ & _ & Ll & _ & A & _).
    destruct H as (v0 & v1 & v2 & x & y & z & Hf & H0 & H1 & H2 & ->).
    assert (G : forall v p, nth_error (points right) v = Some p -> exists i, nth_error rids v = Some i).
    { intros v p X. destruct (nth_error rids v) eqn:E; [ eauto | ]. apply nth_error_None in E. assert (v < length (points right)) by (apply nth_error_Some; congruence). lia. }
    destruct (G _ _ H0) as (a & Ha), (G _ _ H1) as (b & Hb), (G _ _ H2) as (c & Hc).
    exists (a, b, c). split; [ exists v0, v1, v2, x, y, z; auto | ]. split.
    - unfold face_ids, soup_face, vec_at. rewrite Hf. cbn [bind]. rewrite Ha, Hb, Hc. reflexivity.
    - split; [ | split ]; eapply A; eassumption.
  Qed.
  Lemma named_triangle : forall m ids fi t a b c, named m ids fi t (a, b, c) -> triangle_at coords (pl_points pl) a b c (triangle_of coords t).
  Proof. intros m ids fi [ [x y] z] a b c (_ & _ & A & B & C). exists x, y, z. auto. Qed.
  Lemma named_pick : forall m ids fi t f k, named m ids fi t f -> Forall2 (fun x a => nth_error (pl_points pl) a = Some x) (pick k t) (pick k f).
  Proof. intros m ids fi [ [x y] z] [ [a b] c] k (_ & _ & A). apply pick_same. exact A. Qed.
  Lemma corners_fun : forall (m : soup P D) fi t u, face_corners m fi t -> face_corners m fi u -> t = u.
  Proof.
    intros m fi t u (v0 & v1 & v2 & x & y & z & Hf & H0 & H1 & H2 & ->) (v0' & v1' & v2' & x' & y' & z' & Hf' & H0' & H1' & H2' & ->).
    rewrite Hf in Hf'. injection Hf' as <- <- <-. congruence.
  Qed.
  Lemma points_nodup : NoDup (pl_points pl).
  Proof. apply (start_points_ok P_eqb Heq _ _ _ _ _ Hstart). Qed.
  Lemma id_unique : forall i j p, nth_error (pl_points pl) i = Some p -> nth_error (pl_points pl) j = Some p -> i = j.
  Proof.
    intros i j p H1 H2. apply (proj1 (NoDup_nth_error (pl_points pl)) points_nodup); [ apply nth_error_Some; congruence | congruence ].
  Qed.

  (** The same points, the same ids. *)
  Lemma same_ids : forall ps qs is js, Forall2 (fun x a => nth_error (pl_points pl) a = Some x) ps is ->
    Forall2 (fun x a => nth_error (pl_points pl) a = Some x) qs js -> (forall p, In p ps <-> In p qs) -> NoDup is -> NoDup js -> Permutation is js.
  Proof.
    intros ps qs is js F G E Ni Nj. apply NoDup_Permutation; [ exact Ni | exact Nj | ].
    assert (X : forall ps qs is js, Forall2 (fun x a => nth_error (pl_points pl) a = Some x) ps is ->
      Forall2 (fun x a => nth_error (pl_points pl) a = Some x) qs js -> (forall p, In p ps -> In p qs) -> forall a, In a is -> In a js).
    { clear F G E Ni Nj. intros ps' qs' is' js' F G E a J. 
      assert (exists p, In p ps' /\ nth_error (pl_points pl) a = Some p) as (p & Jp & Hp).
      { clear - F J. induction F as [ | x b ps is H F IH]; [ destruct J | ]. destruct J as [<- | J]; [ exists x; cbn; auto | destruct (IH J) as (p & A & B); exists p; cbn; auto ]. }
      specialize (E p Jp). assert (exists b, In b js' /\ nth_error (pl_points pl) b = Some p) as (b & Jb & Hb).
      { clear - G E. induction G as [ | x b qs js H G IH]; [ destruct E | ]. destruct E as [<- | E]; [ exists b; cbn; auto | destruct (IH E) as (b' & A & B); exists b'; cbn; auto ]. }
      rewrite (id_unique _ _ _ Hp Hb). exact Jb. }
    intro a. split; [ apply (X ps qs is js F G) | apply (X qs ps js is G F) ]; intros p; apply E.
  Qed.

  (** ** The records *)
  Variable infos0 : list info.
  Hypothesis Hnoids : Forall (fun i => i_ids i = []) infos0.
  Variable pl' : point_list P.
  Variable infos : list info.
  Hypothesis Hins : insert_infos P_eqb cll cpl pl left right lids rids infos0 = Ok (pl', infos).
  (** What each record is. *)
  Definition from_ffi (i : info) : Prop :=
    exists t u a b c p q r, named left lids (i_left i) t (a, b, c) /\ named right rids (i_right i) u (p, q, r) /\
      nondegenerate (triangle_of coords t) /\ nondegenerate (triangle_of coords u) /\
      face_face_intersection coords (pl_points pl) a b c p q r = Ok (i_syms i).
  Hypothesis Hffi : Forall from_ffi infos0.

  Lemma fill : exists st, pl' = in_points st /\ Forall2 (filled left right lids rids) infos0 infos /\
    in_run P_eqb cll cpl (in_new pl) (flat_map (info_reqs left right lids rids) infos0) = Ok (st, flat_map i_ids infos).
  Proof.
    unfold insert_infos in Hins. apply bind_ok in Hins. destruct Hins as ([st new] & E & H). injection H as <- <-.
    apply insert_infos_run in E; [ | exact Hnoids ]. destruct E as (new' & -> & F & R). exists st. auto.
  Qed.
  Lemma unchecked : pl_check pl = false.
  Proof. apply (start_points_ok P_eqb Heq _ _ _ _ _ Hstart). Qed.
  Lemma from_ffi_filled : forall i i', filled left right lids rids i i' -> from_ffi i -> from_ffi i'.
  Proof.
    intros i i' (E1 & E2 & E3 & _) (t & u & a & b & c & p & q & r & H). exists t, u, a, b, c, p, q, r. rewrite E1, E2, E3. exact H.
  Qed.

  Lemma reqs_valid : Forall (valid_request (length (pl_points pl))) (flat_map (info_reqs left right lids rids) infos0).
  Proof.
    apply Forall_forall. intros rq J. apply reqs_of in J. destruct J as (i & t & u & sym & Ji & Et & Eu & Js & ->).
    rewrite Forall_forall in Hffi. destruct (Hffi i Ji) as (tt & uu & a & b & c & p & q & r & Nl & Nr & NT & NU & E).
    destruct Nl as (Cl & El & Pl). destruct Nr as (Cr & Er & Pr). rewrite El in Et. injection Et as <-. rewrite Er in Eu. injection Eu as <-.
    assert (HT := named_triangle left lids (i_left i) tt a b c (conj Cl (conj El Pl))). assert (HU := named_triangle right rids (i_right i) uu p q r (conj Cr (conj Er Pr))).
    destruct (ffi_entry coords _ _ _ _ _ _ _ _ _ _ HT HU NT NU E sym Js) as (m & k & -> & M).
    unfold sym_req. destruct (side_parts m k) as [-> ->]. exact (req_valid coords _ _ _ _ _ _ _ _ _ _ _ HT HU NT NU M).
  Qed.

  (** One point of a record. *)
  Record entry (L R : nat) (sym : Model_region.region) (id : nat) (t u : P * P * P) (ft fu : face) (m k : mask) (y : P) : Prop := {
    en_left : named left lids L t ft;
    en_right : named right rids R u fu;
    en_nl : nondegenerate (triangle_of coords t);
    en_nr : nondegenerate (triangle_of coords u);
    en_sym : sym = convex_hull (side true m) (side false k);
    en_meet : meet (triangle_of coords t) (triangle_of coords u) m k;
    en_point : nth_error (pl_points pl') id = Some y;
    en_fl : in_feature (triangle_of coords t) m (coords y);
    en_fr : in_feature (triangle_of coords u) k (coords y);
    en_vl : bits m = 1 -> pick m ft = [id];
    en_vr : bits k = 1 -> pick k fu = [id];
    en_pos : exists n, nth_error (flat_map (info_reqs left right lids rids) infos0) n = Some (sym_req ft fu sym) /\ nth_error (flat_map i_ids infos) n = Some id
  }.

  Lemma keep_points : forall i y, nth_error (pl_points pl) i = Some y -> nth_error (pl_points pl') i = Some y.
  Proof.
    intros i y H. destruct fill as (st & -> & _ & Hrun).
    destruct (C20_one_id_per_feature_partial P P_eqb cll cpl pl _ unchecked reqs_valid) as (st' & ids' & E & _ & _ & _ & _ & _ & (new & En)).
    rewrite Hrun in E. injection E as <- _. rewrite En, nth_error_app1; [ exact H | apply nth_error_Some; congruence ].
  Qed.

  Lemma entries : forall i, In i infos -> exists t u ft fu, named left lids (i_left i) t ft /\ named right rids (i_right i) u fu /\
    nondegenerate (triangle_of coords t) /\ nondegenerate (triangle_of coords u) /\
    (let '(a, b, c) := ft in let '(p, q, r) := fu in face_face_intersection coords (pl_points pl) a b c p q r = Ok (i_syms i)) /\
    length (i_ids i) = length (i_syms i) /\
    forall n sym id, nth_error (i_syms i) n = Some sym -> nth_error (i_ids i) n = Some id ->
      exists m k y, entry (i_left i) (i_right i) sym id t u ft fu m k y.
  Proof.
    intros i J. destruct fill as (st & Epl & F & Hrun). destruct (filled_new _ _ _ _ _ _ F i J) as (i0 & J0 & Fi).
    assert (Fi' := from_ffi_filled _ _ Fi (proj1 (Forall_forall _ _) Hffi i0 J0)).
    destruct Fi' as (t & u & a & b & c & p & q & r & Nl & Nr & NT & NU & E).
    exists t, u, (a, b, c), (p, q, r). split; [ exact Nl | ]. split; [ exact Nr | ]. split; [ exact NT | ]. split; [ exact NU | ]. split; [ exact E | ].
    destruct (filled_position _ _ _ _ _ _ F i J) as (ft & fu & Et & Eu & L & K).
    assert (ft = (a, b, c)) by (destruct Nl as (_ & X & _); congruence). assert (fu = (p, q, r)) by (destruct Nr as (_ & X & _); congruence). subst ft fu.
    split; [ exact L | ]. intros n sym id Hs Hi. destruct (K n sym id Hs Hi) as (pos & K1 & K2).
    assert (HT := named_triangle _ _ _ _ _ _ _ Nl). assert (HU := named_triangle _ _ _ _ _ _ _ Nr).
    destruct (ffi_entry coords _ _ _ _ _ _ _ _ _ _ HT HU NT NU E sym (nth_error_In _ _ Hs)) as (m & k & Es & M).
    assert (Rq : sym_req (a, b, c) (p, q, r) sym = req m a b c k p q r) by (unfold sym_req; rewrite Es; destruct (side_parts m k) as [-> ->]; reflexivity).
    destruct M as ((x & F1 & F2) & Tr). assert (K1' := K1). rewrite Rq in K1'.
    destruct (answer_point coords P_eqb cll cpl Hll Hpl pl _ _ _ _ _ _ _ _ _ _ _ _ m k x id unchecked reqs_valid Hrun HT HU NT NU (conj (ex_intro _ x (conj F1 F2)) Tr) F1 F2 K1' K2) as (y & Y & S).
    exists m, k, y. assert (G1 := in_feature_same _ _ _ _ (same_sym _ _ S) F1). assert (G2 := in_feature_same _ _ _ _ (same_sym _ _ S) F2).
    destruct (C20_one_id_per_feature_partial P P_eqb cll cpl pl _ unchecked reqs_valid) as (st' & ids' & E' & _ & Av & _).
    rewrite Hrun in E'. injection E' as <- <-. specialize (Av _ _ _ K1' K2). unfold at_vertex in Av. rewrite req_left, req_right, !pick_length in Av.
    assert (Vl : forall j, pick m (a, b, c) = [j] -> nth_error (pl_points pl) j = Some y).
    { intros j Ej. destruct (vertex_point coords _ _ _ _ _ _ _ _ HT G1 Ej) as (z & Z & Sz). rewrite Z. f_equal. apply Hinj. exact Sz. }
    assert (Vr : forall j, pick k (p, q, r) = [j] -> nth_error (pl_points pl) j = Some y).
    { intros j Ej. destruct (vertex_point coords _ _ _ _ _ _ _ _ HU G2 Ej) as (z & Z & Sz). rewrite Z. f_equal. apply Hinj. exact Sz. }
    split; try assumption.
    - split; [ exists x; auto | exact Tr ].
    - rewrite Epl. exact Y.
    - intro B. destruct (Av (or_introl B)) as [A | A]; [ exact A | ]. assert (exists j, pick m (a, b, c) = [j]) as (j & Ej).
      { assert (Lp := pick_length m (a, b, c)). rewrite B in Lp. destruct (pick m (a, b, c)) as [ | j [ | ] ]; try discriminate. eauto. }
      rewrite Ej. f_equal. exact (id_unique _ _ _ (Vl _ Ej) (Vr _ A)).
    - intro B. destruct (Av (or_intror B)) as [A | A]; [ | exact A ]. assert (exists j, pick k (p, q, r) = [j]) as (j & Ej).
      { assert (Lp := pick_length k (p, q, r)). rewrite B in Lp. destruct (pick k (p, q, r)) as [ | j [ | ] ]; try discriminate. eauto. }
      rewrite Ej. f_equal. exact (id_unique _ _ _ (Vr _ Ej) (Vl _ A)).
    - exists pos. auto.
  Qed.

  (** Without self-intersections an id is determined by the point. *)
  Hypothesis Sl : simplicial coords left.
  Hypothesis Sr : simplicial coords right.

  Lemma nodup_named : forall m ids fi t a b c k, named m ids fi t (a, b, c) -> nondegenerate (triangle_of coords t) -> NoDup (pick k (a, b, c)).
  Proof. intros m ids fi t a b c k H N. apply pick_nodup. apply (triangle_ids coords _ _ _ _ _ (named_triangle _ _ _ _ _ _ _ H) N). Qed.

  Lemma one_id : forall L R sym id t u ft fu m k y L' R' sym' id' t' u' ft' fu' m' k' y',
    entry L R sym id t u ft fu m k y -> entry L' R' sym' id' t' u' ft' fu' m' k' y' -> same_point (coords y) (coords y') -> id = id'.
  Proof.
    intros L R sym id t u [ [a b] c] [ [p q] r] m k y L' R' sym' id' t' u' [ [a' b'] c'] [ [p' q'] r'] m' k' y' E E' S.
    assert (Pl : Permutation (pick m (a, b, c)) (pick m' (a', b', c'))).
    { apply (same_ids (pick m t) (pick m' t')).
      - exact (named_pick _ _ _ _ _ _ (en_left _ _ _ _ _ _ _ _ _ _ _ E)).
      - exact (named_pick _ _ _ _ _ _ (en_left _ _ _ _ _ _ _ _ _ _ _ E')).
      - apply (Sl L L' t t' m m' (coords y)); [ apply (en_left _ _ _ _ _ _ _ _ _ _ _ E) | apply (en_left _ _ _ _ _ _ _ _ _ _ _ E') | apply (en_fl _ _ _ _ _ _ _ _ _ _ _ E) | ].
        eapply in_feature_same; [ apply same_sym; exact S | apply (en_fl _ _ _ _ _ _ _ _ _ _ _ E') ].
      - exact (nodup_named _ _ _ _ _ _ _ _ (en_left _ _ _ _ _ _ _ _ _ _ _ E) (en_nl _ _ _ _ _ _ _ _ _ _ _ E)).
      - exact (nodup_named _ _ _ _ _ _ _ _ (en_left _ _ _ _ _ _ _ _ _ _ _ E') (en_nl _ _ _ _ _ _ _ _ _ _ _ E')). }
    assert (Pr : Permutation (pick k (p, q, r)) (pick k' (p', q', r'))).
    { apply (same_ids (pick k u) (pick k' u')).
      - exact (named_pick _ _ _ _ _ _ (en_right _ _ _ _ _ _ _ _ _ _ _ E)).
      - exact (named_pick _ _ _ _ _ _ (en_right _ _ _ _ _ _ _ _ _ _ _ E')).
      - apply (Sr R R' u u' k k' (coords y)); [ apply (en_right _ _ _ _ _ _ _ _ _ _ _ E) | apply (en_right _ _ _ _ _ _ _ _ _ _ _ E') | apply (en_fr _ _ _ _ _ _ _ _ _ _ _ E) | ].
        eapply in_feature_same; [ apply same_sym; exact S | apply (en_fr _ _ _ _ _ _ _ _ _ _ _ E') ].
      - exact (nodup_named _ _ _ _ _ _ _ _ (en_right _ _ _ _ _ _ _ _ _ _ _ E) (en_nr _ _ _ _ _ _ _ _ _ _ _ E)).
      - exact (nodup_named _ _ _ _ _ _ _ _ (en_right _ _ _ _ _ _ _ _ _ _ _ E') (en_nr _ _ _ _ _ _ _ _ _ _ _ E')). }
    assert (Bm := Permutation_length Pl). rewrite !pick_length in Bm. assert (Bk := Permutation_length Pr). rewrite !pick_length in Bk.
    destruct (Nat.eq_dec (bits m) 1) as [B | B].
    { assert (X := en_vl _ _ _ _ _ _ _ _ _ _ _ E B). assert (Y := en_vl _ _ _ _ _ _ _ _ _ _ _ E' ltac:(congruence)). rewrite X, Y in Pl. apply Permutation_length_1 in Pl. exact Pl. }
    destruct (Nat.eq_dec (bits k) 1) as [C | C].
    { assert (X := en_vr _ _ _ _ _ _ _ _ _ _ _ E C). assert (Y := en_vr _ _ _ _ _ _ _ _ _ _ _ E' ltac:(congruence)). rewrite X, Y in Pr. apply Permutation_length_1 in Pr. exact Pr. }
    destruct fill as (st & Epl & F & Hrun).
    destruct (C20_one_id_per_feature_partial P P_eqb cll cpl pl _ unchecked reqs_valid) as (st' & ids' & E1 & _ & _ & _ & Sf & _).
    rewrite Hrun in E1. injection E1 as <- <-.
    destruct (en_pos _ _ _ _ _ _ _ _ _ _ _ E) as (n & N1 & N2). destruct (en_pos _ _ _ _ _ _ _ _ _ _ _ E') as (n' & N1' & N2').
    assert (Rq : sym_req (a, b, c) (p, q, r) sym = req m a b c k p q r) by (unfold sym_req; rewrite (en_sym _ _ _ _ _ _ _ _ _ _ _ E); destruct (side_parts m k) as [-> ->]; reflexivity).
    assert (Rq' : sym_req (a', b', c') (p', q', r') sym' = req m' a' b' c' k' p' q' r') by (unfold sym_req; rewrite (en_sym _ _ _ _ _ _ _ _ _ _ _ E'); destruct (side_parts m' k') as [-> ->]; reflexivity).
    rewrite Rq in N1. rewrite Rq' in N1'.
    refine (proj2 (Sf n n' _ _ id id' N1 N2 _ N1' N2' _) _).
    - unfold at_vertex. rewrite req_left, req_right, !pick_length. tauto.
    - unfold at_vertex. rewrite req_left, req_right, !pick_length. rewrite <- Bm, <- Bk. tauto.
    - left. rewrite !req_left, !req_right. auto.
  Qed.

  (** A point at a corner has the id of the corner. *)
  Definition corner_mask (j : nat) : mask := match j with 0 => (true, false, false) | 1 => (false, true, false) | _ => (false, false, true) end.
  Lemma corner_feature : forall (T : triangle) j, in_feature T (corner_mask j) (let '(A, B, C) := T in match j with 0 => A | 1 => B | _ => C end).
  Proof.
    intros [ [A B] C] j. destruct A as [ [? ?] ?], B as [ [? ?] ?], C as [ [? ?] ?].
    destruct j as [ | [ | j] ]; [ exists 1%Q, 0%Q, 0%Q | exists 0%Q, 1%Q, 0%Q | exists 0%Q, 0%Q, 1%Q ];
      (split; [ unfold weight; repeat split; lra | unfold same_point, comb, vx, vy, vz; cbn [fst snd]; repeat split; ring ]).
  Qed.
  Lemma one_id_left : forall L R sym id t u ft fu m k y L' t' ft' i x, entry L R sym id t u ft fu m k y ->
    named left lids L' t' ft' -> nondegenerate (triangle_of coords t') -> In i (let '(a, b, c) := ft' in [a; b; c]) -> nth_error (pl_points pl) i = Some x ->
    same_point (coords y) (coords x) -> id = i.
  Proof.
    intros L R sym id t u [ [a b] c] fu m k y L' [ [x0 x1] x2] [ [a' b'] c'] i x E Nm N J Hx S.
    assert (exists j, [i] = pick (corner_mask j) (a', b', c') /\ coords x = (let '(A, B, C) := triangle_of coords (x0, x1, x2) in match j with 0 => A | 1 => B | _ => C end)) as (j & Ej & Ex).
    { destruct Nm as (_ & _ & A & B & C). destruct J as [<- | [<- | [<- | [ ] ] ] ]; [ exists 0 | exists 1 | exists 2 ]; cbn; split; auto; congruence. }
    assert (Fc := corner_feature (triangle_of coords (x0, x1, x2)) j). rewrite <- Ex in Fc.
    assert (Pl : Permutation (pick m (a, b, c)) (pick (corner_mask j) (a', b', c'))).
    { apply (same_ids (pick m t) (pick (corner_mask j) (x0, x1, x2))).
      - exact (named_pick _ _ _ _ _ _ (en_left _ _ _ _ _ _ _ _ _ _ _ E)).
      - exact (named_pick _ _ _ _ _ _ Nm).
      - apply (Sl L L' t (x0, x1, x2) m (corner_mask j) (coords y)); [ apply (en_left _ _ _ _ _ _ _ _ _ _ _ E) | apply Nm | apply (en_fl _ _ _ _ _ _ _ _ _ _ _ E) | ].
        eapply in_feature_same; [ apply same_sym; exact S | exact Fc ].
      - exact (nodup_named _ _ _ _ _ _ _ _ (en_left _ _ _ _ _ _ _ _ _ _ _ E) (en_nl _ _ _ _ _ _ _ _ _ _ _ E)).
      - exact (nodup_named _ _ _ _ _ _ _ _ Nm N). }
    rewrite <- Ej in Pl. assert (B := Permutation_length Pl). rewrite pick_length in B. cbn [length] in B.
    rewrite (en_vl _ _ _ _ _ _ _ _ _ _ _ E B) in Pl. apply Permutation_length_1 in Pl. exact Pl.
  Qed.
  Lemma one_id_right : forall L R sym id t u ft fu m k y R' u' fu' i x, entry L R sym id t u ft fu m k y ->
    named right rids R' u' fu' -> nondegenerate (triangle_of coords u') -> In i (let '(a, b, c) := fu' in [a; b; c]) -> nth_error (pl_points pl) i = Some x ->
    same_point (coords y) (coords x) -> id = i.
  Proof.
    intros L R sym id t u ft [ [a b] c] m k y L' [ [x0 x1] x2] [ [a' b'] c'] i x E Nm N J Hx S.
    assert (exists j, [i] = pick (corner_mask j) (a', b', c') /\ coords x = (let '(A, B, C) := triangle_of coords (x0, x1, x2) in match j with 0 => A | 1 => B | _ => C end)) as (j & Ej & Ex).
    { destruct Nm as (_ & _ & A & B & C). destruct J as [<- | [<- | [<- | [ ] ] ] ]; [ exists 0 | exists 1 | exists 2 ]; cbn; split; auto; congruence. }
    assert (Fc := corner_feature (triangle_of coords (x0, x1, x2)) j). rewrite <- Ex in Fc.
    assert (Pl : Permutation (pick k (a, b, c)) (pick (corner_mask j) (a', b', c'))).
    { apply (same_ids (pick k u) (pick (corner_mask j) (x0, x1, x2))).
      - exact (named_pick _ _ _ _ _ _ (en_right _ _ _ _ _ _ _ _ _ _ _ E)).
      - exact (named_pick _ _ _ _ _ _ Nm).
      - apply (Sr R L' u (x0, x1, x2) k (corner_mask j) (coords y)); [ apply (en_right _ _ _ _ _ _ _ _ _ _ _ E) | apply Nm | apply (en_fr _ _ _ _ _ _ _ _ _ _ _ E) | ].
        eapply in_feature_same; [ apply same_sym; exact S | exact Fc ].
      - exact (nodup_named _ _ _ _ _ _ _ _ (en_right _ _ _ _ _ _ _ _ _ _ _ E) (en_nr _ _ _ _ _ _ _ _ _ _ _ E)).
      - exact (nodup_named _ _ _ _ _ _ _ _ Nm N). }
    rewrite <- Ej in Pl. assert (B := Permutation_length Pl). rewrite pick_length in B. cbn [length] in B.
    rewrite (en_vr _ _ _ _ _ _ _ _ _ _ _ E B) in Pl. apply Permutation_length_1 in Pl. exact Pl.
  Qed.

  (** ** Records in triangulations *)
  Definition list3 (f : face) : list nat := let '(a, b, c) := f in [a; b; c].
  Definition known_left (id : nat) (p : P) : Prop := nth_error (pl_points pl') id = Some p /\
    ((exists L t f, named left lids L t f /\ nondegenerate (triangle_of coords t) /\ In id (list3 f)) \/
     exists L R sym t u ft fu m k, entry L R sym id t u ft fu m k p).
  Definition known_right (id : nat) (p : P) : Prop := nth_error (pl_points pl') id = Some p /\
    ((exists R u f, named right rids R u f /\ nondegenerate (triangle_of coords u) /\ In id (list3 f)) \/
     exists L R sym t u ft fu m k, entry L R sym id t u ft fu m k p).

  Lemma named_point : forall m ids fi t f id, named m ids fi t f -> In id (list3 f) -> exists x, nth_error (pl_points pl) id = Some x.
  Proof. intros m ids fi [ [x y] z] [ [a b] c] id (_ & _ & A & B & C) [<- | [<- | [<- | [ ] ] ] ]; eauto. Qed.

  Lemma left_one : forall i j p, known_left i p -> known_left j p -> i = j.
  Proof.
    intros i j p [Hi [(L & t & f & N & Nd & J) | (L & R & sym & t & u & ft & fu & m & k & E)] ] [Hj [(L' & t' & f' & N' & Nd' & J') | (L' & R' & sym' & t' & u' & ft' & fu' & m' & k' & E')] ].
    - destruct (named_point _ _ _ _ _ _ N J) as (x & X). destruct (named_point _ _ _ _ _ _ N' J') as (x' & X'). assert (Y := keep_points _ _ X). assert (Y' := keep_points _ _ X').
      apply (id_unique i j p); congruence.
    - destruct (named_point _ _ _ _ _ _ N J) as (x & X). assert (Y := keep_points _ _ X). symmetry. destruct f as [ [a b] c].
      apply (one_id_left _ _ _ _ _ _ _ _ _ _ _ _ _ _ _ _ E' N Nd J X). rewrite Hi in Y. injection Y as ->. apply same_refl.
    - destruct (named_point _ _ _ _ _ _ N' J') as (x & X). assert (Y := keep_points _ _ X). destruct f' as [ [a b] c].
      apply (one_id_left _ _ _ _ _ _ _ _ _ _ _ _ _ _ _ _ E N' Nd' J' X). rewrite Hj in Y. injection Y as ->. apply same_refl.
    - exact (one_id _ _ _ _ _ _ _ _ _ _ _ _ _ _ _ _ _ _ _ _ _ _ E E' (same_refl _)).
  Qed.
  Lemma right_one : forall i j p, known_right i p -> known_right j p -> i = j.
  Proof.
    intros i j p [Hi [(L & t & f & N & Nd & J) | (L & R & sym & t & u & ft & fu & m & k & E)] ] [Hj [(L' & t' & f' & N' & Nd' & J') | (L' & R' & sym' & t' & u' & ft' & fu' & m' & k' & E')] ].
    - destruct (named_point _ _ _ _ _ _ N J) as (x & X). destruct (named_point _ _ _ _ _ _ N' J') as (x' & X'). assert (Y := keep_points _ _ X). assert (Y' := keep_points _ _ X').
      apply (id_unique i j p); congruence.
    - destruct (named_point _ _ _ _ _ _ N J) as (x & X). assert (Y := keep_points _ _ X). symmetry. destruct f as [ [a b] c].
      apply (one_id_right _ _ _ _ _ _ _ _ _ _ _ _ _ _ _ _ E' N Nd J X). rewrite Hi in Y. injection Y as ->. apply same_refl.
    - destruct (named_point _ _ _ _ _ _ N' J') as (x & X). assert (Y := keep_points _ _ X). destruct f' as [ [a b] c].
      apply (one_id_right _ _ _ _ _ _ _ _ _ _ _ _ _ _ _ _ E N' Nd' J' X). rewrite Hj in Y. injection Y as ->. apply same_refl.
    - exact (one_id _ _ _ _ _ _ _ _ _ _ _ _ _ _ _ _ _ _ _ _ _ _ E E' (same_refl _)).
  Qed.
  Lemma either_one : forall i j p, known_left i p \/ known_right i p -> known_left j p \/ known_right j p -> i = j.
  Proof.
    assert (X : forall i j p, known_left i p -> known_right j p -> i = j).
    { intros i j p Ki Kj. assert (Ki' := Ki). assert (Kj' := Kj). destruct Ki as [Hi [(L & t & f & N & Nd & J) | E] ]; [ | apply (right_one i j p); [ split; [ exact Hi | right; exact E ] | exact Kj' ] ].
      destruct Kj as [Hj [(R & u & g & N' & Nd' & J') | E] ]; [ | apply (left_one i j p); [ exact Ki' | split; [ exact Hj | right; exact E ] ] ].
      destruct (named_point _ _ _ _ _ _ N J) as (x & Y). destruct (named_point _ _ _ _ _ _ N' J') as (x' & Y'). assert (Z := keep_points _ _ Y). assert (Z' := keep_points _ _ Y').
      apply (id_unique i j p); congruence. }
    intros i j p [Ki | Ki] [Kj | Kj]; [ exact (left_one i j p Ki Kj) | exact (X i j p Ki Kj) | symmetry; exact (X j i p Kj Ki) | exact (right_one i j p Ki Kj) ].
  Qed.
  Lemma combine_nth_both : forall {A B} (l : list A) (l' : list B) n x y, nth_error (combine l l') n = Some (x, y) -> nth_error l n = Some x /\ nth_error l' n = Some y.
  Proof.
    intros A B. induction l as [ | a l IH]; intros [ | b l'] [ | n] x y H; cbn in *; try discriminate; [ injection H as -> ->; auto | apply IH; exact H ].
  Qed.
  Lemma corners_apart : forall x y z, nondegenerate (triangle_of coords (x, y, z)) -> NoDup [x; y; z].
  Proof.
    intros x y z N. destruct (distinct_corners _ _ _ N) as (A & B & C). repeat constructor; cbn; intuition; subst; try (apply A, same_refl); try (apply B, same_refl); try (apply C, same_refl).
  Qed.

  (** The outline of a record. *)
  Lemma vertex_same : forall T U x y, same_point x y -> is_vertex T U x -> is_vertex T U y.
  Proof.
    intros T U x y S [B H]. split; [ exact (both_same _ _ _ _ S B) | ]. intros z w Bz Bw E. apply H; [ exact Bz | exact Bw | ]. eapply same_trans; [ exact S | exact E ].
  Qed.
  Lemma record_outline : forall i, In i infos -> exists t u, face_corners left (i_left i) t /\ face_corners right (i_right i) u /\
    outline coords (pl_points pl') (triangle_of coords t) (triangle_of coords u) (i_ids i).
  Proof.
    intros i J. destruct (entries i J) as (t & u & [ [a b] c] & [ [p q] r] & Nl & Nr & NT & NU & E & Len & En). exists t, u. split; [ apply Nl | ]. split; [ apply Nr | ].
    set (T := triangle_of coords t) in *. set (U := triangle_of coords u) in *. assert (HT := named_triangle _ _ _ _ _ _ _ Nl). assert (HU := named_triangle _ _ _ _ _ _ _ Nr).
    destruct (C36_exact coords _ _ _ _ _ _ _ _ _ HT HU NT NU) as (l & E' & Nd & V1 & V2). rewrite E in E'. injection E' as <-.
    destruct (C36_order coords _ _ _ _ _ _ _ _ _ HT HU NT NU) as (l & E' & _ & Or). rewrite E in E'. injection E' as <-.
    assert (At : forall n sym id, nth_error (i_syms i) n = Some sym -> nth_error (i_ids i) n = Some id -> exists y, nth_error (pl_points pl') id = Some y /\ at_region T U sym (coords y) /\ is_vertex T U (coords y)).
    { intros n sym id Hs Hi. destruct (En n sym id Hs Hi) as (m & k & y & Y). exists y. split; [ apply (en_point _ _ _ _ _ _ _ _ _ _ _ Y) | ].
      assert (A : at_region T U sym (coords y)). { unfold at_region. rewrite (en_sym _ _ _ _ _ _ _ _ _ _ _ Y). destruct (left_part_side m k) as [-> ->]. split; [ apply (en_fl _ _ _ _ _ _ _ _ _ _ _ Y) | apply (en_fr _ _ _ _ _ _ _ _ _ _ _ Y) ]. }
      split; [ exact A | ]. destruct (V1 sym (nth_error_In _ _ Hs)) as (x & X1 & X2 & X3). exact (vertex_same _ _ _ _ (X3 _ A) X1). }
    assert (Sy : forall n id, nth_error (i_ids i) n = Some id -> exists sym, nth_error (i_syms i) n = Some sym).
    { intros n id H. destruct (nth_error (i_syms i) n) eqn:X; [ eauto | ]. apply nth_error_None in X. assert (n < length (i_ids i)) by (apply nth_error_Some; congruence). lia. }
    assert (One : forall n n' id id' y y', nth_error (i_ids i) n = Some id -> nth_error (i_ids i) n' = Some id' -> nth_error (pl_points pl') id = Some y -> nth_error (pl_points pl') id' = Some y' ->
      same_point (coords y) (coords y') -> n = n').
    { intros n n' id id' y y' H H' Y Y' S. destruct (Sy _ _ H) as (s & Hs). destruct (Sy _ _ H') as (s' & Hs').
      destruct (At _ _ _ Hs H) as (z & Z & Az & Vz). rewrite Y in Z. injection Z as <-. destruct (At _ _ _ Hs' H') as (z & Z & Az' & _). rewrite Y' in Z. injection Z as <-.
      destruct (V2 _ Vz) as (reg & _ & _ & Un). assert (s = reg) by (apply Un; [ exact (nth_error_In _ _ Hs) | exact Az ]).
      assert (s' = reg). { apply Un; [ exact (nth_error_In _ _ Hs') | ]. destruct Az' as [F1 F2]. split; eapply in_feature_same; try eassumption; apply same_sym; exact S. }
      apply (proj1 (NoDup_nth_error _) Nd); [ apply nth_error_Some; congruence | congruence ]. }
    split.
    - apply NoDup_nth_error. intros n n' Hn Eq. destruct (nth_error (i_ids i) n) as [id | ] eqn:H; [ | apply nth_error_None in H; lia ].
      destruct (Sy _ _ H) as (s & Hs). destruct (At _ _ _ Hs H) as (y & Y & _). symmetry in Eq. exact (One n n' id id y y H Eq Y Y (same_refl _)).
    - intros id Jd. apply In_nth_error in Jd. destruct Jd as (n & H). destruct (Sy _ _ H) as (s & Hs). destruct (At _ _ _ Hs H) as (y & Y & _ & V). eauto.
    - intros x Vx. destruct (V2 x Vx) as (reg & Jr & Ar & _). apply In_nth_error in Jr. destruct Jr as (n & Hs).
      destruct (nth_error (i_ids i) n) as [id | ] eqn:H; [ | apply nth_error_None in H; assert (n < length (i_syms i)) by (apply nth_error_Some; congruence); lia ].
      destruct (At _ _ _ Hs H) as (y & Y & Ay & _). exists id, y. split; [ exact (nth_error_In _ _ H) | ]. split; [ exact Y | ].
      destruct (V1 reg (nth_error_In _ _ Hs)) as (z & _ & _ & Un). eapply same_trans; [ apply same_sym, Un; exact Ar | apply Un; exact Ay ].
    - intros id id' y y' Ji Jj Y Y' S. apply In_nth_error in Ji, Jj. destruct Ji as (n & H), Jj as (n' & H'). assert (n = n') by exact (One n n' id id' y y' H H' Y Y' S). subst. congruence.
    - intros id id' y y' (n & L2 & H & H') Y Y'. destruct (Sy _ _ H) as (s & Hs). destruct (Sy _ _ H') as (s' & Hs').
      destruct (At _ _ _ Hs H) as (z & Z & Az & _). rewrite Y in Z. injection Z as <-. destruct (At _ _ _ Hs' H') as (z & Z & Az' & _). rewrite Y' in Z. injection Z as <-.
      rewrite Len in Hs'. exact (Or n s s' _ _ Hs Hs' Az Az').
  Qed.

  Lemma usable_left : forall i, In i infos -> usable P_eqb known_left LEFT_FACE left lids i_left i.
  Proof.
    intros i J. destruct (record_outline i J) as (t9 & u9 & _ & _ & O). destruct (entries i J) as ([ [x y] z] & u & [ [a b] c] & fu & Nl & Nr & NT & NU & E & Len & En).
    assert (Nn := Nl). destruct Nn as (_ & Ef & A & B & C).
    assert (K : forall j p, In j [a; b; c] -> nth_error (pl_points pl) j = Some p -> known_left j p).
    { intros j p Jj H. split; [ apply keep_points; exact H | ]. left. exists (i_left i), (x, y, z), (a, b, c). auto. }
    exists a, b, c, x, y, z. split; [ exact Ef | ]. split; [ apply K; cbn; auto | ]. split; [ apply K; cbn; auto | ]. split; [ apply K; cbn; auto | ]. split; [ apply corners_apart; exact NT | ].
    split; [ exact Len | ]. split; [ apply (ol_nodup _ _ _ _ _ O) | ]. apply Forall_forall. intros [id sym] Jc. apply In_nth_error in Jc. destruct Jc as (n & Hc). apply combine_nth_both in Hc. destruct Hc as [Hi Hs].
    destruct (En n sym id Hs Hi) as (m & k & w & W). exists w. cbn [fst snd]. split; [ split; [ apply (en_point _ _ _ _ _ _ _ _ _ _ _ W) | right; exists (i_left i), (i_right i), sym, (x, y, z), u, (a, b, c), fu, m, k; exact W ] | ].
    intros t Ht. rewrite (en_sym _ _ _ _ _ _ _ _ _ _ _ W). destruct (tri_insert_left P_eqb t w id m k Ht (feature_bits _ _ _ (en_fl _ _ _ _ _ _ _ _ _ _ _ W))) as [X1 X2].
    destruct (Nat.eq_dec (bits m) 1) as [B1 | B1]; [ right | left; exact (X1 B1) ]. destruct (X2 B1) as (h & Eh & Hh). exists h. split; [ exact Eh | ].
    destruct (Hh a b c) as (v & V & Pv). rewrite (en_vl _ _ _ _ _ _ _ _ _ _ _ W B1) in Pv. injection Pv as ->. exact V.
  Qed.
  Lemma usable_right : forall i, In i infos -> usable P_eqb known_right RIGHT_FACE right rids i_right i.
  Proof.
    intros i J. destruct (record_outline i J) as (t9 & u9 & _ & _ & O). destruct (entries i J) as (t0 & [ [x y] z] & ft & [ [a b] c] & Nl & Nr & NT & NU & E & Len & En).
    assert (Nn := Nr). destruct Nn as (_ & Ef & A & B & C).
    assert (K : forall j p, In j [a; b; c] -> nth_error (pl_points pl) j = Some p -> known_right j p).
    { intros j p Jj H. split; [ apply keep_points; exact H | ]. left. exists (i_right i), (x, y, z), (a, b, c). auto. }
    exists a, b, c, x, y, z. split; [ exact Ef | ]. split; [ apply K; cbn; auto | ]. split; [ apply K; cbn; auto | ]. split; [ apply K; cbn; auto | ]. split; [ apply corners_apart; exact NU | ].
    split; [ exact Len | ]. split; [ apply (ol_nodup _ _ _ _ _ O) | ]. apply Forall_forall. intros [id sym] Jc. apply In_nth_error in Jc. destruct Jc as (n & Hc). apply combine_nth_both in Hc. destruct Hc as [Hi Hs].
    destruct (En n sym id Hs Hi) as (m & k & w & W). exists w. cbn [fst snd]. split; [ split; [ apply (en_point _ _ _ _ _ _ _ _ _ _ _ W) | right; exists (i_left i), (i_right i), sym, t0, (x, y, z), ft, (a, b, c), m, k; exact W ] | ].
    intros t Ht. rewrite (en_sym _ _ _ _ _ _ _ _ _ _ _ W). destruct (tri_insert_right P_eqb t w id m k Ht (feature_bits _ _ _ (en_fr _ _ _ _ _ _ _ _ _ _ _ W))) as [X1 X2].
    destruct (Nat.eq_dec (bits k) 1) as [B1 | B1]; [ right | left; exact (X1 B1) ]. destruct (X2 B1) as (h & Eh & Hh). exists h. split; [ exact Eh | ].
    destruct (Hh a b c) as (v & V & Pv). rewrite (en_vr _ _ _ _ _ _ _ _ _ _ _ W B1) in Pv. injection Pv as ->. exact V.
  Qed.
End Rec.
