(** * What the reports of Find_defects say together *)
From Coq Require Import List Arith Bool NArith QArith Lqa Lia Permutation.
From Verif Require Import Model_base Proof_base Model_soup Model_geometry Spec_candidates Model_defects Spec_defects.
From Verif Require Import Spec_ffi Spec_overlap Proof_extreme Spec_corefine Spec_again Spec_find Spec_cut.
From Verif Require Import Spec_defects.
Import ListNotations.
Local Open Scope nat_scope.

(** ** Closed meshes *)
Lemma filter_one : forall A (p : A -> bool) l,
  length (filter p l) = 1 <->
  exists k x, nth_error l k = Some x /\ p x = true /\ forall k' x', nth_error l k' = Some x' -> p x' = true -> k' = k.
Proof.
  intros A p l. induction l as [ | y l IH]; cbn [filter].
  - split; [ discriminate | ]. intros (k & x & H & _). destruct k; discriminate.
  - destruct (p y) eqn:Ey.
    + cbn [length]. split.
      * intro L. exists 0, y. split; [ reflexivity | ]. split; [ exact Ey | ]. intros [ | k'] x' H Hp; [ reflexivity | exfalso ]. cbn in H.
        assert (X : In x' (filter p l)) by (apply filter_In; split; [ eapply nth_error_In; exact H | exact Hp ]).
        destruct (filter p l); [ contradiction | discriminate ].
      * intros (k & x & H & Hp & U). f_equal. destruct (filter p l) as [ | z r] eqn:Ef; [ reflexivity | exfalso ].
        assert (X : In z (filter p l)) by (rewrite Ef; left; reflexivity). apply filter_In in X. destruct X as (X & Pz). apply In_nth_error in X. destruct X as (k' & Hk').
        pose proof (U 0 y eq_refl Ey). pose proof (U (S k') z Hk' Pz). lia.
    + rewrite IH. split; intros (k & x & H & Hp & U).
      * exists (S k), x. split; [ exact H | ]. split; [ exact Hp | ]. intros [ | k'] x' H' Hp'; cbn in H'; [ congruence | f_equal; eauto ].
      * destruct k as [ | k]; cbn in H; [ congruence | ]. exists k, x. split; [ exact H | ]. split; [ exact Hp | ]. intros k' x' H' Hp'. assert (S k' = S k) by (apply (U (S k') x'); assumption). lia.
Qed.

Section Closed.
  Context {P D : Type}.
  Variable m : soup P D.
  Hypothesis Hd : NoDup (points m).
  Hypothesis Hv : valid_faces m.
  Hypothesis Hp : forall f, In f (faces m) -> proper f.

  Lemma point_index : forall i j x, nth_error (points m) i = Some x -> nth_error (points m) j = Some x -> i = j.
  Proof. intros i j x Hi Hj. apply (proj1 (NoDup_nth_error (points m)) Hd); [ apply nth_error_Some; congruence | congruence ]. Qed.

  Lemma proper_b : forall f, In f (faces m) -> properb f = true.
  Proof. intros [ [a b] c] I. apply Hp in I. cbn [proper properb] in *. destruct I as (N1 & N2 & N3). apply Nat.eqb_neq in N1, N2, N3. rewrite N1, N2, N3. reflexivity. Qed.

  Lemma runs_iff : forall f i j, runs f i j = true <-> let '(a, b, c) := f in i = a /\ j = b \/ i = b /\ j = c \/ i = c /\ j = a.
  Proof. intros [ [a b] c] i j. unfold runs. rewrite !orb_true_iff, !andb_true_iff, !Nat.eqb_eq. tauto. Qed.

  (** Directions in points and in indices. *)
  Lemma directed_runs : forall k t p q, face_corners m k t -> directed t p q ->
    exists f i j, nth_error (faces m) k = Some f /\ nth_error (points m) i = Some p /\ nth_error (points m) j = Some q /\ runs f i j = true.
  Proof.
    intros k t p q (a & b & c & x & y & z & Ef & Ha & Hb & Hc & ->) Dt. cbn [directed] in Dt.
    destruct Dt as [ (-> & ->) | [ (-> & ->) | (-> & ->)] ]; [ exists (a, b, c), a, b | exists (a, b, c), b, c | exists (a, b, c), c, a ];
      (split; [ exact Ef | ]; split; [ assumption | ]; split; [ assumption | ]; apply runs_iff; tauto).
  Qed.
  Lemma runs_directed : forall k f i j, nth_error (faces m) k = Some f -> runs f i j = true ->
    exists t p q, face_corners m k t /\ nth_error (points m) i = Some p /\ nth_error (points m) j = Some q /\ directed t p q.
  Proof.
    intros k [ [a b] c] i j Ef R. apply runs_iff in R.
    assert (V : a < length (points m) /\ b < length (points m) /\ c < length (points m)) by (exact (proj1 (Forall_forall _ _) Hv (a, b, c) (nth_error_In _ _ Ef))).
    destruct V as (Va & Vb & Vc). apply nth_error_Some in Va, Vb, Vc.
    destruct (nth_error (points m) a) as [x | ] eqn:Ea; [ clear Va | congruence ]. destruct (nth_error (points m) b) as [y | ] eqn:Eb; [ clear Vb | congruence ].
    destruct (nth_error (points m) c) as [z | ] eqn:Ec; [ clear Vc | congruence ].
    assert (F : face_corners m k (x, y, z)) by (exists a, b, c, x, y, z; auto 6).
    destruct R as [ (-> & ->) | [ (-> & ->) | (-> & ->)] ]; [ exists (x, y, z), x, y | exists (x, y, z), y, z | exists (x, y, z), z, x ]; cbn [directed]; tauto.
  Qed.

  Lemma closed_iff : (forall i j, i <> j -> 0 < users m i j -> users_along m i j = 1 /\ users_along m j i = 1) <-> closed_mesh m.
  Proof.
    assert (Al : forall i j, users_along m i j = 1 <-> exists k f, nth_error (faces m) k = Some f /\ runs f i j = true /\
      forall k' f', nth_error (faces m) k' = Some f' -> runs f' i j = true -> k' = k).
    { intros i j. unfold users_along. rewrite filter_one. split; intros (k & f & H & R & U); exists k, f.
      - apply andb_true_iff in R. split; [ exact H | ]. split; [ apply R | ]. intros k' f' H' R'. apply (U k' f' H'). rewrite R', (proper_b f' (nth_error_In _ _ H')). reflexivity.
      - split; [ exact H | ]. rewrite R, (proper_b f (nth_error_In _ _ H)). split; [ reflexivity | ]. intros k' f' H' R'. apply andb_true_iff in R'. apply (U k' f' H'), R'. }
    assert (Ne : forall k f i j, nth_error (faces m) k = Some f -> runs f i j = true -> i <> j).
    { intros k f i j H R E. apply nth_error_In, Hp in H. apply runs_iff in R. destruct f as [ [a b] c]. cbn [proper] in H. lia. }
    assert (Us : forall k f i j, nth_error (faces m) k = Some f -> runs f i j = true -> 0 < users m i j).
    { intros k f i j H R. unfold users. assert (X : In f (filter (fun f => properb f && has_vertexb f i && has_vertexb f j) (faces m))).
      { apply filter_In. split; [ eapply nth_error_In; exact H | ]. rewrite (proper_b f (nth_error_In _ _ H)). apply runs_iff in R. destruct f as [ [a b] c]. unfold has_vertexb.
        rewrite !andb_true_iff, !orb_true_iff, !Nat.eqb_eq. lia. }
      destruct (filter _ (faces m)); [ contradiction | cbn; lia ]. }
    split.
    - intro H. split.
      + intros i j t u p q Fi Fj Dt Du. destruct (directed_runs _ _ _ _ Fi Dt) as (f & a & b & Ef & Ea & Eb & R).
        destruct (directed_runs _ _ _ _ Fj Du) as (g & a' & b' & Eg & Ea' & Eb' & R'). assert (a' = a) by (eapply point_index; eassumption). assert (b' = b) by (eapply point_index; eassumption). subst a' b'.
        destruct (H a b (Ne _ _ _ _ Ef R) (Us _ _ _ _ Ef R)) as (X & _). apply Al in X. destruct X as (k & h & _ & _ & U). rewrite (U i f Ef R), (U j g Eg R'). reflexivity.
      + intros i t p q Fi Dt. destruct (directed_runs _ _ _ _ Fi Dt) as (f & a & b & Ef & Ea & Eb & R).
        destruct (H a b (Ne _ _ _ _ Ef R) (Us _ _ _ _ Ef R)) as (_ & X). apply Al in X. destruct X as (k & h & Eh & Rh & _).
        destruct (runs_directed k h b a Eh Rh) as (u & q' & p' & Fu & Eq & Ep & Du). rewrite Eb in Eq. rewrite Ea in Ep. injection Eq as <-. injection Ep as <-. exists k, u. auto.
    - intros (C1 & C2).
      assert (One : forall k f i j, nth_error (faces m) k = Some f -> runs f i j = true -> users_along m i j = 1).
      { intros k f i j Ef R. apply Al. exists k, f. split; [ exact Ef | ]. split; [ exact R | ]. intros k' f' Ef' R'.
        destruct (runs_directed _ _ _ _ Ef R) as (t & p & q & Ft & Ep & Eq & Dt). destruct (runs_directed _ _ _ _ Ef' R') as (u & p' & q' & Fu & Ep' & Eq' & Du).
        rewrite Ep in Ep'. rewrite Eq in Eq'. injection Ep' as <-. injection Eq' as <-. eapply C1; eassumption. }
      assert (Both : forall k f i j, nth_error (faces m) k = Some f -> runs f i j = true -> users_along m i j = 1 /\ users_along m j i = 1).
      { intros k f i j Ef R. split; [ eapply One; eassumption | ]. destruct (runs_directed _ _ _ _ Ef R) as (t & p & q & Ft & Ep & Eq & Dt).
        destruct (C2 _ _ _ _ Ft Dt) as (k' & u & Fu & Du). destruct (directed_runs _ _ _ _ Fu Du) as (f' & j' & i' & Ef' & Eq' & Ep' & R').
        assert (i' = i) by (eapply point_index; eassumption). assert (j' = j) by (eapply point_index; eassumption). subst i' j'. eapply One; eassumption. }
      intros i j Nij U. unfold users in U. destruct (filter (fun f => properb f && has_vertexb f i && has_vertexb f j) (faces m)) as [ | f r] eqn:Ef; [ cbn in U; lia | ].
      assert (X : In f (filter (fun f => properb f && has_vertexb f i && has_vertexb f j) (faces m))) by (rewrite Ef; left; reflexivity).
      apply filter_In in X. destruct X as (X & Y). apply In_nth_error in X. destruct X as (k & Hk). apply andb_true_iff in Y. destruct Y as (Y & Yj). apply andb_true_iff in Y. destruct Y as (_ & Yi).
      assert (R : runs f i j = true \/ runs f j i = true).
      { rewrite !runs_iff. destruct f as [ [a b] c]. unfold has_vertexb in Yi, Yj. rewrite !orb_true_iff, !Nat.eqb_eq in Yi, Yj. destruct Yi as [ [-> | ->] | ->]; destruct Yj as [ [-> | ->] | ->]; tauto. }
      destruct R as [R | R]; [ eapply Both; eassumption | ]. destruct (Both k f j i Hk R). auto.
  Qed.
End Closed.

(** Closed meshes of triangles have two faces at every edge. *)
Lemma closed_two_faces : forall {P D} (m : soup P D), closed_mesh m ->
  (forall i x y z, face_corners m i (x, y, z) -> x <> y /\ y <> z /\ z <> x) -> two_faces_per_edge m.
Proof.
  intros P D m (C1 & C2) Ne i t p q Fi Hp Hq Npq.
  assert (Dir : forall k v, face_corners m k v -> has_point v p -> has_point v q -> directed v p q \/ directed v q p).
  { intros k [ [x y] z] _ [-> | [-> | ->] ] [-> | [-> | ->] ]; cbn [directed]; tauto. }
  assert (Not : forall k v a b, face_corners m k v -> directed v a b -> directed v b a -> False).
  { intros k [ [x y] z] a b F D1 D2. destruct (Ne _ _ _ _ F) as (N1 & N2 & N3). cbn [directed] in D1, D2.
    destruct D1 as [ (-> & ->) | [ (-> & ->) | (-> & ->)] ]; destruct D2 as [ (E1 & E2) | [ (E1 & E2) | (E1 & E2)] ]; congruence. }
  assert (Has : forall v a b, directed v a b -> @has_point P v a /\ has_point v b) by (intros [ [x y] z] a b D1; cbn [directed has_point] in *; tauto).
  assert (G : forall a b, directed t a b -> (a = p /\ b = q \/ a = q /\ b = p) -> exists j u, j <> i /\ face_corners m j u /\ has_point u p /\ has_point u q /\
    forall k v, face_corners m k v -> has_point v p -> has_point v q -> k = i \/ k = j).
  { intros a b Dt Eab. destruct (C2 _ _ _ _ Fi Dt) as (j & u & Fj & Du). exists j, u. split; [ intros ->; assert (u = t) by (destruct Fi as (? & ? & ? & ? & ? & ? & Ef & E1 & E2 & E3 & ->); destruct Fj as (? & ? & ? & ? & ? & ? & Ef' & E1' & E2' & E3' & ->); congruence); subst u; eapply Not; eassumption | ].
    split; [ exact Fj | ]. destruct (Has _ _ _ Du) as (H1 & H2). split; [ destruct Eab as [ (<- & <-) | (<- & <-)]; assumption | ]. split; [ destruct Eab as [ (<- & <-) | (<- & <-)]; assumption | ].
    intros k v Fk Vp Vq. destruct (Dir k v Fk Vp Vq) as [X | X]; destruct Eab as [ (-> & ->) | (-> & ->)]; [ left | right | right | left ]; eapply C1; eassumption. }
  destruct (Dir i t Fi Hp Hq) as [X | X]; apply (G _ _ X); auto.
Qed.

(** ** Conditions 1 and 2 *)
Section Conditions.
  Context {P D : Type}.
  Variable P_eqb : P -> P -> bool.
  Hypothesis Heq : forall p q, P_eqb p q = true <-> p = q.
  Variable coords : P -> vec3.
  Variable m : soup P D.

  Lemma p_dec : forall p q : P, p = q \/ p <> q.
  Proof. intros p q. destruct (P_eqb p q) eqn:E; [ left; apply Heq, E | right; intro X; apply Heq in X; congruence ]. Qed.

  (** The feature of a triangle in which a point of the segment between two of its corners lies. *)
  Lemma segment_feature : forall t p q mi x s, nondegenerate (triangle_of coords t) -> has_point t p -> has_point t q -> (0 <= s <= 1)%Q ->
    (vx x == (1 - s) * vx (coords p) + s * vx (coords q))%Q -> (vy x == (1 - s) * vy (coords p) + s * vy (coords q))%Q -> (vz x == (1 - s) * vz (coords p) + s * vz (coords q))%Q ->
    in_feature (triangle_of coords t) mi x -> forall z, In z (pick mi t) <-> z = p /\ ~ (s == 1)%Q \/ z = q /\ ~ (s == 0)%Q.
  Proof.
    intros [ [a b] c] p q [ [m0 m1] m2] x s Nd Hp Hq Hs Hx Hy Hz (u & v & w & (W0 & W1 & W2 & Su) & Ex). cbn [triangle_of] in *.
    assert (N : a <> b /\ b <> c /\ c <> a).
    { unfold nondegenerate in Nd. assert (K : forall u v : vec3, collinear u u v /\ collinear u v u /\ collinear v u u).
      { clear. intros u v. assert (A : on_line u (vsub v u) u) by (exists 0%Q; repeat split; ring). assert (B : on_line u (vsub v u) v) by (exists 1%Q; unfold vsub, vx, vy, vz; cbn [fst snd]; repeat split; ring).
        repeat split; exists u, (vsub v u); auto. }
      repeat split; intros ->; apply Nd, K. }
    assert (Wt : forall used k, weight used k -> (used = true <-> ~ (k == 0)%Q)).
    { clear. intros [ | ] k H; cbn [weight] in H; split; intro X; try discriminate; try reflexivity; [ intro; lra | contradiction ]. }
    apply Wt in W0, W1, W2.
    (* the weights of the corners *)
    assert (G : forall u' v' w', (u' + v' + w' == 1)%Q -> same_point x (comb (coords a, coords b, coords c) u' v' w') -> (u == u' /\ v == v' /\ w == w')%Q).
    { intros u' v' w' S' E'. apply (comb_inj (coords a, coords b, coords c)); [ exact Nd | lra | ]. eapply same_trans; [ apply same_sym; exact Ex | exact E' ]. }
    assert (Pk : forall z, In z (pick (m0, m1, m2) (a, b, c)) <-> (z = a /\ ~ (u == 0)%Q) \/ (z = b /\ ~ (v == 0)%Q) \/ (z = c /\ ~ (w == 0)%Q)).
    { intro z. rewrite <- W0, <- W1, <- W2. unfold pick. rewrite !in_app_iff. clear. destruct m0, m1, m2; cbn; intuition congruence. }
    intro z. rewrite Pk. clear Pk W0 W1 W2 Ex.
    assert (SP : forall u' v' w', (u' * vx (coords a) + v' * vx (coords b) + w' * vx (coords c) == (1 - s) * vx (coords p) + s * vx (coords q))%Q ->
      (u' * vy (coords a) + v' * vy (coords b) + w' * vy (coords c) == (1 - s) * vy (coords p) + s * vy (coords q))%Q ->
      (u' * vz (coords a) + v' * vz (coords b) + w' * vz (coords c) == (1 - s) * vz (coords p) + s * vz (coords q))%Q -> same_point x (comb (coords a, coords b, coords c) u' v' w')).
    { intros u' v' w' E1 E2 E3. unfold same_point, comb. rewrite Hx, Hy, Hz. cbn [vx vy vz fst snd]. unfold vx, vy, vz in E1, E2, E3. rewrite E1, E2, E3. repeat split; reflexivity. }
    destruct Hp as [-> | [-> | ->] ]; destruct Hq as [-> | [-> | ->] ];
      [ destruct (G 1 0 0)%Q as (E1 & E2 & E3) | destruct (G (1 - s) s 0)%Q as (E1 & E2 & E3) | destruct (G (1 - s) 0 s)%Q as (E1 & E2 & E3)
      | destruct (G s (1 - s) 0)%Q as (E1 & E2 & E3) | destruct (G 0 1 0)%Q as (E1 & E2 & E3) | destruct (G 0 (1 - s) s)%Q as (E1 & E2 & E3)
      | destruct (G s 0 (1 - s))%Q as (E1 & E2 & E3) | destruct (G 0 s (1 - s))%Q as (E1 & E2 & E3) | destruct (G 0 0 1)%Q as (E1 & E2 & E3) ];
      try (apply SP; ring); try lra; rewrite E1, E2, E3; clear - Hs.
    all: assert (Z1 : (1 - s == 0 <-> s == 1)%Q) by (split; intro; lra).
    all: try rewrite Z1.
    all: assert (O : ~ (1 == 0)%Q) by lra; assert (O' : (0 == 0)%Q) by reflexivity; assert (O2 : ~ (s == 1)%Q \/ ~ (s == 0)%Q) by (destruct (Qeq_dec s 1); [ right; lra | left; assumption ]).
    all: tauto.
  Qed.

  Lemma collinear_twice : forall u v : vec3, collinear u u v /\ collinear u v u /\ collinear v u u.
  Proof.
    clear. intros u v. assert (A : on_line u (vsub v u) u) by (exists 0%Q; repeat split; ring).
    assert (B : on_line u (vsub v u) v) by (exists 1%Q; unfold vsub, vx, vy, vz; cbn [fst snd]; repeat split; ring).
    repeat split; exists u, (vsub v u); auto.
  Qed.
  Lemma pick_has : forall mk (t : P * P * P) p, In p (pick mk t) -> has_point t p.
  Proof. intros [ [m0 m1] m2] [ [x y] z] p. unfold pick, has_point. rewrite !in_app_iff. destruct m0, m1, m2; cbn; intuition congruence. Qed.
  Lemma corner_has : forall i p, corner_of m i p <-> exists t, face_corners m i t /\ has_point t p.
  Proof.
    intros i p. split.
    - intros (q & r & s & F & H). exists (q, r, s). auto.
    - intros ([ [q r] s] & F & H). exists q, r, s. auto.
  Qed.
  Lemma face_unique : forall i (t u : P * P * P), face_corners m i t -> face_corners m i u -> t = u.
  Proof. intros i t u (? & ? & ? & ? & ? & ? & Ef & E1 & E2 & E3 & ->) (? & ? & ? & ? & ? & ? & Ef' & E1' & E2' & E3' & ->). congruence. Qed.

  Definition clean : Prop :=
    (forall i, i < num_faces m -> exists t, face_corners m i t) /\ (forall i, i < num_faces m -> ~ degenerate_face coords m i) /\
    forall i j, i < num_faces m -> j < num_faces m -> i <> j -> ~ overlap coords m i j.

  Lemma clean_nondegenerate : clean -> forall i t, face_corners m i t -> nondegenerate (triangle_of coords t).
  Proof.
    intros (_ & C & _) i [ [p q] r] F X. apply (C i).
    - destruct F as (a & b & c & x & y & z & Ef & _). apply nth_error_Some. congruence.
    - exists p, q, r. auto.
  Qed.
  Lemma face_range : forall i t, face_corners m i t -> i < num_faces m.
  Proof. intros i t (a & b & c & x & y & z & Ef & _). apply nth_error_Some. congruence. Qed.

  Lemma clean_simplicial : clean -> simplicial coords m.
  Proof.
    intros C i j t u mi mj x Fi Fj Xi Xj.
    assert (Ni := clean_nondegenerate C i t Fi). assert (Nj := clean_nondegenerate C j u Fj).
    destruct (Nat.eq_dec i j) as [<- | Nij].
    { assert (u = t) by (eapply face_unique; eassumption). subst u. assert (E : mi = mj); [ | subst; reflexivity ].
      destruct t as [ [a b] c], mi as [ [m0 m1] m2], mj as [ [k0 k1] k2]. destruct Xi as (u & v & w & (W0 & W1 & W2 & S1) & E1). destruct Xj as (u' & v' & w' & (V0 & V1 & V2 & S2) & E2).
      destruct (comb_inj (triangle_of coords (a, b, c)) u v w u' v' w' Ni ltac:(lra)) as (A1 & A2 & A3); [ eapply same_trans; [ apply same_sym; exact E1 | exact E2 ] | ].
      assert (K : forall b1 b2 k1' k2', weight b1 k1' -> weight b2 k2' -> (k1' == k2')%Q -> b1 = b2) by (clear; intros [ | ] [ | ] k k' H H' E; cbn [weight] in *; try reflexivity; exfalso; lra).
      f_equal; [ f_equal | ]; eapply K; eassumption. }
    (* otherwise the faces would overlap *)
    assert (Dec : forall l p, In p l \/ ~ @In P p l).
    { induction l as [ | y l IH]; intro p; [ right; intros [] | ]. destruct (p_dec y p) as [E | E]; [ left; left; exact E | ]. destruct (IH p) as [X | X]; [ left; right; exact X | right; intros [Y | Y]; contradiction ]. }
    assert (Nn : ~ ~ (forall p, In p (pick mi t) <-> In p (pick mj u))).
    { intro Bad. destruct C as (_ & _ & C). apply (C i j (face_range _ _ Fi) (face_range _ _ Fj) Nij). exists x.
      assert (On : forall k v mk, face_corners m k v -> in_feature (triangle_of coords v) mk x -> on_face coords m k x).
      { intros k [ [p q] r] mk F X. exists p, q, r. split; [ exact F | ]. eapply feature_inside. exact X. }
      split; [ eapply On; eassumption | ]. split; [ eapply On; eassumption | ].
      intros p q [P1 P2] [Q1 Q2] (s & Hs & Hx & Hy & Hz). apply Bad. intro z.
      apply corner_has in P1, P2, Q1, Q2. destruct P1 as (t1 & G1 & P1), P2 as (t2 & G2 & P2), Q1 as (t3 & G3 & Q1), Q2 as (t4 & G4 & Q2).
      assert (t1 = t) by (eapply face_unique; eassumption). assert (t3 = t) by (eapply face_unique; eassumption). assert (t2 = u) by (eapply face_unique; eassumption). assert (t4 = u) by (eapply face_unique; eassumption). subst.
      rewrite (segment_feature t p q mi x s), (segment_feature u p q mj x s) by assumption. reflexivity. }
    intro p. destruct (Dec (pick mi t) p) as [A | A]; destruct (Dec (pick mj u) p) as [B | B]; try tauto; exfalso; apply Nn; intro X; specialize (X p); tauto.
  Qed.

  Lemma clean_no_twins : clean -> no_twins m.
  Proof.
    intros C i j p q r p' q' r' Fi Fj H. destruct (Nat.eq_dec i j) as [E | Nij]; [ exact E | exfalso ].
    assert (S := clean_simplicial C). assert (Ni := clean_nondegenerate C _ _ Fi). assert (Nj := clean_nondegenerate C _ _ Fj).
    set (x := comb (coords p, coords q, coords r) (1 # 3) (1 # 3) (1 # 3)).
    assert (Xi : in_feature (triangle_of coords (p, q, r)) (true, true, true) x) by (exists (1 # 3)%Q, (1 # 3)%Q, (1 # 3)%Q; cbn [weight]; split; [ repeat split; reflexivity | apply same_refl ]).
    destruct C as (_ & _ & C). apply (C i j (face_range _ _ Fi) (face_range _ _ Fj) Nij). exists x.
    split; [ exists p, q, r; split; [ exact Fi | eapply feature_inside; exact Xi ] | ].
    split.
    - (* a permutation of the corners *)
      assert (N : p <> q /\ q <> r /\ r <> p) by (repeat split; intros ->; apply Ni; apply collinear_twice).
      assert (N' : p' <> q' /\ q' <> r' /\ r' <> p') by (repeat split; intros ->; apply Nj; apply collinear_twice).
      exists p', q', r'. split; [ exact Fj | ]. exists (1 # 3)%Q, (1 # 3)%Q, (1 # 3)%Q. split; [ repeat split; try reflexivity; discriminate | ].
      unfold x, same_point, comb. cbn [vx vy vz fst snd].
      assert (Hp := proj1 (H p) ltac:(left; reflexivity)). assert (Hq := proj1 (H q) ltac:(right; left; reflexivity)). assert (Hr := proj1 (H r) ltac:(right; right; left; reflexivity)).
      cbn [In] in Hp, Hq, Hr. clear - Hp Hq Hr N. destruct N as (N1 & N2 & N3).
      destruct Hp as [<- | [<- | [<- | [] ] ] ]; destruct Hq as [<- | [<- | [<- | [] ] ] ]; destruct Hr as [<- | [<- | [<- | [] ] ] ]; try congruence; repeat split; ring.
    - intros a b [A1 _] [B1 _] (s & Hs & Hx & Hy & Hz). apply corner_has in A1, B1. destruct A1 as (t1 & G1 & A1), B1 as (t2 & G2 & B1).
      assert (t1 = (p, q, r)) by (eapply face_unique; eassumption). assert (t2 = (p, q, r)) by (eapply face_unique; eassumption). subst.
      assert (K := segment_feature (p, q, r) a b (true, true, true) x s Ni A1 B1 Hs Hx Hy Hz Xi). cbn [pick app In] in K.
      assert (N : p <> q /\ q <> r /\ r <> p) by (repeat split; intros ->; apply Ni; apply collinear_twice).
      assert (Kp := proj1 (K p) ltac:(tauto)). assert (Kq := proj1 (K q) ltac:(tauto)). assert (Kr := proj1 (K r) ltac:(tauto)). clear - Kp Kq Kr N. destruct N as (N1 & N2 & N3).
      destruct Kp as [ (-> & _) | (-> & _)]; destruct Kq as [ (E2 & _) | (E2 & _)]; destruct Kr as [ (E3 & _) | (E3 & _)]; congruence.
  Qed.

  Lemma clean_iff : (forall i, i < num_faces m -> exists t, face_corners m i t) -> (clean <-> meets_conditions coords m).
  Proof.
    intro V. split.
    - intro C. split; [ | split; [ apply clean_no_twins, C | apply clean_simplicial, C ] ].
      intros i Hi. destruct (V i Hi) as (t & F). exists t. split; [ exact F | eapply clean_nondegenerate; eassumption ].
    - intros (Pr & Nt & Si). split; [ exact V | ]. split.
      + intros i Hi (p & q & r & F & C). destruct (Pr i Hi) as (t & F' & N). assert (t = (p, q, r)) by (eapply face_unique; eassumption). subst t. exact (N C).
      + intros i j Hi Hj Nij (x & Oi & Oj & Sh). destruct Oi as (p & q & r & Fi & Xi), Oj as (p' & q' & r' & Fj & Xj).
        apply inside_feature in Xi, Xj. destruct Xi as (mi & Xi), Xj as (mj & Xj).
        assert (Pk := Si i j (p, q, r) (p', q', r') mi mj x Fi Fj Xi Xj).
        assert (Shared : forall z, In z (pick mi (p, q, r)) -> shared m i j z).
        { intros z Hz. split; apply corner_has; [ exists (p, q, r) | exists (p', q', r') ]; (split; [ assumption | ]); eapply pick_has; [ exact Hz | apply Pk, Hz ]. }
        destruct mi as [ [m0 m1] m2]. destruct Xi as (u & v & w & (W0 & W1 & W2 & S1) & (E1 & E2 & E3)). cbn [comb vx vy vz fst snd] in E1, E2, E3.
        cbn [pick] in Shared, Pk. fold (vx (coords p)) (vy (coords p)) (vz (coords p)) in *.
        destruct m0, m1, m2; cbn [weight] in W0, W1, W2; cbn [app] in Shared, Pk.
        * (* all corners: the same three points *)
          destruct mj as [ [k0 k1] k2].
          assert (Hs : forall z, In z [p; q; r] -> In z [p'; q'; r']).
          { intros z Hz. apply Pk in Hz. apply pick_has in Hz. cbn [has_point In] in *. intuition congruence. }
          destruct (Pr i Hi) as (t & F & N). assert (t = (p, q, r)) by (eapply face_unique; eassumption). subst t.
          assert (Ne : p <> q /\ q <> r /\ r <> p) by (repeat split; intros ->; apply N; apply collinear_twice).
          apply Nij. apply (Nt i j p q r p' q' r' Fi Fj). intro z. split; [ apply Hs | ].
          assert (Hp := Hs p ltac:(left; reflexivity)). assert (Hq := Hs q ltac:(right; left; reflexivity)). assert (Hr := Hs r ltac:(right; right; left; reflexivity)).
          clear - Hp Hq Hr Ne. destruct Ne as (N1 & N2 & N3). cbn [In] in *.
          destruct Hp as [<- | [<- | [<- | [] ] ] ]; destruct Hq as [<- | [<- | [<- | [] ] ] ]; destruct Hr as [<- | [<- | [<- | [] ] ] ]; try congruence; tauto.
        * apply (Sh p q); [ apply Shared; cbn; tauto | apply Shared; cbn; tauto | ]. exists v. split; [ lra | ]. rewrite E1, E2, E3. assert (u == 1 - v)%Q as -> by lra. rewrite W2. repeat split; ring.
        * apply (Sh p r); [ apply Shared; cbn; tauto | apply Shared; cbn; tauto | ]. exists w. split; [ lra | ]. rewrite E1, E2, E3. assert (u == 1 - w)%Q as -> by lra. rewrite W1. repeat split; ring.
        * apply (Sh p p); [ apply Shared; cbn; tauto | apply Shared; cbn; tauto | ]. exists 0%Q. split; [ lra | ]. rewrite E1, E2, E3. assert (u == 1)%Q as -> by lra. rewrite W1, W2. repeat split; ring.
        * apply (Sh q r); [ apply Shared; cbn; tauto | apply Shared; cbn; tauto | ]. exists w. split; [ lra | ]. rewrite E1, E2, E3. assert (v == 1 - w)%Q as -> by lra. rewrite W0. repeat split; ring.
        * apply (Sh q q); [ apply Shared; cbn; tauto | apply Shared; cbn; tauto | ]. exists 0%Q. split; [ lra | ]. rewrite E1, E2, E3. assert (v == 1)%Q as -> by lra. rewrite W0, W2. repeat split; ring.
        * apply (Sh r r); [ apply Shared; cbn; tauto | apply Shared; cbn; tauto | ]. exists 0%Q. split; [ lra | ]. rewrite E1, E2, E3. assert (w == 1)%Q as -> by lra. rewrite W0, W1. repeat split; ring.
        * rewrite W0, W1, W2 in S1. lra.
  Qed.
End Conditions.
