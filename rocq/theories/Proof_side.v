(** * Rays and regions *)
From Coq Require Import List Arith QArith Qabs Qminmax Lqa Lia.
From Verif Require Import Model_base Proof_base Model_soup Model_geometry Model_side.
From Verif Require Import Spec_candidates Spec_side Spec_open Proof_affine.
Import ListNotations.
Local Open Scope Q_scope.

Lemma conv_neg : forall x y l : Q, x < 0 -> y < 0 -> 0 <= l -> l <= 1 -> (1 - l) * x + l * y < 0.
Proof.
  intros x y l Hx Hy Hl Hl1. destruct (Qlt_le_dec 0 l) as [L | L].
  - assert (0 < l * (- y)) by (apply Qmult_lt_0_compat; lra).
    assert (0 <= (1 - l) * (- x)) by (apply Qmult_le_0_compat; lra). lra.
  - assert (E : l == 0) by lra. rewrite E. lra.
Qed.

(** The point [q - e (1 - l) d + e l w]. *)
Definition path (q : vec3) (e l : Q) (d w : vec3) : vec3 := along (along q (- (e * (1 - l))) d) (e * l) w.

Lemma aev_path : forall g q e l d w,
  aev g (path q e l d w) == aev g q - e * (1 - l) * vdot (ak g) d + e * l * vdot (ak g) w.
Proof. intros. unfold path. rewrite !aev_along. ring. Qed.

Lemma vdot_along : forall k p t v, vdot k (along p t v) == vdot k p + t * vdot k v.
Proof. crush. ring. Qed.

Lemma vdot_vsub : forall k a b, vdot k (vsub a b) == vdot k a - vdot k b.
Proof. crush. ring. Qed.
Lemma vdot_vadd : forall k a b, vdot k (vadd a b) == vdot k a + vdot k b.
Proof. crush. ring. Qed.
Lemma vdot_zero : forall k, vdot k (0, 0, 0) == 0.
Proof. crush. ring. Qed.

Section Core.
  Context {D : Type} (m : soup vec3 D) (inside : vec3 -> Prop).
  Hypothesis Hp : proper_faces m.
  Variable Dom : vec3 -> Prop.
  Hypothesis HK : open_convex Dom.
  Hypothesis Hb : bounds_in Dom m inside.
  Hypothesis Hinner : forall fi a b c q, soup_triangle m fi = Ok (a, b, c) -> in_open_triangle q a b c -> Dom q.

  Definition cons_of (fi : nat) : list aff :=
    match soup_triangle m fi with
    | Ok (a, b, c) => tri_cons a b c
    | _ => [mk_aff (0, 0, 0) (-(1))]
    end.

  Lemma on_face_sat : forall fi x, on_face m fi x <-> sat (cons_of fi) x.
  Proof.
    intros fi x. unfold on_face, cons_of.
    destruct (soup_triangle m fi) as [ [ [a b] c] | | ] eqn:E.
    - rewrite <- (tri_iff a b c x (pf_nondegenerate _ Hp fi a b c E)). split.
      + intros (a' & b' & c' & E' & H). congruence.
      + intro H. exists a, b, c. auto.
    - split; [ intros (a & b & c & E' & _); congruence | ].
      intro H. inversion H as [ | ? ? H1 _]; subst. unfold aev, vdot in H1. cbn in H1. lra.
    - split; [ intros (a & b & c & E' & _); congruence | ].
      intro H. inversion H as [ | ? ? H1 _]; subst. unfold aev, vdot in H1. cbn in H1. lra.
  Qed.

  Lemma on_face_same : forall fi x y, same x y -> on_face m fi x -> on_face m fi y.
  Proof. intros fi x y H. rewrite !on_face_sat. apply sat_same. exact H. Qed.

  Lemma on_boundary_same : forall x y, same x y -> on_boundary m x -> on_boundary m y.
  Proof. intros x y H [fi Hf]. exists fi. exact (on_face_same fi x y H Hf). Qed.

  Lemma on_face_lt : forall fi x, on_face m fi x -> (fi < num_faces m)%nat.
  Proof.
    intros fi x (a & b & c & E & _). unfold soup_triangle, soup_face, vec_at in E.
    destruct (nth_error (faces m) fi) eqn:En; [ | discriminate ].
    unfold num_faces. apply nth_error_Some. congruence.
  Qed.

  Lemma inside_same : forall x y, same x y -> Dom x -> ~ on_boundary m x -> (inside x <-> inside y).
  Proof.
    intros x y H Kx Hn. apply (bi_walk _ _ _ Hb _ _ Kx (oc_same _ HK _ _ H Kx)). intros z [t [Ht Hz] ] Hbz. apply Hn.
    apply (on_boundary_same z x); [ | exact Hbz ]. eapply same_trans; [ exact Hz | ].
    destruct H as (H1 & H2 & H3). unfold along, vsub. repeat split; cbn [vx vy vz fst snd].
    - rewrite <- H1. ring.
    - rewrite <- H2. ring.
    - rewrite <- H3. ring.
  Qed.

  (** A situation on a ray in direction [d]: [q] is the first point of the boundary,
      the face [T] contains it, and all other faces that contain it go on in the
      direction of the ray. *)
  Section First.
    Variables (q d : vec3) (t0 : Q) (T : nat) (a b c : vec3).
    Hypothesis Ht0 : 0 < t0.
    Hypothesis HT : soup_triangle m T = Ok (a, b, c).
    Hypothesis HqT : in_triangle q a b c.
    Hypothesis Hbefore : forall e, 0 < e -> e <= t0 -> ~ on_boundary m (along q (- e) d).
    Hypothesis Kq : Dom q.
    Hypothesis Kp : Dom (along q (- t0) d).
    Hypothesis Hothers : forall F, F <> T -> on_face m F q -> exists t, 0 < t /\ on_face m F (along q t d).

    Let w := vsub (centroid a b c) q.
    Let n := normal a b c.

    Lemma inner : forall t, 0 < t -> t <= 1 -> in_open_triangle (along q t w) a b c.
    Proof. intros t H H'. apply towards_centroid; assumption. Qed.

    Lemma plane_w : vdot n w == 0.
    Proof.
      assert (E := in_plane a b c q HqT).
      assert (E' := in_plane a b c (centroid a b c) (centroid_in a b c)).
      fold n in E, E'. unfold aev, through in *. cbn [ak ac] in *.
      assert (X : vdot n w == vdot n (centroid a b c) - vdot n q) by (apply vdot_vsub).
      rewrite X. lra.
    Qed.

    Lemma paths_clear : forall v, exists e0, 0 < e0 /\ e0 <= t0 /\ exists d0, 0 < d0 /\
      forall dl e l F, 0 < dl -> dl <= d0 -> 0 < e -> e <= e0 -> 0 <= l -> l <= 1 -> F <> T ->
        ~ on_face m F (path q e l d (along w dl v)).
    Proof.
      intro v.
      destruct (small_all (fun F dl => F <> T -> on_face m F q ->
        exists g, In g (cons_of F) /\ aev g q == 0 /\ 0 <= vdot (ak g) d /\
          vdot (ak g) w + dl * vdot (ak g) v < 0) (num_faces m)) as [d1 [Hd1 Hnear] ].
      { intros F _. destruct (Nat.eq_dec F T) as [-> | NF].
        - exists 1. split; [ lra | intros; congruence ].
        - destruct (sat_dec (cons_of F) q) as [Hs | Hs].
          + destruct (tight (cons_of F) q w Hs) as [g [Hg [Hz Hw] ] ].
            * intros t H H' Hsat. apply NF. apply (pf_apart _ Hp T F a b c _ HT (inner t H H')).
              apply on_face_sat. exact Hsat.
            * destruct (stays_negative _ (vdot (ak g) v) Hw) as [e [He Hn] ].
              exists e. split; [ exact He | ]. intros x Hx Hle _ _. exists g.
              split; [ exact Hg | split; [ exact Hz | split; [ | exact (Hn x Hx Hle) ] ] ].
              destruct (Hothers F NF) as [t [Ht Hon] ]; [ apply on_face_sat; exact Hs | ].
              apply on_face_sat in Hon. unfold sat in Hon. rewrite Forall_forall in Hon.
              specialize (Hon g Hg). rewrite aev_along, Hz in Hon.
              destruct (Qlt_le_dec (vdot (ak g) d) 0) as [L | L]; [ | exact L ]. exfalso.
              assert (0 < t * - vdot (ak g) d) by (apply Qmult_lt_0_compat; lra). lra.
          + exists 1. split; [ lra | ]. intros x _ _ _ Hon. exfalso. apply Hs. apply on_face_sat. exact Hon. }
      destruct (small_all (fun F e => ~ on_face m F q -> exists g, In g (cons_of F) /\
        aev g (along q e (vsub (0, 0, 0) d)) < 0 /\ aev g (along q e w) < 0 /\
        aev g (along q e (vadd w v)) < 0) (num_faces m)) as [e1 [He1 Hfar] ].
      { intros F _. destruct (sat_dec (cons_of F) q) as [Hs | Hs].
        - exists 1. split; [ lra | ]. intros x _ _ Hno. exfalso. apply Hno. apply on_face_sat. exact Hs.
        - destruct (far (cons_of F) q [vsub (0, 0, 0) d; w; vadd w v] Hs) as [g [Hg [e [He Hneg] ] ] ].
          exists e. split; [ exact He | ]. intros x Hx Hle _. exists g. split; [ exact Hg | ].
          repeat split; apply Hneg; auto; cbn; auto. }
      exists (Qmin e1 t0). split; [ apply Q.min_glb_lt; assumption | ]. split; [ apply Q.le_min_r | ].
      exists (Qmin d1 1). split; [ apply Q.min_glb_lt; lra | ].
      intros dl e l F Hdl Hdle He Hele Hl Hl1 NF Hon.
      pose proof (Q.le_min_l e1 t0). pose proof (Q.le_min_r e1 t0).
      pose proof (Q.le_min_l d1 1). pose proof (Q.le_min_r d1 1).
      assert (LF := on_face_lt _ _ Hon). assert (Hsat := proj1 (on_face_sat _ _) Hon).
      unfold sat in Hsat. rewrite Forall_forall in Hsat.
      destruct (sat_dec (cons_of F) q) as [Hs | Hs].
      - assert (Hq : on_face m F q) by (apply on_face_sat; exact Hs).
        destruct (Hnear F LF dl Hdl ltac:(lra) NF Hq) as (g & Hg & Hz & Hkd & Hneg).
        specialize (Hsat g Hg). rewrite aev_path, Hz, vdot_along in Hsat.
        destruct (Qlt_le_dec 0 l) as [L | L].
        + assert (0 < e * l) by (apply Qmult_lt_0_compat; assumption).
          assert (0 <= e * (1 - l)) by (apply Qmult_le_0_compat; lra).
          assert (0 <= e * (1 - l) * vdot (ak g) d) by (apply Qmult_le_0_compat; assumption).
          assert (0 < e * l * - (vdot (ak g) w + dl * vdot (ak g) v)) by (apply Qmult_lt_0_compat; lra).
          lra.
        + assert (E : l == 0) by lra. apply (Hbefore e He ltac:(lra)). exists F.
          apply (on_face_same F (path q e l d (along w dl v))); [ | exact Hon ].
          unfold path, along. repeat split; cbn [vx vy vz fst snd]; rewrite E; ring.
      - destruct (Hfar F LF e He ltac:(lra)) as (g & Hg & N1 & N2 & N3).
        { intro Hq. apply Hs. apply on_face_sat. exact Hq. }
        specialize (Hsat g Hg).
        assert (E : aev g (path q e l d (along w dl v)) ==
          (1 - l) * aev g (along q e (vsub (0, 0, 0) d)) +
          l * ((1 - dl) * aev g (along q e w) + dl * aev g (along q e (vadd w v)))).
        { rewrite aev_path, !aev_along, vdot_along.
          assert (X1 : vdot (ak g) (vsub (0, 0, 0) d) == - vdot (ak g) d) by (rewrite vdot_vsub, vdot_zero; ring).
          assert (X2 : vdot (ak g) (vadd w v) == vdot (ak g) w + vdot (ak g) v)
            by (apply vdot_vadd).
          rewrite X1, X2. ring. }
        rewrite E in Hsat.
        assert (Y := conv_neg _ _ dl N2 N3 ltac:(lra) ltac:(lra)).
        assert (Z := conv_neg _ _ l N1 Y Hl Hl1). lra.
    Qed.

    Lemma back_in : forall e, 0 < e -> e <= t0 -> Dom (along q (- e) d).
    Proof.
      intros e He Hle. apply (oc_convex _ HK _ _ _ Kp Kq). exists (1 - e / t0).
      assert (0 < e / t0) by (apply Qlt_shift_div_l; lra). assert (e / t0 <= 1) by (apply Qle_shift_div_r; lra).
      split; [ lra | ]. unfold along, vsub. repeat split; cbn [vx vy vz fst snd]; field; lra.
    Qed.
    Lemma path_in : forall e l u, 0 < e -> e <= t0 -> 0 <= l -> l <= 1 -> Dom (along q e u) -> Dom (path q e l d u).
    Proof.
      intros e l u He Hle H0 H1 Ku. apply (oc_convex _ HK _ _ _ (back_in e He Hle) Ku). exists l.
      split; [ lra | ]. unfold path, along, vsub. repeat split; cbn [vx vy vz fst snd]; ring.
    Qed.

    (** Walking to the point shortly before [q]. *)
    Lemma walk_back : forall e, 0 < e -> e <= t0 ->
      (inside (along q (- t0) d) <-> inside (along q (- e) d)).
    Proof.
      intros e He Hle. apply (bi_walk _ _ _ Hb _ _ Kp (back_in e He Hle)). intros z [t [ [Ht Ht1] Hz] ] Hbz.
      set (s := t0 - t * (t0 - e)).
      assert (0 <= t * (t0 - e)) by (apply Qmult_le_0_compat; lra).
      assert (0 <= (1 - t) * (t0 - e)) by (apply Qmult_le_0_compat; lra).
      assert (X : (1 - t) * (t0 - e) == t0 - e - t * (t0 - e)) by ring.
      apply (Hbefore s); [ unfold s; lra | unfold s; lra | ].
      apply (on_boundary_same z); [ | exact Hbz ]. eapply same_trans; [ exact Hz | ].
      unfold s, along, vsub. repeat split; cbn [vx vy vz fst snd]; ring.
    Qed.

    (** Walking along a path. *)
    Lemma walk_path : forall e l1 u, 0 < e -> e <= t0 -> Dom (along q e u) -> 0 <= l1 -> l1 <= 1 ->
      (forall l, 0 <= l -> l <= l1 -> ~ on_boundary m (path q e l d u)) ->
      (inside (along q (- e) d) <-> inside (path q e l1 d u)).
    Proof.
      intros e l1 u He Hle Ku H0 H1 Hc. apply (bi_walk _ _ _ Hb _ _ (back_in e He Hle) (path_in e l1 u He Hle H0 H1 Ku)). intros z [t [ [Ht Ht1] Hz] ] Hbz.
      assert (0 <= t * l1) by (apply Qmult_le_0_compat; lra).
      assert (0 <= (1 - t) * l1) by (apply Qmult_le_0_compat; lra).
      assert (X : (1 - t) * l1 == l1 - t * l1) by ring.
      apply (Hc (t * l1)); [ lra | lra | ].
      apply (on_boundary_same z); [ | exact Hbz ]. eapply same_trans; [ exact Hz | ].
      unfold path, along, vsub. repeat split; cbn [vx vy vz fst snd]; ring.
    Qed.

    (** The ray crosses the plane of [T]: the side from which it comes. *)
    Lemma crossing : ~ vdot n d == 0 ->
      (0 < vdot n d -> inside (along q (- t0) d)) /\ (vdot n d < 0 -> ~ inside (along q (- t0) d)).
    Proof.
      intro Hnd. destruct (paths_clear (0, 0, 0)) as (e0 & He0 & Hle0 & d0 & Hd0 & Hclear).
      assert (Hq2 : in_open_triangle (along q (Qmin e0 1) w) a b c).
      { apply inner; [ apply Q.min_glb_lt; lra | apply Q.le_min_r ]. }
      set (e := Qmin e0 1) in *.
      assert (He : 0 < e) by (apply Q.min_glb_lt; lra).
      pose proof (Q.le_min_l e0 1) as L1. pose proof (Q.le_min_r e0 1) as L2. fold e in L1, L2.
      set (v := vsub (vsub (0, 0, 0) d) w).
      assert (Hnv : vdot n v == - vdot n d).
      { assert (X : vdot n v == - vdot n d - vdot n w) by (unfold v; rewrite !vdot_vsub, vdot_zero; ring).
        rewrite X, plane_w. ring. }
      destruct (bi_face _ _ _ Hb T a b c _ v HT Hq2) as (bound & Hbound & Hside).
      set (s := Qmin (bound / 2) e).
      assert (Hs : 0 < s) by (apply Q.min_glb_lt; [ apply Qlt_shift_div_l; lra | exact He ]).
      assert (Hsb : s < bound).
      { pose proof (Q.le_min_l (bound / 2) e) as X. fold s in X.
        assert (bound / 2 < bound) by (apply Qlt_shift_div_r; lra). lra. }
      assert (Hse : s <= e) by apply Q.le_min_r.
      set (l1 := 1 - s / e).
      assert (Hse1 : 0 < s / e) by (apply Qlt_shift_div_l; lra).
      assert (Hse2 : s / e <= 1) by (apply Qle_shift_div_r; lra).
      set (u := along w d0 (0, 0, 0)).
      assert (Hc : forall l, 0 <= l -> l <= l1 -> ~ on_boundary m (path q e l d u)).
      { intros l Hl Hl1 [F HF]. destruct (Nat.eq_dec F T) as [-> | NF].
        - destruct HF as (a' & b' & c' & E & Hin).
          rewrite HT in E. injection E as <- <- <-.
          apply in_plane in Hin. fold n in Hin. rewrite aev_path in Hin.
          assert (Eq := in_plane a b c q HqT). fold n in Eq. rewrite Eq in Hin.
          assert (Eu : vdot (ak (through n a)) u == 0).
          { unfold u. cbn [ak through]. rewrite vdot_along, plane_w, vdot_zero. ring. }
          rewrite Eu in Hin. cbn [ak through] in Hin.
          assert (Z : e * (1 - l) * vdot n d == 0) by lra.
          apply Qmult_integral in Z. destruct Z as [Z | Z]; [ | contradiction ].
          apply Qmult_integral in Z. destruct Z as [Z | Z]; [ lra | ]. unfold l1 in Hl1. lra.
        - refine (Hclear d0 e l F Hd0 _ He L1 Hl _ NF HF); [ lra | unfold l1 in Hl1; lra ]. }
      assert (Ku : Dom (along q e u)).
      { apply (oc_same _ HK (along q e w)); [ unfold u, along; repeat split; cbn [vx vy vz fst snd]; ring | exact (Hinner T a b c _ HT Hq2) ]. }
      assert (W1 := walk_back e He ltac:(lra)).
      assert (W2 := walk_path e l1 u He ltac:(lra) Ku ltac:(unfold l1; lra) ltac:(unfold l1; lra) Hc).
      assert (Sm : same (path q e l1 d u) (along (along q e w) s v)).
      { unfold path, u, l1, v, along, vsub. repeat split; cbn [vx vy vz fst snd]; field; lra. }
      assert (W3 := inside_same _ _ Sm (path_in e l1 u He ltac:(lra) ltac:(unfold l1; lra) ltac:(unfold l1; lra) Ku) (Hc l1 ltac:(unfold l1; lra) ltac:(lra))).
      destruct (Hside s ltac:(lra)) as [S1 S2]. fold n in S1, S2. split; intro H.
      - apply W1, W2, W3, S1. lra.
      - intro Hi. apply S2; [ lra | ]. apply W3, W2, W1, Hi.
    Qed.

    (** The ray runs in the plane of [T]: impossible. *)
    Lemma grazing : vdot n d == 0 -> False.
    Proof.
      intro Hnd.
      assert (HN : 0 < vdot n n) by (apply nondeg_pos; exact (pf_nondegenerate _ Hp T a b c HT)).
      assert (G : forall v, (v = n \/ v = vsub (0, 0, 0) n) -> exists e0, 0 < e0 /\ e0 <= t0 /\
        forall e, 0 < e -> e <= e0 -> e <= 1 -> exists bound, 0 < bound /\ forall s, 0 < s -> s < bound ->
          (inside (along q (- e) d) <-> inside (along (along q e w) s v))).
      { intros v Hv. destruct (paths_clear v) as (e0 & He0 & Hle0 & d0 & Hd0 & Hclear).
        assert (Hnv : ~ vdot n v == 0).
        { destruct Hv as [-> | ->]; [ lra | ].
          assert (X : vdot n (vsub (0, 0, 0) n) == - vdot n n) by (rewrite vdot_vsub, vdot_zero; ring). lra. }
        exists e0. split; [ exact He0 | split; [ exact Hle0 | ] ]. intros e He Hle Hle1.
        destruct (oc_open _ HK (along q e w) v (Hinner T a b c _ HT (inner e He Hle1))) as (bd & Hbd & Kbd).
        exists (Qmin (e * d0) bd). split; [ apply Q.min_glb_lt; [ apply Qmult_lt_0_compat; assumption | exact Hbd ] | ]. intros s Hs Hsb'.
        assert (Hsb : s < e * d0) by (pose proof (Q.le_min_l (e * d0) bd); lra).
        assert (Hsk : s < bd) by (pose proof (Q.le_min_r (e * d0) bd); lra).
        set (dl := s / e).
        assert (Hdl : 0 < dl) by (apply Qlt_shift_div_l; lra).
        assert (Hdl0 : dl <= d0) by (apply Qle_shift_div_r; [ lra | rewrite Qmult_comm; lra ]).
        assert (Hc : forall l, 0 <= l -> l <= 1 -> ~ on_boundary m (path q e l d (along w dl v))).
        { intros l Hl Hl1 [F HF]. destruct (Nat.eq_dec F T) as [-> | NF].
          - destruct (Qlt_le_dec 0 l) as [L | L].
            + destruct HF as (a' & b' & c' & E & Hin).
              rewrite HT in E. injection E as <- <- <-.
              apply in_plane in Hin. fold n in Hin. rewrite aev_path in Hin.
              assert (Eq := in_plane a b c q HqT). fold n in Eq. rewrite Eq in Hin.
              cbn [ak through] in Hin. rewrite vdot_along, plane_w, Hnd in Hin.
              assert (Z : e * l * (dl * vdot n v) == 0) by lra.
              apply Qmult_integral in Z. destruct Z as [Z | Z]; apply Qmult_integral in Z;
                destruct Z as [Z | Z]; try lra; try contradiction.
            + assert (E : l == 0) by lra. apply (Hbefore e He ltac:(lra)). exists T.
              apply (on_face_same T (path q e l d (along w dl v))); [ | exact HF ].
              unfold path, along. repeat split; cbn [vx vy vz fst snd]; rewrite E; ring.
          - exact (Hclear dl e l F Hdl Hdl0 He Hle Hl Hl1 NF HF). }
        assert (Ku : Dom (along q e (along w dl v))).
        { apply (oc_same _ HK (along (along q e w) s v)); [ | apply Kbd; lra ].
          unfold dl, along. repeat split; cbn [vx vy vz fst snd]; field; lra. }
        assert (W2 := walk_path e 1 (along w dl v) He ltac:(lra) Ku ltac:(lra) ltac:(lra) Hc).
        assert (Sm : same (path q e 1 d (along w dl v)) (along (along q e w) s v)).
        { unfold path, dl, along, vsub. repeat split; cbn [vx vy vz fst snd]; field; lra. }
        assert (W3 := inside_same _ _ Sm (path_in e 1 _ He ltac:(lra) ltac:(lra) ltac:(lra) Ku) (Hc 1 ltac:(lra) ltac:(lra))).
        rewrite W2. exact W3. }
      destruct (G n (or_introl eq_refl)) as (e1 & He1 & _ & G1).
      destruct (G (vsub (0, 0, 0) n) (or_intror eq_refl)) as (e2 & He2 & _ & G2).
      set (e := Qmin (Qmin e1 e2) 1).
      assert (He : 0 < e) by (repeat apply Q.min_glb_lt; lra).
      pose proof (Q.le_min_l (Qmin e1 e2) 1) as L1. pose proof (Q.le_min_r (Qmin e1 e2) 1) as L2. fold e in L1, L2.
      pose proof (Q.le_min_l e1 e2) as L3. pose proof (Q.le_min_r e1 e2) as L4.
      destruct (G1 e He ltac:(lra) ltac:(lra)) as (b1 & Hb1 & F1).
      destruct (G2 e He ltac:(lra) ltac:(lra)) as (b2 & Hb2 & F2).
      assert (Hq2 : in_open_triangle (along q e w) a b c) by (apply inner; lra).
      destruct (bi_face _ _ _ Hb T a b c _ n HT Hq2) as (b3 & Hb3 & S1).
      destruct (bi_face _ _ _ Hb T a b c _ (vsub (0, 0, 0) n) HT Hq2) as (b4 & Hb4 & S2).
      set (s := Qmin (Qmin b1 b2) (Qmin b3 b4) / 2).
      pose proof (Q.le_min_l (Qmin b1 b2) (Qmin b3 b4)). pose proof (Q.le_min_r (Qmin b1 b2) (Qmin b3 b4)).
      pose proof (Q.le_min_l b1 b2). pose proof (Q.le_min_r b1 b2).
      pose proof (Q.le_min_l b3 b4). pose proof (Q.le_min_r b3 b4).
      assert (Hm : 0 < Qmin (Qmin b1 b2) (Qmin b3 b4)) by (repeat apply Q.min_glb_lt; assumption).
      assert (Hs : 0 < s) by (apply Qlt_shift_div_l; lra).
      assert (Hs' : s < Qmin (Qmin b1 b2) (Qmin b3 b4)) by (apply Qlt_shift_div_r; lra).
      assert (O : ~ inside (along (along q e w) s n)) by (apply (proj2 (S1 s ltac:(lra))); fold n; lra).
      assert (I : inside (along (along q e w) s (vsub (0, 0, 0) n))).
      { apply (proj1 (S2 s ltac:(lra))).
        assert (X : vdot (normal a b c) (vsub (0, 0, 0) n) == - vdot n n) by (fold n; rewrite vdot_vsub, vdot_zero; ring).
        lra. }
      apply O. apply (F1 s ltac:(lra) ltac:(lra)). apply (F2 s ltac:(lra) ltac:(lra)). exact I.
    Qed.
  End First.
End Core.
