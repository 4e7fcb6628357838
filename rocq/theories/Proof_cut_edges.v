(** * The pieces of two meshes cut along their intersection meet edge to edge *)
From Coq Require Import List Arith Bool QArith Lqa Lia.
From Verif Require Import Model_base Model_geometry Model_soup Model_corefine Spec_candidates Spec_defects Spec_ffi Spec_corefine Spec_mix.
From Verif Require Import Proof_fan Proof_extreme Proof_hull Proof_ffi_result Proof_cells Proof_outline Proof_cut Proof_cut_faces.
Import ListNotations.
Local Open Scope nat_scope.

Section Lines.
  Local Open Scope Q_scope.
  Lemma closed_edge : forall t m, bits m = 2%nat -> exists c d, forall y, closed t m y -> exists r, same_point y (mix c d r).
  Proof.
    intros [ [p q] r] [ [ [ | ] [ | ] ] [ | ] ] H; cbn in H; try discriminate; [ exists p, q | exists p, r | exists q, r ];
      intros y (u & v & w & (_ & _ & _ & S) & (F0 & F1 & F2) & X); cbn [free] in *.
    - exists v. eapply same_trans; [ exact X | ]. assert (E : u == 1 - v) by lra. unfold mix. coords. rewrite E, F2. repeat split; ring.
    - exists w. eapply same_trans; [ exact X | ]. assert (E : u == 1 - w) by lra. unfold mix. coords. rewrite E, F1. repeat split; ring.
    - exists w. eapply same_trans; [ exact X | ]. assert (E : v == 1 - w) by lra. unfold mix. coords. rewrite E, F0. repeat split; ring.
  Qed.
  Lemma closed_corner : forall t m, bits m = 1%nat -> exists c, forall y, closed t m y -> same_point y c.
  Proof.
    intros [ [p q] r] [ [ [ | ] [ | ] ] [ | ] ] H; cbn in H; try discriminate; [ exists p | exists q | exists r ];
      intros y (u & v & w & (_ & _ & _ & S) & (F0 & F1 & F2) & X); cbn [free] in *; (eapply same_trans; [ exact X | ]).
    - assert (E : u == 1) by lra. coords. rewrite E, F1, F2. repeat split; ring.
    - assert (E : v == 1) by lra. coords. rewrite E, F0, F2. repeat split; ring.
    - assert (E : w == 1) by lra. coords. rewrite E, F0, F1. repeat split; ring.
  Qed.
  (** Points of a line in terms of two of them. *)
  Lemma on_line_of : forall c d a b y ra rb ry, same_point a (mix c d ra) -> same_point b (mix c d rb) -> same_point y (mix c d ry) -> ~ same_point a b ->
    exists r, same_point y (mix a b r).
  Proof.
    intros c d a b y ra rb ry A B Y N. assert (Nr : ~ rb - ra == 0).
    { intro Z. apply N. eapply same_trans; [ exact A | ]. eapply same_trans; [ | apply same_sym; exact B ]. assert (E : rb == ra) by lra. unfold mix, same_point. cbn [vx vy vz fst snd]. rewrite E. repeat split; ring. }
    exists ((ry - ra) / (rb - ra)). destruct A as (A0 & A1 & A2), B as (B0 & B1 & B2), Y as (Y0 & Y1 & Y2). unfold mix, same_point in *. cbn [vx vy vz fst snd] in *.
    rewrite A0, A1, A2, B0, B1, B2, Y0, Y1, Y2. repeat split; field; exact Nr.
  Qed.
  Lemma mix_inj : forall a b r r', ~ same_point a b -> same_point (mix a b r) (mix a b r') -> r == r'.
  Proof.
    intros a b r r' N (E0 & E1 & E2). destruct (Qeq_dec r r') as [ | D]; [ assumption | exfalso; apply N ]. unfold mix, same_point in *. cbn [vx vy vz fst snd] in *.
    assert (D' : ~ r - r' == 0) by lra.
    assert (K : forall p q, (1 - r) * p + r * q == (1 - r') * p + r' * q -> p == q).
    { intros p q H. assert (Z : q - p == 0) by (apply (mult_zero (r - r') _ D'); lra). lra. }
    repeat split; apply K; assumption.
  Qed.
  Lemma mix_mix : forall a b r s k, same_point (mix (mix a b r) (mix a b s) k) (mix a b ((1 - k) * r + k * s)).
  Proof. intros a b r s k. unfold mix, same_point. cbn [vx vy vz fst snd]. repeat split; ring. Qed.
  Lemma mix_same : forall a b a' b' r, same_point a a' -> same_point b b' -> same_point (mix a b r) (mix a' b' r).
  Proof. intros a b a' b' r (A & B & C) (D & E & F). unfold mix, same_point in *. cbn [vx vy vz fst snd]. rewrite A, B, C, D, E, F. repeat split; reflexivity. Qed.
End Lines.

Section Edges.
  Variable pos : nat -> vec3.
  Variable fc : bool -> nat -> nat * nat * nat -> Prop.
  Variable unk : bool -> nat -> Prop.
  Variable tiles_of : bool -> nat -> list (nat * nat * nat).
  Variable outl : bool -> nat -> nat -> list nat.
  Notation tri := (triangle_of pos).
  Notation tile := (tile tiles_of).
  Notation vert := (vert fc outl).
  Hypothesis C : cutting pos fc unk tiles_of outl.
  (** The pieces of one mesh inside a face of the other are pieces of that, too. *)
  Hypothesis agree : forall s F t G u k T, fc s F t -> unk s F -> fc (negb s) G u -> unk (negb s) G -> tile s F k T ->
    (forall x, inside (tri T) x -> inside (tri u) x) -> exists l U, tile (negb s) G l U /\ alike T U.

  Lemma local_edge : forall s F t k l T U a b x, fc s F t -> tile s F k T -> tile s F l U -> has_vertex T a -> has_vertex T b -> a <> b ->
    strictly_between (pos a) (pos b) x -> inside (tri U) x -> has_vertex U a /\ has_vertex U b.
  Proof.
    intros s F t k l T U a b x H HT HU Ha Hb N B I. destruct (edge_feature pos T a b x Ha Hb N B) as (m & Fm & _ & Em).
    apply inside_feature in I. destruct I as (n & Fn). pose proof (ct_complex _ _ _ _ _ C s F k l T U m n x HT HU Fm Fn) as E.
    split; apply (pick_has n), E, Em; auto.
  Qed.

  Lemma no_corner : forall T a b v x, nondegenerate (tri T) -> has_vertex T a -> has_vertex T b -> a <> b -> strictly_between (pos a) (pos b) x ->
    has_vertex T v -> ~ same_point x (pos v).
  Proof.
    intros T a b v x NT Ha Hb N B Hv E. destruct (edge_feature pos T a b x Ha Hb N B) as (m & Fm & Bm & _). destruct (corner_feature pos T v Hv) as (n & Fn & Bn & _).
    apply (feature_same _ _ _ _ (same_sym _ _ E)) in Fn. pose proof (feature_unique _ _ _ _ NT Fm Fn). subst n. rewrite Bm in Bn. discriminate.
  Qed.

  Lemma apart_ids : forall s F v s' F' w, vert s F v -> vert s' F' w -> v <> w -> ~ same_point (pos v) (pos w).
  Proof. intros s F v s' F' w V W N E. apply N. exact (ct_inj _ _ _ _ _ C s F v s' F' w V W E). Qed.

  (** Two sides on a line with a common inner point. *)
  Lemma collinear_match : forall s F t k T s' G u l U a b v w x r1 r2, fc s F t -> tile s F k T -> fc s' G u -> tile s' G l U ->
    has_vertex T a -> has_vertex T b -> a <> b -> strictly_between (pos a) (pos b) x ->
    has_vertex U v -> has_vertex U w -> v <> w -> strictly_between (pos v) (pos w) x ->
    same_point (pos v) (mix (pos a) (pos b) r1) -> same_point (pos w) (mix (pos a) (pos b) r2) -> has_vertex U a /\ has_vertex U b.
  Proof.
    intros s F t k T s' G u l U a b v w x r1 r2 H HT K HU Ha Hb Nab Bab Hv Hw Nvw Bvw E1 E2.
    destruct (tile_in _ _ _ _ _ C s F t k T H HT) as (NT & _). destruct (tile_in _ _ _ _ _ C s' G u l U K HU) as (NU & _).
    assert (Va : vert s F a) by exact (ct_vert _ _ _ _ _ C s F k T a HT Ha). assert (Vb : vert s F b) by exact (ct_vert _ _ _ _ _ C s F k T b HT Hb).
    assert (Vv : vert s' G v) by exact (ct_vert _ _ _ _ _ C s' G l U v HU Hv). assert (Vw : vert s' G w) by exact (ct_vert _ _ _ _ _ C s' G l U w HU Hw).
    pose proof (apart_ids _ _ _ _ _ _ Va Vb Nab) as Pab. pose proof (apart_ids _ _ _ _ _ _ Vv Vw Nvw) as Pvw.
    destruct Bab as (p & P0 & P1 & Ep). destruct Bvw as (q & Q0 & Q1 & Eq).
    assert (Epq : (p == (1 - q) * r1 + q * r2)%Q).
    { apply (mix_inj (pos a) (pos b) _ _ Pab). eapply same_trans; [ apply same_sym; exact Ep | ]. eapply same_trans; [ exact Eq | ].
      eapply same_trans; [ exact (mix_same _ _ _ _ q E1 E2) | apply mix_mix ]. }
    (* a point of the line between v and w is in U; between a and b in T *)
    assert (InU : forall c r0, (0 <= r0 <= 1)%Q -> same_point (pos c) (mix (pos v) (pos w) r0) -> vert s F c -> has_vertex U c).
    { intros c r0 R E V. apply (any_vertex _ _ _ _ _ C s' G u l U s F c K HU V). apply (inside_same _ _ _ (same_sym _ _ E)). apply inside_mix; [ exact R | apply corner_inside, Hv | apply corner_inside, Hw ]. }
    assert (NotT : forall c r0, (0 < r0)%Q -> (r0 < 1)%Q -> same_point (pos c) (mix (pos a) (pos b) r0) -> vert s' G c -> False).
    { intros c r0 R0 R1 E V. assert (Hc : has_vertex T c).
      { apply (any_vertex _ _ _ _ _ C s F t k T s' G c H HT V). apply (inside_same _ _ _ (same_sym _ _ E)). apply inside_mix; [ lra | apply corner_inside, Ha | apply corner_inside, Hb ]. }
      apply (no_corner T a b c (pos c) NT Ha Hb Nab); [ exists r0; auto | exact Hc | apply same_refl ]. }
    assert (Nr : ~ (r2 - r1 == 0)%Q).
    { intro Z. apply Pvw. eapply same_trans; [ exact E1 | ]. eapply same_trans; [ | apply same_sym; exact E2 ]. assert (E : (r2 == r1)%Q) by lra. unfold mix, same_point. cbn [vx vy vz fst snd]. rewrite E. repeat split; ring. }
    (* the point at parameter e of the line ab is at (e - r1) / (r2 - r1) of vw *)
    assert (Par : forall e, same_point (mix (pos a) (pos b) e) (mix (pos v) (pos w) ((e - r1) / (r2 - r1)))).
    { intro e. apply same_sym. eapply same_trans; [ exact (mix_same _ _ _ _ _ E1 E2) | ]. eapply same_trans; [ apply mix_mix | ]. unfold mix, same_point. cbn [vx vy vz fst snd]. repeat split; field; exact Nr. }
    assert (A0 : same_point (pos a) (mix (pos a) (pos b) 0)) by (unfold mix, same_point; cbn [vx vy vz fst snd]; repeat split; ring).
    assert (B1 : same_point (pos b) (mix (pos a) (pos b) 1)) by (unfold mix, same_point; cbn [vx vy vz fst snd]; repeat split; ring).
    assert (Order : (r1 < p /\ p < r2)%Q \/ (r2 < p /\ p < r1)%Q).
    { destruct (Qlt_le_dec r1 r2) as [L | L]; [ left | right ].
      - assert (0 < q * (r2 - r1))%Q by (apply Qmult_lt_0_compat; lra). assert (0 < (1 - q) * (r2 - r1))%Q by (apply Qmult_lt_0_compat; lra). lra.
      - assert (0 < r1 - r2)%Q by (destruct (Qlt_le_dec 0 (r1 - r2)); [ assumption | exfalso; apply Nr; lra ]).
        assert (0 < q * (r1 - r2))%Q by (apply Qmult_lt_0_compat; lra). assert (0 < (1 - q) * (r1 - r2))%Q by (apply Qmult_lt_0_compat; lra). lra. }
    assert (Out : forall r c, vert s' G c -> same_point (pos c) (mix (pos a) (pos b) r) -> (r <= 0 \/ 1 <= r)%Q).
    { intros r c V E. destruct (Qlt_le_dec 0 r) as [L | L]; [ | auto ]. destruct (Qlt_le_dec r 1) as [L1 | L1]; [ | auto ]. exfalso. exact (NotT c r L L1 E V). }
    pose proof (Out r1 v Vv E1) as O1. pose proof (Out r2 w Vw E2) as O2.
    destruct Order as [ [L1 L2] | [L1 L2] ].
    - assert (r1 <= 0)%Q by lra. assert (1 <= r2)%Q by lra. split.
      + apply (InU a ((0 - r1) / (r2 - r1))%Q); [ split; [ apply Qle_shift_div_l; lra | apply Qle_shift_div_r; lra ] | eapply same_trans; [ exact A0 | apply Par ] | exact Va ].
      + apply (InU b ((1 - r1) / (r2 - r1))%Q); [ split; [ apply Qle_shift_div_l; lra | apply Qle_shift_div_r; lra ] | eapply same_trans; [ exact B1 | apply Par ] | exact Vb ].
    - assert (r2 <= 0)%Q by lra. assert (1 <= r1)%Q by lra.
      assert (Par' : forall e, same_point (mix (pos a) (pos b) e) (mix (pos v) (pos w) ((r1 - e) / (r1 - r2)))).
      { intro e. eapply same_trans; [ apply Par | ]. unfold mix, same_point. cbn [vx vy vz fst snd]. repeat split; field; split; lra. }
      split.
      + apply (InU a ((r1 - 0) / (r1 - r2))%Q); [ split; [ apply Qle_shift_div_l; lra | apply Qle_shift_div_r; lra ] | eapply same_trans; [ exact A0 | apply Par' ] | exact Va ].
      + apply (InU b ((r1 - 1) / (r1 - r2))%Q); [ split; [ apply Qle_shift_div_l; lra | apply Qle_shift_div_r; lra ] | eapply same_trans; [ exact B1 | apply Par' ] | exact Vb ].
  Qed.

  (** The common edge of two faces of a mesh that contains a side of a piece. *)
  Lemma common_edge : forall s F t k T G u a b x, fc s F t -> tile s F k T -> fc s G u -> F <> G ->
    has_vertex T a -> has_vertex T b -> a <> b -> strictly_between (pos a) (pos b) x -> inside (tri u) x ->
    exists m n c d, c <> d /\ in_feature (tri t) m x /\ bits m = 2 /\ in_feature (tri u) n x /\ bits n = 2 /\
      (forall v, In v (pick m t) <-> v = c \/ v = d) /\ (forall v, In v (pick n u) <-> v = c \/ v = d) /\
      closed (tri t) m (pos a) /\ closed (tri t) m (pos b).
  Proof.
    intros s F t k T G u a b x H HT K NFG Ha Hb Nab Bab Iu. destruct (tile_in _ _ _ _ _ C s F t k T H HT) as (NT & It & _).
    pose proof (ct_nd _ _ _ _ _ C _ _ _ H) as Nt. pose proof (ct_nd _ _ _ _ _ C _ _ _ K) as Nu.
    assert (Ix : inside (tri t) x).
    { apply It. destruct (edge_feature pos T a b x Ha Hb Nab Bab) as (m & Fm & _). exact (feature_inside _ _ _ Fm). }
    apply inside_feature in Ix. destruct Ix as (m & Fm). apply inside_feature in Iu. destruct Iu as (n & Fn).
    pose proof (ct_simp _ _ _ _ _ C s F G t u m n x H K Fm Fn) as E.
    destruct Bab as (p & P0 & P1 & Ep).
    destruct (closed_extreme (tri t) m x (pos a) (pos b) p Nt (feature_closed _ _ _ Fm)) as [Ca Cb]; [ apply It, corner_inside, Ha | apply It, corner_inside, Hb | exact P0 | exact P1 | exact Ep | ].
    destruct (bits_full m) as [B | ->]; [ | exfalso; apply NFG; exact (face_apart _ _ _ _ _ C s F G t u x H K Fm (feature_inside _ _ _ Fn)) ].
    pose proof (bits_pos _ _ _ Fm) as B1. destruct (Nat.eq_dec (bits m) 1) as [Bm | Bm].
    { exfalso. destruct (closed_corner (tri t) m Bm) as (c & Hc).
      apply (apart_ids s F a s F b (ct_vert _ _ _ _ _ C s F k T a HT Ha) (ct_vert _ _ _ _ _ C s F k T b HT Hb) Nab). eapply same_trans; [ exact (Hc _ Ca) | apply same_sym; exact (Hc _ Cb) ]. }
    assert (Bm' : bits m = 2) by lia. destruct (feature_edge pos t m x Nt Fm Bm') as (c & d & Ncd & _ & _ & Em & _).
    exists m, n, c, d. split; [ exact Ncd | ]. split; [ exact Fm | ]. split; [ exact Bm' | ]. split; [ exact Fn | ].
    assert (En : forall v, In v (pick n u) <-> v = c \/ v = d) by (intro v; rewrite <- (E v); apply Em).
    split; [ | auto ].
    destruct (bits_full n) as [Bn | ->]; [ | exfalso; apply NFG; symmetry; exact (face_apart _ _ _ _ _ C s G F u t x K H Fn (feature_inside _ _ _ Fm)) ].
    pose proof (bits_pos _ _ _ Fn). destruct (Nat.eq_dec (bits n) 1) as [Bn1 | Bn1]; [ exfalso | lia ].
    destruct (feature_vertex pos u n x Fn Bn1) as (v & _ & Ev & _). apply Ncd. transitivity v; [ apply Ev, En; auto | symmetry; apply Ev, En; auto ].
  Qed.

  Lemma same_side_edge : forall s F t k T G u l U a b x, fc s F t -> tile s F k T -> fc s G u -> tile s G l U ->
    has_vertex T a -> has_vertex T b -> a <> b -> strictly_between (pos a) (pos b) x -> inside (tri U) x -> has_vertex U a /\ has_vertex U b.
  Proof.
    intros s F t k T G u l U a b x H HT K HU Ha Hb Nab Bab IU. destruct (Nat.eq_dec F G) as [<- | NFG].
    { exact (local_edge s F t k l T U a b x H HT HU Ha Hb Nab Bab IU). }
    destruct (tile_in _ _ _ _ _ C s F t k T H HT) as (NT & It & _). destruct (tile_in _ _ _ _ _ C s G u l U K HU) as (NU & Iu & Ou).
    pose proof (ct_nd _ _ _ _ _ C _ _ _ H) as Nt. pose proof (ct_nd _ _ _ _ _ C _ _ _ K) as Nu.
    destruct (common_edge s F t k T G u a b x H HT K NFG Ha Hb Nab Bab (Iu _ IU)) as (m & n & c & d & Ncd & Fm & Bm & Fn & Bn & Em & En & Ca & Cb).
    assert (IT : inside (tri T) x) by (destruct (edge_feature pos T a b x Ha Hb Nab Bab) as (? & FT & _); exact (feature_inside _ _ _ FT)).
    apply inside_feature in IU. destruct IU as (q & Fq).
    destruct (bits_full q) as [Bq | ->].
    2: { exfalso. pose proof (feature_unique _ _ _ _ Nu Fn (Ou _ Fq)). subst n. discriminate Bn. }
    pose proof (bits_pos _ _ _ Fq). destruct (Nat.eq_dec (bits q) 1) as [Bq1 | Bq1].
    { exfalso. destruct (feature_vertex pos U q x Fq Bq1) as (v & Hv & _ & Ev). apply (no_corner T a b v x NT Ha Hb Nab Bab); [ | exact Ev ].
      apply (any_vertex _ _ _ _ _ C s F t k T s G v H HT (ct_vert _ _ _ _ _ C s G l U v HU Hv)). exact (inside_same _ _ _ Ev IT). }
    destruct (feature_edge pos U q x NU Fq ltac:(lia)) as (v & w & Nvw & Hv & Hw & _ & Bvw).
    destruct Bvw as (p & P0 & P1 & Ep).
    destruct (closed_extreme (tri u) n x (pos v) (pos w) p Nu (feature_closed _ _ _ Fn)) as [Cv Cw]; [ apply Iu, corner_inside, Hv | apply Iu, corner_inside, Hw | exact P0 | exact P1 | exact Ep | ].
    assert (Tr : forall y, closed (tri u) n y -> closed (tri t) m y) by (intro y; apply closed_pick; intros z J; apply Em, En, J).
    destruct (closed_edge (tri t) m Bm) as (c0 & d0 & L). destruct (L _ Ca) as (ra & Ra), (L _ Cb) as (rb & Rb), (L _ (Tr _ Cv)) as (rv & Rv), (L _ (Tr _ Cw)) as (rw & Rw).
    pose proof (apart_ids s F a s F b (ct_vert _ _ _ _ _ C s F k T a HT Ha) (ct_vert _ _ _ _ _ C s F k T b HT Hb) Nab) as Pab.
    destruct (on_line_of _ _ _ _ _ _ _ _ Ra Rb Rv Pab) as (r1 & E1). destruct (on_line_of _ _ _ _ _ _ _ _ Ra Rb Rw Pab) as (r2 & E2).
    apply (collinear_match s F t k T s G u l U a b v w x r1 r2); auto. exists p. auto.
  Qed.

  (** A side of a piece that meets a face of the other mesh. *)
  Lemma unk_side : forall s F t k T G u a b x, fc s F t -> unk s F -> tile s F k T -> fc (negb s) G u -> unk (negb s) G ->
    has_vertex T a -> has_vertex T b -> a <> b -> strictly_between (pos a) (pos b) x -> inside (tri u) x ->
    (neighbours (outl s F G) a b \/ neighbours (outl s F G) b a) \/
    (in_feature (tri t) full x /\ in_feature (tri u) full x /\ (forall y, inside (tri T) y -> inside (tri u) y) /\ exists l U, tile (negb s) G l U /\ alike T U).
  Proof.
    intros s F t k T G u a b x H Uf HT K Ug Ha Hb Nab Bab Iu. destruct (tile_in _ _ _ _ _ C s F t k T H HT) as (NT & It & _).
    destruct (edge_feature pos T a b x Ha Hb Nab Bab) as (m & Fm & Bm & Em). pose proof (feature_inside _ _ _ Fm) as IT.
    destruct (meet_cases _ _ _ _ _ C s F t G u x H Uf K Ug (It _ IT) Iu) as [(v & V & _ & E) | [(i & j & Nij & B & N) | (Ft & Fu & Z)] ].
    - exfalso. apply (no_corner T a b v x NT Ha Hb Nab Bab); [ | exact E ]. apply (tile_vertex _ _ _ _ _ C s F t k T v H HT V). exact (inside_same _ _ _ E IT).
    - left. destruct (proj1 (neighbours_edge _ _ _ _ _ C s F G i j N)) as (l & T' & HT' & Hi & Hj). destruct (edge_feature pos T' i j x Hi Hj Nij B) as (m' & Fm' & _ & Em').
      pose proof (ct_complex _ _ _ _ _ C s F k l T T' m m' x HT HT' Fm Fm') as X.
      assert (Ea : a = i \/ a = j) by (apply Em', X, Em; auto). assert (Eb : b = i \/ b = j) by (apply Em', X, Em; auto).
      destruct Ea as [-> | ->], Eb as [-> | ->]; try (exfalso; apply Nab; reflexivity); tauto.
    - right. split; [ exact Ft | ]. split; [ exact Fu | ].
      assert (Sub : forall y, inside (tri T) y -> inside (tri u) y).
      { destruct (open_move (tri u) x (vsub (center (tri T)) x) (ct_nd _ _ _ _ _ C _ _ _ K) Fu) as (e0 & P0 & G0).
        { apply (parallel_planes (tri t) (tri u) _ (ct_nd _ _ _ _ _ C _ _ _ H) (ct_nd _ _ _ _ _ C _ _ _ K) Z). apply inside_plane; apply It; [ exact (feature_inside _ _ _ (center_in _)) | exact IT ]. }
        set (e := if Qlt_le_dec e0 1 then e0 else 1%Q). assert (He : (0 < e /\ e <= 1 /\ e <= e0)%Q) by (unfold e; destruct (Qlt_le_dec e0 1); lra).
        apply (lies_in _ _ _ _ _ C s F t k T G u (mix x (center (tri T)) e) H Uf HT K).
        - apply toward; [ tauto | tauto | exact IT | apply center_in ].
        - apply (inside_same _ _ _ (move_to x (center (tri T)) e)). apply (feature_inside _ full). apply G0. lra. }
      split; [ exact Sub | ]. exact (agree s F t G u k T H Uf K Ug HT Sub).
  Qed.

  (** The pieces meet edge to edge. *)
  Lemma edge_to_edge : forall s F t k T s' G u l U a b x, fc s F t -> tile s F k T -> fc s' G u -> tile s' G l U ->
    has_vertex T a -> has_vertex T b -> a <> b -> strictly_between (pos a) (pos b) x -> inside (tri U) x -> has_vertex U a /\ has_vertex U b.
  Proof.
    intros s F t k T s' G u l U a b x H HT K HU Ha Hb Nab Bab IU. destruct (Bool.bool_dec s' s) as [-> | Ns].
    { exact (same_side_edge s F t k T G u l U a b x H HT K HU Ha Hb Nab Bab IU). }
    assert (s' = negb s) by (destruct s, s'; auto; congruence). subst s'. clear Ns.
    destruct (ct_tag _ _ _ _ _ C (negb s) G u K) as [Ug | (Ng & _)].
    - destruct (ct_tag _ _ _ _ _ C s F t H) as [Uf | (Nf & _)].
      + destruct (tile_in _ _ _ _ _ C (negb s) G u l U K HU) as (NU & Iu & _).
        destruct (unk_side s F t k T G u a b x H Uf HT K Ug Ha Hb Nab Bab (Iu _ IU)) as [N | (_ & _ & _ & l' & U' & HU' & A)].
        * destruct (proj2 (neighbours_edge _ _ _ _ _ C s F G a b N)) as (l' & U' & HU' & Ha' & Hb'). exact (local_edge (negb s) G u l' l U' U a b x K HU' HU Ha' Hb' Nab Bab IU).
        * exact (local_edge (negb s) G u l' l U' U a b x K HU' HU (proj1 (A a) Ha) (proj1 (A b) Hb) Nab Bab IU).
      + destruct (single _ _ _ _ _ C s F t k T H Nf HT) as [-> ->]. destruct (twin _ _ _ _ _ C s F t H Nf) as (G2 & u2 & K2 & _ & A & _ & Tu & _).
        exact (same_side_edge (negb s) G2 u2 0 u2 G u l U a b x K2 Tu K HU (proj1 (A a) Ha) (proj1 (A b) Hb) Nab Bab IU).
    - destruct (single _ _ _ _ _ C (negb s) G u l U K Ng HU) as [-> ->]. destruct (twin _ _ _ _ _ C (negb s) G u K Ng) as (F2 & t2 & H2 & _ & A & _ & Tt & S). rewrite negb_involutive in *.
      destruct (same_side_edge s F t k T F2 t2 0 t2 a b x H HT H2 Tt Ha Hb Nab Bab (proj1 (proj1 (S x)) IU)) as [X Y]. split; apply A; assumption.
  Qed.

  (** Inner points of a piece are in a piece of the other mesh only when that is the same. *)
  Lemma open_alike : forall s F t k T G u l U x, fc s F t -> tile s F k T -> fc (negb s) G u -> tile (negb s) G l U ->
    in_feature (tri T) full x -> inside (tri U) x -> alike T U.
  Proof.
    intros s F t k T G u l U x H HT K HU Fx IU. destruct (tile_in _ _ _ _ _ C (negb s) G u l U K HU) as (NU & Iu & _).
    destruct (ct_tag _ _ _ _ _ C s F t H) as [Uf | (Nf & _)].
    - destruct (inner _ _ _ _ _ C s F t k T G u x H Uf HT K Fx (Iu _ IU)) as (Ug & _).
      destruct (agree s F t G u k T H Uf K Ug HT (lies_in _ _ _ _ _ C s F t k T G u x H Uf HT K Fx (Iu _ IU))) as (l' & U' & HU' & A).
      replace U with U'; [ exact A | ].
      assert (E : l' = l).
      { apply (tile_apart _ _ _ _ _ C (negb s) G u l' l U' U x K HU' HU); [ | exact IU ]. destruct (tile_in _ _ _ _ _ C s F t k T H HT) as (NT & _).
        apply (interior_part _ (tri T)); [ exact NT | | exact Fx ]. intros y. apply same_inside. intros v. apply A. }
      subst l'. unfold Proof_cut_faces.tile in HU, HU'. congruence.
    - destruct (single _ _ _ _ _ C s F t k T H Nf HT) as [-> ->]. destruct (twin _ _ _ _ _ C s F t H Nf) as (G2 & u2 & K2 & N2 & A & _ & Tu & S).
      assert (E : G2 = G) by (apply (face_apart _ _ _ _ _ C (negb s) G2 G u2 u x K2 K); [ apply S, Fx | exact (Iu _ IU) ]). subst G2.
      assert (u2 = u) by exact (ct_fun _ _ _ _ _ C _ _ _ _ K2 K). subst u2. destruct (single _ _ _ _ _ C (negb s) G u l U K N2 HU) as [-> _]. exact A.
  Qed.

  (** An edge of both meshes is on faces that do not coincide in both or in neither. *)
  Hypothesis fair : forall s F t G u a b, fc s F t -> unk s F -> fc (negb s) G u -> a <> b ->
    has_vertex t a -> has_vertex t b -> has_vertex u a -> has_vertex u b ->
    exists G' u', fc (negb s) G' u' /\ unk (negb s) G' /\ has_vertex u' a /\ has_vertex u' b.

  Lemma tagged_side : forall s F t k T G u a b x, fc s F t -> unk s F -> tile s F k T -> fc (negb s) G u -> ~ unk (negb s) G ->
    has_vertex T a -> has_vertex T b -> a <> b -> strictly_between (pos a) (pos b) x -> inside (tri u) x ->
    exists G', neighbours (outl s F G') a b \/ neighbours (outl s F G') b a.
  Proof.
    intros s F t k T G u a b x H Uf HT K Ng Ha Hb Nab Bab Iu. destruct (twin _ _ _ _ _ C (negb s) G u K Ng) as (F2 & t2 & H2 & N2 & A & _ & _ & S). rewrite negb_involutive in *.
    assert (NF : F <> F2) by (intros <-; contradiction).
    destruct (common_edge s F t k T F2 t2 a b x H HT H2 NF Ha Hb Nab Bab (proj1 (proj1 (S x)) Iu)) as (m & n & c & d & Ncd & Fm & Bm & Fn & Bn & Em & En & _).
    destruct (fair s F t G u c d H Uf K Ncd) as (G' & u' & K' & U' & Hc & Hd); [ apply (pick_has m), Em; auto | apply (pick_has m), Em; auto | apply A, (pick_has n), En; auto | apply A, (pick_has n), En; auto | ].
    exists G'. pose proof (ct_nd _ _ _ _ _ C _ _ _ H) as Nt.
    destruct (feature_edge pos t m x Nt Fm Bm) as (c' & d' & Ncd' & _ & _ & Em' & Bcd).
    assert (Hc' : has_vertex u' c') by (destruct (proj1 (Em c') (proj2 (Em' c') (or_introl eq_refl))) as [-> | ->]; assumption).
    assert (Hd' : has_vertex u' d') by (destruct (proj1 (Em d') (proj2 (Em' d') (or_intror eq_refl))) as [-> | ->]; assumption).
    destruct (edge_feature pos u' c' d' x Hc' Hd' Ncd' Bcd) as (m' & Fm' & _).
    destruct (unk_side s F t k T G' u' a b x H Uf HT K' U' Ha Hb Nab Bab (feature_inside _ _ _ Fm')) as [N | (Ft & _)]; [ exact N | exfalso ].
    pose proof (feature_unique _ _ _ _ Nt Fm Ft). subst m. discriminate Bm.
  Qed.

  (** The sides of a piece that meet the other mesh are edges of outlines, unless the piece coincides with one of the other mesh. *)
  Lemma side_meets : forall s F t k T G u a b x, fc s F t -> tile s F k T -> fc (negb s) G u ->
    has_vertex T a -> has_vertex T b -> a <> b -> strictly_between (pos a) (pos b) x -> inside (tri u) x ->
    (exists G', neighbours (outl s F G') a b \/ neighbours (outl s F G') b a) \/
    (exists G' u' l U, fc (negb s) G' u' /\ tile (negb s) G' l U /\ alike T U).
  Proof.
    intros s F t k T G u a b x H HT K Ha Hb Nab Bab Iu. destruct (ct_tag _ _ _ _ _ C s F t H) as [Uf | (Nf & _)].
    - destruct (ct_tag _ _ _ _ _ C (negb s) G u K) as [Ug | (Ng & _)].
      + destruct (unk_side s F t k T G u a b x H Uf HT K Ug Ha Hb Nab Bab Iu) as [N | (_ & _ & _ & l & U & HU & A)]; [ left; eauto | right; exists G, u, l, U; auto ].
      + left. exact (tagged_side s F t k T G u a b x H Uf HT K Ng Ha Hb Nab Bab Iu).
    - right. destruct (single _ _ _ _ _ C s F t k T H Nf HT) as [-> ->]. destruct (twin _ _ _ _ _ C s F t H Nf) as (G2 & u2 & K2 & _ & A & _ & Tu & _). exists G2, u2, 0, u2. auto.
  Qed.

  (** Only edges of outlines separate coinciding faces from others. *)
  Lemma tags_apart : forall s F t k T s' G u l U a b, fc s F t -> unk s F -> tile s F k T -> fc s' G u -> ~ unk s' G -> tile s' G l U ->
    has_vertex T a -> has_vertex T b -> a <> b -> has_vertex U a -> has_vertex U b ->
    exists G', neighbours (outl s F G') a b \/ neighbours (outl s F G') b a.
  Proof.
    intros s F t k T s' G u l U a b H Uf HT K Ng HU Ha Hb Nab Ha' Hb'.
    destruct (single _ _ _ _ _ C s' G u l U K Ng HU) as [-> ->].
    assert (Bab : strictly_between (pos a) (pos b) (mix (pos a) (pos b) (1#2))) by (exists (1#2); repeat split; reflexivity).
    destruct (edge_feature pos u a b _ Ha' Hb' Nab Bab) as (m & Fm & _).
    destruct (Bool.bool_dec s' (negb s)) as [-> | Ns].
    - exact (tagged_side s F t k T G u a b _ H Uf HT K Ng Ha Hb Nab Bab (feature_inside _ _ _ Fm)).
    - assert (s' = s) by (destruct s, s'; auto; cbn in Ns; congruence). subst s'.
      destruct (twin _ _ _ _ _ C s G u K Ng) as (G2 & u2 & K2 & N2 & _ & _ & _ & S).
      apply (tagged_side s F t k T G2 u2 a b _ H Uf HT K2 N2 Ha Hb Nab Bab). apply S. exact (feature_inside _ _ _ Fm).
  Qed.
End Edges.
