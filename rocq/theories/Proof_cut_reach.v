(** * Pieces of two meshes that coincide are connected to an edge of an outline *)
From Coq Require Import List Arith Bool QArith Lqa Lia Relation_Operators Operators_Properties.
From Verif Require Import Model_base Model_geometry Model_soup Model_corefine Spec_candidates Spec_defects Spec_ffi Spec_corefine Spec_mix.
From Verif Require Import Proof_fan Proof_extreme Proof_hull Proof_ffi_result Proof_cells Proof_outline Proof_cut Proof_cut_faces Proof_cut_edges.
Import ListNotations.
Local Open Scope nat_scope.

(** ** Finite graphs *)
Lemma search : forall {A} (l : list A) (P : A -> Prop), (forall x, P x \/ ~ P x) -> (exists x, In x l /\ P x) \/ forall x, In x l -> ~ P x.
Proof.
  intros A l P D. induction l as [ | a l IH]; [ right; intros x [] | ]. destruct (D a) as [Pa | Na]; [ left; exists a; cbn; auto | ].
  destruct IH as [(x & J & Px) | N]; [ left; exists x; cbn; auto | right; intros x [<- | J]; auto ].
Qed.

(** From a node, either a good one can be reached, or there is a closed set without any. *)
Lemma reach_or : forall (n : nat) (R : nat -> nat -> Prop) (good inv : nat -> Prop),
  (forall x y, R x y \/ ~ R x y) -> (forall x, good x \/ ~ good x) -> (forall x y, inv x -> ~ good x -> R x y -> inv y) ->
  forall k, k < n -> inv k ->
  (exists k', clos_refl_trans nat R k k' /\ good k') \/
  (exists V, In k V /\ (forall x, In x V -> inv x /\ ~ good x) /\ forall x y, In x V -> y < n -> R x y -> In y V).
Proof.
  intros n R good inv DR Dg Hinv k Hk Ik. destruct (Dg k) as [G | NG]; [ left; exists k; split; [ apply rt_refl | exact G ] | ].
  assert (L : forall fuel V, n - length V <= fuel -> NoDup V -> (forall x, In x V -> x < n /\ clos_refl_trans nat R k x /\ inv x /\ ~ good x) -> In k V ->
    (exists k', clos_refl_trans nat R k k' /\ good k') \/
    (exists V, In k V /\ (forall x, In x V -> inv x /\ ~ good x) /\ forall x y, In x V -> y < n -> R x y -> In y V)).
  { induction fuel as [ | fuel IH]; intros V Hf ND HV Kv.
    - right. exists V. split; [ exact Kv | ]. split; [ intros x J; apply (HV x J) | ]. intros x y J Hy _.
      destruct (in_dec Nat.eq_dec y V) as [ | N]; [ assumption | exfalso ].
      assert (Inc : incl (y :: V) (seq 0 n)) by (intros z [<- | Jz]; apply in_seq; [ lia | destruct (HV z Jz); lia ]).
      pose proof (NoDup_incl_length (NoDup_cons y N ND) Inc) as Len. rewrite seq_length in Len. cbn in Len. lia.
    - destruct (search V (fun x => exists y, In y (seq 0 n) /\ (R x y /\ ~ In y V))) as [(x & Jx & y & Jy & Rxy & Ny) | N].
      { intro x. destruct (search (seq 0 n) (fun y => R x y /\ ~ In y V)) as [E | N]; [ | left; exact E | right; intros (y & J & P); exact (N y J P) ].
        intro y. destruct (DR x y) as [A | A]; [ | right; tauto ]. destruct (in_dec Nat.eq_dec y V) as [B | B]; [ right; tauto | left; auto ]. }
      + destruct (HV x Jx) as (_ & Cx & Ix & Gx). apply in_seq in Jy.
        assert (Cy : clos_refl_trans nat R k y) by (eapply rt_trans; [ exact Cx | apply rt_step; exact Rxy ]).
        destruct (Dg y) as [G | Gy]; [ left; exists y; auto | ]. apply (IH (y :: V)); [ cbn [length]; lia | constructor; assumption | | right; exact Kv ].
        intros z [<- | Jz]; [ | exact (HV z Jz) ]. split; [ lia | ]. split; [ exact Cy | ]. split; [ exact (Hinv x y Ix Gx Rxy) | exact Gy ].
      + right. exists V. split; [ exact Kv | ]. split; [ intros x J; apply (HV x J) | ]. intros x y J Hy Rxy.
        destruct (in_dec Nat.eq_dec y V) as [ | Ny]; [ assumption | exfalso; apply (N x J); exists y; split; [ apply in_seq; lia | auto ] ]. }
  apply (L n [k]); [ cbn; lia | constructor; [ intros [] | constructor ] | | left; reflexivity ].
  intros x [<- | [] ]. split; [ exact Hk | ]. split; [ apply rt_refl | auto ].
Qed.

Section Numbers.
  Local Open Scope Q_scope.
  Lemma argmax : forall {A} (f : A -> Q) l, l <> [] -> exists x, In x l /\ forall y, In y l -> f y <= f x.
  Proof.
    intros A f l. induction l as [ | a l IH]; [ congruence | intros _ ]. destruct l as [ | b l].
    - exists a. split; [ left; reflexivity | ]. intros y [<- | [] ]. lra.
    - destruct IH as (x & J & M); [ discriminate | ]. destruct (Qlt_le_dec (f x) (f a)) as [L | L].
      + exists a. split; [ left; reflexivity | ]. intros y [<- | Jy]; [ lra | ]. specialize (M y Jy). lra.
      + exists x. split; [ right; exact J | ]. intros y [<- | Jy]; [ exact L | exact (M y Jy) ].
  Qed.

  (** ** Leaving a triangle *)
  Lemma stays_out : forall T x d, nondegenerate T -> (forall y, inside T y -> vdot (normal T) (vsub x y) == 0) -> vdot (normal T) d == 0 ->
    inside T x \/ exists e0, 0 < e0 /\ forall e, 0 <= e <= e0 -> ~ inside T (move x d e).
  Proof.
    intros T x d N Px Hd. pose proof (plane_dir T d N Hd) as (p & q & r & (_ & _ & _ & S) & E).
    assert (X : exists u v w, u + v + w == 1 /\ same_point x (comb T u v w)).
    { specialize (Px (center T) (feature_inside _ _ _ (center_in T))). pose proof (plane_dir T _ N Px) as (p' & q' & r' & (_ & _ & _ & S') & E').
      exists ((1#3) + p'), ((1#3) + q'), ((1#3) + r'). split; [ lra | ]. destruct T as [ [a b] c], E' as (E0 & E1 & E2). unfold center in *. coords. repeat split; lra. }
    destruct X as (u & v & w & S1 & X).
    assert (Mv : forall e, same_point (move x d e) (comb T (u + e * p) (v + e * q) (w + e * r))).
    { intro e. destruct T as [ [a b] c], X as (X0 & X1 & X2), E as (E0 & E1 & E2). unfold move. coords. rewrite X0, X1, X2, E0, E1, E2. repeat split; ring. }
    assert (K : forall u p, u < 0 -> exists e0, 0 < e0 /\ forall e, 0 <= e <= e0 -> u + e * p < 0).
    { clear. intros u p Nu. destruct (Qlt_le_dec 0 p) as [L | L].
      - exists (- u / (2 * p)). assert (G : (- u / (2 * p)) * (2 * p) == - u) by (field; lra). assert (P0 : 0 < - u / (2 * p)) by (apply Qlt_shift_div_l; lra).
        split; [ exact P0 | ]. set (k := - u / (2 * p)) in *. clearbody k. intros e [E0 E1]. assert (e * p <= k * p) by (apply Qmult_le_compat_r; lra). nra.
      - exists 1. split; [ lra | ]. intros e [E0 E1]. assert (0 <= e * (- p)) by (apply Qmult_le_0_compat; lra). lra. }
    assert (In' : forall e, inside T (move x d e) -> 0 <= u + e * p /\ 0 <= v + e * q /\ 0 <= w + e * r).
    { intros e I. apply (inside_unique T _ _ _ (move x d e) N I); [ | apply Mv ]. transitivity ((u + v + w) + e * (p + q + r)); [ ring | rewrite S1, S; ring ]. }
    destruct (Qlt_le_dec u 0) as [Lu | Lu]; [ right; destruct (K u p Lu) as (e0 & P0 & G); exists e0; split; [ exact P0 | intros e He I; specialize (G e He); destruct (In' e I); lra ] | ].
    destruct (Qlt_le_dec v 0) as [Lv | Lv]; [ right; destruct (K v q Lv) as (e0 & P0 & G); exists e0; split; [ exact P0 | intros e He I; specialize (G e He); destruct (In' e I); lra ] | ].
    destruct (Qlt_le_dec w 0) as [Lw | Lw]; [ right; destruct (K w r Lw) as (e0 & P0 & G); exists e0; split; [ exact P0 | intros e He I; specialize (G e He); destruct (In' e I); lra ] | ].
    left. exists u, v, w. repeat split; try assumption; apply X.
  Qed.

  Lemma cover_next : forall l x d e1, 0 < e1 ->
    (forall T, In T l -> nondegenerate T /\ (forall y, inside T y -> vdot (normal T) (vsub x y) == 0) /\ vdot (normal T) d == 0) ->
    (forall e, 0 <= e <= e1 -> exists T, In T l /\ inside T (move x d e)) ->
    exists T e, In T l /\ 0 < e /\ e <= e1 /\ inside T x /\ inside T (move x d e).
  Proof.
    intros l x d e1 P1 Hl Cov.
    assert (S : exists e0, 0 < e0 /\ forall T, In T l -> inside T x \/ forall e, 0 <= e <= e0 -> ~ inside T (move x d e)).
    { clear Cov. induction l as [ | T l IH]; [ exists 1; split; [ lra | intros ? [] ] | ].
      destruct IH as (e0 & P0 & G); [ intros U J; apply Hl; right; exact J | ]. destruct (Hl T (or_introl eq_refl)) as (N & Px & Hd).
      destruct (stays_out T x d N Px Hd) as [I | (e2 & P2 & G2)].
      - exists e0. split; [ exact P0 | ]. intros U [<- | J]; auto.
      - exists (if Qlt_le_dec e0 e2 then e0 else e2). destruct (Qlt_le_dec e0 e2); (split; [ assumption | ]); intros U [<- | J].
        + right. intros e He. apply G2. lra.
        + destruct (G U J) as [I | M]; [ auto | right; intros e He; apply M; lra ].
        + right. intros e He. apply G2. lra.
        + destruct (G U J) as [I | M]; [ auto | right; intros e He; apply M; lra ]. }
    destruct S as (e0 & P0 & G). set (e := if Qlt_le_dec e0 e1 then e0 else e1). assert (He : 0 < e /\ e <= e0 /\ e <= e1) by (unfold e; destruct (Qlt_le_dec e0 e1); lra). clearbody e.
    destruct (Cov e) as (T & J & I); [ lra | ]. exists T, e. split; [ exact J | ]. split; [ tauto | ]. split; [ tauto | ]. split; [ | exact I ].
    destruct (G T J) as [Ix | M]; [ exact Ix | exfalso; apply (M e); [ lra | exact I ] ].
  Qed.

  (** ** The farthest vertex *)
  Definition size (x : vec3) : Q := vdot x x.
  Lemma farthest : forall v w, size w <= size v -> ~ same_point w v -> vdot v (vsub w v) < 0.
  Proof.
    intros [ [a b] c] [ [x y] z] H N. unfold size in H. coords.
    assert (P : 0 < (x - a) * (x - a) + (y - b) * (y - b) + (z - c) * (z - c)).
    { assert (Sq : forall r : Q, 0 <= r * r) by (intro r; nra). pose proof (Sq (x - a)). pose proof (Sq (y - b)). pose proof (Sq (z - c)).
      destruct (Qlt_le_dec 0 ((x - a) * (x - a) + (y - b) * (y - b) + (z - c) * (z - c))) as [L | L]; [ exact L | exfalso; apply N ].
      assert (Z : forall r : Q, r * r <= 0 -> r == 0).
      { intros r Hr. destruct (Qeq_dec r 0) as [E | E]; [ exact E | exfalso ]. destruct (Qlt_le_dec r 0) as [M | M]; [ assert (0 < (- r) * (- r)) by (apply Qmult_lt_0_compat; lra); lra | ].
        assert (0 < r) by (destruct (Qlt_le_dec 0 r); [ assumption | exfalso; apply E; lra ]). assert (0 < r * r) by (apply Qmult_lt_0_compat; assumption). lra. }
      assert (x - a == 0) by (apply Z; lra). assert (y - b == 0) by (apply Z; lra). assert (z - c == 0) by (apply Z; lra). repeat split; lra. }
    lra.
  Qed.
  Definition turn (v n d1 d2 : vec3) : Q := vdot n (vcross v d1) * vdot v d2 - vdot n (vcross v d2) * vdot v d1.
  Lemma turn_zero : forall v n d1 d2, ~ zero3 n -> vdot n d1 == 0 -> vdot n d2 == 0 -> vdot v d1 < 0 -> ~ zero3 (vcross d1 d2) -> ~ turn v n d1 d2 == 0.
  Proof.
    intros v n d1 d2 Nn H1 H2 H N Z.
    assert (Par : zero3 (vcross n (vcross d1 d2))).
    { destruct n as [ [n1 n2] n3], d1 as [ [x1 x2] x3], d2 as [ [y1 y2] y3]. clear Z N H Nn. coords. repeat split.
      - transitivity (x1 * (n1 * y1 + n2 * y2 + n3 * y3) - y1 * (n1 * x1 + n2 * x2 + n3 * x3)); [ ring | rewrite H1, H2; ring ].
      - transitivity (x2 * (n1 * y1 + n2 * y2 + n3 * y3) - y2 * (n1 * x1 + n2 * x2 + n3 * x3)); [ ring | rewrite H1, H2; ring ].
      - transitivity (x3 * (n1 * y1 + n2 * y2 + n3 * y3) - y3 * (n1 * x1 + n2 * x2 + n3 * x3)); [ ring | rewrite H1, H2; ring ]. }
    destruct (parallel _ _ Nn Par) as (k & E).
    assert (Nk : ~ k == 0).
    { intro K. apply N. destruct E as (E0 & E1 & E2). revert E0 E1 E2. generalize (vcross d1 d2). intros w E0 E1 E2. coords. rewrite E0, E1, E2, K. repeat split; ring. }
    assert (T1 : turn v n d1 d2 == vdot n (vcross v (vcross v (vcross d1 d2)))) by (unfold turn; clear; coords; ring).
    assert (T2 : turn v n d1 d2 == - k * size (vcross v n)).
    { rewrite T1. revert E. generalize (vcross d1 d2). intros w (E0 & E1 & E2). clear - E0 E1 E2. unfold size. destruct w as [ [w1 w2] w3]. coords. rewrite E0, E1, E2. ring. }
    rewrite T2 in Z. assert (Z' : size (vcross v n) == 0) by (apply (mult_zero (- k)); [ lra | exact Z ]).
    assert (Zv : zero3 (vcross n v)).
    { clear - Z'. unfold size in Z'. assert (Sq : forall r : Q, 0 <= r * r) by (intro r; nra).
      assert (Z0 : forall r : Q, r * r <= 0 -> r == 0).
      { intros r Hr. destruct (Qeq_dec r 0) as [E | E]; [ exact E | exfalso ]. destruct (Qlt_le_dec r 0) as [M | M]; [ assert (0 < (- r) * (- r)) by (apply Qmult_lt_0_compat; lra); lra | ].
        assert (0 < r) by (destruct (Qlt_le_dec 0 r); [ assumption | exfalso; apply E; lra ]). assert (0 < r * r) by (apply Qmult_lt_0_compat; assumption). lra. }
      destruct v as [ [v1 v2] v3], n as [ [n1 n2] n3]. coords. pose proof (Sq (v2 * n3 - v3 * n2)). pose proof (Sq (v3 * n1 - v1 * n3)). pose proof (Sq (v1 * n2 - v2 * n1)).
      assert (v2 * n3 - v3 * n2 == 0) by (apply Z0; lra). assert (v3 * n1 - v1 * n3 == 0) by (apply Z0; lra). assert (v1 * n2 - v2 * n1 == 0) by (apply Z0; lra). repeat split; lra. }
    destruct (parallel _ _ Nn Zv) as (j & F0 & F1 & F2). clear - F0 F1 F2 H H1. coords. rewrite F0, F1, F2 in H.
    assert (j * (fst (fst n) * fst (fst d1) + snd (fst n) * snd (fst d1) + snd n * snd d1) < 0) by lra. rewrite H1 in H0. lra.
  Qed.
End Numbers.

Section Reach.
  Variable pos : nat -> vec3.
  Variable fc : bool -> nat -> nat * nat * nat -> Prop.
  Variable unk : bool -> nat -> Prop.
  Variable tiles_of : bool -> nat -> list (nat * nat * nat).
  Variable outl : bool -> nat -> nat -> list nat.
  Notation tri := (triangle_of pos).
  Notation tile := (tile tiles_of).
  Notation vert := (vert fc outl).
  Hypothesis C : cutting pos fc unk tiles_of outl.
  Hypothesis agree : forall s F t G u k T, fc s F t -> unk s F -> fc (negb s) G u -> unk (negb s) G -> tile s F k T ->
    (forall x, inside (tri T) x -> inside (tri u) x) -> exists l U, tile (negb s) G l U /\ alike T U.
  (** The edges of outlines. *)
  Variable bd : nat -> nat -> Prop.
  Hypothesis bd_dec : forall a b, bd a b \/ ~ bd a b.
  Hypothesis bd_of : forall s F G a b, neighbours (outl s F G) a b \/ neighbours (outl s F G) b a -> bd a b.

  Definition shares s F k l : Prop := exists T U a b, tile s F k T /\ tile s F l U /\ has_vertex T a /\ has_vertex T b /\ a <> b /\
    has_vertex U a /\ has_vertex U b /\ ~ bd a b.
  Definition at_border s F k : Prop := exists T a b, tile s F k T /\ has_vertex T a /\ has_vertex T b /\ a <> b /\ bd a b.

  Lemma shares_dec : forall s F k l, shares s F k l \/ ~ shares s F k l.
  Proof.
    intros s F k l. unfold shares, Proof_cut_faces.tile. destruct (nth_error (tiles_of s F) k) as [T | ] eqn:ET; [ | right; intros (T & U & a & b & X & _); discriminate ].
    destruct (nth_error (tiles_of s F) l) as [U | ] eqn:EU; [ | right; intros (T' & U & a & b & _ & X & _); discriminate ].
    assert (Dv : forall v, has_vertex U v \/ ~ has_vertex U v).
    { intro v. destruct (in_dec Nat.eq_dec v (pick full U)) as [J | J]; [ left; apply has_pick, J | right; intro H; apply J, has_pick, H ]. }
    destruct (search (pick full T) (fun a => exists b, In b (pick full T) /\ (a <> b /\ has_vertex U a /\ has_vertex U b /\ ~ bd a b))) as [(a & Ja & b & Jb & N & Ua & Ub & B) | N].
    - intro a. destruct (search (pick full T) (fun b => a <> b /\ has_vertex U a /\ has_vertex U b /\ ~ bd a b)) as [E | N]; [ | left; exact E | right; intros (b & J & P); exact (N b J P) ].
      intro b. destruct (Nat.eq_dec a b) as [E | E]; [ right; tauto | ]. destruct (Dv a), (Dv b), (bd_dec a b); tauto.
    - left. exists T, U, a, b. repeat split; auto; apply has_pick; assumption.
    - right. intros (T' & U' & a & b & ET' & EU' & Ha & Hb & Nab & Ua & Ub & B). injection ET' as <-. injection EU' as <-.
      apply (N a (proj1 (has_pick T a) Ha)). exists b. split; [ apply has_pick, Hb | auto ].
  Qed.
  Lemma border_dec : forall s F k, at_border s F k \/ ~ at_border s F k.
  Proof.
    intros s F k. unfold at_border, Proof_cut_faces.tile. destruct (nth_error (tiles_of s F) k) as [T | ] eqn:ET; [ | right; intros (T & a & b & X & _); discriminate ].
    destruct (search (pick full T) (fun a => exists b, In b (pick full T) /\ (a <> b /\ bd a b))) as [(a & Ja & b & Jb & N & B) | N].
    - intro a. destruct (search (pick full T) (fun b => a <> b /\ bd a b)) as [E | N]; [ | left; exact E | right; intros (b & J & P); exact (N b J P) ].
      intro b. destruct (Nat.eq_dec a b) as [E | E]; [ right; tauto | ]. destruct (bd_dec a b); tauto.
    - left. exists T, a, b. repeat split; auto; apply has_pick; assumption.
    - right. intros (T' & a & b & ET' & Ha & Hb & Nab & B). injection ET' as <-. apply (N a (proj1 (has_pick T a) Ha)). exists b. split; [ apply has_pick, Hb | auto ].
  Qed.

  Lemma tile_plane : forall s F t k T, fc s F t -> tile s F k T ->
    (forall d, vdot (normal (tri t)) d == 0 -> vdot (normal (tri T)) d == 0)%Q.
  Proof.
    intros s F t k T H HT d Hd. destruct (tile_in _ _ _ _ _ C s F t k T H HT) as (NT & It & _). pose proof (ct_nd _ _ _ _ _ C _ _ _ H) as Nt.
    destruct T as [ [a b] c]. cbn [triangle_of normal] in *.
    apply (plane_dependent (normal (tri t))); [ exact (nondegenerate_normal _ Nt) | | | exact Hd ]; apply inside_plane; apply It; [ apply (corner_inside pos (a, b, c) b) | apply (corner_inside pos (a, b, c) a) | apply (corner_inside pos (a, b, c) c) | apply (corner_inside pos (a, b, c) a) ]; cbn; auto.
  Qed.

  Lemma third : forall T a b, has_vertex T a -> has_vertex T b -> a <> b -> exists c, has_vertex T c /\ forall w, has_vertex T w -> has_vertex (a, b, c) w.
  Proof.
    intros [ [p q] r] a b Ha Hb N. cbn in *.
    assert (K : forall c, (c = p \/ c = q \/ c = r) -> (forall w, w = p \/ w = q \/ w = r -> w = a \/ w = b \/ w = c) -> exists c, (c = p \/ c = q \/ c = r) /\ forall w, w = p \/ w = q \/ w = r -> w = a \/ w = b \/ w = c) by (intros c X Y; exists c; auto).
    destruct Ha as [-> | [-> | ->] ], Hb as [-> | [-> | ->] ]; try congruence; [ apply (K r) | apply (K q) | apply (K r) | apply (K p) | apply (K q) | apply (K p) ]; tauto.
  Qed.

  Section Component.
    Variables (s : bool) (F : nat) (t : nat * nat * nat) (G : nat) (u : nat * nat * nat).
    Hypotheses (HF : fc s F t) (UF : unk s F) (HG : fc (negb s) G u) (UG : unk (negb s) G).
    Definition within k : Prop := exists T, tile s F k T /\ forall x, inside (tri T) x -> inside (tri u) x.

    Lemma open_at : forall k T a b, tile s F k T -> (forall x, inside (tri T) x -> inside (tri u) x) -> ~ at_border s F k ->
      has_vertex T a -> has_vertex T b -> a <> b ->
      let x := mix (pos a) (pos b) (1#2) in strictly_between (pos a) (pos b) x /\ inside (tri T) x /\ in_feature (tri t) full x /\ in_feature (tri u) full x /\
      forall d, (vdot (normal (tri t)) d == 0 -> vdot (normal (tri u)) d == 0)%Q.
    Proof.
      intros k T a b HT I N Ha Hb Nab x. assert (B : strictly_between (pos a) (pos b) x) by (exists (1#2); repeat split; reflexivity).
      destruct (edge_feature pos T a b x Ha Hb Nab B) as (m & Fm & _). pose proof (feature_inside _ _ _ Fm) as IT.
      split; [ exact B | ]. split; [ exact IT | ].
      destruct (unk_side _ _ _ _ _ C agree s F t k T G u a b x HF UF HT HG UG Ha Hb Nab B (I x IT)) as [X | (Ft & Fu & _)].
      { exfalso. apply N. exists T, a, b. repeat split; auto. exact (bd_of s F G a b X). }
      split; [ exact Ft | ]. split; [ exact Fu | ]. intros d Hd.
      destruct (inner _ _ _ _ _ C s F t k T G u (center (tri T)) HF UF HT HG (center_in _) (I _ (feature_inside _ _ _ (center_in _)))) as (_ & _ & Z).
      exact (parallel_planes _ _ d (ct_nd _ _ _ _ _ C _ _ _ HF) (ct_nd _ _ _ _ _ C _ _ _ HG) Z Hd).
    Qed.

    Lemma within_step : forall k l, within k -> ~ at_border s F k -> shares s F k l -> within l.
    Proof.
      intros k l (T & HT & I) N (T' & U & a & b & HT' & HU & Ha & Hb & Nab & Ua & Ub & _).
      assert (T' = T) by (unfold Proof_cut_faces.tile in *; congruence). subst T'. exists U. split; [ exact HU | ].
      destruct (open_at k T a b HT I N Ha Hb Nab) as (B & _ & Ft & Fu & Pl). set (x := mix (pos a) (pos b) (1#2)) in *.
      destruct (edge_feature pos U a b x Ua Ub Nab B) as (m & Fm & _). pose proof (feature_inside _ _ _ Fm) as IU.
      destruct (tile_in _ _ _ _ _ C s F t l U HF HU) as (NU & It & _).
      destruct (open_move (tri u) x (vsub (center (tri U)) x) (ct_nd _ _ _ _ _ C _ _ _ HG) Fu) as (e0 & P0 & G0).
      { apply Pl. apply inside_plane; apply It; [ exact (feature_inside _ _ _ (center_in _)) | exact IU ]. }
      set (e := if Qlt_le_dec e0 1 then e0 else 1%Q). assert (He : (0 < e /\ e <= 1 /\ e <= e0)%Q) by (unfold e; destruct (Qlt_le_dec e0 1); lra).
      apply (lies_in _ _ _ _ _ C s F t l U G u (mix x (center (tri U)) e) HF UF HU HG).
      - apply toward; [ tauto | tauto | exact IU | apply center_in ].
      - apply (inside_same _ _ _ (move_to x (center (tri U)) e)). apply (feature_inside _ full). apply G0. lra.
    Qed.

    Lemma across : forall k T a b c, tile s F k T -> (forall x, inside (tri T) x -> inside (tri u) x) -> ~ at_border s F k ->
      has_vertex T a -> has_vertex T b -> a <> b -> has_vertex T c ->
      let x := mix (pos a) (pos b) (1#2) in
      exists l U e, tile s F l U /\ shares s F k l /\ has_vertex U a /\ has_vertex U b /\ (0 < e)%Q /\ inside (tri U) (move x (vsub x (pos c)) e).
    Proof.
      intros k T a b c HT I N Ha Hb Nab Hc x. destruct (open_at k T a b HT I N Ha Hb Nab) as (B & IT & Ft & Fu & Pl). fold x in B, IT, Ft, Fu.
      destruct (tile_in _ _ _ _ _ C s F t k T HF HT) as (NT & It & _). pose proof (ct_nd _ _ _ _ _ C _ _ _ HF) as Nt.
      set (d := vsub x (pos c)). assert (Hd : (vdot (normal (tri t)) d == 0)%Q) by (apply inside_plane; [ exact (feature_inside _ _ _ Ft) | apply It, corner_inside, Hc ]).
      destruct (open_move (tri t) x d Nt Ft Hd) as (e1 & P1 & G1).
      destruct (cover_next (map tri (tiles_of s F)) x d e1 P1) as (U' & e & J & Pe & _ & Ix & Ie).
      - intros U' J. apply in_map_iff in J. destruct J as (U & <- & J). apply In_nth_error in J. destruct J as (l & HU).
        destruct (tile_in _ _ _ _ _ C s F t l U HF HU) as (NU & IU & _). pose proof (tile_plane s F t l U HF HU) as Pu. split; [ exact NU | ]. split; [ | exact (Pu d Hd) ].
        intros y Iy. apply Pu. apply inside_plane; [ exact (feature_inside _ _ _ Ft) | exact (IU y Iy) ].
      - intros e He. apply (tl_cover _ _ (ct_tiles _ _ _ _ _ C s F t HF)). apply (feature_inside _ full), G1. lra.
      - apply in_map_iff in J. destruct J as (U & <- & J). apply In_nth_error in J. destruct J as (l & HU).
        destruct (local_edge _ _ _ _ _ C s F t k l T U a b x HF HT HU Ha Hb Nab B Ix) as [Ua Ub].
        exists l, U, e. split; [ exact HU | ]. split; [ | auto ]. exists T, U, a, b. repeat split; auto. intro Bd. apply N. exists T, a, b. auto.
    Qed.

    Lemma no_closed : forall k V, In k V -> (forall x, In x V -> within x /\ ~ at_border s F x) ->
      (forall x y, In x V -> y < length (tiles_of s F) -> shares s F x y -> In y V) -> False.
    Proof.
      intros k V Jk HV Cl. pose proof (ct_nd _ _ _ _ _ C _ _ _ HF) as Nt. pose proof (nondegenerate_normal _ Nt) as Nn.
      set (n := normal (tri t)) in *.
      set (cs := fun l => match nth_error (tiles_of s F) l with Some T => pick full T | None => [] end).
      assert (Hcs : forall v, In v (flat_map cs V) <-> exists l T, In l V /\ tile s F l T /\ has_vertex T v).
      { intro v. rewrite in_flat_map. unfold cs, Proof_cut_faces.tile. split.
        - intros (l & J & X). destruct (nth_error (tiles_of s F) l) as [T | ] eqn:E; [ | destruct X ]. exists l, T. split; [ exact J | ]. split; [ exact E | apply has_pick, X ].
        - intros (l & T & J & E & X). exists l. split; [ exact J | ]. rewrite E. apply has_pick, X. }
      destruct (HV k Jk) as ((T0 & HT0 & _) & _).
      destruct (argmax (fun v => size (pos v)) (flat_map cs V)) as (v & Jv & Mv).
      { destruct T0 as [ [p q] r]. intro E. assert (X : In p (flat_map cs V)) by (apply Hcs; exists k, (p, q, r); cbn; auto). rewrite E in X. destruct X. }
      set (bs := fun l => if in_dec Nat.eq_dec v (cs l) then cs l else []).
      set (Lb := filter (fun b => negb (b =? v)) (flat_map bs V)).
      assert (HL : forall b, In b Lb <-> b <> v /\ exists l T, In l V /\ tile s F l T /\ has_vertex T v /\ has_vertex T b).
      { intro b. unfold Lb. rewrite filter_In, in_flat_map, negb_true_iff, Nat.eqb_neq. unfold bs, cs, Proof_cut_faces.tile. split.
        - intros ((l & J & X) & N). split; [ exact N | ]. destruct (nth_error (tiles_of s F) l) as [T | ] eqn:E; [ | destruct (in_dec Nat.eq_dec v []); destruct X ].
          destruct (in_dec Nat.eq_dec v (pick full T)) as [Iv | Iv]; [ | destruct X ]. exists l, T. split; [ exact J | ]. split; [ exact E | ]. split; apply has_pick; assumption.
        - intros (N & l & T & J & E & Xv & Xb). split; [ | exact N ]. exists l. split; [ exact J | ]. rewrite E.
          destruct (in_dec Nat.eq_dec v (pick full T)) as [Iv | Iv]; [ apply has_pick, Xb | exfalso; apply Iv, has_pick, Xv ]. }
      assert (Vs : forall l T w, tile s F l T -> has_vertex T w -> vert s F w) by (intros l T w HT Hw; exact (ct_vert _ _ _ _ _ C s F l T w HT Hw)).
      apply Hcs in Jv. destruct Jv as (l0 & T1 & J1 & HT1 & Hv1).
      assert (Hh : forall b, In b Lb -> (vdot (pos v) (vsub (pos b) (pos v)) < 0)%Q).
      { intros b Jb. apply HL in Jb. destruct Jb as (Nb & l & T & J & HT & Xv & Xb). apply farthest; [ apply Mv, Hcs; exists l, T; auto | ].
        apply (apart_ids _ _ _ _ _ C s F b s F v (Vs l T b HT Xb) (Vs l T v HT Xv) Nb). }
      assert (NT1 : NoDup (pick full T1)) by (pose proof (distinct_corners pos T1 (proj1 (tile_in _ _ _ _ _ C s F t l0 T1 HF HT1))) as ND; destruct T1 as [ [p q] r]; exact ND).
      assert (NL : Lb <> []).
      { assert (X : exists b, b <> v /\ has_vertex T1 b).
        { destruct T1 as [ [p q] r]. cbn in NT1. inversion NT1 as [ | ? ? N1 _ E1]. destruct (Nat.eq_dec p v) as [-> | Np]; [ exists q; cbn; split; [ intros ->; apply N1; left; reflexivity | auto ] | exists p; cbn; auto ]. }
        destruct X as (b & Nb & Hb). intro E. assert (J : In b Lb) by (apply HL; split; [ exact Nb | exists l0, T1; auto ]). rewrite E in J. destruct J. }
      set (dv := fun b => vsub (pos b) (pos v)). set (g := fun b => vdot n (vcross (pos v) (dv b))). set (h := fun b => vdot (pos v) (dv b)).
      destruct (argmax (fun b => g b / - h b)%Q Lb NL) as (b & Jb & Mb).
      assert (Trn : forall c, In c Lb -> (turn (pos v) n (dv b) (dv c) <= 0)%Q).
      { intros c Jc. specialize (Mb c Jc). cbn beta in Mb. pose proof (Hh b Jb) as Hb. pose proof (Hh c Jc) as Hc. unfold turn. fold (dv b) in Hb. fold (dv c) in Hc. fold (h b) in *. fold (h c) in *. fold (g b) (g c).
        assert (X : (g c * - h b <= g b * - h c)%Q).
        { assert (E1 : (g c == (g c / - h c) * - h c)%Q) by (field; lra). assert (E2 : (g b == (g b / - h b) * - h b)%Q) by (field; lra).
          set (sc := (g c / - h c)%Q) in *. set (sb := (g b / - h b)%Q) in *. clearbody sc sb. rewrite E1, E2.
          assert (P : (0 <= (- h c) * (- h b))%Q) by (apply Qmult_le_0_compat; lra). assert (0 <= (sb - sc) * ((- h c) * (- h b)))%Q by (apply Qmult_le_0_compat; [ lra | exact P ]). lra. }
        lra. }
      pose proof (proj1 (HL b) Jb) as (Nb & l & T & Jl & HT & Xv & Xb).
      destruct (third T v b Xv Xb (not_eq_sym Nb)) as (c & Xc & Tc).
      destruct (tile_in _ _ _ _ _ C s F t l T HF HT) as (NT & It & _).
      assert (NTc : nondegenerate (tri (v, b, c))).
      { apply normal_nondegenerate. intro Z. apply (nondegenerate_normal _ NT).
        destruct T as [ [p q] r]. cbn in Tc. pose proof (distinct_corners pos (p, q, r) NT) as ND. cbn in ND.
        destruct (Tc p) as [E | [E | E] ]; auto; destruct (Tc q) as [E' | [E' | E'] ]; auto; destruct (Tc r) as [E'' | [E'' | E''] ]; auto; subst p q r;
          try (exfalso; inversion ND as [ | ? ? N1 ND1]; inversion ND1 as [ | ? ? N2 ND2]; cbn in N1, N2; tauto);
          cbn [triangle_of] in *; clear - Z; coords; destruct Z as (Z0 & Z1 & Z2); repeat split; lra. }
      pose proof (nondegenerate_normal _ NTc) as Nc. cbn [triangle_of normal] in Nc. fold (dv b) (dv c) in Nc.
      assert (Ncv : c <> v).
      { intros ->. apply Nc. unfold dv. clear. coords. repeat split; ring. }
      assert (Jc : In c Lb) by (apply HL; split; [ exact Ncv | exists l, T; auto ]).
      assert (Pl : forall w, has_vertex T w -> (vdot n (dv w) == 0)%Q) by (intros w Hw; apply inside_plane; apply It; apply corner_inside; assumption).
      pose proof (turn_zero (pos v) n (dv b) (dv c) Nn (Pl b Xb) (Pl c Xc) (Hh b Jb) Nc) as NZ.
      destruct (HV l Jl) as ((T' & HT' & IT) & NB). assert (T' = T) by (unfold Proof_cut_faces.tile in *; congruence). subst T'.
      destruct (across l T v b c HT IT NB Xv Xb (not_eq_sym Nb) Xc) as (l2 & U & e & HU & Sh & Uv & Ub & Pe & Ie).
      assert (Jl2 : In l2 V) by (apply (Cl l l2 Jl); [ apply nth_error_Some; unfold Proof_cut_faces.tile in HU; rewrite HU; discriminate | exact Sh ]).
      destruct (third U v b Uv Ub (not_eq_sym Nb)) as (c2 & Xc2 & Uc).
      apply (same_inside pos U (v, b, c2) _ Uc) in Ie. destruct Ie as (al & be & ga & (Pa & Pb & Pg & Sm) & Ey). cbn [triangle_of] in Ey.
      pose proof (Trn c Jc) as Tr1.
      assert (Tr2 : (turn (pos v) n (dv b) (dv c2) <= 0)%Q).
      { destruct (Nat.eq_dec c2 v) as [-> | Nc2]; [ | apply Trn, HL; split; [ exact Nc2 | exists l2, U; auto ] ].
        assert (E : (turn (pos v) n (dv b) (dv v) == 0)%Q) by (unfold turn, dv; clear; coords; ring). lra. }
      assert (Tr3 : (turn (pos v) n (dv b) (vsub (move (mix (pos v) (pos b) (1 # 2)) (vsub (mix (pos v) (pos b) (1 # 2)) (pos c)) e) (pos v)) == - e * turn (pos v) n (dv b) (dv c))%Q)
        by (unfold turn, dv, move, mix; clear; coords; ring).
      assert (Tr4 : (turn (pos v) n (dv b) (vsub (move (mix (pos v) (pos b) (1 # 2)) (vsub (mix (pos v) (pos b) (1 # 2)) (pos c)) e) (pos v)) == ga * turn (pos v) n (dv b) (dv c2))%Q).
      { revert Ey. generalize (move (mix (pos v) (pos b) (1 # 2)) (vsub (mix (pos v) (pos b) (1 # 2)) (pos c)) e). intros y (E0 & E1 & E2). assert (Ea : (al == 1 - be - ga)%Q) by lra. clear - E0 E1 E2 Ea.
        unfold turn, dv. coords. rewrite E0, E1, E2, Ea. ring. }
      rewrite Tr3 in Tr4. clear - Tr4 Tr1 Tr2 NZ Pe Pg.
      set (k1 := turn (pos v) n (dv b) (dv c)) in *. set (k2 := turn (pos v) n (dv b) (dv c2)) in *. clearbody k1 k2.
      apply NZ. assert (X : (ga * k2 <= 0)%Q) by (assert (0 <= ga * (- k2))%Q by (apply Qmult_le_0_compat; lra); lra).
      assert (Y : (0 <= e * (- k1))%Q) by (apply Qmult_le_0_compat; lra). apply (mult_zero e); lra.
    Qed.

    Lemma reaches : forall k T, tile s F k T -> (forall x, inside (tri T) x -> inside (tri u) x) ->
      exists k', clos_refl_trans nat (shares s F) k k' /\ at_border s F k'.
    Proof.
      intros k T HT I. destruct (reach_or (length (tiles_of s F)) (shares s F) (at_border s F) within (shares_dec s F) (border_dec s F) within_step k) as [X | (V & Jk & HV & Cl)].
      - apply nth_error_Some. unfold Proof_cut_faces.tile in HT. rewrite HT. discriminate.
      - exists T. auto.
      - exact X.
      - exfalso. exact (no_closed k V Jk HV Cl).
    Qed.
  End Component.

  (** A piece that coincides with one of the other mesh is connected to an edge of an outline. *)
  Lemma twin_reaches : forall s F t k T G u l U, fc s F t -> unk s F -> tile s F k T -> fc (negb s) G u -> tile (negb s) G l U -> alike T U ->
    exists k', clos_refl_trans nat (shares s F) k k' /\ at_border s F k'.
  Proof.
    intros s F t k T G u l U H Uf HT K HU A. destruct (tile_in _ _ _ _ _ C (negb s) G u l U K HU) as (NU & Iu & _).
    assert (I : forall x, inside (tri T) x -> inside (tri u) x) by (intros x Ix; apply Iu; apply (same_inside pos T U x); [ intros v; apply A | exact Ix ]).
    destruct (inner _ _ _ _ _ C s F t k T G u (center (tri T)) H Uf HT K (center_in _) (I _ (feature_inside _ _ _ (center_in _)))) as (Ug & _).
    exact (reaches s F t G u H Uf K Ug k T HT I).
  Qed.
End Reach.
