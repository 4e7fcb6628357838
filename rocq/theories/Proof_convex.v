(** * Convex polyhedra bound solids, and so do two solids that a plane separates *)
From Coq Require Import List Arith NArith Bool QArith Qminmax Lqa Lia.
From Verif Require Import Model_base Proof_base Model_geometry Model_soup Model_side.
From Verif Require Import Spec_aabb Spec_candidates Spec_side Spec_solid Proof_affine Prop_side.
Import ListNotations.
Local Open Scope Q_scope.

(** How far the point is in front of the triangle (in multiples of its normal). *)
Definition height (T : tri3) (x : vec3) : Q := let '(a, _, _) := T in vdot (tri_normal T) (vsub x a).

Ltac coords3 := unfold height, tri_normal, normal, along, vdot, vcross, vsub in *; cbn [vx vy vz fst snd] in *.

Lemma height_same : forall T x y, same x y -> height T x == height T y.
Proof. intros [ [a b] c] x y (E1 & E2 & E3). unfold height, vdot, vsub. cbn [vx vy vz fst snd]. rewrite E1, E2, E3. reflexivity. Qed.
Lemma height_between : forall T p q t, height T (along p t (vsub q p)) == (1 - t) * height T p + t * height T q.
Proof. intros [ [a b] c] p q t. unfold height, vdot, vsub, along. cbn [vx vy vz fst snd]. ring. Qed.
Lemma height_along : forall T q e v, height T (along q e v) == height T q + e * vdot (tri_normal T) v.
Proof. intros [ [a b] c] q e v. unfold height, vdot, vsub, along. cbn [vx vy vz fst snd]. ring. Qed.
Lemma height_comb : forall T a b c x u v w, u + v + w == 1 ->
  vx x == u * vx a + v * vx b + w * vx c -> vy x == u * vy a + v * vy b + w * vy c -> vz x == u * vz a + v * vz b + w * vz c ->
  height T x == u * height T a + v * height T b + w * height T c.
Proof.
  intros [ [o r] s] a b c x u v w S X Y Z. unfold height, vdot, vsub. cbn [vx vy vz fst snd]. rewrite X, Y, Z.
  generalize (tri_normal (o, r, s)). intros n. setoid_replace u with (1 - v - w) by lra. ring.
Qed.
Lemma height_own : forall a b c, height (a, b, c) a == 0 /\ height (a, b, c) b == 0 /\ height (a, b, c) c == 0.
Proof. intros a b c. coords3. repeat split; ring. Qed.

(** All corners of [T] are behind [U] or on its plane, not all on it. *)
Definition behind (U T : tri3) : Prop :=
  let '(a, b, c) := T in height U a <= 0 /\ height U b <= 0 /\ height U c <= 0 /\ (height U a < 0 \/ height U b < 0 \/ height U c < 0).

Lemma behind_open : forall U a b c x, behind U (a, b, c) -> in_open_triangle x a b c -> height U x < 0.
Proof.
  intros U a b c x (Ha & Hb & Hc & N) (u & v & w & Hu & Hv & Hw & S & X & Y & Z). rewrite (height_comb U a b c x u v w S X Y Z).
  generalize dependent (height U a). generalize dependent (height U b). generalize dependent (height U c). intros hc Hc hb Hb ha Ha N. clear - Ha Hb Hc N Hu Hv Hw.
  assert (u * ha <= 0) by nra. assert (v * hb <= 0) by nra. assert (w * hc <= 0) by nra.
  destruct N as [N | [N | N] ]; [ assert (u * ha < 0) by nra | assert (v * hb < 0) by nra | assert (w * hc < 0) by nra ]; lra.
Qed.
Lemma on_own : forall T x, on_tri x T -> height T x == 0.
Proof.
  intros [ [a b] c] x (u & v & w & _ & _ & _ & S & X & Y & Z). rewrite (height_comb (a, b, c) a b c x u v w S X Y Z).
  destruct (height_own a b c) as (-> & -> & ->). ring.
Qed.
Lemma open_closed : forall a b c x, in_open_triangle x a b c -> in_triangle x a b c.
Proof. intros a b c x (u & v & w & Hu & Hv & Hw & R). exists u, v, w. repeat split; try (apply Qlt_le_weak; assumption); apply R. Qed.

(** Walking from a point behind all of them one stays behind all of them or meets one
    while behind or on the others. *)
Lemma leaves_through : forall ts p q, (forall T, In T ts -> height T p < 0) ->
  (forall T, In T ts -> height T q < 0) \/
  exists t T, 0 <= t <= 1 /\ In T ts /\ height T (along p t (vsub q p)) == 0 /\ forall U, In U ts -> height U (along p t (vsub q p)) <= 0.
Proof.
  intros ts p q. induction ts as [ | V ts IH]; intro Hp; [ left; intros T [ ] | ].
  pose proof (Hp V (or_introl eq_refl)) as HV.
  assert (Root : forall s, 0 <= s <= 1 -> 0 <= height V (along p s (vsub q p)) ->
    exists t, 0 <= t <= s /\ height V (along p t (vsub q p)) == 0).
  { intros s Hs Z. rewrite height_between in Z. set (f := height V p) in *. set (g := height V q) in *.
    assert (Hg : 0 < g - f) by (clear - HV Z Hs; nra).
    exists (- f / (g - f)). rewrite height_between. fold f g. assert (E : - f / (g - f) * (g - f) == - f) by (field; lra).
    set (t := - f / (g - f)) in *. clearbody t. clear - E Hg HV Z Hs. split; [ split; nra | lra ]. }
  assert (Le : forall s t, 0 <= t <= s -> s <= 1 -> forall U, In U ts -> height U (along p s (vsub q p)) <= 0 -> height U (along p t (vsub q p)) <= 0).
  { intros s t Ht Hs U J Z. pose proof (Hp U (or_intror J)) as HU. rewrite height_between in *. set (f := height U p) in *. set (g := height U q) in *.
    clear - Ht Hs Z HU. destruct (Qlt_le_dec g 0); nra. }
  destruct IH as [Q | (s & T & Hs & J & E & L)]; [ intros T J; apply Hp; right; exact J | | ].
  - destruct (Qlt_le_dec (height V q) 0) as [N | N]; [ left; intros T [<- | J]; auto | right ].
    destruct (Root 1) as (t & Ht & Z); [ lra | rewrite height_between; lra | ]. exists t, V. split; [ exact Ht | ]. split; [ left; reflexivity | ]. split; [ exact Z | ].
    intros U [<- | J]; [ rewrite Z; lra | ]. apply (Le 1); [ exact Ht | lra | exact J | ]. rewrite height_between. specialize (Q U J). lra.
  - right. destruct (Qlt_le_dec 0 (height V (along p s (vsub q p)))) as [N | N].
    + destruct (Root s Hs) as (t & Ht & Z); [ lra | ]. exists t, V. split; [ lra | ]. split; [ left; reflexivity | ]. split; [ exact Z | ].
      intros U [<- | K]; [ rewrite Z; lra | ]. apply (Le s); auto; lra.
    + exists s, T. split; [ exact Hs | ]. split; [ right; exact J | ]. split; [ exact E | ]. intros U [<- | K]; auto.
Qed.

Lemma stay_behind : forall ts q v, (forall T, In T ts -> height T q < 0) ->
  exists bound, 0 < bound /\ forall e, 0 < e < bound -> forall T, In T ts -> height T (along q e v) < 0.
Proof.
  intros ts q v. induction ts as [ | V ts IH]; intro H; [ exists 1; split; [ lra | intros e _ T [ ] ] | ].
  destruct IH as (b & Hb & G); [ intros T J; apply H; right; exact J | ].
  destruct (stays_positive (- height V q) (- vdot (tri_normal V) v)) as (b' & Hb' & G'); [ specialize (H V (or_introl eq_refl)); lra | ].
  exists (Qmin b b'). split; [ apply Q.min_glb_lt; assumption | ]. intros e He T. pose proof (Q.le_min_l b b'). pose proof (Q.le_min_r b b').
  intros [<- | J]; [ | apply G; [ lra | exact J ] ]. rewrite height_along. specialize (G' e ltac:(lra) ltac:(lra)). lra.
Qed.

Lemma or_iff_compat_both : forall A B C D : Prop, (A <-> C) -> (B <-> D) -> (A \/ B <-> C \/ D).
Proof. tauto. Qed.
Lemma in_at : forall {A} (x : A) l, In x l -> exists i, nth_error l i = Some x.
Proof. intros A x l J. apply In_nth_error. exact J. Qed.

(** The faces of [m] are the triangles [ts]; all others are behind each of them, and each
    is all that the others leave of its plane. *)
Lemma convex_solid : forall {D} (m : soup vec3 D) ts,
  (forall i T, soup_triangle m i = Ok T <-> nth_error ts i = Some T) -> valid_faces m ->
  (forall T, In T ts -> ~ flat T) ->
  (forall i j T U, nth_error ts i = Some T -> nth_error ts j = Some U -> i <> j -> behind U T) ->
  (forall T x, In T ts -> height T x == 0 -> (forall U, In U ts -> height U x <= 0) -> on_tri x T) ->
  solid m (fun x => forall T, In T ts -> height T x < 0).
Proof.
  intros D m ts HT Hv Hn Hb Ho. split; [ constructor | split; [ constructor | ] ].
  - exact Hv.
  - intros fi a b c E. apply (Hn (a, b, c)). apply HT in E. eapply nth_error_In. exact E.
  - intros fi fj a b c x E Hx (a' & b' & c' & E' & Hx'). destruct (Nat.eq_dec fi fj) as [ | N]; [ congruence | exfalso ].
    apply HT in E, E'. pose proof (behind_open _ _ _ _ _ (Hb _ _ _ _ E E' N) Hx) as L. pose proof (on_own (a', b', c') x Hx') as Z. lra.
  - assert (W : forall x y, (forall z, in_segment z x y -> ~ on_boundary m z) -> (forall T, In T ts -> height T x < 0) -> forall T, In T ts -> height T y < 0).
    { intros x y H Hx. destruct (leaves_through ts x y Hx) as [X | (t & T & Ht & J & Z & L)]; [ exact X | exfalso ].
      apply (H (along x t (vsub y x))); [ exists t; split; [ exact Ht | repeat split; reflexivity ] | ].
      pose proof (Ho T _ J Z L) as O. destruct (in_at _ _ J) as (i & Ei). apply HT in Ei. destruct T as [ [a b] c]. exists i, a, b, c. split; [ exact Ei | exact O ]. }
    intros x y H. split; [ apply W; exact H | apply W ].
    intros z (t & Ht & Hz). apply H. exists (1 - t). split; [ lra | ].
    eapply same_trans; [ exact Hz | ]. unfold along, vsub. repeat split; cbn [vx vy vz fst snd]; ring.
  - intros fi a b c q v E Hq. apply HT in E.
    destruct (nth_error_split ts fi E) as (l1 & l2 & Ets & Hl).
    destruct (stay_behind (l1 ++ l2) q v) as (bound & Hbd & G).
    { intros T J. destruct (in_at _ _ J) as (j & Ej).
      assert (X : exists k, nth_error ts k = Some T /\ k <> fi).
      { rewrite Ets. destruct (Nat.lt_ge_cases j (length l1)) as [L | L].
        - exists j. rewrite nth_error_app1 in Ej |- * by exact L. split; [ exact Ej | lia ].
        - exists (S j). rewrite nth_error_app2 in Ej |- * by lia. split; [ | lia ]. replace (S j - length l1)%nat with (S (j - length l1)) by lia. exact Ej. }
      destruct X as (k & Ek & N). exact (behind_open _ _ _ _ _ (Hb _ _ _ _ E Ek (fun X => N (eq_sym X))) Hq). }
    exists bound. split; [ exact Hbd | ]. intros e He.
    assert (Own : height (a, b, c) (along q e v) == e * vdot (normal a b c) v).
    { rewrite height_along, (on_own (a, b, c) q (open_closed _ _ _ _ Hq)). unfold tri_normal. ring. }
    split; intro K.
    + intros T J. rewrite Ets in J. apply in_app_iff in J. destruct J as [J | [<- | J] ]; [ apply (G e He); apply in_app_iff; auto | | apply (G e He); apply in_app_iff; auto ].
      rewrite Own. set (d := vdot (normal a b c) v) in *. clearbody d. clear - He K. nra.
    + intro Z. assert (J : In (a, b, c) ts) by (eapply nth_error_In; exact E). specialize (Z _ J). rewrite Own in Z. set (d := vdot (normal a b c) v) in *. clearbody d. clear - He K Z. nra.
  - intro x. clear. induction ts as [ | V ts IH]; [ left; intros T [ ] | ].
    destruct IH as [IH | N]; [ destruct (Qlt_le_dec (height V x) 0) as [L | L] | ].
    + left. intros T [<- | J]; auto.
    + right. intro H. specialize (H V (or_introl eq_refl)). lra.
    + right. intro H. apply N. intros T J. apply H. right. exact J.
Qed.

(** ** Two solids on the sides of a plane *)
Definition flip (T : tri3) : tri3 := let '(a, b, c) := T in (a, c, b).
Lemma height_flip : forall T x, height (flip T) x == - height T x.
Proof. intros [ [a b] c] x. unfold flip. coords3. ring. Qed.

Lemma behind_on : forall U a b c x, behind U (a, b, c) -> in_triangle x a b c -> height U x <= 0.
Proof.
  intros U a b c x (Ha & Hb & Hc & _) (u & v & w & Hu & Hv & Hw & S & X & Y & Z). rewrite (height_comb U a b c x u v w S X Y Z).
  generalize dependent (height U a). generalize dependent (height U b). generalize dependent (height U c). intros hc Hc hb Hb ha Ha. clear - Ha Hb Hc Hu Hv Hw. nra.
Qed.

(** The one on the back of [H], the other on its front. *)
Lemma two_solids : forall {D} (m m1 m2 : soup vec3 D) A1 A2 (H : tri3),
  (forall i T, soup_triangle m i = Ok T <-> if (i <? num_faces m1)%nat then soup_triangle m1 i = Ok T else soup_triangle m2 (i - num_faces m1) = Ok T) ->
  valid_faces m -> solid m1 A1 -> solid m2 A2 ->
  (forall x, A1 x -> height H x < 0) -> (forall x, A2 x -> height (flip H) x < 0) ->
  (forall i T, soup_triangle m1 i = Ok T -> behind H T) -> (forall i T, soup_triangle m2 i = Ok T -> behind (flip H) T) ->
  solid m (fun x => A1 x \/ A2 x).
Proof.
  intros D m m1 m2 A1 A2 H HT Hv S1 S2 In1 In2 B1 B2.
  assert (F1 : forall i T, soup_triangle m1 i = Ok T -> soup_triangle m i = Ok T).
  { intros i T E. apply HT. destruct (Nat.ltb_spec i (num_faces m1)) as [L | L]; [ exact E | exfalso ]. unfold soup_triangle, soup_face, vec_at in E.
    assert (X : nth_error (faces m1) i = None) by (apply nth_error_None; exact L). rewrite X in E. discriminate. }
  assert (F2 : forall i T, soup_triangle m2 i = Ok T -> soup_triangle m (num_faces m1 + i) = Ok T).
  { intros i T E. apply HT. destruct (Nat.ltb_spec (num_faces m1 + i) (num_faces m1)) as [L | L]; [ lia | ]. replace (num_faces m1 + i - num_faces m1)%nat with i by lia. exact E. }
  assert (Cases : forall i T, soup_triangle m i = Ok T -> soup_triangle m1 i = Ok T /\ (i < num_faces m1)%nat \/ exists j, i = (num_faces m1 + j)%nat /\ soup_triangle m2 j = Ok T).
  { intros i T E. apply HT in E. destruct (Nat.ltb_spec i (num_faces m1)) as [L | L]; [ left; auto | right ]. exists (i - num_faces m1)%nat. split; [ lia | exact E ]. }
  destruct S1 as (P1 & D1 & C1), S2 as (P2 & D2 & C2).
  assert (Near : forall K q v, height K q < 0 -> exists b, 0 < b /\ forall e, 0 < e < b -> height K (along q e v) < 0).
  { intros K q v L. destruct (stay_behind [K] q v) as (b & Hb & G); [ intros T [<- | [ ] ]; exact L | ]. exists b. split; [ exact Hb | ]. intros e He. apply G; [ exact He | left; reflexivity ]. }
  split; [ constructor | split; [ constructor | ] ].
  - exact Hv.
  - intros fi a b c E. destruct (Cases _ _ E) as [ (E1 & _) | (j & _ & E1) ]; [ exact (pf_nondegenerate _ P1 _ _ _ _ E1) | exact (pf_nondegenerate _ P2 _ _ _ _ E1) ].
  - intros fi fj a b c x E Hx (a' & b' & c' & E' & Hx'). destruct (Cases _ _ E) as [ (E1 & _) | (i & -> & E1) ], (Cases _ _ E') as [ (E2 & _) | (j & -> & E2) ].
    + apply (pf_apart _ P1 _ _ _ _ _ _ E1 Hx). exists a', b', c'. auto.
    + exfalso. pose proof (behind_open _ _ _ _ _ (B1 _ _ E1) Hx). pose proof (behind_on _ _ _ _ _ (B2 _ _ E2) Hx') as L. rewrite height_flip in L. lra.
    + exfalso. pose proof (behind_open _ _ _ _ _ (B2 _ _ E1) Hx) as L. pose proof (behind_on _ _ _ _ _ (B1 _ _ E2) Hx'). rewrite height_flip in L. lra.
    + f_equal. apply (pf_apart _ P2 _ _ _ _ _ _ E1 Hx). exists a', b', c'. auto.
  - intros x y Off. apply or_iff_compat_both; [ apply (bd_walk _ _ D1) | apply (bd_walk _ _ D2) ]; intros z Hz (fi & a & b & c & E & Ho); apply (Off z Hz).
    + exists fi, a, b, c. auto.
    + exists (num_faces m1 + fi)%nat, a, b, c. auto.
  - intros fi a b c q v E Hq. destruct (Cases _ _ E) as [ (E1 & _) | (i & _ & E1) ].
    + destruct (bd_face _ _ D1 _ _ _ _ q v E1 Hq) as (b1 & Hb1 & G1). destruct (Near H q v (behind_open _ _ _ _ _ (B1 _ _ E1) Hq)) as (b2 & Hb2 & G2).
      exists (Qmin b1 b2). split; [ apply Q.min_glb_lt; assumption | ]. intros e He. pose proof (Q.le_min_l b1 b2). pose proof (Q.le_min_r b1 b2).
      destruct (G1 e ltac:(lra)) as (X & Y). specialize (G2 e ltac:(lra)). split; [ left; auto | ]. intros K [Z | Z]; [ exact (Y K Z) | ].
      apply In2 in Z. rewrite height_flip in Z. lra.
    + destruct (bd_face _ _ D2 _ _ _ _ q v E1 Hq) as (b1 & Hb1 & G1). destruct (Near (flip H) q v (behind_open _ _ _ _ _ (B2 _ _ E1) Hq)) as (b2 & Hb2 & G2).
      exists (Qmin b1 b2). split; [ apply Q.min_glb_lt; assumption | ]. intros e He. pose proof (Q.le_min_l b1 b2). pose proof (Q.le_min_r b1 b2).
      destruct (G1 e ltac:(lra)) as (X & Y). specialize (G2 e ltac:(lra)). split; [ right; auto | ]. intros K [Z | Z]; [ | exact (Y K Z) ].
      apply In1 in Z. rewrite height_flip in G2. lra.
  - intro x. destruct (C1 x), (C2 x); tauto.
Qed.
