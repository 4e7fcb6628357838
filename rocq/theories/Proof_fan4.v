(** * Dividing a triangle at one point is a constrained triangulation *)
From Coq Require Import List Arith Bool QArith Lia Lqa.
From Verif Require Import Model_base Model_geometry Model_soup Model_corefine.
From Verif Require Import Spec_defects Spec_ffi Spec_corefine Spec_mix Spec_cut Proof_fan Proof_extreme Proof_mix_faces Proof_cut.
Import ListNotations.
Local Open Scope Q_scope.

Lemma weight_nonneg : forall m k, weight m k -> 0 <= k.
Proof. intros [ | ] k H; cbn in H; lra. Qed.
Lemma weight_same : forall m n k l, k == l -> weight m k -> weight n l -> m = n.
Proof. intros [ | ] [ | ] k l E H H'; cbn in H, H'; auto; exfalso; lra. Qed.
Lemma weight_zero : forall m k, k == 0 -> weight m k -> m = false.
Proof. intros [ | ] k E H; cbn in H; auto; exfalso; lra. Qed.

(** Two of the three parts. *)
Lemma meet_parts : forall a b c p u v w, nondegenerate (a, b, c) -> u + v + w == 1 -> same_point p (comb (a, b, c) u v w) ->
  0 < u -> 0 < w -> forall m0 m1 m2 n0 n1 n2 x,
  in_feature (a, b, p) (m0, m1, m2) x -> in_feature (b, c, p) (n0, n1, n2) x ->
  m0 = false /\ n1 = false /\ m1 = n0 /\ m2 = n2.
Proof.
  intros a b c p u v w ND E Hp Pu Pw m0 m1 m2 n0 n1 n2 x (k1 & k2 & k3 & (K1 & K2 & K3 & Ek) & X) (l1 & l2 & l3 & (L1 & L2 & L3 & El) & Y).
  apply (proj1 (comb_ab _ _ _ _ _ _ _ ND Hp _ _ _ _)) in X. apply (proj1 (comb_bc _ _ _ _ _ _ _ ND Hp _ _ _ _)) in Y.
  destruct (weights_unique _ _ _ _ _ _ _ _ ND (sum1 _ _ _ E _ _ _ Ek) (ltac:(pose proof (sum1 _ _ _ E _ _ _ El); lra) : l3 * u + (l1 + l3 * v) + (l2 + l3 * w) == 1) X Y) as (W1 & W2 & W3).
  pose proof (weight_nonneg _ _ K1). pose proof (weight_nonneg _ _ L2).
  assert (k3 <= l3) by (clear - W1 H Pu; nra). assert (l3 <= k3) by (clear - W3 H0 Pw; nra). assert (E3 : k3 == l3) by lra. rewrite E3 in *.
  repeat split; [ apply (weight_zero _ k1) | apply (weight_zero _ l2) | apply (weight_same _ _ k2 l1) | apply (weight_same _ _ k3 l3) ]; auto; lra.
Qed.

(** The weights are those that are computed. *)
Lemma weights_right : forall a b c p u v w, nondegenerate (a, b, c) -> u + v + w == 1 -> same_point p (comb (a, b, c) u v w) ->
  let '(u', v', w') := weights a b c p in u' == u /\ v' == v /\ w' == w.
Proof.
  intros a b c p u v w ND E Hp. unfold weights.
  pose proof (normal_square _ ND) as N.
  assert (Ca : same_point a (comb (a, b, c) 1 0 0)) by (clear; destruct a as [ [? ?] ?], b as [ [? ?] ?], c as [ [? ?] ?]; vs; repeat split; ring).
  assert (Cb : same_point b (comb (a, b, c) 0 1 0)) by (clear; destruct a as [ [? ?] ?], b as [ [? ?] ?], c as [ [? ?] ?]; vs; repeat split; ring).
  assert (Cc : same_point c (comb (a, b, c) 0 0 1)) by (clear; destruct a as [ [? ?] ?], b as [ [? ?] ?], c as [ [? ?] ?]; vs; repeat split; ring).
  rewrite (normal_comb (a, b, c) 0 1 0 0 0 1 u v w ltac:(ring) ltac:(ring) E b c p Cb Cc Hp).
  rewrite (normal_comb (a, b, c) 0 0 1 1 0 0 u v w ltac:(ring) ltac:(ring) E c a p Cc Ca Hp).
  rewrite (normal_comb (a, b, c) 1 0 0 0 1 0 u v w ltac:(ring) ltac:(ring) E a b p Ca Cb Hp).
  unfold det. set (d := vdot (face_normal (a, b, c)) (face_normal (a, b, c))) in *. clearbody d.
  repeat split; field; lra.
Qed.
Lemma contains_right : forall a b c p, nondegenerate (a, b, c) -> inside (a, b, c) p -> contains a b c p = true.
Proof.
  intros a b c p ND (u & v & w & (Hu & Hv & Hw & E) & Hp). unfold contains. pose proof (weights_right a b c p u v w ND E Hp) as H.
  destruct (weights a b c p) as [ [u' v'] w']. destruct H as (E1 & E2 & E3).
  destruct (comb (a, b, c) u' v' w') as [ [x y] z] eqn:Ec.
  assert (S : same_point p (x, y, z)).
  { rewrite <- Ec. destruct a as [ [a1 a2] a3], b as [ [b1 b2] b3], c as [ [c1 c2] c3], p as [ [p1 p2] p3]. vs. destruct Hp as (P1 & P2 & P3). rewrite P1, P2, P3, E1, E2, E3. repeat split; ring. }
  destruct S as (S1 & S2 & S3). unfold vx, vy, vz in *. cbn [fst snd] in *.
  rewrite !andb_true_iff, !Qle_bool_iff, !Qeq_bool_iff. repeat split; try assumption; lra.
Qed.

Lemma fan_three : forall a b c, fan [a; b; c] = [(0, 1, 2)%nat].
Proof. reflexivity. Qed.
Lemma fan_four : forall a b c p h, nondegenerate (a, b, c) -> inside (a, b, c) p -> exists u v w, 0 <= u /\ 0 <= v /\ 0 <= w /\ u + v + w == 1 /\ same_point p (comb (a, b, c) u v w) /\
  (In h (fan [a; b; c; p]) <-> (0 < w /\ h = (0, 1, 3)%nat) \/ (0 < u /\ h = (1, 2, 3)%nat) \/ (0 < v /\ h = (2, 0, 3)%nat)).
Proof.
  intros a b c p h ND Hin. assert (E : fan [a; b; c; p] = divide [a; b; c; p] 3 (0, 1, 2)%nat ++ []) by reflexivity. rewrite E, app_nil_r. clear E.
  cbn [divide nth_error]. rewrite (contains_right a b c p ND Hin). destruct Hin as (u & v & w & (Hu & Hv & Hw & E) & Hp). exists u, v, w. repeat (split; [ assumption | ]).
  pose proof (weights_right a b c p u v w ND E Hp) as H. destruct (weights a b c p) as [ [u' v'] w']. destruct H as (E1 & E2 & E3).
  assert (G : forall t t' (g : nat * nat * nat), t == t' -> In h (if Qle_bool t 0 then [] else [g]) <-> 0 < t' /\ h = g).
  { intros t t' g Et. destruct (Qle_bool t 0) eqn:X.
    - apply Qle_bool_iff in X. split; [ intros [ ] | intros [Y _]; exfalso; lra ].
    - assert (~ t <= 0) by (rewrite <- Qle_bool_iff; congruence). split; [ intros [<- | [ ] ]; split; [ lra | reflexivity ] | intros [_ ->]; left; reflexivity ]. }
  rewrite !in_app_iff, (G _ _ _ E1), (G _ _ _ E2), (G _ _ _ E3). tauto.
Qed.

Lemma comb_turn : forall a b c p u v w, same_point p (comb (a, b, c) u v w) -> same_point p (comb (b, c, a) v w u).
Proof. intros a b c p u v w H. destruct a as [ [a1 a2] a3], b as [ [b1 b2] b3], c as [ [c1 c2] c3], p as [ [p1 p2] p3]. vs. destruct H as (H1 & H2 & H3). rewrite H1, H2, H3. repeat split; ring. Qed.
Lemma turn_nondegenerate : forall a b c, nondegenerate (a, b, c) -> nondegenerate (b, c, a).
Proof.
  intros a b c H. apply (turned_nondegenerate (a, b, c)). pose proof (normal_square _ H) as N.
  rewrite (normal_comb (a, b, c) 0 1 0 0 0 1 1 0 0); [ unfold det; lra | ring | ring | ring | .. ];
    clear; destruct a as [ [? ?] ?], b as [ [? ?] ?], c as [ [? ?] ?]; vs; repeat split; ring.
Qed.

Lemma fan_triangulates : forall vs cs a b c, good_vertices vs a b c -> (length vs <= 4)%nat -> compatible vs cs ->
  triangulates (a, b, c) vs cs (fan vs).
Proof.
  intros vs cs a b c ((rest & Ev) & ND & Hin & Hd) Len Cp.
  assert (Ht : exists parts, Forall2 (has_corners vs) (fan vs) parts /\ tiles (a, b, c) parts) by exact (fan_ok vs a b c rest Ev ND).
  destruct rest as [ | p rest].
  - rewrite Ev in *. split; [ exact Ht | | | ]; rewrite fan_three.
    + intros h h' T U m n x [<- | [ ] ] [<- | [ ] ] HT HU FT FU v. destruct T as [ [t0 t1] t2], U as [ [u0 u1] u2]. destruct HT as (A & B & C), HU as (A' & B' & C'). cbn in A, B, C, A', B', C'.
      injection A as <-. injection A' as <-. injection B as <-. injection B' as <-. injection C as <-. injection C' as <-.
      rewrite (feature_unique _ _ _ _ ND FT FU). reflexivity.
    + intros v Hv. exists (0, 1, 2)%nat. split; [ cbn; auto | ]. cbn in Hv |- *. lia.
    + intros v w J. destruct (cp_ends _ _ Cp v w J) as (_ & Hv & Hw). exists (0, 1, 2)%nat. split; [ cbn; auto | ]. cbn in Hv, Hw |- *. lia.
  - destruct rest as [ | ? ?]; [ | subst vs; cbn in Len; lia ]. rewrite Ev in *. clear Len.
    assert (Hp : inside (a, b, c) p) by (apply Hin; cbn; auto).
    destruct (fan_four a b c p (0, 0, 0)%nat ND Hp) as (u & v & w & Hu & Hv & Hw & E & X & _).
    assert (F : forall h, In h (fan [a; b; c; p]) <-> (0 < w /\ h = (0, 1, 3)%nat) \/ (0 < u /\ h = (1, 2, 3)%nat) \/ (0 < v /\ h = (2, 0, 3)%nat)).
    { intro h. destruct (fan_four a b c p h ND Hp) as (u' & v' & w' & _ & _ & _ & E' & X' & G).
      destruct (weights_unique _ _ _ _ _ _ _ _ ND E E' X X') as (E1 & E2 & E3). rewrite G, E1, E2, E3. reflexivity. }
    assert (ND1 := turn_nondegenerate _ _ _ ND). assert (ND2 := turn_nondegenerate _ _ _ ND1).
    assert (X1 := comb_turn _ _ _ _ _ _ _ X). assert (X2 := comb_turn _ _ _ _ _ _ _ X1).
    assert (E1 : v + w + u == 1) by lra. assert (E2 : w + u + v == 1) by lra.
    assert (Not : ~ same_point p a /\ ~ same_point p b /\ ~ same_point p c).
    { repeat split; intro Y; [ assert (Z := Hd 3%nat 0%nat p a eq_refl eq_refl Y) | assert (Z := Hd 3%nat 1%nat p b eq_refl eq_refl Y) | assert (Z := Hd 3%nat 2%nat p c eq_refl eq_refl Y) ]; discriminate. }
    assert (Two : (0 < u /\ 0 < v) \/ (0 < v /\ 0 < w) \/ (0 < w /\ 0 < u)).
    { destruct Not as (Na & Nb & Nc).
      destruct (Qlt_le_dec 0 u), (Qlt_le_dec 0 v), (Qlt_le_dec 0 w); auto; exfalso.
      - apply Na. assert (u == 1) by lra. assert (v == 0) by lra. assert (w == 0) by lra. destruct a as [ [a1 a2] a3], b as [ [b1 b2] b3], c as [ [c1 c2] c3], p as [ [p1 p2] p3]. clear - X H H0 H1. vs. destruct X as (P1 & P2 & P3). rewrite P1, P2, P3, H, H0, H1. repeat split; ring.
      - apply Nb. assert (v == 1) by lra. assert (u == 0) by lra. assert (w == 0) by lra. destruct a as [ [a1 a2] a3], b as [ [b1 b2] b3], c as [ [c1 c2] c3], p as [ [p1 p2] p3]. clear - X H H0 H1. vs. destruct X as (P1 & P2 & P3). rewrite P1, P2, P3, H, H0, H1. repeat split; ring.
      - apply Nc. assert (w == 1) by lra. assert (u == 0) by lra. assert (v == 0) by lra. destruct a as [ [a1 a2] a3], b as [ [b1 b2] b3], c as [ [c1 c2] c3], p as [ [p1 p2] p3]. clear - X H H0 H1. vs. destruct X as (P1 & P2 & P3). rewrite P1, P2, P3, H, H0, H1. repeat split; ring.
      - lra. }
    assert (Nab : 0 < w -> nondegenerate (a, b, p)) by (intro; destruct Ht as (parts & FF & TT); eapply turned_nondegenerate; apply (split_turn a b c p u v w ND E X); apply split_in; auto).
    assert (Nbc : 0 < u -> nondegenerate (b, c, p)) by (intro; eapply turned_nondegenerate; apply (split_turn a b c p u v w ND E X); apply split_in; auto).
    assert (Nca : 0 < v -> nondegenerate (c, a, p)) by (intro; eapply turned_nondegenerate; apply (split_turn a b c p u v w ND E X); apply split_in; auto).
    split; [ exact Ht | | | ].
    + intros h h' T U [ [m0 m1] m2] [ [n0 n1] n2] x J J' HT HU FT FU vv. apply F in J, J'. destruct T as [ [t0 t1] t2], U as [ [u0 u1] u2].
      destruct J as [ [P ->] | [ [P ->] | [P ->] ] ], J' as [ [P' ->] | [ [P' ->] | [P' ->] ] ]; destruct HT as (A & B & C), HU as (A' & B' & C'); cbn [nth_error] in *;
        injection A as <-; injection A' as <-; injection B as <-; injection B' as <-; injection C as <-; injection C' as <-.
      * pose proof (feature_unique _ _ _ _ (Nab P) FT FU) as Q. injection Q as -> -> ->. reflexivity.
      * destruct (meet_parts a b c p u v w ND E X P' P _ _ _ _ _ _ _ FT FU) as (-> & -> & -> & ->). cbn [pick app]. destruct n0, n2; cbn; tauto.
      * destruct (meet_parts c a b p w u v ND2 E2 X2 P P' _ _ _ _ _ _ _ FU FT) as (-> & -> & -> & ->). cbn [pick app]. destruct m0, m2; cbn; tauto.
      * destruct (meet_parts a b c p u v w ND E X P P' _ _ _ _ _ _ _ FU FT) as (-> & -> & -> & ->). cbn [pick app]. destruct m0, m2; cbn; tauto.
      * pose proof (feature_unique _ _ _ _ (Nbc P) FT FU) as Q. injection Q as -> -> ->. reflexivity.
      * destruct (meet_parts b c a p v w u ND1 E1 X1 P' P _ _ _ _ _ _ _ FT FU) as (-> & -> & -> & ->). cbn [pick app]. destruct n0, n2; cbn; tauto.
      * destruct (meet_parts c a b p w u v ND2 E2 X2 P' P _ _ _ _ _ _ _ FT FU) as (-> & -> & -> & ->). cbn [pick app]. destruct n0, n2; cbn; tauto.
      * destruct (meet_parts b c a p v w u ND1 E1 X1 P P' _ _ _ _ _ _ _ FU FT) as (-> & -> & -> & ->). cbn [pick app]. destruct m0, m2; cbn; tauto.
      * pose proof (feature_unique _ _ _ _ (Nca P) FT FU) as Q. injection Q as -> -> ->. reflexivity.
    + intros k Hk. cbn in Hk.
      destruct Two as [ [P Q] | [ [P Q] | [P Q] ] ].
      * destruct k as [ | [ | [ | [ | k] ] ] ]; [ exists (2, 0, 3)%nat | exists (1, 2, 3)%nat | exists (1, 2, 3)%nat | exists (1, 2, 3)%nat | lia ]; (split; [ apply F; auto | cbn; auto ]).
      * destruct k as [ | [ | [ | [ | k] ] ] ]; [ exists (2, 0, 3)%nat | exists (0, 1, 3)%nat | exists (2, 0, 3)%nat | exists (0, 1, 3)%nat | lia ]; (split; [ apply F; auto | cbn; auto ]).
      * destruct k as [ | [ | [ | [ | k] ] ] ]; [ exists (0, 1, 3)%nat | exists (1, 2, 3)%nat | exists (1, 2, 3)%nat | exists (1, 2, 3)%nat | lia ]; (split; [ apply F; auto | cbn; auto ]).
    + assert (Bet : forall s t r (q1 q2 q3 : vec3), s == 0 -> 0 < t -> 0 < r -> r + t + s == 1 -> same_point p (comb (q1, q2, q3) r t s) -> between q1 q2 p /\ between q2 q1 p).
      { clear. intros s t r q1 q2 q3 Zs Pt Pr Es Xs. split; [ exists t | exists r ]; (split; [ lra | split; [ lra | ] ]); destruct q1 as [ [? ?] ?], q2 as [ [? ?] ?], q3 as [ [? ?] ?], p as [ [? ?] ?]; vs; destruct Xs as (Y1 & Y2 & Y3); rewrite Y1, Y2, Y3, Zs.
        - setoid_replace r with (1 - t) by lra. repeat split; ring.
        - setoid_replace t with (1 - r) by lra. repeat split; ring. }
      assert (E01 : (In (0, 1)%nat cs \/ In (1, 0)%nat cs) -> 0 < w).
      { intro J. destruct (Qlt_le_dec 0 w) as [P | P]; [ exact P | exfalso ]. destruct (Bet w v u a b c) as (B1 & B2); auto; try lra. 
        destruct J as [J | J]; [ exact (cp_vertex _ _ Cp _ _ 3%nat _ _ _ J eq_refl eq_refl eq_refl B1) | exact (cp_vertex _ _ Cp _ _ 3%nat _ _ _ J eq_refl eq_refl eq_refl B2) ]. }
      assert (E12 : (In (1, 2)%nat cs \/ In (2, 1)%nat cs) -> 0 < u).
      { intro J. destruct (Qlt_le_dec 0 u) as [P | P]; [ exact P | exfalso ]. destruct (Bet u w v b c a) as (B1 & B2); auto; try lra.
        destruct J as [J | J]; [ exact (cp_vertex _ _ Cp _ _ 3%nat _ _ _ J eq_refl eq_refl eq_refl B1) | exact (cp_vertex _ _ Cp _ _ 3%nat _ _ _ J eq_refl eq_refl eq_refl B2) ]. }
      assert (E20 : (In (2, 0)%nat cs \/ In (0, 2)%nat cs) -> 0 < v).
      { intro J. destruct (Qlt_le_dec 0 v) as [P | P]; [ exact P | exfalso ]. destruct (Bet v u w c a b) as (B1 & B2); auto; try lra.
        destruct J as [J | J]; [ exact (cp_vertex _ _ Cp _ _ 3%nat _ _ _ J eq_refl eq_refl eq_refl B1) | exact (cp_vertex _ _ Cp _ _ 3%nat _ _ _ J eq_refl eq_refl eq_refl B2) ]. }
      assert (Star : forall k, (k < 3)%nat -> exists h, In h (fan [a; b; c; p]) /\ has_vertex h k /\ has_vertex h 3%nat).
      { intros k Hk. destruct Two as [ [P Q] | [ [P Q] | [P Q] ] ].
        * destruct k as [ | [ | [ | k] ] ]; [ exists (2, 0, 3)%nat | exists (1, 2, 3)%nat | exists (1, 2, 3)%nat | lia ]; (split; [ apply F; auto | cbn; auto ]).
        * destruct k as [ | [ | [ | k] ] ]; [ exists (2, 0, 3)%nat | exists (0, 1, 3)%nat | exists (2, 0, 3)%nat | lia ]; (split; [ apply F; auto | cbn; auto ]).
        * destruct k as [ | [ | [ | k] ] ]; [ exists (0, 1, 3)%nat | exists (1, 2, 3)%nat | exists (1, 2, 3)%nat | lia ]; (split; [ apply F; auto | cbn; auto ]). }
      intros k l J. destruct (cp_ends _ _ Cp k l J) as (D & Hk & Hl). cbn in Hk, Hl.
      destruct (Nat.eq_dec k 3) as [-> | Nk]; [ destruct (Star l) as (h & J1 & J2 & J3); [ lia | exists h; auto ] | ].
      destruct (Nat.eq_dec l 3) as [-> | Nl]; [ apply Star; lia | ].
      destruct k as [ | [ | [ | k] ] ], l as [ | [ | [ | l] ] ]; try lia.
      * exists (0, 1, 3)%nat. split; [ apply F; auto 10 | cbn; auto ].
      * exists (2, 0, 3)%nat. split; [ apply F; auto 10 | cbn; auto ].
      * exists (0, 1, 3)%nat. split; [ apply F; auto 10 | cbn; auto ].
      * exists (1, 2, 3)%nat. split; [ apply F; auto 10 | cbn; auto ].
      * exists (2, 0, 3)%nat. split; [ apply F; auto 10 | cbn; auto ].
      * exists (1, 2, 3)%nat. split; [ apply F; auto 10 | cbn; auto ].
Qed.
