(** * Proofs about overlapping_faces *)
From Coq Require Import List Arith Bool NArith QArith Lqa Lia Setoid Permutation.
From Verif Require Import Model_base Proof_base Model_soup Model_points Model_parallel_do Model_aabb Spec_aabb Prop_aabb Model_candidates Spec_candidates Proof_pairs Proof_collect.
From Verif Require Import Model_geometry Model_region Model_ffi Model_overlap.
From Verif Require Import Spec_defects Spec_ffi Spec_overlap Proof_extreme Proof_hull Proof_ffi_orient Proof_ffi_calls Proof_ffi_plane Proof_ffi_edge Proof_ffi_all Proof_polygon Proof_ffi_order Proof_ffi_result Prop_ffi.
Import ListNotations.
Local Open Scope nat_scope.

(** ** Sorting and intersecting *)
Definition l3 (f : face) : list nat := let '(a, b, c) := f in [a; b; c].
Fixpoint ascending (l : list nat) : Prop :=
  match l with [] => True | x :: r => (forall y, In y r -> x < y) /\ ascending r end.
Lemma sort3_cases : forall a b c, In (sort3 (a, b, c)) [(a, b, c); (a, c, b); (b, a, c); (b, c, a); (c, a, b); (c, b, a)].
Proof.
  intros a b c. unfold sort3. destruct (b <? a); [ destruct (c <? a) eqn:E | destruct (c <? b) eqn:E ]; try (destruct (c <? b)); try (destruct (c <? a)); try (destruct (b <? a)); try (destruct (a <? b)); cbn; auto 10.
Qed.
Lemma sort3_in : forall f x, In x (l3 (sort3 f)) <-> In x (l3 f).
Proof.
  intros [ [a b] c] x. pose proof (sort3_cases a b c) as H. destruct (sort3 (a, b, c)) as [ [a' b'] c'].
  cbn in H. repeat (destruct H as [H | H]); try contradiction; injection H as <- <- <-; cbn; tauto.
Qed.
Lemma sort3_ascending : forall f, proper f -> ascending (l3 (sort3 f)).
Proof.
  intros [ [a b] c] (N1 & N2 & N3).
  assert (K : forall x y z : nat, x < y -> y < z -> ascending [x; y; z]).
  { intros x y z H1 H2. cbn. repeat split; intros w Hw; try tauto; repeat (destruct Hw as [<- | Hw]; try lia); try contradiction. }
  unfold sort3. destruct (Nat.ltb_spec b a) as [H | H]; [ destruct (Nat.ltb_spec c a) as [H1 | H1] | destruct (Nat.ltb_spec c b) as [H1 | H1] ].
  - destruct (Nat.ltb_spec c b); apply K; lia.
  - destruct (Nat.ltb_spec a b); apply K; lia.
  - destruct (Nat.ltb_spec c a); apply K; lia.
  - destruct (Nat.ltb_spec b a); apply K; lia.
Qed.
Lemma set_inter_ok : forall l l', ascending l -> ascending l' ->
  NoDup (set_inter l l') /\ forall x, In x (set_inter l l') <-> In x l /\ In x l'.
Proof.
  induction l as [ | x l IH]; intros l' A A'; [ split; [ constructor | cbn; tauto ] | ]. destruct A as [Ax A].
  induction l' as [ | y l' IH']; [ split; [ constructor | cbn; tauto ] | ]. destruct A' as [Ay A']. specialize (IH' A').
  change (set_inter (x :: l) (y :: l')) with (if x <? y then set_inter l (y :: l') else if y <? x then set_inter (x :: l) l' else x :: set_inter l l').
  destruct (Nat.ltb_spec x y) as [H | H]; [ | destruct (Nat.ltb_spec y x) as [H1 | H1] ].
  - destruct (IH (y :: l') A (conj Ay A')) as [D I]. split; [ exact D | ]. intro z. rewrite I. cbn [In]. split; [ tauto | ].
    intros [ [<- | Hz] Hy]; [ exfalso | tauto ]. destruct Hy as [Hy | Hy]; [ lia | specialize (Ay _ Hy); lia ].
  - destruct IH' as [D I]. split; [ exact D | ]. intro z. rewrite I. cbn [In]. split; [ tauto | ].
    intros [Hz [<- | Hy] ]; [ exfalso | tauto ]. destruct Hz as [Hz | Hz]; [ lia | specialize (Ax _ Hz); lia ].
  - assert (x = y) by lia. subst y. destruct (IH l' A A') as [D I]. split.
    + constructor; [ | exact D ]. intro J. apply I in J. specialize (Ax _ (proj1 J)). lia.
    + intro z. cbn [In]. rewrite I. split; [ intuition | ]. intros [ [E | Hz] [E' | Hy] ]; auto.
Qed.

(** ** Triangles *)
Section Triangles.
  Local Open Scope Q_scope.
  Lemma inside_same : forall t x y, same_point x y -> inside t x -> inside t y.
  Proof. intros t x y E (u & v & w & S & X). exists u, v, w. split; [ exact S | eapply same_trans; [ apply same_sym; exact E | exact X ] ]. Qed.
  Lemma inside_swap1 : forall a b c x, inside (a, b, c) x -> inside (b, a, c) x.
  Proof.
    intros a b c x (u & v & w & (A & B & C & S) & X). exists v, u, w. split; [ repeat split; try assumption; lra | ].
    eapply same_trans; [ exact X | ]. unfold same_point, comb, vx, vy, vz. cbn [fst snd]. repeat split; ring.
  Qed.
  Lemma inside_swap2 : forall a b c x, inside (a, b, c) x -> inside (a, c, b) x.
  Proof.
    intros a b c x (u & v & w & (A & B & C & S) & X). exists u, w, v. split; [ repeat split; try assumption; lra | ].
    eapply same_trans; [ exact X | ]. unfold same_point, comb, vx, vy, vz. cbn [fst snd]. repeat split; ring.
  Qed.
  (** The corners of a triangle, and its edges. *)
  Definition corner3 (t : triangle) (x : vec3) : Prop := let '(a, b, c) := t in x = a \/ x = b \/ x = c.
  Lemma corner_feature : forall t x, corner3 t x -> exists m, (forall d, dir t m d -> zero3 d) /\ in_feature t m x.
  Proof.
    intros [ [a b] c] x H.
    destruct H as [-> | [-> | ->] ]; [ exists (true, false, false) | exists (false, true, false) | exists (false, false, true) ];
      (split; [ intros d (u & v & w & (F0 & F1 & F2 & S) & (X & Y & Z)); cbn in F0, F1, F2; unfold zero3; rewrite X, Y, Z; unfold comb, vx, vy, vz; cbn [fst snd] | ]).
    - assert (u == 0) by lra. rewrite F1, F2, H. repeat split; ring.
    - exists 1, 0, 0. cbn. repeat split; try lra; unfold vx, vy, vz; cbn [fst snd]; ring.
    - assert (v == 0) by lra. rewrite F0, F2, H. repeat split; ring.
    - exists 0, 1, 0. cbn. repeat split; try lra; unfold vx, vy, vz; cbn [fst snd]; ring.
    - assert (w == 0) by lra. rewrite F0, F1, H. repeat split; ring.
    - exists 0, 0, 1. cbn. repeat split; try lra; unfold vx, vy, vz; cbn [fst snd]; ring.
  Qed.
  Lemma corner_inside : forall t x, corner3 t x -> inside t x.
  Proof. intros t x H. destruct (corner_feature t x H) as (m & _ & F). eapply feature_inside. exact F. Qed.
  Lemma corner_vertex : forall T U x, nondegenerate T -> nondegenerate U -> corner3 T x -> inside U x -> is_vertex T U x.
  Proof.
    intros T U x NT NU H I. destruct (corner_feature T x H) as (m & Dm & F). apply inside_feature in I. destruct I as (k & G).
    apply (vertex_iff T U m k x NT NU F G). intros d Dd _. apply Dm. exact Dd.
  Qed.
  (** Two corners of a triangle leave a coordinate that is zero between them. *)
  Lemma edge_zero : forall t y z, corner3 t y -> corner3 t z -> exists c, (c < 3)%nat /\
    forall x, on_segment y z x -> exists w, one w /\ same_point x (cmb t w) /\ crd c w == 0.
  Proof.
    intros [ [a b] c] y z Hy Hz.
    assert (G : forall i j : nat, (i < 3)%nat -> (j < 3)%nat -> exists k, (k < 3)%nat /\ k <> i /\ k <> j).
    { intros i j Hi Hj. destruct i as [ | [ | [ | i] ] ]; try lia; destruct j as [ | [ | [ | j] ] ]; try lia;
        (exists 0%nat; lia) || (exists 1%nat; lia) || (exists 2%nat; lia). }
    set (e := fun i : nat => match i with O => (1, 0, 0) | Datatypes.S O => (0, 1, 0) | _ => (0, 0, 1) end : tri).
    assert (N : forall x, corner3 (a, b, c) x -> exists i, (i < 3)%nat /\ same_point x (cmb (a, b, c) (e i))).
    { intros x [-> | [-> | ->] ]; [ exists 0%nat | exists 1%nat | exists 2%nat ]; (split; [ lia | ]); unfold e, cmb, same_point, comb, vx, vy, vz; cbn [fst snd]; repeat split; ring. }
    destruct (N y Hy) as (i & Hi & (Y0 & Y1 & Y2)). destruct (N z Hz) as (j & Hj & (Z0 & Z1 & Z2)). destruct (G i j Hi Hj) as (k & Hk & Ki & Kj).
    exists k. split; [ exact Hk | ]. intros x (t & T & X & Y & Z).
    exists ((1 - t) * crd 0 (e i) + t * crd 0 (e j), (1 - t) * crd 1 (e i) + t * crd 1 (e j), (1 - t) * crd 2 (e i) + t * crd 2 (e j)).
    rewrite Y0, Z0 in X. rewrite Y1, Z1 in Y. rewrite Y2, Z2 in Z.
    destruct i as [ | [ | [ | i] ] ]; try lia; destruct j as [ | [ | [ | j] ] ]; try lia; destruct k as [ | [ | [ | k] ] ]; try lia;
      unfold one, cmb, crd, e, same_point, comb, vx, vy, vz in *; cbn [fst snd] in *;
      (split; [ ring | ]); (split; [ rewrite X, Y, Z; repeat split; ring | ring ]).
  Qed.
End Triangles.

(** ** The test *)
Section Test.
  Context {P : Type}.
  Variable coords : P -> vec3.
  Variable pts : list P.
  Notation pt := (at_ coords pts).
  Variables a b c p q r : nat.
  Hypothesis La : a < length pts.  Hypothesis Lb : b < length pts.  Hypothesis Lc : c < length pts.
  Hypothesis Lp : p < length pts.  Hypothesis Lq : q < length pts.  Hypothesis Lr : r < length pts.
  Notation T := (pt a, pt b, pt c).
  Notation U := (pt p, pt q, pt r).
  Hypothesis NT : nondegenerate T.
  Hypothesis NU : nondegenerate U.
  Variable S : list nat.
  Hypothesis DS : NoDup S.
  Hypothesis IS : forall v, In v S <-> In v [a; b; c] /\ In v [p; q; r].

  Lemma shared_vertex : forall v, In v S -> is_vertex T U (pt v).
  Proof.
    intros v H. apply IS in H. destruct H as [H1 H2]. apply corner_vertex; [ exact NT | exact NU | | apply corner_inside ];
      cbn in *; [ destruct H1 as [<- | [<- | [<- | [ ] ] ] ] | destruct H2 as [<- | [<- | [<- | [ ] ] ] ] ]; auto.
  Qed.
  Lemma shared_distinct : forall v w, In v S -> In w S -> v <> w -> ~ same_point (pt v) (pt w).
  Proof.
    intros v w Hv Hw N E. apply IS in Hv. apply IS in Hw. destruct Hv as [Hv _], Hw as [Hw _].
    assert (X : forall x y z, same_point x y -> ~ nondegenerate (x, y, z)).
    { intros x y z Exy Nd. apply Nd. exists x, (vsub z x). split; [ exists 0%Q; repeat split; ring | ]. split; [ exists 0%Q; destruct Exy as (X & Y & Z); rewrite X, Y, Z; repeat split; ring | ].
      exists 1%Q. unfold vsub, vx, vy, vz. cbn [fst snd]. repeat split; ring. }
    assert (R : forall x y z, nondegenerate (x, y, z) -> nondegenerate (y, z, x)).
    { intros x y z Nd (o & d & A & B & C). apply Nd. exists o, d. auto. }
    assert (R2 : forall x y z, nondegenerate (x, y, z) -> nondegenerate (y, x, z)).
    { intros x y z Nd (o & d & A & B & C). apply Nd. exists o, d. auto. }
    cbn in Hv, Hw. pose proof NT as N0. pose proof (R _ _ _ NT) as N1. pose proof (R _ _ _ N1) as N2.
    destruct Hv as [<- | [<- | [<- | [ ] ] ] ]; destruct Hw as [<- | [<- | [<- | [ ] ] ] ]; try (apply N; reflexivity);
      first [ exact (X _ _ _ E N0) | exact (X _ _ _ E N1) | exact (X _ _ _ E N2) | exact (X _ _ _ E (R2 _ _ _ N0)) | exact (X _ _ _ E (R2 _ _ _ N1)) | exact (X _ _ _ E (R2 _ _ _ N2)) ].
  Qed.

  Definition beyond : Prop := exists x, both T U x /\ forall v w, In v S -> In w S -> ~ on_segment (pt v) (pt w) x.

  Lemma one_segment : forall y x, on_segment y y x -> same_point x y.
  Proof. intros y x (t & _ & X & Y & Z). unfold same_point. rewrite X, Y, Z. repeat split; ring. Qed.

  Lemma test_ok : exists l, face_face_intersection coords pts a b c p q r = Ok l /\
    ((match l with [] => false | _ => if length l =? 1 then length S <? 1 else if length l =? 2 then length S <? 2 else true end) = true <-> beyond).
  Proof.
    assert (HT : triangle_at coords pts a b c T).
    { unfold at_. destruct (nth_error pts a) as [pa | ] eqn:Ea; [ | apply nth_error_None in Ea; lia ]. destruct (nth_error pts b) as [pb | ] eqn:Eb; [ | apply nth_error_None in Eb; lia ].
      destruct (nth_error pts c) as [pc | ] eqn:Ec; [ | apply nth_error_None in Ec; lia ]. exists pa, pb, pc. auto. }
    assert (HU : triangle_at coords pts p q r U).
    { unfold at_. destruct (nth_error pts p) as [pp | ] eqn:Ea; [ | apply nth_error_None in Ea; lia ]. destruct (nth_error pts q) as [pq | ] eqn:Eb; [ | apply nth_error_None in Eb; lia ].
      destruct (nth_error pts r) as [pr | ] eqn:Ec; [ | apply nth_error_None in Ec; lia ]. exists pp, pq, pr. auto. }
    destruct (ffi_all coords pts a b c p q r T U HT HU NT NU) as (lst & f & o & D & I & Hf & Po & L6 & E & _).
    exists (map (hull_at (map enc lst)) o). split; [ exact E | ].
    assert (Lo : length (map (hull_at (map enc lst)) o) = length lst) by (rewrite map_length; apply Permutation_length in Po; rewrite seq_length in Po; auto).
    assert (Vp : forall x, is_vertex T U x -> exists i, i < length lst /\ same_point x (px f i)) by (apply (vertex_px T U NT NU lst I f Hf)).
    assert (Pb : forall i, i < length lst -> both T U (px f i)) by (apply (px_both T U NT NU lst I f Hf)).
    assert (Pd : forall i j, i < length lst -> j < length lst -> same_point (px f i) (px f j) -> i = j) by (apply (px_distinct T U NT NU lst D f Hf)).
    assert (Bs : forall y z, (forall i, i < length lst -> same_point (px f i) y \/ same_point (px f i) z) -> forall x, both T U x -> on_segment y z x).
    { intros y z H x B. apply (two_hull T U y z NT NU); [ | exact B ]. intros w0 V. destruct (Vp w0 V) as (j & Hj & X). destruct (H j Hj) as [Y | Y]; [ left | right ]; eapply same_trans; eassumption. }
    assert (Nl : match map (hull_at (map enc lst)) o with [] => false | _ => if length (map (hull_at (map enc lst)) o) =? 1 then length S <? 1 else if length (map (hull_at (map enc lst)) o) =? 2 then length S <? 2 else true end =
      match length lst with 0 => false | 1 => length S <? 1 | 2 => length S <? 2 | _ => true end).
    { rewrite <- Lo. destruct (map (hull_at (map enc lst)) o) as [ | x1 [ | x2 [ | x3 l] ] ]; reflexivity. }
    rewrite Nl. clear Nl Lo E. unfold beyond. destruct (length lst) as [ | [ | [ | n] ] ] eqn:En.
    - split; [ discriminate | ]. intros (x & B & _). destruct (hull_vertices T U x NT NU B) as ([ | [k v] w] & F & S1 & X); [ cbn in S1; lra | ].
      inversion F as [ | ? ? [_ V] _]; subst. destruct (Vp _ V) as (i & Hi & _). lia.
    - rewrite Nat.ltb_lt. split.
      + intro H. exists (px f 0). split; [ apply Pb; lia | ]. intros v w Hv. destruct S; [ destruct Hv | cbn in H; lia ].
      + intros (x & B & H). destruct S as [ | v S'] eqn:ES; [ cbn; lia | exfalso ]. rewrite <- ES in *. assert (Hv : In v S) by (rewrite ES; left; reflexivity).
        destruct (Vp _ (shared_vertex v Hv)) as (i & Hi & X). apply (H v v Hv Hv). apply (Bs (pt v) (pt v)); [ | exact B ]. intros j Hj. left. replace j with i by lia. apply same_sym. exact X.
    - rewrite Nat.ltb_lt. split.
      + intro H. destruct S as [ | v [ | w S'] ] eqn:ES; [ | | cbn in H; lia ].
        * exists (px f 0). split; [ apply Pb; lia | ]. intros v w [ ].
        * assert (G : ~ same_point (px f 0) (pt v) \/ ~ same_point (px f 1) (pt v)).
          { destruct (Qeq_dec (vx (px f 0)) (vx (pt v))) as [E0 | E0]; [ | left; intros (X & _); auto ].
            destruct (Qeq_dec (vy (px f 0)) (vy (pt v))) as [E1 | E1]; [ | left; intros (_ & X & _); auto ].
            destruct (Qeq_dec (vz (px f 0)) (vz (pt v))) as [E2 | E2]; [ | left; intros (_ & _ & X); auto ].
            right. intro X. assert (0 = 1); [ | lia ]. apply Pd; try lia. eapply same_trans; [ | apply same_sym; exact X ]. repeat split; assumption. }
          destruct G as [G | G]; [ exists (px f 0) | exists (px f 1) ]; (split; [ apply Pb; lia | ]); intros v' w' [<- | [ ] ] [<- | [ ] ] X; apply one_segment in X; auto.
      + intros (x & B & H). destruct S as [ | v [ | w S'] ] eqn:ES; [ cbn; lia | cbn; lia | exfalso ]. rewrite <- ES in *.
        assert (Hv : In v S) by (rewrite ES; left; reflexivity). assert (Hw : In w S) by (rewrite ES; right; left; reflexivity).
        assert (Nvw : v <> w) by (rewrite ES in DS; inversion DS as [ | ? ? N _]; subst; intros ->; apply N; left; reflexivity).
        destruct (Vp _ (shared_vertex v Hv)) as (i & Hi & X). destruct (Vp _ (shared_vertex w Hw)) as (j & Hj & Y).
        assert (Nij : i <> j) by (intros ->; apply (shared_distinct v w Hv Hw Nvw); eapply same_trans; [ exact X | apply same_sym; exact Y ]).
        apply (H v w Hv Hw). apply (Bs (pt v) (pt w)); [ | exact B ]. intros k Hk. assert (Ek : k = i \/ k = j) by lia.
        destruct Ek as [-> | ->]; [ left | right ]; apply same_sym; assumption.
    - split; [ intros _ | reflexivity ].
      (* the centre of three vertices *)
      set (ctr := ((vx (px f 0) + vx (px f 1) + vx (px f 2)) * (1 # 3), (vy (px f 0) + vy (px f 1) + vy (px f 2)) * (1 # 3), (vz (px f 0) + vz (px f 1) + vz (px f 2)) * (1 # 3))%Q : vec3).
      rewrite <- En in *. assert (Hn : 3 <= length lst) by lia.
      assert (Tri : forall t g, (forall i, i < length lst -> one (g i) /\ same_point (px f i) (cmb t (g i)) /\ (forall c, (0 <= crd c (g i))%Q)) ->
        exists w, one w /\ same_point ctr (cmb t w) /\ forall c, c < 3 -> (crd c w == (crd c (g 0%nat) + crd c (g 1%nat) + crd c (g 2%nat)) * (1 # 3))%Q).
      { intros t g G. destruct (G 0 ltac:(lia)) as (O0 & X0 & _), (G 1 ltac:(lia)) as (O1 & X1 & _), (G 2 ltac:(lia)) as (O2 & X2 & _).
        exists ((crd 0%nat (g 0%nat) + crd 0%nat (g 1%nat) + crd 0%nat (g 2%nat)) * (1 # 3), (crd 1%nat (g 0%nat) + crd 1%nat (g 1%nat) + crd 1%nat (g 2%nat)) * (1 # 3), (crd 2%nat (g 0%nat) + crd 2%nat (g 1%nat) + crd 2%nat (g 2%nat)) * (1 # 3))%Q.
        destruct (g 0%nat) as [ [u0 u1] u2], (g 1%nat) as [ [v0 v1] v2], (g 2%nat) as [ [w0 w1] w2], t as [ [t0 t1] t2]. unfold one, cmb, crd in *. split; [ lra | ]. split.
        - destruct X0 as (A0 & A1 & A2), X1 as (B0 & B1 & B2), X2 as (C0 & C1 & C2). unfold same_point, comb, ctr, vx, vy, vz in *. cbn [fst snd] in *.
          rewrite A0, A1, A2, B0, B1, B2, C0, C1, C2. repeat split; ring.
        - intros c' Hc'. destruct c' as [ | [ | [ | c'] ] ]; try lia; reflexivity. }
      assert (Pos : forall (m : mask) u, weights m u -> forall c, (0 <= crd c u)%Q).
      { intros [ [m0 m1] m2] [ [u0 u1] u2] (W0 & W1 & W2) c'. assert (K : forall m k, weight m k -> (0 <= k)%Q) by (intros [ | ] k H; cbn in H; lra).
        destruct c' as [ | [ | c'] ]; cbn; eauto. }
      assert (GL : forall i, i < length lst -> one (ul f i) /\ same_point (px f i) (cmb T (ul f i)) /\ (forall c, (0 <= crd c (ul f i))%Q)).
      { intros i Hi. destruct (located_f T U lst f Hf i Hi) as (O1 & O2 & X1 & X2 & W1 & W2). split; [ exact O1 | ]. split; [ exact X1 | ]. eapply Pos. exact W1. }
      assert (GR : forall i, i < length lst -> one (ur f i) /\ same_point (px f i) (cmb U (ur f i)) /\ (forall c, (0 <= crd c (ur f i))%Q)).
      { intros i Hi. destruct (located_f T U lst f Hf i Hi) as (O1 & O2 & X1 & X2 & W1 & W2). split; [ exact O2 | ]. split; [ exact X2 | ]. eapply Pos. exact W2. }
      destruct (Tri T (ul f) GL) as (wl & Ol & Xl & Cl). destruct (Tri U (ur f) GR) as (wr & Or & Xr & Cr).
      assert (Ins : forall t w g, (forall i, i < length lst -> one (g i) /\ same_point (px f i) (cmb t (g i)) /\ (forall c, (0 <= crd c (g i))%Q)) ->
        one w -> same_point ctr (cmb t w) -> (forall c, c < 3 -> (crd c w == (crd c (g 0%nat) + crd c (g 1%nat) + crd c (g 2%nat)) * (1 # 3))%Q) -> inside t ctr).
      { intros t w g G Ow Xw Cw. destruct (G 0 ltac:(lia)) as (_ & _ & P0), (G 1 ltac:(lia)) as (_ & _ & P1), (G 2 ltac:(lia)) as (_ & _ & P2).
        assert (K : forall c, c < 3 -> (0 <= crd c w)%Q) by (intros c' Hc'; rewrite (Cw c' Hc'); specialize (P0 c'); specialize (P1 c'); specialize (P2 c'); lra).
        pose proof (K 0 ltac:(lia)) as K0. pose proof (K 1 ltac:(lia)) as K1. pose proof (K 2 ltac:(lia)) as K2.
        destruct w as [ [w0 w1] w2]. exists w0, w1, w2. split; [ | exact Xw ]. unfold one, crd in *. repeat split; assumption. }
      exists ctr. split; [ split; [ apply (Ins T wl (ul f)) | apply (Ins U wr (ur f)) ]; assumption | ].
      intros v w Hv Hw Sg.
      assert (Cv : forall v, In v S -> corner3 T (pt v)) by (intros v' J; apply IS in J; destruct J as [ [<- | [<- | [<- | [ ] ] ] ] _]; cbn; auto).
      destruct (edge_zero T (pt v) (pt w) (Cv v Hv) (Cv w Hw)) as (k & Hk & Z). destruct (Z ctr Sg) as (w' & Ow' & Xw' & Zw').
      assert (Ew : (crd k wl == 0)%Q).
      { destruct wl as [ [x0 x1] x2], w' as [ [y0 y1] y2]. unfold one, cmb in *.
        destruct (comb_inj T x0 x1 x2 y0 y1 y2 NT) as (E0 & E1 & E2); [ rewrite Ol, Ow'; reflexivity | eapply same_trans; [ apply same_sym; exact Xl | exact Xw' ] | ].
        destruct k as [ | [ | k] ]; cbn in *; [ rewrite E0 | rewrite E1 | rewrite E2 ]; exact Zw'. }
      rewrite (Cl k Hk) in Ew. destruct (GL 0 ltac:(lia)) as (_ & _ & P0), (GL 1 ltac:(lia)) as (_ & _ & P1), (GL 2 ltac:(lia)) as (_ & _ & P2).
      specialize (P0 k). specialize (P1 k). specialize (P2 k).
      apply (proj1 (no_three T U NT NU lst D I f Hf k 0 1 2 Hk ltac:(lia) ltac:(lia) ltac:(lia) ltac:(lia) ltac:(lia) ltac:(lia))).
      repeat split; lra.
  Qed.
End Test.

(** ** The loop *)
Section Faces.
  Context {P D : Type}.
  Variable P_eqb : P -> P -> bool.
  Variable coords : P -> vec3.
  Variable m : soup P D.
  Hypothesis V : valid_faces m.
  Hypothesis Dp : NoDup (points m).
  Notation pt := (at_ coords (points m)).

  Lemma overlap_points_ok : overlap_points P_eqb m = points m.
  Proof.
    unfold overlap_points. assert (G : forall l pl, pl_check pl = false -> pl_points (fold_left (fun pl p => fst (pl_insert P_eqb pl p)) l pl) = pl_points pl ++ l).
    { induction l as [ | p l IH]; intros pl H; cbn [fold_left]; [ rewrite app_nil_r; reflexivity | ].
      unfold pl_insert at 2. rewrite H. cbn [negb fst]. rewrite IH; [ cbn [pl_points]; rewrite <- app_assoc; reflexivity | reflexivity ]. }
    rewrite G; reflexivity.
  Qed.
  Definition face_ok (fi : nat) (f : face) : Prop :=
    nth_error (faces m) fi = Some f /\ (forall v, In v (l3 f) -> v < length (points m)) /\ ~ degenerate_face coords m fi.
  Lemma pt_some : forall v p, nth_error (points m) v = Some p -> pt v = coords p.
  Proof. intros v p H. unfold at_. rewrite H. reflexivity. Qed.
  Lemma get_point : forall v, v < length (points m) -> exists p, nth_error (points m) v = Some p.
  Proof. intros v H. destruct (nth_error (points m) v) as [p | ] eqn:E; [ eauto | apply nth_error_None in E; lia ]. Qed.
  (** A face in any order of its vertices. *)
  Lemma sorted_face : forall fi f, face_ok fi f -> let '(a, b, c) := sort3 f in
    a < length (points m) /\ b < length (points m) /\ c < length (points m) /\ nondegenerate (pt a, pt b, pt c) /\ ascending [a; b; c] /\
    (forall x, on_face coords m fi x <-> inside (pt a, pt b, pt c) x) /\
    (forall p, corner_of m fi p <-> exists v, In v [a; b; c] /\ nth_error (points m) v = Some p).
  Proof.
    intros fi f (Ef & Lf & Nd). pose proof (sort3_in f) as Si. pose proof (sort3_ascending f) as Sa. pose proof (sort3_cases (fst (fst f)) (snd (fst f)) (snd f)) as Sc.
    rewrite <- !surjective_pairing in Sc.
    destruct f as [ [x y] z]. cbn [fst snd] in Sc.
    destruct (get_point x) as (px & Ex); [ apply Lf; cbn; auto | ]. destruct (get_point y) as (py & Ey); [ apply Lf; cbn; auto | ]. destruct (get_point z) as (pz & Ez); [ apply Lf; cbn; auto | ].
    assert (Fc : forall p q r, face_corners m fi (p, q, r) <-> (p, q, r) = (px, py, pz)).
    { intros p q r. split.
      - intros (a & b & c & p' & q' & r' & Ef' & Ha & Hb & Hc & E). rewrite Ef in Ef'. injection Ef' as <- <- <-. congruence.
      - intro E. injection E as -> -> ->. exists x, y, z, px, py, pz. auto. }
    assert (N0 : nondegenerate (pt x, pt y, pt z)).
    { intro C. apply Nd. exists px, py, pz. split; [ apply Fc; reflexivity | ]. rewrite (pt_some _ _ Ex), (pt_some _ _ Ey), (pt_some _ _ Ez) in C. exact C. }
    assert (Pr : proper (x, y, z)).
    { assert (K : forall u v : vec3, collinear u u v /\ collinear u v u /\ collinear v u u).
      { intros u v. assert (A : on_line u (vsub v u) u) by (exists 0%Q; repeat split; ring). assert (B : on_line u (vsub v u) v) by (exists 1%Q; unfold vsub, vx, vy, vz; cbn [fst snd]; repeat split; ring).
        repeat split; exists u, (vsub v u); auto. }
      repeat split; intro E; subst; apply N0; apply K. }
    specialize (Sa Pr).
    assert (F0 : forall w, on_face coords m fi w <-> inside (pt x, pt y, pt z) w).
    { intro w. unfold on_face. rewrite (pt_some _ _ Ex), (pt_some _ _ Ey), (pt_some _ _ Ez). split.
      - intros (p & q & r & F & H). apply Fc in F. injection F as -> -> ->. exact H.
      - intro H. exists px, py, pz. split; [ apply Fc; reflexivity | exact H ]. }
    assert (C0 : forall p, corner_of m fi p <-> exists v, In v [x; y; z] /\ nth_error (points m) v = Some p).
    { intro p. split.
      - intros (q & r & s & F & H). apply Fc in F. injection F as -> -> ->. destruct H as [-> | [-> | ->] ]; eexists; (split; [ | eassumption ]); cbn; auto.
      - intros (v & H & E). exists px, py, pz. split; [ apply Fc; reflexivity | ]. destruct H as [<- | [<- | [<- | [ ] ] ] ]; [ left | right; left | right; right ]; congruence. }
    destruct (sort3 (x, y, z)) as [ [a b] c]. cbn [l3] in *.
    assert (Lx : forall v, In v [a; b; c] -> v < length (points m)) by (intros v J; apply Lf, Si, J).
    split; [ apply Lx; cbn; auto | ]. split; [ apply Lx; cbn; auto | ]. split; [ apply Lx; cbn; auto | ].
    assert (Sw : (nondegenerate (pt a, pt b, pt c)) /\ forall w, inside (pt x, pt y, pt z) w <-> inside (pt a, pt b, pt c) w).
    { cbn in Sc. unfold nondegenerate in *.
      repeat (destruct Sc as [Sc | Sc]); try contradiction; injection Sc as <- <- <-;
        (split; [ intros (o & d & A & B & C); apply N0; exists o, d; auto | intro w; split; intro H ]); try exact H;
        try (apply inside_swap1; exact H); try (apply inside_swap2; exact H); try (apply inside_swap1, inside_swap2; exact H); try (apply inside_swap2, inside_swap1; exact H);
        try (apply inside_swap1, inside_swap2, inside_swap1; exact H). }
    split; [ apply Sw | ]. split; [ exact Sa | ]. split; [ intro w; rewrite F0; apply Sw | ].
    intro p. rewrite C0. split; intros (v & H & E); exists v; (split; [ apply Si; exact H | exact E ]).
  Qed.

  Lemma overlap_test_ok : forall fi fj f g, face_ok fi f -> face_ok fj g ->
    exists b : bool, overlap_test coords (points m) f g = Ok b /\ (b = true <-> overlap coords m fi fj).
  Proof.
    intros fi fj f g Hf Hg. pose proof (sorted_face fi f Hf) as F. pose proof (sorted_face fj g Hg) as G. unfold overlap_test.
    destruct (sort3 f) as [ [a b] c]. destruct (sort3 g) as [ [p q] r]. destruct F as (La & Lb & Lc & NT & Ac & Fx & Fp). destruct G as (Lp & Lq & Lr & NU & Ar & Gx & Gp).
    destruct (set_inter_ok _ _ Ac Ar) as [DS IS].
    destruct (test_ok coords (points m) a b c p q r La Lb Lc Lp Lq Lr NT NU (set_inter [a; b; c] [p; q; r]) DS IS) as (l & E & T). rewrite E. cbn [bind].
    exists (match l with [] => false | _ => if length l =? 1 then length (set_inter [a; b; c] [p; q; r]) <? 1 else if length l =? 2 then length (set_inter [a; b; c] [p; q; r]) <? 2 else true end).
    split; [ destruct l as [ | x1 [ | x2 [ | x3 l] ] ]; reflexivity | ]. rewrite T. clear T E. unfold beyond, overlap.
    assert (Sh : forall x, shared m fi fj x <-> exists v, In v (set_inter [a; b; c] [p; q; r]) /\ nth_error (points m) v = Some x).
    { intro x. unfold shared. rewrite Fp, Gp. split.
      - intros [ (v & I & E) (w & J & E')]. exists v. split; [ | exact E ]. apply IS. split; [ exact I | ].
        replace v with w; [ exact J | ]. apply (proj1 (NoDup_nth_error (points m)) Dp); [ apply nth_error_Some; congruence | congruence ].
      - intros (v & I & E). apply IS in I. split; exists v; tauto. }
    split.
    - intros (x & [B1 B2] & H). exists x. rewrite Fx, Gx. split; [ exact B1 | ]. split; [ exact B2 | ]. intros y z Hy Hz S. apply Sh in Hy. apply Sh in Hz.
      destruct Hy as (v & Iv & Ev). destruct Hz as (w & Iw & Ew). apply (H v w Iv Iw). rewrite (pt_some _ _ Ev), (pt_some _ _ Ew). exact S.
    - intros (x & B1 & B2 & H). rewrite Fx in B1. rewrite Gx in B2. exists x. split; [ split; assumption | ]. intros v w Iv Iw S.
      destruct (get_point v) as (y & Ey); [ apply IS in Iv; destruct Iv as [ [<- | [<- | [<- | [ ] ] ] ] _]; assumption | ].
      destruct (get_point w) as (z & Ez); [ apply IS in Iw; destruct Iw as [ [<- | [<- | [<- | [ ] ] ] ] _]; assumption | ].
      apply (H y z); [ apply Sh; eauto | apply Sh; eauto | ]. rewrite <- (pt_some _ _ Ey), <- (pt_some _ _ Ez). exact S.
  Qed.

  Variable degenerate : list nat.
  Hypothesis Dg : forall fi, fi < num_faces m -> (In fi degenerate <-> degenerate_face coords m fi).
  Lemma is_in_iff : forall fi, is_in degenerate fi = true <-> In fi degenerate.
  Proof. intro fi. unfold is_in. rewrite existsb_exists. split; [ intros (x & H & E); apply Nat.eqb_eq in E; subst; exact H | intro H; exists fi; rewrite Nat.eqb_refl; auto ]. Qed.
  Lemma get_face : forall fi, fi < num_faces m -> ~ degenerate_face coords m fi -> exists f, soup_face m fi = Ok f /\ face_ok fi f.
  Proof.
    intros fi H N. destruct (valid_corners m fi V H) as (v0 & v1 & v2 & p0 & p1 & p2 & Hf & H0 & H1 & H2). exists (v0, v1, v2). split; [ apply vec_at_ok; exact Hf | ].
    split; [ exact Hf | ]. split; [ | exact N ]. intros v [<- | [<- | [<- | [ ] ] ] ]; apply nth_error_Some; congruence.
  Qed.
  Lemma overlap_loop_ok : forall (t : tree (box * nat)) fi f found leaves,
    face_ok fi f -> Forall2 (fun i l => nth_error (t_leaves t) i = Some l) found leaves -> (forall l, In l leaves -> snd l < num_faces m) ->
    exists b : bool, overlap_loop coords m degenerate (points m) t fi f found = Ok b /\
      (b = true <-> exists fj, In fj (map snd leaves) /\ fi < fj /\ ~ degenerate_face coords m fj /\ overlap coords m fi fj).
  Proof.
    intros t fi f found leaves Hf H. induction H as [ | i l found leaves Hi H IH]; intro R; cbn [overlap_loop map].
    - exists false. split; [ reflexivity | ]. split; [ discriminate | intros (fj & [ ] & _) ].
    - rewrite Hi. destruct IH as (b & E & B); [ intros x J; apply R; right; exact J | ]. pose proof (R l (or_introl eq_refl)) as Ll.
      destruct ((snd l <=? fi) || is_in degenerate (snd l)) eqn:C.
      + exists b. split; [ exact E | ]. rewrite B. split.
        * intros (fj & J & K). exists fj. split; [ right; exact J | exact K ].
        * intros (fj & [<- | J] & K1 & K2 & K3); [ | exists fj; auto ]. exfalso. apply orb_true_iff in C. destruct C as [C | C]; [ apply Nat.leb_le in C; lia | ].
          apply is_in_iff in C. apply K2. apply Dg; assumption.
      + apply orb_false_iff in C. destruct C as [C1 C2]. apply Nat.leb_gt in C1.
        assert (N : ~ degenerate_face coords m (snd l)) by (intro X; apply Dg in X; [ apply is_in_iff in X; congruence | exact Ll ]).
        destruct (get_face (snd l) Ll N) as (g & Eg & Hg). rewrite Eg. cbn [bind].
        destruct (overlap_test_ok fi (snd l) f g Hf Hg) as (tb & Et & Bt). rewrite Et. cbn [bind]. destruct tb.
        * exists true. split; [ reflexivity | ]. split; [ intros _ | reflexivity ]. exists (snd l). split; [ left; reflexivity | ]. split; [ exact C1 | ]. split; [ exact N | apply Bt; reflexivity ].
        * exists b. split; [ exact E | ]. rewrite B. split.
          -- intros (fj & J & K). exists fj. split; [ right; exact J | exact K ].
          -- intros (fj & [<- | J] & K1 & K2 & K3); [ apply Bt in K3; discriminate | exists fj; auto ].
  Qed.

  Variable pbox : P -> box.
  Hypothesis Hbox : forall p, in_box (coords p) (pbox p).
  Variable longest_axis : option box -> nat.
  Variable sort_by : nat -> list (box * nat) -> list (box * nat).
  Variable nth_element_by : nat -> nat -> list (box * nat) -> list (box * nat).
  Hypothesis Hre : rearranges sort_by nth_element_by.

  Lemma query_faces : forall t fi, aabb_tree pbox longest_axis sort_by nth_element_by m t -> fi < num_faces m ->
    exists found leaves, get_intersecting_leaves (@fst box nat) (fun x => boxes_intersect x (the_box pbox m fi)) t = Ok found /\
      Forall2 (fun i l => nth_error (t_leaves t) i = Some l) found leaves /\
      forall fj, In fj (map snd leaves) <-> fj < num_faces m /\ boxes_intersect (the_box pbox m fj) (the_box pbox m fi) = true.
  Proof.
    intros t fi Ht Hfi. destruct Ht as [limit ls t Hls Hst]. rewrite (leaves_ok pbox m V) in Hls. injection Hls as <-.
    destruct (C23_query_exact _ _ _ _ _ _ _ _ (fun x => boxes_intersect x (the_box pbox m fi)) Hre Hst (C23_box_query (the_box pbox m fi))) as (found & leaves & Hq & Hnd & Hf & Hp).
    exists found, leaves. split; [ exact Hq | ]. split; [ exact Hf | ].
    assert (Hp' : Permutation (map snd leaves) (filter (fun fj => boxes_intersect (the_box pbox m fj) (the_box pbox m fi)) (seq 0 (num_faces m)))).
    { apply (Permutation_map snd) in Hp. eapply Permutation_trans; [ exact Hp | ]. clear. induction (seq 0 (num_faces m)) as [ | fj l IH]; [ apply Permutation_refl | ].
      cbn [map filter fst]. destruct (boxes_intersect (the_box pbox m fj) (the_box pbox m fi)); cbn [map snd]; [ apply perm_skip | ]; exact IH. }
    intro fj. split.
    - intro H. apply (Permutation_in _ Hp') in H. apply filter_In in H. destruct H as [H1 H2]. apply in_seq in H1. split; [ lia | exact H2 ].
    - intros [H1 H2]. apply (Permutation_in _ (Permutation_sym Hp')). apply filter_In. split; [ apply in_seq; lia | exact H2 ].
  Qed.
  Lemma face_in_box : forall fi x, fi < num_faces m -> on_face coords m fi x -> in_box x (the_box pbox m fi).
  Proof.
    intros fi x Hfi (p & q & r & F & (u & v & w & (Hu & Hv & Hw & Hs) & (X & Y & Z))). destruct (the_box_ok pbox m fi V Hfi) as [_ [B _] ]. destruct F as (a & b & c & p' & q' & r' & Ef & Ha & Hb & Hc & E). injection E as <- <- <-.
    assert (B0 : box_in (pbox p) (the_box pbox m fi)) by (apply B; exists a, b, c; auto). assert (B1 : box_in (pbox q) (the_box pbox m fi)) by (apply B; exists a, b, c; auto).
    assert (B2 : box_in (pbox r) (the_box pbox m fi)) by (apply B; exists a, b, c; auto).
    destruct (Hbox p) as (a1 & a2 & a3), (Hbox q) as (b1 & b2 & b3), (Hbox r) as (c1 & c2 & c3).
    destruct B0 as (d1 & d2 & d3 & d4 & d5 & d6), B1 as (f1 & f2 & f3 & f4 & f5 & f6), B2 as (g1 & g2 & g3 & g4 & g5 & g6).
    generalize dependent (the_box pbox m fi). intros bx; intros. unfold in_box. unfold comb, vx, vy, vz in *. cbn [fst snd] in *.
    assert (C : forall u v w a b c k : Q, (0 <= u -> 0 <= v -> 0 <= w -> u + v + w == 1 -> k <= a -> k <= b -> k <= c -> k <= u * a + v * b + w * c)%Q).
    { clear. intros u v w a b c k Hu Hv Hw Hs Ha Hb Hc. assert (0 <= u * (a - k))%Q by (apply Qmult_le_0_compat; lra). assert (0 <= v * (b - k))%Q by (apply Qmult_le_0_compat; lra).
      assert (0 <= w * (c - k))%Q by (apply Qmult_le_0_compat; lra). assert (E : (u * a + v * b + w * c == u * (a - k) + v * (b - k) + w * (c - k) + (u + v + w) * k)%Q) by ring. rewrite E, Hs. lra. }
    assert (C' : forall u v w a b c k : Q, (0 <= u -> 0 <= v -> 0 <= w -> u + v + w == 1 -> a <= k -> b <= k -> c <= k -> u * a + v * b + w * c <= k)%Q).
    { intros u' v' w' x' y' z' k A0 A1 A2 A3 A4 A5 A6. assert (K := C u' v' w' (- x')%Q (- y')%Q (- z')%Q (- k)%Q A0 A1 A2 A3). lra. }
    split; [ | split ]; [ rewrite X | rewrite Y | rewrite Z ]; (split; [ apply C | apply C' ]); lra.
  Qed.

  Lemma overlap_body_ok : forall t fi, aabb_tree pbox longest_axis sort_by nth_element_by m t -> fi < num_faces m ->
    exists b : bool, overlap_body coords pbox m degenerate (points m) t fi = Ok (if b then [fi] else []) /\
      (b = true <-> ~ degenerate_face coords m fi /\ exists fj, fi < fj /\ fj < num_faces m /\ ~ degenerate_face coords m fj /\ overlap coords m fi fj).
  Proof.
    intros t fi Ht Hfi. unfold overlap_body. destruct (is_in degenerate fi) eqn:C.
    - exists false. split; [ reflexivity | ]. split; [ discriminate | ]. intros [N _]. exfalso. apply N. apply Dg; [ exact Hfi | apply is_in_iff; exact C ].
    - assert (N : ~ degenerate_face coords m fi) by (intro X; apply Dg in X; [ apply is_in_iff in X; congruence | exact Hfi ]).
      destruct (query_faces t fi Ht Hfi) as (found & leaves & Eq & F2 & Hl). destruct (get_face fi Hfi N) as (f & Ef & Hf).
      rewrite (proj1 (the_box_ok pbox m fi V Hfi)). cbn [bind]. rewrite Eq. cbn [bind]. rewrite Ef. cbn [bind].
      destruct (overlap_loop_ok t fi f found leaves Hf F2) as (b & El & B). { intros l J. apply Hl. apply in_map. exact J. }
      rewrite El. cbn [bind]. exists b. split; [ reflexivity | ]. rewrite B. split.
      + intros (fj & J & K1 & K2 & K3). split; [ exact N | ]. exists fj. apply Hl in J. tauto.
      + intros (_ & fj & K1 & K2 & K3 & K4). exists fj. split; [ | auto ]. apply Hl. split; [ exact K2 | ].
        destruct K4 as (x & X1 & X2 & _). apply (face_in_box fi x Hfi) in X1. apply (face_in_box fj x K2) in X2. destruct X1 as (a1 & a2 & a3), X2 as (b1 & b2 & b3).
        unfold boxes_intersect, Qltb. rewrite negb_true_iff, !orb_false_iff, !negb_false_iff, !Qle_bool_iff. repeat split; lra.
  Qed.
End Faces.
