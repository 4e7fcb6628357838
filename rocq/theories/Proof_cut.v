(** * Two meshes cut along their intersection, each face divided into triangles *)
From Coq Require Import List Arith Bool QArith Qabs Lqa Lia.
From Verif Require Import Model_base Model_geometry Model_soup Model_corefine Spec_candidates Spec_defects Spec_ffi Spec_corefine Spec_mix.
From Verif Require Import Proof_fan Proof_extreme Proof_hull Proof_ffi_result Proof_cells Proof_outline.
Import ListNotations.
Local Open Scope nat_scope.

(** ** Features of a triangle with named corners *)
Lemma has_pick : forall t v, has_vertex t v <-> In v (pick full t).
Proof. intros [ [a b] c] v. cbn. firstorder. Qed.
Lemma pick_has : forall m t v, In v (pick m t) -> has_vertex t v.
Proof. intros [ [ [ | ] [ | ] ] [ | ] ] [ [a b] c] v H; cbn in *; intuition. Qed.
Lemma same_has : forall t u, (forall v, has_vertex t v <-> has_vertex u v) -> forall v, In v (pick full t) <-> In v (pick full u).
Proof. intros t u H v. rewrite <- !has_pick. apply H. Qed.
Lemma bits_full : forall m, (bits m < 3 \/ m = full)%nat.
Proof. intros [ [ [ | ] [ | ] ] [ | ] ]; cbn; auto; left; lia. Qed.
Lemma bits_pos : forall t m x, in_feature t m x -> (1 <= bits m)%nat.
Proof. intros t [ [ [ | ] [ | ] ] [ | ] ] x (u & v & w & (A & B & C & S) & _); cbn in *; try lia. exfalso. lra. Qed.

Lemma feature_unique : forall t m k x, nondegenerate t -> in_feature t m x -> in_feature t k x -> m = k.
Proof.
  intros t [ [m0 m1] m2] [ [k0 k1] k2] x N (u & v & w & (A & B & C & S) & X) (u' & v' & w' & (A' & B' & C' & S') & X').
  destruct (comb_inj t u v w u' v' w' N) as (E0 & E1 & E2); [ rewrite S, S'; reflexivity | eapply same_trans; [ apply same_sym; exact X | exact X' ] | ].
  assert (G : forall b b' r r', weight b r -> weight b' r' -> (r == r')%Q -> b = b').
  { intros [ | ] [ | ] r r' W W' E; cbn in *; auto; exfalso; lra. }
  rewrite (G _ _ _ _ A A' E0), (G _ _ _ _ B B' E1), (G _ _ _ _ C C' E2). reflexivity.
Qed.

Section Named.
  Variable pos : nat -> vec3.
  Notation tri := (triangle_of pos).

  Lemma corner_feature : forall t v, has_vertex t v -> exists m, in_feature (tri t) m (pos v) /\ bits m = 1 /\ forall w, In w (pick m t) <-> w = v.
  Proof.
    intros [ [a b] c] v [-> | [-> | ->] ]; [ exists (true, false, false) | exists (false, true, false) | exists (false, false, true) ]; cbn [triangle_of].
    1: (split; [ exists 1%Q, 0%Q, 0%Q | split; [ reflexivity | intro w; cbn; intuition ] ]).
    2: (split; [ exists 0%Q, 1%Q, 0%Q | split; [ reflexivity | intro w; cbn; intuition ] ]).
    3: (split; [ exists 0%Q, 0%Q, 1%Q | split; [ reflexivity | intro w; cbn; intuition ] ]).
    all: split; [ cbn; repeat split; lra | coords; repeat split; ring ].
  Qed.
  Lemma corner_inside : forall t v, has_vertex t v -> inside (tri t) (pos v).
  Proof. intros t v H. destruct (corner_feature t v H) as (m & F & _). exact (feature_inside _ _ _ F). Qed.

  Lemma edge_feature : forall t a b x, has_vertex t a -> has_vertex t b -> a <> b -> strictly_between (pos a) (pos b) x ->
    exists m, in_feature (tri t) m x /\ bits m = 2 /\ forall v, In v (pick m t) <-> v = a \/ v = b.
  Proof.
    intros [ [p q] r] a b x Ha Hb N (k & K0 & K1 & E).
    assert (W : forall u v w, (u + v + w == 1)%Q -> same_point (mix (pos a) (pos b) k) (comb (pos p, pos q, pos r) u v w) -> same_point x (comb (pos p, pos q, pos r) u v w))
      by (intros; eapply same_trans; [ exact E | assumption ]).
    destruct Ha as [-> | [-> | ->] ], Hb as [-> | [-> | ->] ]; try (exfalso; apply N; reflexivity); cbn [triangle_of].
    1: (exists (true, true, false); split; [ exists (1 - k)%Q, k, 0%Q | split; [ reflexivity | intro v; cbn; intuition ] ]).
    2: (exists (true, false, true); split; [ exists (1 - k)%Q, 0%Q, k | split; [ reflexivity | intro v; cbn; intuition ] ]).
    3: (exists (true, true, false); split; [ exists k, (1 - k)%Q, 0%Q | split; [ reflexivity | intro v; cbn; intuition ] ]).
    4: (exists (false, true, true); split; [ exists 0%Q, (1 - k)%Q, k | split; [ reflexivity | intro v; cbn; intuition ] ]).
    5: (exists (true, false, true); split; [ exists k, 0%Q, (1 - k)%Q | split; [ reflexivity | intro v; cbn; intuition ] ]).
    6: (exists (false, true, true); split; [ exists 0%Q, k, (1 - k)%Q | split; [ reflexivity | intro v; cbn; intuition ] ]).
    all: split; [ cbn; repeat split; lra | apply W; [ ring | unfold mix; coords; repeat split; ring ] ].
  Qed.

  Lemma feature_vertex : forall t m x, in_feature (tri t) m x -> bits m = 1 ->
    exists v, has_vertex t v /\ (forall w, In w (pick m t) <-> w = v) /\ same_point x (pos v).
  Proof.
    intros [ [p q] r] [ [ [ | ] [ | ] ] [ | ] ] x (u & v & w & (A & B & C & S) & X) H; cbn in H; try discriminate; cbn [weight] in *; cbn [triangle_of] in X.
    1: exists p. 2: exists q. 3: exists r.
    all: split; [ cbn; auto | ]; split; [ intro y; cbn; intuition | ].
    all: eapply same_trans; [ exact X | ]; coords.
    - assert (u == 1)%Q by lra. rewrite H0, B, C. repeat split; ring.
    - assert (v == 1)%Q by lra. rewrite H0, A, C. repeat split; ring.
    - assert (w == 1)%Q by lra. rewrite H0, A, B. repeat split; ring.
  Qed.
  Lemma feature_edge : forall t m x, nondegenerate (tri t) -> in_feature (tri t) m x -> bits m = 2 ->
    exists a b, a <> b /\ has_vertex t a /\ has_vertex t b /\ (forall w, In w (pick m t) <-> w = a \/ w = b) /\ strictly_between (pos a) (pos b) x.
  Proof.
    intros [ [p q] r] [ [m0 m1] m2] x N (u & v & w & H) E.
    assert (D : p <> q /\ q <> r /\ p <> r).
    { apply nondegenerate_normal in N. cbn [triangle_of] in N. repeat split; intros ->; apply N; unfold normal; coords; repeat split; ring. }
    destruct D as (D1 & D2 & D3). destruct H as ((A & B & C & S) & X).
    destruct m0, m1, m2; cbn in E; try discriminate; cbn [weight] in *; cbn [triangle_of] in X.
    1: exists p, q. 2: exists p, r. 3: exists q, r.
    all: split; [ assumption | ]; split; [ cbn; auto | ]; split; [ cbn; auto | ]; split; [ intro y; cbn; intuition | ].
    - exists v. split; [ lra | ]. split; [ lra | ]. eapply same_trans; [ exact X | ]. assert (Eu : (u == 1 - v)%Q) by lra. unfold mix. coords. rewrite Eu, C. repeat split; ring.
    - exists w. split; [ lra | ]. split; [ lra | ]. eapply same_trans; [ exact X | ]. assert (Eu : (u == 1 - w)%Q) by lra. unfold mix. coords. rewrite Eu, B. repeat split; ring.
    - exists w. split; [ lra | ]. split; [ lra | ]. eapply same_trans; [ exact X | ]. assert (Eu : (v == 1 - w)%Q) by lra. unfold mix. coords. rewrite Eu, A. repeat split; ring.
  Qed.
  Lemma distinct_corners : forall t, nondegenerate (tri t) -> let '(p, q, r) := t in NoDup [p; q; r].
  Proof.
    intros [ [p q] r] N. apply nondegenerate_normal in N. cbn [triangle_of] in N.
    assert (D : p <> q /\ q <> r /\ p <> r) by (repeat split; intros ->; apply N; unfold normal; coords; repeat split; ring).
    destruct D as (D1 & D2 & D3). repeat constructor; cbn; intuition.
  Qed.
  Lemma pick_all : forall t u m, nondegenerate (tri t) -> (forall v, has_vertex t v -> In v (pick m u)) -> m = full /\ forall v, has_vertex u v -> has_vertex t v.
  Proof.
    intros t u m N H. pose proof (distinct_corners t N) as D. destruct t as [ [p q] r], u as [ [a b] c].
    assert (I : incl [p; q; r] (pick m (a, b, c))) by (intros v J; apply H; cbn in *; intuition).
    pose proof (NoDup_incl_length D I) as L.
    assert (E : m = full) by (destruct m as [ [ [ | ] [ | ] ] [ | ] ]; cbn in L; auto; lia).
    split; [ exact E | ]. subst m. intros v Hv. cbn [pick full app] in *.
    pose proof (NoDup_length_incl D (l' := [a; b; c])) as G. cbn in G.
    assert (J : In v [p; q; r]) by (apply G; [ lia | exact I | cbn; cbn in Hv; intuition ]). cbn in *. intuition.
  Qed.
  Lemma same_inside : forall t u x, (forall v, has_vertex t v -> has_vertex u v) -> inside (tri t) x -> inside (tri u) x.
  Proof.
    intros t u x H I. apply (closed_inside _ full). apply (closed_pick pos t full u full).
    - intros p J. apply has_pick, H, has_pick, J.
    - apply inside_closed, I.
  Qed.
End Named.

(** ** Directions in the plane of a triangle *)
Section Planes.
  Local Open Scope Q_scope.
  Lemma plane_dir : forall T d, nondegenerate T -> vdot (normal T) d == 0 -> dir T full d.
  Proof.
    intros [ [a b] c] d N H. apply nondegenerate_normal in N. rewrite dir_basis. cbn [basis full in_span].
    destruct (in_plane (vsub b a) (vsub c a) d N H) as (k & j & E). exists k, j. exact E.
  Qed.
  Lemma parallel_planes : forall T U d, nondegenerate T -> nondegenerate U -> zero3 (vcross (normal T) (normal U)) -> vdot (normal T) d == 0 -> vdot (normal U) d == 0.
  Proof.
    intros T U d NT NU Z H. destruct (parallel _ _ (nondegenerate_normal _ NT) Z) as (k & E0 & E1 & E2).
    revert E0 E1 E2 H. generalize (normal T), (normal U). clear. intros [ [a0 a1] a2] [ [b0 b1] b2] E0 E1 E2 H. destruct d as [ [d0 d1] d2]. coords.
    rewrite E0, E1, E2. transitivity (k * (a0 * d0 + a1 * d1 + a2 * d2)); [ ring | rewrite H; ring ].
  Qed.
  (** From an inner point, one can go a little in every direction of the plane. *)
  Lemma open_move : forall T x d, nondegenerate T -> in_feature T full x -> vdot (normal T) d == 0 ->
    exists e0, 0 < e0 /\ forall e, - e0 <= e <= e0 -> in_feature T full (move x d e).
  Proof.
    intros T x d N F H. pose proof (plane_dir T d N H) as (p & q & r & (_ & _ & _ & S) & E).
    destruct F as (u & v & w & (A & B & C & S1) & X). cbn [weight full] in *.
    assert (K : forall u p, 0 < u -> exists e0, 0 < e0 /\ forall e, - e0 <= e <= e0 -> 0 < u + e * p).
    { clear. intros u p Pu. exists (u / (2 * (1 + Qabs.Qabs p))). pose proof (Qabs.Qabs_nonneg p).
      split; [ apply Qlt_shift_div_l; lra | ]. intros e [E1 E2]. set (k := u / (2 * (1 + Qabs.Qabs p))) in *.
      assert (G : k * (2 * (1 + Qabs.Qabs p)) == u) by (unfold k; field; lra).
      pose proof (Qabs.Qle_Qabs p). pose proof (Qabs.Qle_Qabs (- p)) as O. rewrite Qabs.Qabs_opp in O.
      assert (0 < k) by (unfold k; apply Qlt_shift_div_l; lra).
      assert (- (k * Qabs.Qabs p) <= e * p). { destruct (Qlt_le_dec e 0); nra. }
      nra. }
    destruct (small_both _ _ (small_both _ _ (K u p A) (K v q B)) (K w r C)) as (e0 & P0 & G). exists e0. split; [ exact P0 | ].
    intros e He. destruct (G e He) as [ [G1 G2] G3]. exists (u + e * p), (v + e * q), (w + e * r). split; [ cbn [weight full]; repeat split; [ exact G1 | exact G2 | exact G3 | ] | ].
    - transitivity ((u + v + w) + e * (p + q + r)); [ ring | rewrite S1, S; ring ].
    - destruct T as [ [a b] c], X as (X0 & X1 & X2), E as (E0 & E1 & E2). unfold move. coords. rewrite X0, X1, X2, E0, E1, E2. repeat split; ring.
  Qed.
  Lemma toward : forall T x y e, 0 < e -> e <= 1 -> inside T x -> in_feature T full y -> in_feature T full (mix x y e).
  Proof.
    intros T x y e E0 E1 (u & v & w & (A & B & C & S) & X) (u' & v' & w' & (A' & B' & C' & S') & Y). cbn [weight full] in *.
    exists ((1 - e) * u + e * u'), ((1 - e) * v + e * v'), ((1 - e) * w + e * w'). split; [ | apply mix_comb; assumption ].
    assert (K : forall p q, 0 <= p -> 0 < q -> 0 < (1 - e) * p + e * q).
    { intros p q Hp Hq. assert (0 <= (1 - e) * p) by (apply Qmult_le_0_compat; lra). assert (0 < e * q) by (apply Qmult_lt_0_compat; lra). lra. }
    cbn [weight full]. repeat split; [ apply K | apply K | apply K | ]; try assumption.
    transitivity ((1 - e) * (u + v + w) + e * (u' + v' + w')); [ ring | rewrite S, S'; ring ].
  Qed.
  Lemma move_to : forall x y e, same_point (move x (vsub y x) e) (mix x y e).
  Proof. intros x y e. unfold move, mix. coords. repeat split; ring. Qed.
  Definition center (T : triangle) : vec3 := comb T (1#3) (1#3) (1#3).
  Lemma center_in : forall T, in_feature T full (center T).
  Proof. intro T. exists (1#3), (1#3), (1#3). split; [ cbn; repeat split; reflexivity | apply same_refl ]. Qed.
End Planes.
