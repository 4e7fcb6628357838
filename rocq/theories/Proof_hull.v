(** * The intersection of two triangles is the hull of its vertices *)
From Coq Require Import List Arith Bool NArith QArith Lqa Lia Setoid.
From Verif Require Import Model_base Model_geometry Model_region Model_defects Spec_candidates Spec_defects Spec_ffi Proof_extreme.
Import ListNotations.
Local Open Scope Q_scope.

(** ** Spans *)
Definition scale (k : Q) (u : vec3) : vec3 := (k * vx u, k * vy u, k * vz u).
Definition lin (k : Q) (u : vec3) (j : Q) (v : vec3) : vec3 := (k * vx u + j * vx v, k * vy u + j * vy v, k * vz u + j * vz v).

Ltac coords := unfold same_point, zero3, normal, scale, lin, comb, vdot, vcross, vsub, vx, vy, vz in *; cbn [fst snd] in *.

Lemma parallel : forall u w, ~ zero3 u -> zero3 (vcross u w) -> exists k, same_point w (scale k u).
Proof.
  intros [ [ux uy] uz] [ [wx wy] wz] N (X & Y & Z). apply nonzero3 in N. coords.
  destruct N as [N | [N | N] ].
  - exists (wx / ux). repeat split; [ field; exact N | | ].
    + transitivity ((ux * wy) / ux); [ field; exact N | ]. setoid_replace (ux * wy) with (uy * wx) by lra. field. exact N.
    + transitivity ((ux * wz) / ux); [ field; exact N | ]. setoid_replace (ux * wz) with (uz * wx) by lra. field. exact N.
  - exists (wy / uy). repeat split; [ | field; exact N | ].
    + transitivity ((uy * wx) / uy); [ field; exact N | ]. setoid_replace (uy * wx) with (ux * wy) by lra. field. exact N.
    + transitivity ((uy * wz) / uy); [ field; exact N | ]. setoid_replace (uy * wz) with (uz * wy) by lra. field. exact N.
  - exists (wz / uz). repeat split; [ | | field; exact N ].
    + transitivity ((uz * wx) / uz); [ field; exact N | ]. setoid_replace (uz * wx) with (ux * wz) by lra. field. exact N.
    + transitivity ((uz * wy) / uz); [ field; exact N | ]. setoid_replace (uz * wy) with (uy * wz) by lra. field. exact N.
Qed.

Lemma in_plane : forall v w u, ~ zero3 (vcross v w) -> vdot (vcross v w) u == 0 -> exists k j, same_point u (lin k v j w).
Proof.
  intros [ [v1 v2] v3] [ [w1 w2] w3] [ [u1 u2] u3] N H. apply nonzero3 in N. coords.
  set (nx := v2 * w3 - v3 * w2) in *. set (ny := v3 * w1 - v1 * w3) in *. set (nz := v1 * w2 - v2 * w1) in *.
  destruct N as [N | [N | N] ].
  - exists ((u2 * w3 - u3 * w2) / nx), ((v2 * u3 - v3 * u2) / nx). repeat split.
    + transitivity ((nx * u1) / nx); [ field; exact N | ]. setoid_replace (nx * u1) with (- ny * u2 - nz * u3) by lra. unfold ny, nz. field. exact N.
    + transitivity ((nx * u2) / nx); [ field; exact N | ]. unfold nx at 1. field. exact N.
    + transitivity ((nx * u3) / nx); [ field; exact N | ]. unfold nx at 1. field. exact N.
  - exists ((u3 * w1 - u1 * w3) / ny), ((v3 * u1 - v1 * u3) / ny). repeat split.
    + transitivity ((ny * u1) / ny); [ field; exact N | ]. unfold ny at 1. field. exact N.
    + transitivity ((ny * u2) / ny); [ field; exact N | ]. setoid_replace (ny * u2) with (- nx * u1 - nz * u3) by lra. unfold nx, nz. field. exact N.
    + transitivity ((ny * u3) / ny); [ field; exact N | ]. unfold ny at 1. field. exact N.
  - exists ((u1 * w2 - u2 * w1) / nz), ((v1 * u2 - v2 * u1) / nz). repeat split.
    + transitivity ((nz * u1) / nz); [ field; exact N | ]. unfold nz at 1. field. exact N.
    + transitivity ((nz * u2) / nz); [ field; exact N | ]. unfold nz at 1. field. exact N.
    + transitivity ((nz * u3) / nz); [ field; exact N | ]. setoid_replace (nz * u3) with (- nx * u1 - ny * u2) by lra. unfold nx, ny. field. exact N.
Qed.

(** The directions of a feature: none, multiples of a vector, or a plane. *)
Inductive span : Type := S0 | S1 (u : vec3) | S2 (u v : vec3).
Definition in_span (s : span) (d : vec3) : Prop :=
  match s with
  | S0 => zero3 d
  | S1 u => exists k, same_point d (scale k u)
  | S2 u v => exists k j, same_point d (lin k u j v)
  end.
Definition independent (s : span) : Prop :=
  match s with S0 => True | S1 u => ~ zero3 u | S2 u v => ~ zero3 (vcross u v) end.

Definition basis (t : triangle) (m : bool * bool * bool) : span :=
  let '(a, b, c) := t in
  match m with
  | (true, true, true) => S2 (vsub b a) (vsub c a)
  | (true, true, false) => S1 (vsub b a)
  | (false, true, true) => S1 (vsub c b)
  | (true, false, true) => S1 (vsub a c)
  | _ => S0
  end.
Lemma dir_basis : forall t m d, dir t m d <-> in_span (basis t m) d.
Proof.
  intros [ [ [ [ax ay] az] [ [bx by_] bz] ] [ [cx cy] cz] ] [ [m0 m1] m2] [ [dx dy] dz].
  unfold dir, basis. split.
  - intros (u & v & w & (A & B & C & S) & X & Y & Z). coords.
    destruct m0, m1, m2; cbn [free in_span] in *; coords.
    + exists v, w. assert (E : u == - v - w) by lra. repeat split; rewrite ?X, ?Y, ?Z, E; ring.
    + exists v. assert (E : u == - v) by lra. repeat split; rewrite ?X, ?Y, ?Z, E, C; ring.
    + exists u. assert (E : w == - u) by lra. repeat split; rewrite ?X, ?Y, ?Z, E, B; ring.
    + assert (E : u == 0) by lra. repeat split; rewrite ?X, ?Y, ?Z, E, B, C; ring.
    + exists w. assert (E : v == - w) by lra. repeat split; rewrite ?X, ?Y, ?Z, E, A; ring.
    + assert (E : v == 0) by lra. repeat split; rewrite ?X, ?Y, ?Z, E, A, C; ring.
    + assert (E : w == 0) by lra. repeat split; rewrite ?X, ?Y, ?Z, E, A, B; ring.
    + repeat split; rewrite ?X, ?Y, ?Z, A, B, C; ring.
  - destruct m0, m1, m2; cbn [free in_span].
    + intros (k & j & X & Y & Z). exists (- k - j), k, j. split; [ repeat split; ring | ]. coords. repeat split; rewrite ?X, ?Y, ?Z; ring.
    + intros (k & X & Y & Z). exists (- k), k, 0. split; [ repeat split; ring | ]. coords. repeat split; rewrite ?X, ?Y, ?Z; ring.
    + intros (k & X & Y & Z). exists k, 0, (- k). split; [ repeat split; ring | ]. coords. repeat split; rewrite ?X, ?Y, ?Z; ring.
    + intros (X & Y & Z). exists 0, 0, 0. split; [ repeat split; ring | ]. coords. repeat split; rewrite ?X, ?Y, ?Z; ring.
    + intros (k & X & Y & Z). exists 0, (- k), k. split; [ repeat split; ring | ]. coords. repeat split; rewrite ?X, ?Y, ?Z; ring.
    + intros (X & Y & Z). exists 0, 0, 0. split; [ repeat split; ring | ]. coords. repeat split; rewrite ?X, ?Y, ?Z; ring.
    + intros (X & Y & Z). exists 0, 0, 0. split; [ repeat split; ring | ]. coords. repeat split; rewrite ?X, ?Y, ?Z; ring.
    + intros (X & Y & Z). exists 0, 0, 0. split; [ repeat split; ring | ]. coords. repeat split; rewrite ?X, ?Y, ?Z; ring.
Qed.
Lemma basis_independent : forall t m, nondegenerate t -> independent (basis t m).
Proof.
  intros [ [ [ [ax ay] az] [ [bx by_] bz] ] [ [cx cy] cz] ] [ [m0 m1] m2] N. apply nondegenerate_normal in N.
  unfold basis. destruct m0, m1, m2; cbn [independent]; try exact I; [ exact N | | | ]; intros (X & Y & Z); apply N; coords.
  - repeat split; rewrite ?X, ?Y, ?Z; ring.
  - assert (Ex : cx == ax) by lra. assert (Ey : cy == ay) by lra. assert (Ez : cz == az) by lra. repeat split; rewrite ?Ex, ?Ey, ?Ez; ring.
  - assert (Ex : cx == bx) by lra. assert (Ey : cy == by_) by lra. assert (Ez : cz == bz) by lra. repeat split; rewrite ?Ex, ?Ey, ?Ez; ring.
Qed.

Lemma span_decide : forall s t, independent s -> independent t ->
  (exists d, in_span s d /\ in_span t d /\ ~ zero3 d) \/ (forall d, in_span s d -> in_span t d -> zero3 d).
Proof.
  assert (L12 : forall u v w, ~ zero3 u -> ~ zero3 (vcross v w) ->
    (exists d, in_span (S1 u) d /\ in_span (S2 v w) d /\ ~ zero3 d) \/ (forall d, in_span (S1 u) d -> in_span (S2 v w) d -> zero3 d)).
  { intros u v w Nu Nn. destruct (Qeq_dec (vdot (vcross v w) u) 0) as [E | N].
    - left. exists u. split; [ exists 1; coords; repeat split; ring | ]. split; [ apply in_plane; assumption | exact Nu ].
    - right. intros d (k & Xk & Yk & Zk) (i & j & X & Y & Z).
      assert (K : k == 0).
      { apply (mult_zero (vdot (vcross v w) u) _ N). destruct u as [ [u1 u2] u3], v as [ [v1 v2] v3], w as [ [w1 w2] w3], d as [ [d1 d2] d3]. coords.
        transitivity ((v2 * w3 - v3 * w2) * (k * u1) + (v3 * w1 - v1 * w3) * (k * u2) + (v1 * w2 - v2 * w1) * (k * u3)); [ ring | ].
        rewrite <- Xk, <- Yk, <- Zk, X, Y, Z. ring. }
      coords. rewrite Xk, Yk, Zk, K. repeat split; ring. }
  intros [ | u | u1 u2] [ | w | w1 w2] Is It; cbn [independent] in *.
  - right. intros d H _. exact H.
  - right. intros d H _. exact H.
  - right. intros d H _. exact H.
  - right. intros d _ H. exact H.
  - destruct (zero3_dec (vcross u w)) as [Z | N].
    + left. exists w. split; [ apply parallel; assumption | ]. split; [ exists 1; coords; repeat split; ring | exact It ].
    + right. intros d (k & Xk & Yk & Zk) (j & Xj & Yj & Zj). apply nonzero3 in N.
      assert (J : j == 0).
      { destruct u as [ [u1 u2] u3], w as [ [w1 w2] w3], d as [ [d1 d2] d3]. coords.
        destruct N as [N | [N | N] ]; apply (mult_zero _ _ N).
        - transitivity (u2 * (j * w3) - u3 * (j * w2)); [ ring | ]. rewrite <- Yj, <- Zj, Yk, Zk. ring.
        - transitivity (u3 * (j * w1) - u1 * (j * w3)); [ ring | ]. rewrite <- Xj, <- Zj, Xk, Zk. ring.
        - transitivity (u1 * (j * w2) - u2 * (j * w1)); [ ring | ]. rewrite <- Xj, <- Yj, Xk, Yk. ring. }
      coords. rewrite Xj, Yj, Zj, J. repeat split; ring.
  - apply L12; assumption.
  - right. intros d _ H. exact H.
  - destruct (L12 w u1 u2 It Is) as [ (d & A & B & C) | H]; [ left; exists d; auto | right; intros d A B; apply H; assumption ].
  - left. set (n1 := vcross u1 u2) in *. set (n2 := vcross w1 w2) in *. destruct (zero3_dec (vcross n1 n2)) as [Z | N].
    + destruct (parallel n1 n2 Is Z) as (k & X & Y & Z').
      exists u1. split; [ exists 1, 0; coords; repeat split; ring | ]. split.
      * apply in_plane; [ exact It | ]. fold n2. unfold vdot. rewrite X, Y, Z'. unfold n1. destruct u1 as [ [x y] z], u2 as [ [x' y'] z']. coords. ring.
      * intros (X1 & Y1 & Z1). apply Is. unfold n1. destruct u1 as [ [x y] z], u2 as [ [x' y'] z']. coords. rewrite X1, Y1, Z1. repeat split; ring.
    + exists (vcross n1 n2). split; [ | split; [ | exact N ] ]; apply in_plane; try assumption.
      * fold n1. destruct n1 as [ [x y] z], n2 as [ [x' y'] z']. coords. ring.
      * fold n2. destruct n1 as [ [x y] z], n2 as [ [x' y'] z']. coords. ring.
Qed.
Lemma transversal_decide : forall l r m k, nondegenerate l -> nondegenerate r ->
  (exists d, dir l m d /\ dir r k d /\ ~ zero3 d) \/ transversal l r m k.
Proof.
  intros l r m k Nl Nr.
  destruct (span_decide (basis l m) (basis r k) (basis_independent l m Nl) (basis_independent r k Nr)) as [ (d & A & B & C) | H].
  - left. exists d. rewrite !dir_basis. auto.
  - right. intros d A B. rewrite dir_basis in A, B. auto.
Qed.

(** ** Moving until a weight vanishes *)
Lemma hit : forall l : list (Q * Q), Forall (fun e => 0 <= fst e /\ (fst e == 0 -> snd e == 0)) l ->
  Exists (fun e => snd e < 0) l ->
  exists t, 0 < t /\ Forall (fun e => 0 <= fst e + t * snd e) l /\ Exists (fun e => ~ fst e == 0 /\ fst e + t * snd e == 0) l.
Proof.
  induction l as [ | [u d] l IH]; intros F E; [ inversion E | ]. inversion F as [ | ? ? [Hu Hd] F']; subst. cbn [fst snd] in *.
  destruct (Qlt_le_dec d 0) as [L | G].
  - assert (Pu : 0 < u). { destruct (Qlt_le_dec 0 u) as [P | P]; [ exact P | ]. assert (u == 0) by lra. specialize (Hd H). lra. }
    set (t0 := u / (- d)). assert (T0 : u + t0 * d == 0) by (unfold t0; field; lra).
    assert (P0 : 0 < t0) by (apply Qlt_shift_div_l; lra).
    destruct (Forall_Exists_dec (fun e : Q * Q => 0 <= snd e) (fun e => match Qlt_le_dec (snd e) 0 with left H => right (Qlt_not_le _ _ H) | right H => left H end) l) as [A | X].
    + exists t0. split; [ exact P0 | ]. split.
      * constructor; [ cbn; lra | ]. rewrite Forall_forall in *. intros e He. specialize (A e He). specialize (F' e He). cbn in A, F'. nra.
      * left. cbn. split; [ lra | exact T0 ].
    + destruct (IH F') as (t1 & P1 & A1 & E1).
      { rewrite Exists_exists in *. destruct X as (e & He & N). exists e. split; [ exact He | ]. apply Qnot_le_lt. exact N. }
      destruct (Qlt_le_dec t0 t1) as [L01 | L10].
      * exists t0. split; [ exact P0 | ]. split.
        -- constructor; [ cbn; lra | ]. rewrite Forall_forall in *. intros e He. specialize (A1 e He). destruct (F' e He) as [Pe _]. cbn in A1, Pe.
           destruct (Qlt_le_dec (snd e) 0); nra.
        -- left. cbn. split; [ lra | exact T0 ].
      * exists t1. split; [ exact P1 | ]. split; [ constructor; [ cbn; nra | exact A1 ] | right; exact E1 ].
  - destruct (IH F') as (t1 & P1 & A1 & E1).
    { inversion E as [ ? ? C | ? ? C]; subst; [ cbn in C; lra | exact C ]. }
    exists t1. split; [ exact P1 | ]. split; [ constructor; [ cbn; nra | exact A1 ] | right; exact E1 ].
Qed.

(** ** The hull *)
Lemma total_app : forall l1 l2, total (l1 ++ l2) == total l1 + total l2.
Proof. induction l1 as [ | [k p] l1 IH]; intro l2; cbn [app total]; [ ring | rewrite IH; ring ]. Qed.
Lemma wsum_app : forall l1 l2, same_point (wsum (l1 ++ l2)) (lin 1 (wsum l1) 1 (wsum l2)).
Proof.
  induction l1 as [ | [k p] l1 IH]; intro l2; cbn [app wsum]; [ coords; repeat split; ring | ].
  destruct (IH l2) as (X & Y & Z). coords. rewrite X, Y, Z. repeat split; ring.
Qed.
Definition rescale (s : Q) (l : list (Q * vec3)) : list (Q * vec3) := map (fun e => (s * fst e, snd e)) l.
Lemma total_rescale : forall s l, total (rescale s l) == s * total l.
Proof. induction l as [ | [k p] l IH]; cbn [rescale map total]; [ ring | ]. cbn [fst]. unfold rescale in IH. rewrite IH. ring. Qed.
Lemma wsum_rescale : forall s l, same_point (wsum (rescale s l)) (scale s (wsum l)).
Proof.
  induction l as [ | [k p] l IH]; cbn [rescale map wsum fst snd]; [ coords; repeat split; ring | ]. destruct IH as (X & Y & Z). unfold rescale in *. coords.
  rewrite X, Y, Z. repeat split; ring.
Qed.
Lemma hull_mix : forall (S : vec3 -> Prop) y z t, in_hull S y -> in_hull S z -> 0 <= t <= 1 -> in_hull S (mix y z t).
Proof.
  intros S y z t (l1 & F1 & T1 & (X1 & Y1 & Z1)) (l2 & F2 & T2 & (X2 & Y2 & Z2)) Ht.
  exists (rescale (1 - t) l1 ++ rescale t l2). split; [ | split ].
  - apply Forall_app. unfold rescale. rewrite !Forall_map. split; (eapply Forall_impl; [ | eassumption ]); cbn; intros e [P Q]; (split; [ nra | exact Q ]).
  - rewrite total_app, !total_rescale, T1, T2. ring.
  - destruct (wsum_app (rescale (1 - t) l1) (rescale t l2)) as (X & Y & Z).
    destruct (wsum_rescale (1 - t) l1) as (A1 & B1 & C1). destruct (wsum_rescale t l2) as (A2 & B2 & C2).
    unfold mix. coords. rewrite X, Y, Z, A1, B1, C1, A2, B2, C2, X1, Y1, Z1, X2, Y2, Z2. repeat split; ring.
Qed.
Lemma hull_same : forall (S : vec3 -> Prop) x y, same_point x y -> in_hull S x -> in_hull S y.
Proof. intros S x y E (l & F & T & H). exists l. split; [ exact F | ]. split; [ exact T | ]. eapply same_trans; [ apply same_sym; exact E | exact H ]. Qed.
Lemma hull_one : forall (S : vec3 -> Prop) x, S x -> in_hull S x.
Proof.
  intros S x H. exists [(1, x)]. split; [ constructor; [ cbn; split; [ lra | exact H ] | constructor ] | ]. split; [ cbn; ring | ].
  cbn [wsum]. coords. repeat split; ring.
Qed.

Definition bits (m : bool * bool * bool) : nat := let '(m0, m1, m2) := m in (Nat.b2n m0 + Nat.b2n m1 + Nat.b2n m2)%nat.

(** The point reached and its features, which have fewer vertices. *)
Lemma weight_of : forall m u d t, weight m u -> free m d -> 0 <= u + t * d ->
  exists m', weight m' (u + t * d) /\ (Nat.b2n m' <= Nat.b2n m)%nat /\ (~ u == 0 -> u + t * d == 0 -> (Nat.b2n m' < Nat.b2n m)%nat).
Proof.
  intros m u d t W F P. destruct (Qlt_le_dec 0 (u + t * d)) as [L | L].
  - exists true. split; [ exact L | ]. destruct m; cbn in *; [ split; [ lia | intros _ E; lra ] | ]. exfalso. rewrite W, F in L. lra.
  - assert (E : u + t * d == 0) by lra. exists false. split; [ exact E | ]. split; [ cbn; lia | ]. intros N _. destruct m; cbn in *; [ lia | tauto ].
Qed.
Lemma move_feature : forall t m x d, in_feature t m x -> dir t m d -> ~ zero3 d ->
  exists us : list (Q * Q),
    Forall (fun e => 0 <= fst e /\ (fst e == 0 -> snd e == 0)) us /\ Exists (fun e => snd e < 0) us /\
    forall s, Forall (fun e => 0 <= fst e + s * snd e) us ->
      exists m', in_feature t m' (move x d s) /\ (bits m' <= bits m)%nat /\
        (Exists (fun e => ~ fst e == 0 /\ fst e + s * snd e == 0) us -> (bits m' < bits m)%nat).
Proof.
  intros [ [a b] c] [ [m0 m1] m2] x d (u & v & w & (W0 & W1 & W2 & S) & X & Y & Z) (du & dv & dw & (F0 & F1 & F2 & DS) & DX & DY & DZ) N.
  exists [(u, du); (v, dv); (w, dw)]. split; [ | split ].
  - assert (K : forall m k dk, weight m k -> free m dk -> 0 <= k /\ (k == 0 -> dk == 0)).
    { intros [ | ] k dk Wk Fk; cbn in *; [ split; [ lra | intro; lra ] | split; [ lra | intro; exact Fk ] ]. }
    constructor; [ exact (K _ _ _ W0 F0) | ]. constructor; [ exact (K _ _ _ W1 F1) | ]. constructor; [ exact (K _ _ _ W2 F2) | ]. constructor.
  - destruct (Qlt_le_dec du 0) as [L0 | G0]; [ left; exact L0 | ]. destruct (Qlt_le_dec dv 0) as [L1 | G1]; [ right; left; exact L1 | ].
    destruct (Qlt_le_dec dw 0) as [L2 | G2]; [ right; right; left; exact L2 | ]. exfalso. apply N.
    assert (E0 : du == 0) by lra. assert (E1 : dv == 0) by lra. assert (E2 : dw == 0) by lra. coords. rewrite DX, DY, DZ, E0, E1, E2. repeat split; ring.
  - intros s Hs. inversion Hs as [ | ? ? H0 Hs1]; subst. inversion Hs1 as [ | ? ? H1 Hs2]; subst. inversion Hs2 as [ | ? ? H2 _]; subst. cbn [fst snd] in *.
    destruct (weight_of m0 u du s W0 F0 H0) as (m0' & V0 & B0 & C0). destruct (weight_of m1 v dv s W1 F1 H1) as (m1' & V1 & B1 & C1).
    destruct (weight_of m2 w dw s W2 F2 H2) as (m2' & V2 & B2 & C2). exists (m0', m1', m2'). split; [ | split ].
    + exists (u + s * du), (v + s * dv), (w + s * dw). split.
      * repeat split; try assumption. transitivity ((u + v + w) + s * (du + dv + dw)); [ ring | ]. rewrite S, DS. ring.
      * unfold move. coords. rewrite X, Y, Z, DX, DY, DZ. repeat split; ring.
    + cbn [bits]. lia.
    + intro E. cbn [bits]. inversion E as [ ? ? [A B] | ? ? E1]; subst; [ specialize (C0 A B); lia | ].
      inversion E1 as [ ? ? [A B] | ? ? E2]; subst; [ specialize (C1 A B); lia | ].
      inversion E2 as [ ? ? [A B] | ? ? E3]; subst; [ specialize (C2 A B); lia | ]. inversion E3.
Qed.
Lemma Forall_app_inv : forall {A} (Q : A -> Prop) l1 l2, Forall Q (l1 ++ l2) -> Forall Q l1 /\ Forall Q l2.
Proof. intros A Q l1 l2 H. apply Forall_app in H. exact H. Qed.

Lemma descend : forall l r m k x d, in_feature l m x -> in_feature r k x -> dir l m d -> dir r k d -> ~ zero3 d ->
  exists s m' k', 0 < s /\ in_feature l m' (move x d s) /\ in_feature r k' (move x d s) /\ (bits m' + bits k' < bits m + bits k)%nat.
Proof.
  intros l r m k x d Fl Fr Dl Dr N.
  destruct (move_feature l m x d Fl Dl N) as (us & A1 & E1 & M1). destruct (move_feature r k x d Fr Dr N) as (ws & A2 & E2 & M2).
  destruct (hit (us ++ ws)) as (s & P & As & Es).
  - apply Forall_app. auto.
  - apply Exists_app. auto.
  - apply Forall_app_inv in As. destruct As as [As1 As2]. destruct (M1 s As1) as (m' & Fm & Lm & Sm). destruct (M2 s As2) as (k' & Fk & Lk & Sk).
    exists s, m', k'. split; [ exact P | ]. split; [ exact Fm | ]. split; [ exact Fk | ].
    apply Exists_app in Es. destruct Es as [Es | Es]; [ specialize (Sm Es) | specialize (Sk Es) ]; lia.
Qed.

Lemma dir_opp : forall t m d, dir t m d -> dir t m (scale (-1) d).
Proof.
  intros [ [a b] c] [ [m0 m1] m2] d (u & v & w & (A & B & C & S) & X & Y & Z). exists (- u), (- v), (- w). split.
  - assert (K : forall m k, free m k -> free m (- k)) by (intros [ | ] k H; cbn in *; [ exact I | lra ]). repeat split; eauto. lra.
  - coords. rewrite X, Y, Z. repeat split; ring.
Qed.

Lemma hull_vertices : forall l r x, nondegenerate l -> nondegenerate r -> both l r x -> in_hull (is_vertex l r) x.
Proof.
  intros l r x Nl Nr [Il Ir]. apply inside_feature in Il. destruct Il as [m Fl]. apply inside_feature in Ir. destruct Ir as [k Fr].
  remember (bits m + bits k)%nat as n eqn:En. revert x m k Fl Fr En. induction n as [n IH] using lt_wf_ind. intros x m k Fl Fr ->.
  destruct (transversal_decide l r m k Nl Nr) as [ (d & Dl & Dr & N) | T].
  - destruct (descend l r m k x d Fl Fr Dl Dr N) as (s & m1 & k1 & Ps & Fm1 & Fk1 & L1).
    destruct (descend l r m k x (scale (-1) d) Fl Fr (dir_opp _ _ _ Dl) (dir_opp _ _ _ Dr)) as (t & m2 & k2 & Pt & Fm2 & Fk2 & L2).
    { intros (X & Y & Z). apply N. coords. repeat split; lra. }
    assert (Hy := IH _ L1 _ _ _ Fm1 Fk1 eq_refl). assert (Hz := IH _ L2 _ _ _ Fm2 Fk2 eq_refl).
    assert (Pst : 0 < s + t) by lra.
    apply (hull_same _ (mix (move x d s) (move x (scale (-1) d) t) (s / (s + t)))).
    + unfold mix, move. coords. repeat split; field; lra.
    + apply hull_mix; [ exact Hy | exact Hz | ]. split; [ apply Qle_shift_div_l; lra | apply Qle_shift_div_r; lra ].
  - apply hull_one. apply (vertex_iff l r m k x Nl Nr Fl Fr). exact T.
Qed.
Lemma hull_both : forall l r x, in_hull (is_vertex l r) x -> both l r x.
Proof.
  intros l r x (ls & F & T & E).
  assert (G : forall t, (forall y, is_vertex l r y -> inside t y) -> inside t x).
  { intros [ [a b] c] H.
    assert (K : forall ls, Forall (fun e => 0 <= fst e /\ is_vertex l r (snd e)) ls -> exists u v w, (0 <= u /\ 0 <= v /\ 0 <= w /\ u + v + w == total ls) /\
      same_point (wsum ls) (comb (a, b, c) u v w)).
    { clear - H. induction ls as [ | [k p] ls IH]; intro F.
      - exists 0, 0, 0. split; [ cbn [total]; repeat split; lra | ]. cbn [wsum]. coords. repeat split; ring.
      - inversion F as [ | ? ? [Pk Vp] F']; subst. cbn [fst snd] in *. destruct (IH F') as (u & v & w & (A & B & C & S) & X & Y & Z).
        destruct (H p Vp) as (u' & v' & w' & (A' & B' & C' & S') & X' & Y' & Z').
        exists (k * u' + u), (k * v' + v), (k * w' + w). split.
        + cbn [total]. repeat split; [ nra | nra | nra | ]. rewrite <- S. transitivity (k * (u' + v' + w') + (u + v + w)); [ ring | ]. rewrite S'. ring.
        + cbn [wsum]. coords. rewrite X, Y, Z, X', Y', Z'. repeat split; ring. }
    destruct (K ls F) as (u & v & w & (A & B & C & S) & X). exists u, v, w. split; [ rewrite <- T; auto | ]. eapply same_trans; eassumption. }
  split; apply G; intros y [ [A B] _]; assumption.
Qed.
Lemma hull_nonempty : forall S x, in_hull S x -> exists y, S y.
Proof. intros S x ([ | e l] & F & T & _); [ cbn in T; lra | ]. inversion F as [ | ? ? [_ H] _]; subst. eauto. Qed.
