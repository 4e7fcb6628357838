(** * Triangles as sets of linear inequalities, over the rationals *)
From Coq Require Import List Arith QArith Qabs Qminmax Lqa Lia.
From Verif Require Import Model_base Model_soup Model_geometry Model_side.
From Verif Require Import Spec_candidates Spec_side.
Import ListNotations.
Local Open Scope Q_scope.

Definition vadd (a b : vec3) : vec3 := (vx a + vx b, vy a + vy b, vz a + vz b).

(** An affine function. *)
Record aff : Type := mk_aff { ak : vec3; ac : Q }.
Definition aev (g : aff) (x : vec3) : Q := vdot (ak g) x + ac g.
Definition through (k o : vec3) : aff := mk_aff k (- vdot k o).

Ltac crush := intros; repeat match goal with v : vec3 |- _ => destruct v as [ [? ?] ?] end;
  cbv [aev through vdot vsub vadd vcross along normal vx vy vz ak ac fst snd] in *.

Lemma aev_along : forall g p t v, aev g (along p t v) == aev g p + t * vdot (ak g) v.
Proof. intros [k c]. crush. ring. Qed.

Lemma aev_same : forall g x y, same x y -> aev g x == aev g y.
Proof.
  intros g x y (H1 & H2 & H3). unfold aev, vdot. rewrite H1, H2, H3. reflexivity.
Qed.

Lemma vdot_same : forall k x y, same x y -> vdot k x == vdot k y.
Proof.
  intros g x y (H1 & H2 & H3). unfold vdot. rewrite H1, H2, H3. reflexivity.
Qed.

Lemma same_refl : forall x, same x x.
Proof. intros x. repeat split; reflexivity. Qed.
Lemma same_sym : forall x y, same x y -> same y x.
Proof. intros x y (H1 & H2 & H3). repeat split; symmetry; assumption. Qed.
Lemma same_trans : forall x y z, same x y -> same y z -> same x z.
Proof. intros x y z (H1 & H2 & H3) (G1 & G2 & G3). repeat split; etransitivity; eassumption. Qed.

Lemma point_eqb_same : forall a b, point_eqb a b = true <-> same a b.
Proof.
  intros a b. unfold point_eqb, same. rewrite !andb_true_iff, !Qeq_bool_iff. tauto.
Qed.
Lemma point_eqb_false : forall a b, point_eqb a b = false <-> ~ same a b.
Proof.
  intros a b. rewrite <- point_eqb_same. destruct (point_eqb a b); split; congruence.
Qed.

(** The five inequalities of a triangle. *)
Definition tri_cons (a b c : vec3) : list aff :=
  let n := normal a b c in
  [ through n a; through (vsub (0, 0, 0) n) a;
    through (vcross n (vsub b a)) a;
    through (vcross n (vsub c b)) b;
    through (vcross n (vsub a c)) c ].

Definition sat (cs : list aff) (x : vec3) : Prop := Forall (fun g => 0 <= aev g x) cs.

Lemma sat_same : forall cs x y, same x y -> sat cs x -> sat cs y.
Proof.
  intros cs x y H Hs. unfold sat in *. rewrite Forall_forall in *. intros g Hg.
  rewrite <- (aev_same g x y H). auto.
Qed.

Lemma sq_nonneg : forall x : Q, 0 <= x * x.
Proof. intro x. nra. Qed.

Lemma vdot_self : forall n, 0 <= vdot n n.
Proof.
  intros n. unfold vdot. pose proof (sq_nonneg (vx n)). pose proof (sq_nonneg (vy n)).
  pose proof (sq_nonneg (vz n)). lra.
Qed.

Lemma sq_zero : forall x : Q, x * x == 0 -> x == 0.
Proof. intros x H. apply Qmult_integral in H. tauto. Qed.

Lemma vdot_self_zero : forall n, vdot n n == 0 -> same n (0, 0, 0).
Proof.
  intros n H. unfold vdot in H.
  pose proof (sq_nonneg (vx n)). pose proof (sq_nonneg (vy n)). pose proof (sq_nonneg (vz n)).
  repeat split; cbn [vx vy vz fst snd]; apply sq_zero; lra.
Qed.

Lemma nondeg_pos : forall a b c, ~ degenerate a b c -> 0 < vdot (normal a b c) (normal a b c).
Proof.
  intros a b c H. destruct (Qlt_le_dec 0 (vdot (normal a b c) (normal a b c))) as [L | L]; auto.
  exfalso. apply H. apply vdot_self_zero. pose proof (vdot_self (normal a b c)). lra.
Qed.

Lemma aev_bary : forall g x a b c u v w, u + v + w == 1 ->
  vx x == u * vx a + v * vx b + w * vx c ->
  vy x == u * vy a + v * vy b + w * vy c ->
  vz x == u * vz a + v * vz b + w * vz c ->
  aev g x == u * aev g a + v * aev g b + w * aev g c.
Proof.
  intros g x a b c u v w Hs Hx Hy Hz. unfold aev, vdot. rewrite Hx, Hy, Hz.
  setoid_replace (ac g) with ((u + v + w) * ac g) at 1 by (rewrite Hs; ring). ring.
Qed.

Lemma tri_vals : forall a b c, let n := normal a b c in let N := vdot n n in
    (aev (through n a) a == 0 /\ aev (through n a) b == 0 /\ aev (through n a) c == 0) /\
    (aev (through (vsub (0, 0, 0) n) a) a == 0 /\ aev (through (vsub (0, 0, 0) n) a) b == 0 /\
     aev (through (vsub (0, 0, 0) n) a) c == 0) /\
    (aev (through (vcross n (vsub b a)) a) a == 0 /\ aev (through (vcross n (vsub b a)) a) b == 0 /\
     aev (through (vcross n (vsub b a)) a) c == N) /\
    (aev (through (vcross n (vsub c b)) b) a == N /\ aev (through (vcross n (vsub c b)) b) b == 0 /\
     aev (through (vcross n (vsub c b)) b) c == 0) /\
    (aev (through (vcross n (vsub a c)) c) a == 0 /\ aev (through (vcross n (vsub a c)) c) b == N /\
     aev (through (vcross n (vsub a c)) c) c == 0).
Proof. intros a b c n N. subst N n. crush. repeat split; ring. Qed.

Lemma tri_sum : forall a b c x, let n := normal a b c in let N := vdot n n in
    aev (through (vcross n (vsub b a)) a) x + aev (through (vcross n (vsub c b)) b) x +
    aev (through (vcross n (vsub a c)) c) x == N.
Proof. intros a b c x n N. subst N n. crush. ring. Qed.

Lemma tri_coords : forall a b c x, let n := normal a b c in let N := vdot n n in
    let g1 := aev (through n a) x in
    let u := aev (through (vcross n (vsub c b)) b) x in
    let v := aev (through (vcross n (vsub a c)) c) x in
    let w := aev (through (vcross n (vsub b a)) a) x in
    N * vx x == u * vx a + v * vx b + w * vx c + g1 * vx n /\
    N * vy x == u * vy a + v * vy b + w * vy c + g1 * vy n /\
    N * vz x == u * vz a + v * vz b + w * vz c + g1 * vz n.
Proof. intros a b c x n N g1 u v w. subst g1 u v w N n. crush. repeat split; ring. Qed.

Lemma aev_neg : forall n a x, aev (through (vsub (0, 0, 0) n) a) x == - aev (through n a) x.
Proof. crush. ring. Qed.

Lemma tri_iff : forall a b c x, ~ degenerate a b c ->
  (in_triangle x a b c <-> sat (tri_cons a b c) x).
Proof.
  intros a b c x Hd. assert (HN := nondeg_pos a b c Hd). set (n := normal a b c) in *.
  set (N := vdot n n) in *. destruct (tri_vals a b c) as (V1 & V2 & V3 & V4 & V5). cbv zeta in *. fold n in V1, V2, V3, V4, V5.
  fold N in V3, V4, V5. unfold sat, tri_cons. cbv zeta. fold n. split.
  - intros (u & v & w & Hu & Hv & Hw & Hs & Hx & Hy & Hz).
    assert (L : forall g, 0 <= aev g a -> 0 <= aev g b -> 0 <= aev g c -> 0 <= aev g x).
    { intros g Ha Hb Hc. rewrite (aev_bary g x a b c u v w Hs Hx Hy Hz).
      pose proof (Qmult_le_0_compat _ _ Hu Ha). pose proof (Qmult_le_0_compat _ _ Hv Hb).
      pose proof (Qmult_le_0_compat _ _ Hw Hc). lra. }
    repeat apply Forall_cons; try apply Forall_nil; apply L; lra.
  - intro H. inversion H as [ | ? ? H1 H']; subst. inversion H' as [ | ? ? H2 H'']; subst.
    inversion H'' as [ | ? ? H3 H3']; subst. inversion H3' as [ | ? ? H4 H4']; subst.
    inversion H4' as [ | ? ? H5 _]; subst. clear H H' H'' H3' H4'.
    pose proof (aev_neg n a x) as E2.
    assert (E1 : aev (through n a) x == 0) by lra.
    destruct (tri_coords a b c x) as (X & Y & Z). cbv zeta in *. fold n in X, Y, Z. fold N in X, Y, Z.
    pose proof (tri_sum a b c x) as Sm. cbv zeta in Sm. fold n in Sm. fold N in Sm.
    rewrite E1 in X, Y, Z.
    set (u := aev (through (vcross n (vsub c b)) b) x) in *.
    set (v := aev (through (vcross n (vsub a c)) c) x) in *.
    set (w := aev (through (vcross n (vsub b a)) a) x) in *.
    assert (NN : ~ N == 0) by lra.
    exists (u / N), (v / N), (w / N).
    assert (Q1 : forall t, 0 <= t -> 0 <= t / N).
    { intros t Ht. apply Qle_shift_div_l; lra. }
    assert (Q2 : forall r s t y z d, N * d == u * r + v * s + w * t + 0 * y -> z == d ->
       z == u / N * r + v / N * s + w / N * t).
    { intros r s t y z d E Ez. rewrite Ez.
      setoid_replace d with ((N * d) / N) by (field; exact NN). rewrite E. field. exact NN. }
    repeat split; try (apply Q1; assumption); try (eapply Q2; [ eassumption | reflexivity ]).
    setoid_replace (u / N + v / N + w / N) with ((w + u + v) / N) by (field; exact NN).
    rewrite Sm. field. exact NN.
Qed.

Lemma sat_not : forall cs x, ~ sat cs x -> exists g, In g cs /\ aev g x < 0.
Proof.
  induction cs as [ | g cs IH]; intros x H.
  - exfalso. apply H. constructor.
  - destruct (Qlt_le_dec (aev g x) 0) as [L | L].
    + exists g. split; [ left; reflexivity | exact L ].
    + destruct (IH x) as [g' [Hg Hl] ].
      * intro Hs. apply H. constructor; assumption.
      * exists g'. split; [ right; exact Hg | exact Hl ].
Qed.

Lemma sat_dec : forall cs x, {sat cs x} + {~ sat cs x}.
Proof.
  intros cs x. induction cs as [ | g cs IH]; [ left; constructor | ].
  destruct (Qlt_le_dec (aev g x) 0) as [L | L].
  - right. intro H. inversion H; subst. lra.
  - destruct IH as [IH | IH]; [ left; constructor; assumption | right; intro H; inversion H; contradiction ].
Qed.

(** The open triangle. *)
Lemma towards_centroid : forall a b c q t, in_triangle q a b c -> 0 < t -> t <= 1 ->
  in_open_triangle (along q t (vsub (centroid a b c) q)) a b c.
Proof.
  intros a b c q t (u & v & w & Hu & Hv & Hw & Hs & Hx & Hy & Hz) Ht Ht1.
  exists ((1 - t) * u + t / 3), ((1 - t) * v + t / 3), ((1 - t) * w + t / 3).
  assert (L : forall s, 0 <= s -> 0 < (1 - t) * s + t / 3).
  { intros s Hs'. assert (0 <= (1 - t) * s) by (apply Qmult_le_0_compat; lra).
    assert (0 < t / 3) by (apply Qlt_shift_div_l; lra). lra. }
  repeat split; try (apply L; assumption).
  - setoid_replace ((1 - t) * u + t / 3 + ((1 - t) * v + t / 3) + ((1 - t) * w + t / 3))
      with ((1 - t) * (u + v + w) + t) by field. rewrite Hs. ring.
  - unfold along, centroid, vsub. cbn [vx vy vz fst snd] in *. rewrite Hx. field.
  - unfold along, centroid, vsub. cbn [vx vy vz fst snd] in *. rewrite Hy. field.
  - unfold along, centroid, vsub. cbn [vx vy vz fst snd] in *. rewrite Hz. field.
Qed.

Lemma in_plane : forall a b c x, in_triangle x a b c -> aev (through (normal a b c) a) x == 0.
Proof.
  intros a b c x (u & v & w & Hu & Hv & Hw & Hs & Hx & Hy & Hz).
  rewrite (aev_bary _ x a b c u v w Hs Hx Hy Hz).
  destruct (tri_vals a b c) as ((V1 & V2 & V3) & _). rewrite V1, V2, V3. ring.
Qed.

Lemma centroid_open : forall a b c, in_open_triangle (centroid a b c) a b c.
Proof.
  intros a b c. exists (1#3), (1#3), (1#3).
  assert (0 < 1#3) by (unfold Qlt; cbn; lia).
  repeat split; try assumption; unfold centroid; cbn [vx vy vz fst snd]; field.
Qed.
Lemma centroid_in : forall a b c, in_triangle (centroid a b c) a b c.
Proof.
  intros a b c. exists (1#3), (1#3), (1#3).
  assert (0 <= 1#3) by (unfold Qle; cbn; lia).
  repeat split; try assumption; unfold centroid; cbn [vx vy vz fst snd]; field.
Qed.

Lemma in_open_in : forall x a b c, in_open_triangle x a b c -> in_triangle x a b c.
Proof.
  intros x a b c (u & v & w & Hu & Hv & Hw & H). exists u, v, w. repeat split; try lra; apply H.
Qed.

(** ** Small numbers *)
Lemma small_all : forall (R : nat -> Q -> Prop) n,
  (forall i, (i < n)%nat -> exists e, 0 < e /\ forall x, 0 < x -> x <= e -> R i x) ->
  exists e, 0 < e /\ forall i, (i < n)%nat -> forall x, 0 < x -> x <= e -> R i x.
Proof.
  intros R. induction n as [ | n IH]; intro H.
  - exists 1. split; [ lra | intros; lia ].
  - destruct IH as [e [He Hr] ]; [ intros; apply H; lia | ].
    destruct (H n) as [e' [He' Hr'] ]; [ lia | ].
    exists (Qmin e e'). split; [ apply Q.min_glb_lt; assumption | ].
    intros i Hi x Hx Hle. pose proof (Q.le_min_l e e'). pose proof (Q.le_min_r e e').
    destruct (Nat.eq_dec i n) as [-> | Ni]; [ apply Hr'; lra | apply Hr; [ lia | lra | lra ] ].
Qed.

(** An affine function that is negative stays so nearby. *)
Lemma stays_negative : forall x k : Q, x < 0 -> exists e, 0 < e /\ forall t, 0 < t -> t <= e -> x + t * k < 0.
Proof.
  intros x k H. exists (- x / (2 * (1 + Qabs k))).
  pose proof (Qabs_nonneg k) as P. pose proof (Qle_Qabs k) as P'.
  assert (0 < 2 * (1 + Qabs k)) by lra.
  split; [ apply Qlt_shift_div_l; lra | ].
  intros t Ht Hle. assert (E : t * (2 * (1 + Qabs k)) <= - x).
  { apply (Qmult_le_compat_r _ _ (2 * (1 + Qabs k))) in Hle; [ | lra ].
    setoid_replace (- x / (2 * (1 + Qabs k)) * (2 * (1 + Qabs k))) with (- x) in Hle by (field; lra). exact Hle. }
  assert (t * k <= t * Qabs k) by (rewrite (Qmult_comm t k), (Qmult_comm t (Qabs k)); apply Qmult_le_compat_r; lra).
  assert (0 <= t * Qabs k) by (apply Qmult_le_0_compat; lra).
  assert (E' : t * (2 * (1 + Qabs k)) == 2 * t + 2 * (t * Qabs k)) by ring. lra.
Qed.

(** Points off a polytope can be moved a little in finitely many directions. *)
Lemma far : forall cs q ws, ~ sat cs q ->
  exists g, In g cs /\ exists e, 0 < e /\ forall t, 0 < t -> t <= e ->
    forall w, In w ws -> aev g (along q t w) < 0.
Proof.
  intros cs q ws H. destruct (sat_not cs q H) as [g [Hg Hn] ]. exists g. split; [ exact Hg | ].
  induction ws as [ | w ws IH].
  - exists 1. split; [ lra | intros t _ _ w [] ].
  - destruct IH as [e [He Hw] ]. destruct (stays_negative (aev g q) (vdot (ak g) w) Hn) as [e' [He' Hw'] ].
    exists (Qmin e e'). split; [ apply Q.min_glb_lt; assumption | ].
    intros t Ht Hle w' [<- | Hin]; pose proof (Q.le_min_l e e'); pose proof (Q.le_min_r e e').
    + rewrite aev_along. apply Hw'; lra.
    + apply Hw; auto; lra.
Qed.

(** Leaving a polytope from one of its points: an inequality that is tight there. *)
Lemma tight : forall cs q a, sat cs q -> (forall t, 0 < t -> t <= 1 -> ~ sat cs (along q t a)) ->
  exists g, In g cs /\ aev g q == 0 /\ vdot (ak g) a < 0.
Proof.
  intros cs q a Hs Hout.
  assert (G : (exists g, In g cs /\ aev g q == 0 /\ vdot (ak g) a < 0) \/
    exists e, 0 < e /\ forall t, 0 < t -> t <= e -> sat cs (along q t a)).
  { clear Hout. induction Hs as [ | g cs Hg Hs IH].
    - right. exists 1. split; [ lra | intros; constructor ].
    - destruct IH as [ [g' [Hin Hg'] ] | [e [He Hsat] ] ].
      + left. exists g'. split; [ right; exact Hin | exact Hg' ].
      + destruct (Qlt_le_dec 0 (aev g q)) as [Lp | Lz].
        * right. destruct (stays_negative (- aev g q) (- vdot (ak g) a)) as [e' [He' Hn] ]; [ lra | ].
          exists (Qmin e e'). split; [ apply Q.min_glb_lt; assumption | ].
          intros t Ht Hle. pose proof (Q.le_min_l e e'). pose proof (Q.le_min_r e e'). constructor.
          -- rewrite aev_along. assert (X := Hn t Ht ltac:(lra)). lra.
          -- apply Hsat; lra.
        * destruct (Qlt_le_dec (vdot (ak g) a) 0) as [L | L].
          -- left. exists g. split; [ left; reflexivity | split; [ lra | exact L ] ].
          -- right. exists e. split; [ exact He | ]. intros t Ht Hle. constructor.
             ++ rewrite aev_along. assert (0 <= t * vdot (ak g) a) by (apply Qmult_le_0_compat; lra). lra.
             ++ apply Hsat; assumption. }
  destruct G as [G | [e [He Hsat] ] ]; [ exact G | ]. exfalso.
  assert (H0 : 0 < Qmin e 1) by (apply Q.min_glb_lt; lra).
  exact (Hout (Qmin e 1) H0 (Q.le_min_r e 1) (Hsat (Qmin e 1) H0 (Q.le_min_l e 1))).
Qed.
