(** * From most points no ray is ambiguous *)
From Coq Require Import List Arith Bool QArith Qminmax Lqa Lia.
From Verif Require Import Model_base Proof_base Model_soup Model_geometry Model_aabb Model_classify Model_side.
From Verif Require Import Spec_aabb Spec_candidates Spec_side Spec_visible Spec_lucky Proof_probe Proof_visible.
From Verif Require Import Spec_side Spec_visible.
Import ListNotations.
Local Open Scope Q_scope.

(** A point of the line through [s] and [r], and of the line through [p] and [C]. *)
Lemma meet_det : forall s r C p q l t,
  same q (along s l (vsub r s)) -> same q (along p t (vsub C p)) -> (1 - t) * height s r C p == 0.
Proof.
  intros s r C p q l t (X1 & Y1 & Z1) (X2 & Y2 & Z2). rewrite X1 in X2. rewrite Y1 in Y2. rewrite Z1 in Z2. clear X1 Y1 Z1.
  unfold along, vsub in *. cbn [vx vy vz fst snd] in *.
  assert (X : (1 - t) * (vx p - vx s) == l * (vx r - vx s) - t * (vx C - vx s)) by lra.
  assert (Y : (1 - t) * (vy p - vy s) == l * (vy r - vy s) - t * (vy C - vy s)) by lra.
  assert (Z : (1 - t) * (vz p - vz s) == l * (vz r - vz s) - t * (vz C - vz s)) by lra.
  unfold height, normal, vdot, vcross, vsub. cbn [vx vy vz fst snd].
  transitivity (((vy r - vy s) * (vz C - vz s) - (vz r - vz s) * (vy C - vy s)) * ((1 - t) * (vx p - vx s)) +
    ((vz r - vz s) * (vx C - vx s) - (vx r - vx s) * (vz C - vz s)) * ((1 - t) * (vy p - vy s)) +
    ((vx r - vx s) * (vy C - vy s) - (vy r - vy s) * (vx C - vx s)) * ((1 - t) * (vz p - vz s))); [ ring | ].
  rewrite X, Y, Z. ring.
Qed.
Lemma meet_det' : forall s r C w p q l t, degenerate s r C ->
  same q (along s l (vsub r s)) -> same q (along p t (vsub C p)) -> (1 - t) * height s r w p == 0.
Proof.
  intros s r C w p q l t (D1 & D2 & D3) (X1 & Y1 & Z1) (X2 & Y2 & Z2). rewrite X1 in X2. rewrite Y1 in Y2. rewrite Z1 in Z2. clear X1 Y1 Z1.
  unfold normal, along, vcross, vsub in *. cbn [vx vy vz fst snd] in *.
  assert (X : (1 - t) * (vx p - vx s) == l * (vx r - vx s) - t * (vx C - vx s)) by lra.
  assert (Y : (1 - t) * (vy p - vy s) == l * (vy r - vy s) - t * (vy C - vy s)) by lra.
  assert (Z : (1 - t) * (vz p - vz s) == l * (vz r - vz s) - t * (vz C - vz s)) by lra.
  unfold height, normal, vdot, vcross, vsub. cbn [vx vy vz fst snd].
  transitivity (((vy r - vy s) * (vz w - vz s) - (vz r - vz s) * (vy w - vy s)) * ((1 - t) * (vx p - vx s)) +
    ((vz r - vz s) * (vx w - vx s) - (vx r - vx s) * (vz w - vz s)) * ((1 - t) * (vy p - vy s)) +
    ((vx r - vx s) * (vy w - vy s) - (vy r - vy s) * (vx w - vx s)) * ((1 - t) * (vz p - vz s))); [ ring | ].
  rewrite X, Y, Z.
  transitivity (t * ((vx w - vx s) * ((vy r - vy s) * (vz C - vz s) - (vz r - vz s) * (vy C - vy s)) +
    (vy w - vy s) * ((vz r - vz s) * (vx C - vx s) - (vx r - vx s) * (vz C - vz s)) +
    (vz w - vz s) * ((vx r - vx s) * (vy C - vy s) - (vy r - vy s) * (vx C - vx s)))); [ ring | ].
  rewrite D1, D2, D3. ring.
Qed.

Definition smulv (k : Q) (x : vec3) : vec3 := (k * vx x, k * vy x, k * vz x).
(** The sides of a triangle and its centroid are not on a line. *)
Lemma own_centroid : forall a b c, ~ degenerate a b c ->
  ~ degenerate a b (centroid a b c) /\ ~ degenerate b c (centroid a b c) /\ ~ degenerate c a (centroid a b c).
Proof.
  intros a b c N.
  assert (E : forall s r, In (s, r) [(a, b); (b, c); (c, a)] -> same (normal a b c) (smulv 3 (normal s r (centroid a b c)))).
  { intros s r J. cbn in J. destruct J as [J | [J | [J | [] ] ] ]; injection J as <- <-; unfold same, smulv, normal, centroid, vcross, vsub; cbn [vx vy vz fst snd]; repeat split; field. }
  assert (G : forall s r, In (s, r) [(a, b); (b, c); (c, a)] -> ~ degenerate s r (centroid a b c)).
  { intros s r J (D1 & D2 & D3). apply N. destruct (E s r J) as (E1 & E2 & E3). unfold smulv in *. cbn [vx vy vz fst snd] in *. unfold degenerate, same. cbn [vx vy vz fst snd]. rewrite E1, E2, E3, D1, D2, D3. repeat split; ring. }
  repeat split; apply G; cbn; auto.
Qed.
Lemma degenerate_dec : forall a b c, {degenerate a b c} + {~ degenerate a b c}.
Proof. intros a b c. apply same_dec. Qed.

Lemma not_open_side : forall x a b c, in_triangle x a b c -> ~ in_open_triangle x a b c ->
  exists s r l, In (s, r) [(a, b); (b, c); (c, a)] /\ same x (along s l (vsub r s)).
Proof.
  intros x a b c (u & v & w & U & V & W & S & X & Y & Z) N.
  destruct (Qlt_le_dec 0 u) as [U0 | U0]; [ destruct (Qlt_le_dec 0 v) as [V0 | V0]; [ destruct (Qlt_le_dec 0 w) as [W0 | W0] | ] | ].
  - destruct N. exists u, v, w. auto 10.
  - exists a, b, v. split; [ left; reflexivity | ]. assert (w == 0) by lra. assert (u == 1 - v) by lra. unfold same, along, vsub. cbn [vx vy vz fst snd]. rewrite X, Y, Z, H, H0. repeat split; ring.
  - exists c, a, u. split; [ right; right; left; reflexivity | ]. assert (v == 0) by lra. assert (w == 1 - u) by lra. unfold same, along, vsub. cbn [vx vy vz fst snd]. rewrite X, Y, Z, H, H0. repeat split; ring.
  - exists b, c, w. split; [ right; left; reflexivity | ]. assert (u == 0) by lra. assert (v == 1 - w) by lra. unfold same, along, vsub. cbn [vx vy vz fst snd]. rewrite X, Y, Z, H, H0. repeat split; ring.
Qed.

Lemma lucky_clear : forall D (m : soup vec3 D) p fi, proper_faces m -> lucky m p -> ~ ambiguous m p fi.
Proof.
  intros D m p ft Hp L (a & b & c & q & fi & fj & Ta & Ne & (t & Ht & Sq) & (a1 & b1 & c1 & Ti & Oi) & Oj & _).
  assert (T1 : ~ 1 - t == 0).
  { intro E. assert (Oq : in_open_triangle q a b c).
    { apply (open_same (centroid a b c)); [ | apply centroid_open ]. destruct Sq as (X & Y & Z). assert (E' : t == 1) by lra.
      unfold same. rewrite X, Y, Z. unfold along, vsub. cbn [vx vy vz fst snd]. rewrite E'. repeat split; ring. }
    assert (fi = ft) by (apply (pf_apart m Hp ft fi a b c q Ta Oq); exists a1, b1, c1; auto).
    assert (fj = ft) by (apply (pf_apart m Hp ft fj a b c q Ta Oq); exact Oj). congruence. }
  assert (Nd := pf_nondegenerate m Hp fi a1 b1 c1 Ti).
  destruct (not_open_side q a1 b1 c1 Oi) as (s & r & l & J & Sl).
  { intro O. apply Ne. symmetry. exact (pf_apart m Hp fi fj a1 b1 c1 q Ti O Oj). }
  assert (Z : forall h, (1 - t) * h == 0 -> h == 0) by (intros h H; apply Qmult_integral in H; destruct H; [ contradiction | assumption ]).
  destruct (degenerate_dec s r (centroid a b c)) as [Dg | Dg].
  - apply (L (s, r, centroid a1 b1 c1)).
    + exists fi, fi, a1, b1, c1, a1, b1, c1. split; [ exact Ti | ]. split; [ exact Ti | ]. cbn in J |- *. destruct J as [J | [J | [J | [] ] ] ]; injection J as <- <-; auto.
    + destruct (own_centroid a1 b1 c1 Nd) as (N1 & N2 & N3). cbn in J |- *. destruct J as [J | [J | [J | [] ] ] ]; injection J as <- <-; assumption.
    + cbn [in_plane]. apply Z. exact (meet_det' s r (centroid a b c) (centroid a1 b1 c1) p q l t Dg Sl Sq).
  - apply (L (s, r, centroid a b c)).
    + exists fi, ft, a1, b1, c1, a, b, c. split; [ exact Ti | ]. split; [ exact Ta | ]. cbn in J |- *. destruct J as [J | [J | [J | [] ] ] ]; injection J as <- <-; auto.
    + exact Dg.
    + cbn [in_plane]. apply Z. exact (meet_det s r (centroid a b c) p q l t Sl Sq).
Qed.

(** The planes are finitely many. *)
Definition planes_of {D} (m : soup vec3 D) : list plane :=
  let ts := flat_map (fun i => match soup_triangle m i with Ok T => [T] | _ => [] end) (seq 0 (num_faces m)) in
  filter (fun h => let '(u, v, w) := h in if degenerate_dec u v w then false else true)
    (flat_map (fun T => flat_map (fun U => let '(a, b, c) := T in let '(p, q, r) := U in
       [(a, b, centroid p q r); (b, c, centroid p q r); (c, a, centroid p q r)]) ts) ts).
Lemma filter_le : forall A (f : A -> bool) l, (length (filter f l) <= length l)%nat.
Proof. intros A f l. induction l as [ | x l IH]; cbn; [ lia | ]. destruct (f x); cbn; lia. Qed.
Lemma flat_map_le : forall A B (f : A -> list B) k l, (forall x, length (f x) <= k)%nat -> (length (flat_map f l) <= k * length l)%nat.
Proof. intros A B f k l H. induction l as [ | x l IH]; cbn; [ lia | ]. rewrite app_length. specialize (H x). lia. Qed.
Lemma planes_few : forall D (m : soup vec3 D), (length (planes_of m) <= 3 * num_faces m * num_faces m)%nat.
Proof.
  intros D m. unfold planes_of. set (ts := flat_map _ (seq 0 (num_faces m))).
  assert (L : (length ts <= num_faces m)%nat).
  { unfold ts. etransitivity; [ apply (flat_map_le _ _ _ 1) | rewrite seq_length; lia ]. intro i. destruct (soup_triangle m i); cbn; lia. }
  etransitivity; [ apply filter_le | ]. etransitivity; [ apply (flat_map_le _ _ _ (3 * num_faces m)) | ].
  - intros [ [a b] c]. etransitivity; [ apply (flat_map_le _ _ _ 3) | ]; [ | nia ]. intros [ [p q] r]. cbn. lia.
  - nia.
Qed.
Lemma planes_are : forall D (m : soup vec3 D) h, In h (planes_of m) <-> side_and_centroid m h /\ is_plane h.
Proof.
  intros D m h. unfold planes_of. set (ts := flat_map _ (seq 0 (num_faces m))).
  assert (T : forall T, In T ts <-> exists i, soup_triangle m i = Ok T).
  { intro T. unfold ts. rewrite in_flat_map. split.
    - intros (i & _ & J). exists i. destruct (soup_triangle m i) as [U | | ]; cbn in J; [ destruct J as [-> | [] ]; reflexivity | destruct J .. ].
    - intros (i & E). exists i. split; [ | rewrite E; left; reflexivity ]. apply in_seq. split; [ lia | ].
      unfold soup_triangle, soup_face, vec_at in E. destruct (nth_error (faces m) i) eqn:F; [ | discriminate E ]. cbn. apply nth_error_Some. congruence. }
  rewrite filter_In, in_flat_map. split.
  - intros ((U & JU & JV) & E). apply in_flat_map in JV. destruct JV as (V & JV & J). apply T in JU, JV. destruct JU as (i & Ei), JV as (j & Ej). destruct U as [ [a b] c], V as [ [p q] r].
    split; [ exists i, j, a, b, c, p, q, r; auto | ]. destruct h as [ [u v] w]. cbn [is_plane]. destruct (degenerate_dec u v w); [ discriminate E | assumption ].
  - intros ((i & j & a & b & c & p & q & r & Ei & Ej & J) & N). split.
    + exists (a, b, c). split; [ apply T; exists i; exact Ei | ]. apply in_flat_map. exists (p, q, r). split; [ apply T; exists j; exact Ej | exact J ].
    + destruct h as [ [u v] w]. cbn [is_plane] in N. destruct (degenerate_dec u v w); [ contradiction | reflexivity ].
Qed.
