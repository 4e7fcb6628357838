(** * The cached orientation test *)
From Coq Require Import List Arith Bool NArith QArith Lqa Lia Setoid.
From Verif Require Import Model_base Proof_base Model_geometry Model_region Model_points Proof_points Model_ffi.
Import ListNotations.
Local Open Scope nat_scope.

(** ** Signs *)
Lemma sign_ext : forall x y : Q, (x == y)%Q -> sign x = sign y.
Proof. intros x y H. unfold sign. rewrite H. reflexivity. Qed.
Lemma sign_pos : forall x : Q, sign x = Gt <-> (0 < x)%Q.
Proof. intro x. unfold sign. split; intro H; [ apply Qgt_alt in H; exact H | apply Qgt_alt; exact H ]. Qed.
Lemma sign_neg : forall x : Q, sign x = Lt <-> (x < 0)%Q.
Proof. intro x. unfold sign. symmetry. apply Qlt_alt. Qed.
Lemma sign_zero : forall x : Q, sign x = Eq <-> (x == 0)%Q.
Proof. intro x. unfold sign. symmetry. apply Qeq_alt. Qed.
Lemma sign_opp : forall x : Q, sign (- x)%Q = CompOpp (sign x).
Proof.
  intro x. destruct (sign x) eqn:E; cbn [CompOpp]; rewrite ?sign_zero, ?sign_pos, ?sign_neg in *; lra.
Qed.
Lemma sign_mul : forall x y : Q, sign (x * y)%Q = smul (sign x) (sign y).
Proof.
  intros x y. destruct (sign x) eqn:Ex, (sign y) eqn:Ey; cbn [smul CompOpp];
    rewrite ?sign_zero, ?sign_pos, ?sign_neg in *; try nra.
Qed.

(** ** sort *)
Section Sort.
  (** Any alternating function of four arguments. *)
  Variable O : nat -> nat -> nat -> nat -> comparison.
  Hypothesis O1 : forall a b c d, O b a c d = CompOpp (O a b c d).
  Hypothesis O2 : forall a b c d, O a c b d = CompOpp (O a b c d).
  Hypothesis O3 : forall a b c d, O a b d c = CompOpp (O a b c d).
  Definition on_list (l : list nat) : comparison := O (nth 0 l 0) (nth 1 l 0) (nth 2 l 0) (nth 3 l 0).
  Lemma swap_ok : forall j ids, length ids = 4 -> 1 <= j <= 3 -> length (swap_at ids j) = 4 /\ on_list (swap_at ids j) = CompOpp (on_list ids).
  Proof.
    intros j ids L H. destruct ids as [ | a [ | b [ | c [ | d [ | e r] ] ] ] ]; cbn in L; try lia.
    destruct j as [ | [ | [ | [ | j] ] ] ]; try lia; (split; [ reflexivity | ]); unfold on_list, swap_at; cbn [list_set nth Nat.sub];
      [ apply O1 | apply O2 | apply O3 ].
  Qed.
  Lemma swap_in : forall j ids x, length ids = 4 -> 1 <= j <= 3 -> In x (swap_at ids j) -> In x ids.
  Proof.
    intros j ids x L H. destruct ids as [ | a [ | b [ | c [ | d [ | e r] ] ] ] ]; cbn in L; try lia.
    destruct j as [ | [ | [ | [ | j] ] ] ]; try lia; cbn; tauto.
  Qed.
  Lemma smul_opp : forall s t, smul (CompOpp s) (CompOpp t) = smul s t.
  Proof. intros [ | | ] [ | | ]; reflexivity. Qed.
  Lemma sink_ok : forall j ids par, length ids = 4 -> j <= 3 ->
    length (fst (sink j ids par)) = 4 /\ smul (snd (sink j ids par)) (on_list (fst (sink j ids par))) = smul par (on_list ids) /\
    (forall x, In x (fst (sink j ids par)) -> In x ids).
  Proof.
    induction j as [ | j IH]; intros ids par L H; cbn [sink]; [ auto | ].
    destruct (nth j ids 0 <? nth (S j) ids 0); [ | auto ].
    destruct (swap_ok (S j) ids L ltac:(lia)) as [L' E]. destruct (IH (swap_at ids (S j)) (CompOpp par) L' ltac:(lia)) as (A & B & C).
    split; [ exact A | ]. split; [ rewrite B, E; apply smul_opp | ]. intros x I. apply (swap_in (S j)); auto. lia.
  Qed.
  Lemma sort_ok : forall a b c d, length (fst (sort_ids [a; b; c; d])) = 4 /\
    smul (snd (sort_ids [a; b; c; d])) (on_list (fst (sort_ids [a; b; c; d]))) = O a b c d /\
    (forall x, In x (fst (sort_ids [a; b; c; d])) -> x = a \/ x = b \/ x = c \/ x = d).
  Proof.
    intros a b c d. unfold sort_ids. cbn [length Nat.sub seq fold_left fst snd].
    destruct (sink_ok 1 [a; b; c; d] Gt eq_refl ltac:(lia)) as (A1 & B1 & C1). destruct (sink 1 [a; b; c; d] Gt) as [l1 p1]. cbn [fst snd] in *.
    destruct (sink_ok 2 l1 p1 A1 ltac:(lia)) as (A2 & B2 & C2). destruct (sink 2 l1 p1) as [l2 p2]. cbn [fst snd] in *.
    destruct (sink_ok 3 l2 p2 A2 ltac:(lia)) as (A3 & B3 & C3). destruct (sink 3 l2 p2) as [l3 p3]. cbn [fst snd] in *.
    split; [ exact A3 | ]. split; [ rewrite B3, B2, B1; reflexivity | ].
    intros x I. apply C3, C2, C1 in I. cbn in I. intuition.
  Qed.
End Sort.

(** ** The orientation *)
Lemma det3_1 : forall p q r s, (det3 q p r s == - det3 p q r s)%Q.
Proof. intros [ [a b] c] [ [d e] f] [ [g h] i] [ [j k] l]. unfold det3, vdot, vcross, vsub, vx, vy, vz. cbn [fst snd]. ring. Qed.
Lemma det3_2 : forall p q r s, (det3 p r q s == - det3 p q r s)%Q.
Proof. intros [ [a b] c] [ [d e] f] [ [g h] i] [ [j k] l]. unfold det3, vdot, vcross, vsub, vx, vy, vz. cbn [fst snd]. ring. Qed.
Lemma det3_3 : forall p q r s, (det3 p q s r == - det3 p q r s)%Q.
Proof. intros [ [a b] c] [ [d e] f] [ [g h] i] [ [j k] l]. unfold det3, vdot, vcross, vsub, vx, vy, vz. cbn [fst snd]. ring. Qed.
Lemma orientation_alt : forall p q r s,
  orientation_3 q p r s = CompOpp (orientation_3 p q r s) /\ orientation_3 p r q s = CompOpp (orientation_3 p q r s) /\
  orientation_3 p q s r = CompOpp (orientation_3 p q r s).
Proof.
  intros p q r s. unfold orientation_3. rewrite <- !sign_opp.
  repeat split; apply sign_ext; [ apply det3_1 | apply det3_2 | apply det3_3 ].
Qed.

Section Cache.
  Context {P : Type}.
  Variable coords : P -> vec3.
  Variable points : list P.
  (** The coordinates of a point of the list. *)
  Definition at_ (i : nat) : vec3 := match nth_error points i with Some p => coords p | None => (0, 0, 0)%Q end.
  Definition O4 (a b c d : nat) : comparison := orientation_3 (at_ a) (at_ b) (at_ c) (at_ d).
  Definition cache_ok (cache : list (list nat * comparison)) : Prop :=
    forall key o, In (key, o) cache -> o = on_list O4 key.

  Lemma vec_at_points : forall i, i < length points -> exists p, vec_at points i = Ok p /\ coords p = at_ i.
  Proof.
    intros i H. unfold vec_at, at_. destruct (nth_error points i) as [p | ] eqn:E; [ eauto | ]. apply nth_error_None in E. lia.
  Qed.

  Lemma orientation4_ok : forall st a b c d, cache_ok (ffi_cache st) ->
    a < length points -> b < length points -> c < length points -> d < length points ->
    exists cache, orientation4 coords points st a b c d = Ok (mk_ffi (ffi_inters st) cache, O4 a b c d) /\ cache_ok cache.
  Proof.
    intros st a b c d Hc La Lb Lc Ld. unfold orientation4.
    destruct (sort_ok O4 (fun p q r s => proj1 (orientation_alt (at_ p) (at_ q) (at_ r) (at_ s)))
      (fun p q r s => proj1 (proj2 (orientation_alt (at_ p) (at_ q) (at_ r) (at_ s))))
      (fun p q r s => proj2 (proj2 (orientation_alt (at_ p) (at_ q) (at_ r) (at_ s)))) a b c d) as (L & E & I).
    destruct (sort_ids [a; b; c; d]) as [key par]. cbn [fst snd] in *.
    destruct (assoc_find key_eqb key (ffi_cache st)) as [o | ] eqn:F.
    - apply (assoc_find_some key_eqb key_eqb_ok) in F. apply Hc in F. subst o. rewrite E. exists (ffi_cache st). split; [ destruct st; reflexivity | exact Hc ].
    - assert (R : forall i, i < 4 -> nth i key 0 < length points).
      { intros i Hi. assert (J : In (nth i key 0) key) by (apply nth_In; lia). apply I in J. lia. }
      destruct (vec_at_points _ (R 0 ltac:(lia))) as (p0 & -> & C0). destruct (vec_at_points _ (R 1 ltac:(lia))) as (p1 & -> & C1).
      destruct (vec_at_points _ (R 2 ltac:(lia))) as (p2 & -> & C2). destruct (vec_at_points _ (R 3 ltac:(lia))) as (p3 & -> & C3). cbn [bind].
      rewrite C0, C1, C2, C3. change (orientation_3 (at_ (nth 0 key 0)) (at_ (nth 1 key 0)) (at_ (nth 2 key 0)) (at_ (nth 3 key 0))) with (on_list O4 key).
      rewrite E. eexists. split; [ reflexivity | ]. intros k o J. apply in_app_iff in J. destruct J as [J | [J | [ ] ] ]; [ apply Hc; exact J | ].
      injection J as <- <-. reflexivity.
  Qed.
  Lemma orientation2_ok : forall a b, a < length points -> b < length points ->
    orientation2 coords points a b = Ok (compare_lexicographically (at_ a) (at_ b)).
  Proof.
    intros a b La Lb. unfold orientation2. destruct (vec_at_points a La) as (p & -> & Ep). destruct (vec_at_points b Lb) as (q & -> & Eq). cbn [bind].
    rewrite Ep, Eq. reflexivity.
  Qed.
  Lemma orientation3_ok : forall a b c, a < length points -> b < length points -> c < length points ->
    orientation3 coords points a b c = Ok (coplanar_orientation (at_ a) (at_ b) (at_ c)).
  Proof.
    intros a b c La Lb Lc. unfold orientation3. destruct (vec_at_points a La) as (p & -> & Ep). destruct (vec_at_points b Lb) as (q & -> & Eq).
    destruct (vec_at_points c Lc) as (r & -> & Er). cbn [bind]. rewrite Ep, Eq, Er. reflexivity.
  Qed.
End Cache.
