(** * Closed and connected meshes bound a set *)
From Coq Require Import List Arith Bool ZArith QArith Lqa Lia.
From Verif Require Import Model_base Model_soup Model_geometry Model_side Model_corefine.
From Verif Require Import Spec_candidates Spec_side Spec_solid Spec_conform Spec_defects Spec_ffi Spec_corefine Spec_cut Spec_whole Spec_again Spec_find.
From Verif Require Import Proof_fan Proof_extreme Proof_hull Proof_cells Proof_bridge Proof_find.
From Verif Require Import Proof_affine Proof_small Proof_walk Proof_link Proof_winding Proof_hinge Proof_twosides.
From Verif Require Import Spec_corefine Spec_side Spec_solid.
Import ListNotations.
Local Open Scope nat_scope.

Lemma nodup_flat : forall A B (f : A -> list B) l, (forall i x, nth_error l i = Some x -> NoDup (f x)) ->
  (forall i j x y b, nth_error l i = Some x -> nth_error l j = Some y -> In b (f x) -> In b (f y) -> i = j) -> NoDup (flat_map f l).
Proof.
  intros A B f l. induction l as [ | a l IH]; intros H1 H2; [ apply NoDup_nil | ]. cbn [flat_map].
  assert (N := H1 0 a eq_refl). assert (IH' : NoDup (flat_map f l)).
  { apply IH; [ intros i x E; exact (H1 (S i) x E) | intros i j x y b Ei Ej X Y; pose proof (H2 (S i) (S j) x y b Ei Ej X Y); congruence ]. }
  assert (Dj : forall b, In b (f a) -> ~ In b (flat_map f l)).
  { intros b J K. apply in_flat_map in K. destruct K as (x & K & Kb). apply In_nth_error in K. destruct K as (i & Ei). discriminate (H2 0 (S i) a x b eq_refl Ei J Kb). }
  clear IH H1 H2. induction (f a) as [ | b r IH]; [ exact IH' | ]. cbn [app]. inversion N; subst. apply NoDup_cons.
  - rewrite in_app_iff. intros [J | J]; [ contradiction | ]. exact (Dj b (or_introl eq_refl) J).
  - apply IH; [ assumption | intros c J; apply Dj; right; exact J ].
Qed.
Lemma tabulate : forall A (R : nat -> A -> Prop) n, (forall i, i < n -> exists x, R i x) -> exists l, length l = n /\ forall i x, nth_error l i = Some x -> R i x.
Proof.
  intros A R n. induction n as [ | n IH]; intro H; [ exists []; split; [ reflexivity | intros [ | i] x E; discriminate E ] | ].
  destruct IH as (l & L & K); [ intros i Hi; apply H; lia | ]. destruct (H n) as (x & X); [ lia | ]. exists (l ++ [x]). split; [ rewrite app_length; cbn; lia | ].
  intros i y E. destruct (Nat.lt_ge_cases i n) as [Hi | Hi].
  - rewrite nth_error_app1 in E by lia. exact (K i y E).
  - rewrite nth_error_app2 in E by lia. rewrite L in E. destruct (i - n) as [ | k] eqn:Ek; [ | destruct k; discriminate E ]. injection E as <-. replace i with n by lia. exact X.
Qed.
Lemma listed_side : forall {P} (t : P * P * P) p q, In (p, q) (sides_of t) <-> directed t p q.
Proof.
  intros P [ [x y] z] p q. cbn [directed sides_of In]. split.
  - intros [E | [E | [E | [] ] ] ]; injection E as <- <-; auto.
  - intros [ (-> & ->) | [ (-> & ->) | (-> & ->)] ]; auto.
Qed.

Section Separate.
  Context {P D : Type}.
  Variable coords : P -> vec3.
  Variable m : soup P D.
  Hypothesis Hm : meets_conditions coords m.
  Hypothesis Hc : closed_mesh m.

  Lemma corners_differ : forall i x y z, face_corners m i (x, y, z) -> x <> y /\ y <> z /\ z <> x.
  Proof.
    intros i x y z F. destruct Hm as (Pr & _). destruct (Pr i (face_range m i _ F)) as (t & F' & Nd). assert (t = (x, y, z)) by (eapply face_unique; eassumption). subst t.
    repeat split; intros ->; apply Nd; cbn [triangle_of]; apply collinear_twice.
  Qed.
  Lemma corners_nondegenerate : forall i t, face_corners m i t -> nondegenerate (triangle_of coords t).
  Proof. intros i t F. destruct Hm as (Pr & _). destruct (Pr i (face_range m i _ F)) as (t' & F' & Nd). assert (t' = t) by (eapply face_unique; eassumption). subst t'. exact Nd. Qed.
  Lemma faces_apart : forall i j t u x, face_corners m i t -> face_corners m j u -> in_tri x (triangle_of coords t) -> on_tri x (triangle_of coords u) -> j = i.
  Proof.
    intros i j t u x Fi Fj I O. apply in_full in I. apply on_inside in O. apply inside_feature in O. destruct O as (mj & O).
    destruct Hm as (_ & Tw & Si). pose proof (Si i j t u full mj x Fi Fj I O) as E. destruct t as [ [p q] r], u as [ [p' q'] r'].
    assert (Df := corners_differ _ _ _ _ Fi). assert (L : length [p; q; r] <= length (pick mj (p', q', r'))).
    { apply NoDup_incl_length; [ | intros y J; apply E; exact J ]. destruct Df as (D1 & D2 & D3). repeat (apply NoDup_cons; [ cbn; intuition congruence | ]). apply NoDup_nil. }
    assert (mj = (true, true, true)) as -> by (destruct mj as [ [ [ | ] [ | ] ] [ | ] ]; cbn in L; try reflexivity; exfalso; lia).
    symmetry. apply (Tw i j p q r p' q' r' Fi Fj). exact E.
  Qed.
  Lemma middle_faces : forall i j k t u v p q, face_corners m i t -> face_corners m j u -> face_corners m k v -> directed t p q -> directed u q p ->
    on_tri (mid (coords p) (coords q)) (triangle_of coords v) -> k = i \/ k = j.
  Proof.
    intros i j k t u v p q Fi Fj Fk Dt Du O. apply on_inside in O. apply inside_feature in O. destruct O as (mk & O).
    assert (S : on_tri (mid (coords p) (coords q)) (triangle_of coords t)).
    { apply side_on. destruct t as [ [x y] z]. cbn [triangle_of side_in directed] in *. assert (X : in_segment (mid (coords p) (coords q)) (coords p) (coords q)) by (exists (1 # 2)%Q; split; [ lra | apply same_refl ]).
      destruct Dt as [ (-> & ->) | [ (-> & ->) | (-> & ->)] ]; auto. }
    apply on_inside in S. apply inside_feature in S. destruct S as (mi & S).
    assert (Hp : has_point t p /\ has_point t q) by (destruct t as [ [x y] z]; cbn [directed has_point] in *; tauto). destruct Hp as (Hp & Hq).
    pose proof (segment_feature coords t p q mi (mid (coords p) (coords q)) (1 # 2) (corners_nondegenerate i t Fi) Hp Hq ltac:(lra)) as K.
    assert (K' : forall z, In z (pick mi t) <-> z = p /\ ~ ((1 # 2) == 1)%Q \/ z = q /\ ~ ((1 # 2) == 0)%Q).
    { apply K; try exact S; unfold mid, along, vsub; cbn [vx vy vz fst snd]; ring. }
    destruct Hm as (_ & _ & Si). pose proof (Si i k t v mi mk _ Fi Fk S O) as E.
    assert (Vp : has_point v p) by (apply (pick_has coords mk), E, K'; left; split; [ reflexivity | lra ]). assert (Vq : has_point v q) by (apply (pick_has coords mk), E, K'; right; split; [ reflexivity | lra ]).
    assert (Npq : p <> q). { intros <-. destruct t as [ [x y] z]. destruct (corners_differ _ _ _ _ Fi) as (D1 & D2 & D3). cbn [directed] in Dt. intuition congruence. }
    assert (Dv : directed v p q \/ directed v q p) by (destruct v as [ [x y] z]; cbn [directed has_point] in *; intuition (subst; try congruence; auto 8)).
    destruct Hc as (C1 & _). destruct Dv as [Dv | Dv]; [ left; exact (C1 k i v t p q Fk Fi Dv Dt) | right; exact (C1 k j v u q p Fk Fj Dv Du) ].
  Qed.

  Lemma located_proper : proper_faces (located coords m).
  Proof.
    destruct Hm as (Pr & _). split.
    - unfold valid_faces. apply Forall_forall. intros f J. apply In_nth_error in J. destruct J as (i & E). cbn [located faces] in E.
      destruct (Pr i) as (t & (a & b & c & p & q & r & Ef & A & B & C & _) & _); [ apply nth_error_Some; congruence | ]. rewrite E in Ef. injection Ef as ->.
      unfold located, num_vertices. cbn [points]. rewrite map_length. repeat split; apply nth_error_Some; congruence.
    - intros fi a b c E. apply located_corners in E. destruct E as (t & F & E). pose proof (nd_flat _ (corners_nondegenerate _ _ F)) as N. rewrite <- E in N. exact N.
    - intros fi fj a b c x E I (a' & b' & c' & E' & O). apply located_corners in E, E'. destruct E as (t & F & E), E' as (u & F' & E').
      apply (faces_apart fi fj t u x F F'); [ rewrite <- E; exact I | rewrite <- E'; exact O ].
  Qed.

  (** The faces as a list. *)
  Lemma listing : exists ts : list (P * P * P), length ts = num_faces m /\ (forall i t, nth_error ts i = Some t <-> face_corners m i t) /\
    (forall t, In t ts -> ~ flat (Proof_winding.tri_of coords t)) /\ NoDup (all_sides ts) /\ (forall p q, In (p, q) (all_sides ts) -> In (q, p) (all_sides ts)) /\
    (forall i j t u x, nth_error ts i = Some t -> nth_error ts j = Some u -> in_tri x (Proof_winding.tri_of coords t) -> on_tri x (Proof_winding.tri_of coords u) -> j = i) /\
    (forall i j k t u v p q, nth_error ts i = Some t -> nth_error ts j = Some u -> nth_error ts k = Some v ->
      In (p, q) (sides_of t) -> In (q, p) (sides_of u) -> on_tri (mid (coords p) (coords q)) (Proof_winding.tri_of coords v) -> k = i \/ k = j).
  Proof.
    destruct (tabulate _ (fun i t => face_corners m i t) (num_faces m)) as (ts & L & Ts).
    { intros i Hi. destruct Hm as (Pr & _). destruct (Pr i Hi) as (t & F & _). eauto. }
    assert (Ts' : forall i t, face_corners m i t -> nth_error ts i = Some t).
    { intros i t F. pose proof (face_range m i t F) as Hi. destruct (nth_error ts i) as [t' | ] eqn:E; [ | apply nth_error_None in E; lia ]. f_equal. eapply face_unique; [ exact (Ts i t' E) | exact F ]. }
    assert (Tri : forall t, Proof_winding.tri_of coords t = triangle_of coords t) by (intros [ [a b] c]; reflexivity).
    exists ts. split; [ exact L | ]. split; [ intros i t; split; [ apply Ts | apply Ts' ] | ]. split; [ | split; [ | split; [ | split ] ] ].
    - intros t J. apply In_nth_error in J. destruct J as (i & E). rewrite Tri. apply nd_flat. exact (corners_nondegenerate i t (Ts i t E)).
    - apply nodup_flat.
      + intros i [ [x y] z] E. destruct (corners_differ _ _ _ _ (Ts _ _ E)) as (D1 & D2 & D3). cbn [sides_of]. repeat (apply NoDup_cons; [ cbn; intuition congruence | ]). apply NoDup_nil.
      + intros i j t u [p q] Ei Ej Jt Ju. apply listed_side in Jt, Ju. destruct Hc as (C1 & _). exact (C1 i j t u p q (Ts _ _ Ei) (Ts _ _ Ej) Jt Ju).
    - intros p q J. apply in_flat_map in J. destruct J as (t & J & Jt). apply In_nth_error in J. destruct J as (i & E). apply listed_side in Jt. destruct Hc as (_ & C2).
      destruct (C2 i t p q (Ts _ _ E) Jt) as (j & u & Fj & Du). apply in_flat_map. exists u. split; [ eapply nth_error_In, Ts', Fj | apply listed_side, Du ].
    - intros i j t u x Ei Ej. rewrite !Tri. apply faces_apart; [ apply Ts, Ei | apply Ts, Ej ].
    - intros i j k t u v p q Ei Ej Ek Jt Ju. rewrite Tri. apply listed_side in Jt, Ju. exact (middle_faces i j k t u v p q (Ts _ _ Ei) (Ts _ _ Ej) (Ts _ _ Ek) Jt Ju).
  Qed.

  (** The front sides of all faces are at the same level. *)
  Theorem level_bounds : forall ts : list (P * P * P), (forall i t, nth_error ts i = Some t <-> face_corners m i t) ->
    (forall t, In t ts -> ~ flat (Proof_winding.tri_of coords t)) -> NoDup (all_sides ts) -> (forall p q, In (p, q) (all_sides ts) -> In (q, p) (all_sides ts)) ->
    (forall i j t u x, nth_error ts i = Some t -> nth_error ts j = Some u -> in_tri x (Proof_winding.tri_of coords t) -> on_tri x (Proof_winding.tri_of coords u) -> j = i) ->
    (forall i j k t u v p q, nth_error ts i = Some t -> nth_error ts j = Some u -> nth_error ts k = Some v ->
      In (p, q) (sides_of t) -> In (q, p) (sides_of u) -> on_tri (mid (coords p) (coords q)) (Proof_winding.tri_of coords v) -> k = i \/ k = j) ->
    (forall i j t u x y, nth_error ts i = Some t -> nth_error ts j = Some u -> in_tri x (Proof_winding.tri_of coords t) -> in_tri y (Proof_winding.tri_of coords u) -> winds coords ts x y 0) ->
    exists S, solid (located coords m) S.
  Proof.
    intros ts Ts Hfl Hnd Hsw Hap Hmd Hlv. assert (Tri : forall t, Proof_winding.tri_of coords t = triangle_of coords t) by (intros [ [a b] c]; reflexivity).
    destruct (two_sides coords ts) as (S & Wk & Fc & Dc); try assumption.
    exists S. split; [ exact located_proper | ]. split; [ | exact Dc ]. split.
    - intros x y H. apply Wk. intros z Z u J O. apply (H z Z). apply In_nth_error in J. destruct J as (i & E). apply located_boundary. exists i, u. split; [ apply Ts, E | ]. rewrite Tri in O. apply on_inside, O.
    - intros fi a b c q v E I. apply located_corners in E. destruct E as (t & F & E).
      assert (Nv : {(vdot (normal a b c) v == 0)%Q} + {~ (vdot (normal a b c) v == 0)%Q}) by apply Qeq_dec.
      destruct Nv as [Z0 | Nz]; [ exists 1%Q; split; [ lra | intros e _; split; intro; exfalso; lra ] | ].
      apply Ts in F. destruct (Fc fi t q v F) as (e0 & P0 & H0); [ rewrite Tri, <- E; exact I | rewrite Tri, <- E; exact Nz | ].
      exists e0. split; [ exact P0 | ]. intros e (E1 & E2). specialize (H0 e E1 ltac:(lra)). rewrite Tri, <- E in H0. exact H0.
  Qed.

  Theorem connected_bounds : connected_mesh m -> exists S, solid (located coords m) S.
  Proof.
    intro Cn. destruct listing as (ts & L & Ts & Hfl & Hnd & Hsw & Hap & Hmd). apply (level_bounds ts); try assumption.
    intros i j t u x y Ei Ej X Y. assert (Hi : i < num_faces m) by (rewrite <- L; apply nth_error_Some; congruence). assert (Hj : j < num_faces m) by (rewrite <- L; apply nth_error_Some; congruence).
    assert (J : Proof_twosides.joined ts i j).
    { clear Ei Ej X Y t u. pose proof (Cn i j Hi Hj) as J. clear Hi Hj. induction J as [ | j k t u p q J IH Fj Fk Dt Du]; [ apply joined_self | ].
      eapply joined_edge; [ exact IH | apply Ts, Fj | apply Ts, Fk | apply listed_side, Dt | apply listed_side, Du ]. }
    exact (joined_winds coords ts Hfl Hnd Hsw Hap Hmd i j J t u x y Ei Ej X Y).
  Qed.
End Separate.
