(** * A mesh is the boundary of one set at most *)
From Coq Require Import List Arith ZArith QArith Qminmax Lqa Lia.
From Verif Require Import Model_base Model_soup Model_geometry Model_side.
From Verif Require Import Spec_candidates Spec_side Spec_solid Proof_affine Proof_small Proof_walk Proof_link Proof_winding Proof_hinge Proof_twosides.
Import ListNotations.
Local Open Scope Q_scope.

Section Unique.
  Context {P : Type}.
  Variable coords : P -> vec3.
  Variable ts : list (P * P * P).
  Notation tri_of := (tri_of coords).
  Notation clear := (clear coords ts).
  Hypothesis Hflat : forall t, In t ts -> ~ flat (tri_of t).
  Hypothesis Hap : forall i j t u x, nth_error ts i = Some t -> nth_error ts j = Some u -> in_tri x (tri_of t) -> on_tri x (tri_of u) -> j = i.

  Definition walks (S : vec3 -> Prop) : Prop := forall x y, (forall z, in_segment z x y -> clear z) -> (S x <-> S y).
  Definition fits (S : vec3 -> Prop) : Prop := forall i t q v, nth_error ts i = Some t -> in_tri q (tri_of t) -> ~ vdot (tri_normal (tri_of t)) v == 0 -> eventually (fun e =>
    (vdot (tri_normal (tri_of t)) v < 0 -> S (along q e v)) /\ (0 < vdot (tri_normal (tri_of t)) v -> ~ S (along q e v))).

  Lemma meets : forall x y, ef coords ts x y -> clear y -> forall l, incl l ts ->
    (forall t z, In t l -> in_segment z x y -> ~ on_tri z (tri_of t)) \/
    exists t k, In t l /\ 0 <= k <= 1 /\ in_tri (along x k (vsub y x)) (tri_of t) /\ ~ vdot (tri_normal (tri_of t)) (vsub y x) == 0 /\
      forall u s, In u l -> 0 <= s -> s < k -> ~ on_tri (along x s (vsub y x)) (tri_of u).
  Proof.
    intros x y E Cy l. induction l as [ | t l IH]; intro Sub; [ left; intros t z [] | ].
    assert (Jt : In t ts) by (apply Sub; left; reflexivity).
    assert (Seg : forall s, 0 <= s -> s <= 1 -> in_segment (along x s (vsub y x)) x y) by (intros s S0 S1; exists s; split; [ lra | apply same_refl ]).
    destruct (crossing (tri_of t) x y (Hflat t Jt) (Cy t Jt)) as [Fr | (k & K0 & K1 & Ik & Nk & Uk)].
    { intros s z Js Z S. destruct t as [ [a b] c]. cbn [sides Proof_winding.tri_of] in Js.
      assert (L : forall p q, In (p, q) (sides_of (a, b, c)) -> In (p, q) (all_sides ts)) by (intros p q J; apply in_flat_map; exists (a, b, c); auto).
      destruct Js as [<- | [<- | [<- | [] ] ] ]; cbn [fst snd] in S; [ apply (E z a b) | apply (E z b c) | apply (E z c a) ]; try exact S; try exact Z; apply L; cbn; auto. }
    - destruct IH as [IH | (u & k & Ju & Hk & Ik & Nk & Fk)]; [ intros v J; apply Sub; right; exact J | | ].
      + left. intros v z [<- | J] Z; [ exact (Fr z Z) | exact (IH v z J Z) ].
      + right. exists u, k. split; [ right; exact Ju | ]. split; [ exact Hk | ]. split; [ exact Ik | ]. split; [ exact Nk | ].
        intros v s [<- | J] S0 S1; [ apply Fr, Seg; lra | apply (Fk v s J S0 S1) ].
    - assert (Own : forall s, s < k -> ~ on_tri (along x s (vsub y x)) (tri_of t)) by (intros s S0 O; apply Uk in O; lra).
      destruct IH as [IH | (u & k' & Ju & Hk & Ik' & Nk' & Fk)]; [ intros v J; apply Sub; right; exact J | | ].
      + right. exists t, k. split; [ left; reflexivity | ]. split; [ lra | ]. split; [ exact Ik | ]. split; [ exact Nk | ].
        intros v s [<- | J] S0 S1; [ apply Own, S1 | apply (IH v _ J), Seg; lra ].
      + right. destruct (Qlt_le_dec k k') as [Lk | Lk].
        * exists t, k. split; [ left; reflexivity | ]. split; [ lra | ]. split; [ exact Ik | ]. split; [ exact Nk | ]. intros v s [<- | J] S0 S1; [ apply Own, S1 | apply (Fk v s J S0); lra ].
        * exists u, k'. split; [ right; exact Ju | ]. split; [ exact Hk | ]. split; [ exact Ik' | ]. split; [ exact Nk' | ]. intros v s [<- | J] S0 S1; [ apply Own; lra | apply (Fk v s J S0 S1) ].
  Qed.

  Lemma fits_agree : forall S S' i t q v, fits S -> fits S' -> nth_error ts i = Some t -> in_tri q (tri_of t) -> ~ vdot (tri_normal (tri_of t)) v == 0 ->
    eventually (fun e => S (along q e v) <-> S' (along q e v)).
  Proof.
    intros S S' i t q v F F' E I N. generalize (ev_and _ _ (F i t q v E I N) (F' i t q v E I N)). apply ev_mono. intros e _ ((A & B) & A' & B').
    destruct (Qlt_le_dec (vdot (tri_normal (tri_of t)) v) 0) as [L | L]; [ specialize (A L); specialize (A' L); tauto | ]. assert (L' : 0 < vdot (tri_normal (tri_of t)) v) by lra. specialize (B L'). specialize (B' L'). tauto.
  Qed.

  Lemma sees_agree : forall S S' x y, walks S -> walks S' -> fits S -> fits S' -> ef coords ts x y -> clear x -> clear y -> (S y <-> S' y) -> (S x <-> S' x).
  Proof.
    intros S S' x y W W' F F' E Cx Cy Ag. destruct (meets x y E Cy ts (incl_refl ts)) as [Fr | (t & k & Jt & Hk & Ik & Nk & Fk)].
    - assert (C : forall z, in_segment z x y -> clear z) by (intros z Z t J; exact (Fr t z J Z)). rewrite (W x y C), (W' x y C). exact Ag.
    - set (q := along x k (vsub y x)) in *. assert (K0 : 0 < k).
      { destruct (Qlt_le_dec 0 k) as [L | L]; [ exact L | exfalso ]. apply (Cx t Jt). apply (on_tri_same _ q); [ | apply in_on_tri, Ik ]. assert (Z0 : k == 0) by lra. unfold q, same, along. cbn [vx vy vz fst snd]. rewrite Z0. repeat split; ring. }
      apply In_nth_error in Jt; destruct Jt as (i & Ei).
      assert (Nv : ~ vdot (tri_normal (tri_of t)) (vsub x y) == 0).
      { intro Z0. apply Nk. assert (X : vdot (tri_normal (tri_of t)) (vsub y x) == - vdot (tri_normal (tri_of t)) (vsub x y)) by (generalize (tri_normal (tri_of t)) as n; clear; crush; ring). rewrite X, Z0. ring. }
      destruct (ev_witness _ (ev_below _ k K0 (fits_agree S S' i t q (vsub x y) F F' Ei Ik Nv))) as (e & E0 & E1 & Ae).
      assert (Sm : same (along q e (vsub x y)) (along x (k - e) (vsub y x))) by (unfold q, same, along, vsub; cbn [vx vy vz fst snd]; repeat split; ring).
      assert (C : forall z, in_segment z x (along q e (vsub x y)) -> clear z).
      { intros z (s & Hs & Z) u Ju O. apply (Fk u (s * (k - e)) Ju); [ apply Qmult_le_0_compat; lra | clear - Hs E0 E1; nra | ]. apply (on_tri_same _ z); [ | exact O ].
        apply (same_trans _ _ _ Z). destruct Sm as (S1 & S2 & S3). unfold same, along, vsub in *. cbn [vx vy vz fst snd] in *. rewrite S1, S2, S3. repeat split; ring. }
      rewrite (W x _ C), (W' x _ C). exact Ae.
  Qed.

  (** A point near a face that is seen from [x]. *)
  Lemma near_face_side : forall i t x, nth_error ts i = Some t -> off coords ts x -> exists q, in_tri q (tri_of t) /\
    forall behind : bool, exists v, (if behind then vdot (tri_normal (tri_of t)) v < 0 else 0 < vdot (tri_normal (tri_of t)) v) /\ eventually (fun e => ef coords ts x (along q e v)).
  Proof.
    intros i t x Ei Ox. assert (Nt : ~ flat (tri_of t)) by (apply Hflat; eapply nth_error_In, Ei).
    assert (Q0 : exists q0, in_tri q0 (tri_of t)) by (destruct t as [ [a b] c]; exists (centroid (coords a) (coords b) (coords c)); apply centroid_open). destruct Q0 as (q & Iq).
    destruct (choose_all (P * P) (vec3 * vec3) (fun s n => snd n = coords (fst s) /\ ~ same (fst n) zero3 /\ vdot (fst n) (vsub (coords (snd s)) (coords (fst s))) == 0 /\ vdot (fst n) (vsub x (coords (fst s))) == 0) (all_sides ts)) as (pl & H1 & H2).
    { intros (p & r) _. destruct (plane_of (coords p) (coords r) x) as (n & N1 & N2 & N3). exists (n, coords p). cbn [fst snd]. auto. }
    destruct (generic (tri_normal (tri_of t) :: map fst pl)) as (v0 & Hv0).
    { intros n [<- | J]; [ intro E; apply Nt; destruct (tri_of t) as [ [a b] c]; exact E | ]. apply in_map_iff in J. destruct J as (np & <- & J). destruct (H2 np J) as (s & _ & _ & N & _). exact N. }
    exists q. split; [ exact Iq | ]. intro behind.
    assert (Ch : exists v, (if behind then vdot (tri_normal (tri_of t)) v < 0 else 0 < vdot (tri_normal (tri_of t)) v) /\ forall n, In n (tri_normal (tri_of t) :: map fst pl) -> ~ vdot n v == 0).
    { assert (Opp : forall n, vdot n (scaled (-(1)) v0) == - vdot n v0) by (intro n; unfold vdot, scaled; cbn [vx vy vz fst snd]; ring).
      assert (Hv1 : forall n, In n (tri_normal (tri_of t) :: map fst pl) -> ~ vdot n (scaled (-(1)) v0) == 0) by (intros n J Z; rewrite Opp in Z; apply (Hv0 n J); lra).
      assert (N0 := Hv0 _ (or_introl eq_refl)).
      destruct (Qlt_le_dec (vdot (tri_normal (tri_of t)) v0) 0) as [L | L], behind; [ exists v0 | exists (scaled (-(1)) v0) | exists (scaled (-(1)) v0) | exists v0 ]; (split; [ | assumption ]); rewrite ?Opp; lra. }
    destruct Ch as (v & Sv & Hv). exists v. split; [ exact Sv | ].
    assert (Ev : eventually (fun e => forall np, In np pl -> ~ vdot (fst np) (vsub q (snd np)) + e * vdot (fst np) v == 0)).
    { apply ev_list. intros np J. apply ev_nonzero. left. apply Hv. right. apply in_map, J. }
    revert Ev. apply ev_mono. intros e E0 Av z p r Js (s & S0 & (S1 & S2 & S3)) (k & K0 & (T1 & T2 & T3)).
    destruct (H1 (p, r) Js) as ((n & p') & Jn & E & N1 & N2 & N3). cbn [fst snd] in *. subst p'. specialize (Av _ Jn). cbn [fst snd] in Av.
    set (y := along q e v) in *. assert (Yv : vdot n (vsub y (coords p)) == vdot n (vsub q (coords p)) + e * vdot n v) by (unfold y; clear; generalize (coords p) as o; crush; ring).
    assert (Z0 : vdot n (vsub z (coords p)) == 0).
    { assert (E : vdot n (vsub z (coords p)) == s * vdot n (vsub (coords r) (coords p))).
      { unfold vdot, vsub, along in *. cbn [vx vy vz fst snd] in *. rewrite S1, S2, S3. ring. }
      rewrite E, N2. ring. }
    assert (Z1 : vdot n (vsub z (coords p)) == (1 - k) * vdot n (vsub x (coords p)) + k * vdot n (vsub y (coords p))).
    { clear Yv. clearbody y. unfold vdot, vsub, along in *. cbn [vx vy vz fst snd] in *. rewrite T1, T2, T3. ring. }
    rewrite Z0, N3 in Z1. assert (Z2 : k * vdot n (vsub y (coords p)) == 0) by lra. apply Qmult_integral in Z2. destruct Z2 as [Z2 | Z2]; [ | apply Av; rewrite <- Yv; exact Z2 ].
    apply (Ox p r Js). apply (in_segment_same z x).
    - clear Yv. clearbody y. unfold same, along in *. cbn [vx vy vz fst snd] in *. rewrite T1, T2, T3, Z2. repeat split; ring.
    - exists s. split; [ assumption | ]. repeat split; assumption.
  Qed.
  Lemma near_face : forall i t x, nth_error ts i = Some t -> off coords ts x -> exists q v, in_tri q (tri_of t) /\ ~ vdot (tri_normal (tri_of t)) v == 0 /\ eventually (fun e => ef coords ts x (along q e v)).
  Proof.
    intros i t x Ei Ox. destruct (near_face_side i t x Ei Ox) as (q & Iq & H). destruct (H true) as (v & L & E). exists q, v. split; [ exact Iq | ]. split; [ cbn in L; lra | exact E ].
  Qed.
  Lemma near_clear : forall i t q v, nth_error ts i = Some t -> in_tri q (tri_of t) -> ~ vdot (tri_normal (tri_of t)) v == 0 -> eventually (fun e => clear (along q e v)).
  Proof.
    intros i t q v Ei Iq Nv. apply ev_list. intros u Ju. assert (Nu := Hflat u Ju). destruct (on_tri_dec (tri_of u) q Nu) as [O | O].
    - apply In_nth_error in Ju. destruct Ju as (j & Ej). assert (j = i) by exact (Hap i j t u q Ei Ej Iq O). subst j. rewrite Ei in Ej. injection Ej as <-.
      apply ev_true. intros e E0 O'. apply on_hgt in O'. rewrite hgt_along, (on_hgt _ _ O) in O'. assert (Z : e * vdot (tri_normal (tri_of t)) v == 0) by lra. apply Qmult_integral in Z. destruct Z as [Z | Z]; [ lra | contradiction ].
    - apply (ev_mono (fun e => forall z, in_segment z q (along q e v) -> ~ sat (cons_tri (tri_of u)) z)).
      + intros e _ H S. apply (H _ (in_segment_end _ _)). apply (on_tri_iff (tri_of u) _ Nu), S.
      + apply ev_point. intro S. apply O. apply (on_tri_iff (tri_of u) q Nu), S.
  Qed.

  Theorem one_set : forall S S', walks S -> walks S' -> fits S -> fits S' -> ts <> [] -> forall x, clear x -> (S x <-> S' x).
  Proof.
    intros S S' W W' F F' Ne x Cx. destruct ts as [ | t l] eqn:Et; [ contradiction | ]. rewrite <- Et in *. assert (Ei : nth_error ts 0 = Some t) by (rewrite Et; reflexivity).
    destruct (near_face 0 t x Ei (clear_off coords ts x Cx)) as (q & v & Iq & Nv & Ev).
    destruct (ev_witness _ (ev_and _ _ Ev (ev_and _ _ (near_clear 0 t q v Ei Iq Nv) (fits_agree S S' 0 t q v F F' Ei Iq Nv)))) as (e & _ & E1 & E2 & E3).
    apply (sees_agree S S' x (along q e v)); assumption.
  Qed.
End Unique.
