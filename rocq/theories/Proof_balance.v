(** * Meshes that bound a set, and the numbers of times one goes in and out *)
From Coq Require Import List Arith Bool ZArith QArith Lqa Lia Permutation.
From Verif Require Import Model_base Model_soup Model_geometry Model_side Model_corefine.
From Verif Require Import Spec_candidates Spec_side Spec_solid Spec_conform Spec_defects Spec_ffi Spec_corefine Spec_cut Spec_whole Spec_again Spec_find Spec_visible Spec_balance.
From Verif Require Import Proof_fan Proof_extreme Proof_hull Proof_cells Proof_bridge Proof_find.
From Verif Require Import Proof_affine Proof_small Proof_walk Proof_link Proof_winding Proof_hinge Proof_twosides Proof_oneset Proof_separate.
From Verif Require Import Spec_corefine Spec_side Spec_solid.
Import ListNotations.
Local Open Scope Q_scope.

Section Balance.
  Context {P : Type}.
  Variable coords : P -> vec3.
  Variable ts : list (P * P * P).
  Notation tri_of := (Proof_winding.tri_of coords).
  Notation clear := (clear coords ts).
  Notation winds := (winds coords ts).
  Notation ef := (ef coords ts).
  Notation total := (total coords ts).
  Hypothesis Hflat : forall t, In t ts -> ~ flat (tri_of t).
  Hypothesis Hnodup : NoDup (all_sides ts).
  Hypothesis Hswap : forall p q, In (p, q) (all_sides ts) -> In (q, p) (all_sides ts).
  Hypothesis Hap : forall i j t u x, nth_error ts i = Some t -> nth_error ts j = Some u -> in_tri x (tri_of t) -> on_tri x (tri_of u) -> j = i.
  Hypothesis Hmid : forall i j k t u v p q, nth_error ts i = Some t -> nth_error ts j = Some u -> nth_error ts k = Some v ->
    In (p, q) (sides_of t) -> In (q, p) (sides_of u) -> on_tri (mid (coords p) (coords q)) (tri_of v) -> k = i \/ k = j.

  (** The set changes with the winding number. *)
  Definition step (S : vec3 -> Prop) (x y : vec3) : Prop :=
    ((S x <-> S y) /\ winds x y 0) \/ (~ S x /\ S y /\ winds x y 1) \/ (S x /\ ~ S y /\ winds x y (-1)).

  Lemma ef_part : forall x y z, in_segment z x y -> ef x y -> ef z y.
  Proof.
    intros x y z (s & (S0 & S1) & (Z1 & Z2 & Z3)) E w p q J W (k & (K0 & K1) & (W1 & W2 & W3)). apply (E w p q J W). exists (s + k * (1 - s)). split; [ split; nra | ].
    unfold same, along, vsub in *. cbn [vx vy vz fst snd] in *. rewrite W1, W2, W3, Z1, Z2, Z3. repeat split; ring.
  Qed.

  Lemma free_winds : forall x y, (forall z, in_segment z x y -> clear z) -> winds x y 0.
  Proof.
    intros x y H. assert (E : ef x y) by (eapply ef_faces; intros i t z Ei Z S; exact (H z Z t (nth_error_In _ _ Ei) (side_on _ _ S))).
    assert (T0 : total x y = 0%Z) by (apply zsum_zero; intros t J; apply cc_free; [ apply Hflat, J | intros z Z; exact (H z Z t J) ]).
    rewrite <- T0. apply winds_direct; assumption.
  Qed.


  Lemma step_along : forall S, walks coords ts S -> fits coords ts S -> (forall x, S x \/ ~ S x) ->
    forall n l x y, (length l <= n)%nat -> incl l ts -> ef x y -> clear x -> clear y -> (forall u, In u ts -> In u l \/ forall z, in_segment z x y -> ~ on_tri z (tri_of u)) -> step S x y.
  Proof.
    intros S W F Dc n. induction n as [ | n IH]; intros l x y Ln Sub E Cx Cy Rest.
    - destruct l; [ | cbn in Ln; lia ]. left. assert (C : forall z, in_segment z x y -> clear z) by (intros z Z u J; destruct (Rest u J) as [ [] | H ]; exact (H z Z)).
      split; [ exact (W x y C) | apply free_winds, C ].
    - destruct (meets coords ts Hflat x y E Cy l Sub) as [Fr | (t & k & Jt & Hk & Ik & Nk & Fk)].
      + left. assert (C : forall z, in_segment z x y -> clear z) by (intros z Z u J; destruct (Rest u J) as [ H | H ]; [ exact (Fr u z H Z) | exact (H z Z) ]).
        split; [ exact (W x y C) | apply free_winds, C ].
      + assert (Jts : In t ts) by (apply Sub, Jt). set (q := along x k (vsub y x)) in *.
        assert (K0 : 0 < k).
        { destruct (Qlt_le_dec 0 k) as [L | L]; [ exact L | exfalso ]. apply (Cx t Jts). apply (on_tri_same _ q); [ | apply in_on_tri, Ik ]. assert (Z0 : k == 0) by lra. unfold q, same, along. cbn [vx vy vz fst snd]. rewrite Z0. repeat split; ring. }
        assert (K1 : k < 1).
        { destruct (Qlt_le_dec k 1) as [L | L]; [ exact L | exfalso ]. apply (Cy t Jts). apply (on_tri_same _ q); [ | apply in_on_tri, Ik ]. assert (Z0 : k == 1) by lra. unfold q, same, along, vsub. cbn [vx vy vz fst snd]. rewrite Z0. repeat split; ring. }
        apply In_nth_error in Jts as Ei; destruct Ei as (i & Ei). set (N := tri_normal (tri_of t)) in *.
        assert (Op : vdot N (vsub x y) == - vdot N (vsub y x)) by (generalize N as n0; clear; crush; ring).
        assert (Nv : ~ vdot N (vsub x y) == 0) by (rewrite Op; intro Z0; apply Nk; lra).
        assert (Fs := face_step coords ts Hflat Hnodup Hswap Hap i t q (vsub y x) Ei Ik Nk). assert (Fb := face_step coords ts Hflat Hnodup Hswap Hap i t q (vsub x y) Ei Ik Nv).
        assert (Gs := F i t q (vsub y x) Ei Ik Nk). assert (Gb := F i t q (vsub x y) Ei Ik Nv).
        destruct (ev_witness _ (ev_below _ k K0 (ev_below _ (1 - k) ltac:(lra) (ev_and _ _ (ev_and _ _ Fs Fb) (ev_and _ _ Gs Gb))))) as (e & E0 & E1 & E2 & ((W1 & C1) & W2 & C2) & G1 & G2). fold N in W1, W2, G1, G2.
        set (xf := along q e (vsub y x)) in *. set (xb := along q e (vsub x y)) in *.
        assert (Sb : same xb (along x (k - e) (vsub y x))) by (unfold xb, q, same, along, vsub; cbn [vx vy vz fst snd]; repeat split; ring).
        assert (Sf : same xf (along x (k + e) (vsub y x))) by (unfold xf, q, same, along, vsub; cbn [vx vy vz fst snd]; repeat split; ring).
        assert (Cb : forall z, in_segment z x xb -> clear z).
        { intros z (s & Hs & Z) u Ju O. assert (Sz : same z (along x (s * (k - e)) (vsub y x))).
          { apply (same_trans _ _ _ Z). destruct Sb as (S1 & S2 & S3). unfold same, along, vsub in *. cbn [vx vy vz fst snd] in *. rewrite S1, S2, S3. repeat split; ring. }
          assert (S0 : 0 <= s * (k - e)) by (apply Qmult_le_0_compat; lra). assert (S1 : s * (k - e) < k) by (clear - Hs E0 E1; nra).
          destruct (Rest u Ju) as [Jl | H]; [ apply (Fk u (s * (k - e)) Jl S0 S1); apply (on_tri_same _ z); assumption | ].
          apply (H z); [ | exact O ]. exists (s * (k - e)). split; [ lra | exact Sz ]. }
        assert (Exf : in_segment xf x y) by (exists (k + e); split; [ lra | exact Sf ]).
        apply in_split in Jt. destruct Jt as (l1 & l2 & El).
        assert (St : step S xf y).
        { apply (IH (l1 ++ l2)).
          - rewrite El, app_length in Ln. cbn in Ln. rewrite app_length. lia.
          - intros u J. apply Sub. rewrite El. apply in_app_iff in J. apply in_app_iff. cbn. tauto.
          - exact (ef_part x y xf Exf E).
          - exact C1.
          - exact Cy.
          - intros u Ju. assert (Sg : forall z, in_segment z xf y -> in_segment z x y).
            { intros z (s & (S0 & S1) & Z). exists ((k + e) + s * (1 - (k + e))). split; [ split; nra | ]. apply (same_trans _ _ _ Z). destruct Sf as (S1' & S2 & S3). unfold same, along, vsub in *. cbn [vx vy vz fst snd] in *. rewrite S1', S2, S3. repeat split; ring. }
            destruct (Rest u Ju) as [Jl | H]; [ | right; intros z Z; apply H, Sg, Z ]. rewrite El in Jl. apply in_app_iff in Jl. cbn in Jl.
            destruct Jl as [Jl | [<- | Jl] ]; [ left; apply in_app_iff; auto | right | left; apply in_app_iff; auto ].
            intros z (s & (S0 & S1) & Z) O. apply on_hgt in O. rewrite (hgt_same _ _ _ Z) in O.
            assert (Hq0 : hgt (tri_of t) q == 0) by (apply on_hgt, in_on_tri, Ik).
            assert (Hz : hgt (tri_of t) (along xf s (vsub y xf)) == (e + s * (1 - (k + e))) * vdot N (vsub y x)).
            { rewrite hgt_along, hgt_diff. unfold xf. rewrite hgt_along, Hq0. fold N. assert (Hy : hgt (tri_of t) y == (1 - k) * vdot N (vsub y x)).
              { assert (Sy : same y (along q (1 - k) (vsub y x))) by (unfold q, same, along, vsub; cbn [vx vy vz fst snd]; repeat split; ring). rewrite (hgt_same _ _ _ Sy), hgt_along, Hq0. fold N. ring. }
              rewrite Hy. ring. }
            rewrite Hz in O. apply Qmult_integral in O. destruct O as [O | O]; [ | exact (Nk O) ]. assert (0 <= s * (1 - (k + e))) by (apply Qmult_le_0_compat; lra). lra. }
        assert (Wb : winds x xb 0) by (apply free_winds, Cb). assert (Sx := W x xb Cb).
        assert (Tr := winds_trans coords ts Hflat Hnodup Hswap). assert (Sy := winds_sym coords ts). unfold step in St |- *.
        destruct (Qlt_le_dec (vdot N (vsub y x)) 0) as [Lt | Lt].
        * assert (A1 : S xf) by (apply G1, Lt). assert (A2 : ~ S xb) by (apply G2; lra).
          destruct (Qlt_le_dec (vdot N (vsub x y)) 0) as [Lt' | Lt']; [ exfalso; lra | ].
          assert (Wx : winds x xf 1) by exact (Tr _ _ _ 0%Z 1%Z Wb (Tr _ _ _ (- 0)%Z 1%Z (Sy _ _ _ W2) W1)).
          destruct St as [ (A & Q1) | [ (A & _) | (A & B & Q1) ] ].
          -- right; left. split; [ tauto | ]. split; [ tauto | ]. exact (Tr _ _ _ 1%Z 0%Z Wx Q1).
          -- tauto.
          -- left. split; [ tauto | ]. exact (Tr _ _ _ 1%Z (-1)%Z Wx Q1).
        * assert (Gt : 0 < vdot N (vsub y x)) by lra. assert (A1 : ~ S xf) by (apply G1, Gt). assert (A2 : S xb) by (apply G2; lra).
          destruct (Qlt_le_dec (vdot N (vsub x y)) 0) as [Lt' | Lt']; [ | exfalso; lra ].
          assert (Wx : winds x xf (-1)) by exact (Tr _ _ _ 0%Z (-1)%Z Wb (Tr _ _ _ (- 1)%Z 0%Z (Sy _ _ _ W2) W1)).
          destruct St as [ (A & Q1) | [ (A & B & Q1) | (A & _) ] ].
          -- right; right. split; [ tauto | ]. split; [ tauto | ]. exact (Tr _ _ _ (-1)%Z 0%Z Wx Q1).
          -- left. split; [ tauto | ]. exact (Tr _ _ _ (-1)%Z 1%Z Wx Q1).
          -- tauto.
  Qed.

  Theorem set_total : forall S, walks coords ts S -> fits coords ts S -> (forall x, S x \/ ~ S x) -> forall x y, ef x y -> clear x -> clear y -> (-1 <= total x y <= 1)%Z.
  Proof.
    intros S W F Dc x y E Cx Cy. assert (St : step S x y) by (apply (step_along S W F Dc (length ts) ts); auto; apply incl_refl).
    assert (Wd := winds_direct coords ts Hflat Hnodup Hswap x y E).
    destruct St as [ (_ & Q) | [ (_ & _ & Q) | (_ & _ & Q) ] ]; pose proof (winds_unique coords ts Hflat Hnodup Hswap _ _ _ _ Q Wd); lia.
  Qed.

  (** The other way round. *)
  Theorem total_level : (forall x y, ef x y -> clear x -> clear y -> (-1 <= total x y <= 1)%Z) ->
    forall i j t u x y, nth_error ts i = Some t -> nth_error ts j = Some u -> in_tri x (tri_of t) -> in_tri y (tri_of u) -> winds x y 0.
  Proof.
    intros H i j t u x y Ei Ej Ix Iy.
    assert (Tr := winds_trans coords ts Hflat Hnodup Hswap). assert (Sy := winds_sym coords ts). assert (Un := winds_unique coords ts Hflat Hnodup Hswap).
    assert (Wxx := same_face coords ts Hflat Hnodup Hswap Hap i t x x Ei Ix Ix). assert (Wyy := same_face coords ts Hflat Hnodup Hswap Hap j u y y Ej Iy Iy).
    destruct (winds_exists coords ts x y (proj1 (winds_off coords ts _ _ _ Wxx)) (proj1 (winds_off coords ts _ _ _ Wyy))) as (k & K).
    assert (Cn : exists vi, vdot (tri_normal (tri_of t)) vi < 0).
    { assert (Nt : ~ flat (tri_of t)) by (eapply Hflat, nth_error_In, Ei). exists (scaled (-(1)) (tri_normal (tri_of t))). destruct (tri_of t) as [ [a b] c]. cbn [tri_normal flat] in *. revert Nt. unfold degenerate. generalize (normal a b c) as n. intros n Nt.
      destruct (Qlt_le_dec (vdot n (scaled (-(1)) n)) 0) as [L | L]; [ exact L | exfalso; apply Nt ]. unfold vdot, scaled, same in *. cbn [vx vy vz fst snd] in *.
      assert (vx n * vx n == 0 /\ vy n * vy n == 0 /\ vz n * vz n == 0) as (Y1 & Y2 & Y3) by (repeat split; nra). apply Qmult_integral in Y1. apply Qmult_integral in Y2. apply Qmult_integral in Y3. repeat split; tauto. }
    destruct Cn as (vb & Lb). set (vf := scaled (-(1)) vb). assert (Lf : 0 < vdot (tri_normal (tri_of t)) vf) by (unfold vf, vdot, scaled in *; cbn [vx vy vz fst snd] in *; lra).
    assert (Go : forall v (w : Z), ~ vdot (tri_normal (tri_of t)) v == 0 -> (w = if Qlt_le_dec (vdot (tri_normal (tri_of t)) v) 0 then 1 else 0)%Z -> forall behind : bool, (-1 <= - w + k + (if behind then 1 else 0) <= 1)%Z).
    { intros v w Nv Ew behind. destruct (ev_witness _ (face_step coords ts Hflat Hnodup Hswap Hap i t x v Ei Ix Nv)) as (e & _ & W1 & C1). rewrite <- Ew in W1. set (p := along x e v) in *.
      destruct (near_face_side coords ts Hflat j u p Ej (clear_off coords ts p C1)) as (q & Iq & Hq). destruct (Hq behind) as (v' & Lv & Ev).
      assert (Nv' : ~ vdot (tri_normal (tri_of u)) v' == 0) by (destruct behind; lra).
      destruct (ev_witness _ (ev_and _ _ Ev (face_step coords ts Hflat Hnodup Hswap Hap j u q v' Ej Iq Nv'))) as (e' & _ & E' & W2 & C2). set (p' := along q e' v') in *.
      assert (Wq := same_face coords ts Hflat Hnodup Hswap Hap j u y q Ej Iy Iq).
      assert (Wpp : winds p p' (- w + (k + (0 + (if Qlt_le_dec (vdot (tri_normal (tri_of u)) v') 0 then 1 else 0)))))
        by exact (Tr _ _ _ _ _ (Sy _ _ _ W1) (Tr _ _ _ _ _ K (Tr _ _ _ _ _ Wq W2))).
      assert (B := H p p' E' C1 C2). rewrite <- (Un _ _ _ _ Wpp (winds_direct coords ts Hflat Hnodup Hswap p p' E')) in B.
      destruct behind, (Qlt_le_dec (vdot (tri_normal (tri_of u)) v') 0) as [L | L]; try (exfalso; lra); lia. }
    assert (Nb : ~ vdot (tri_normal (tri_of t)) vb == 0) by (intro Z0; rewrite Z0 in Lb; lra). assert (Nf : ~ vdot (tri_normal (tri_of t)) vf == 0) by (intro Z0; rewrite Z0 in Lf; lra).
    assert (X1 : 1%Z = (if Qlt_le_dec (vdot (tri_normal (tri_of t)) vb) 0 then 1 else 0)%Z) by (destruct (Qlt_le_dec (vdot (tri_normal (tri_of t)) vb) 0); [ reflexivity | exfalso; lra ]).
    assert (X2 : 0%Z = (if Qlt_le_dec (vdot (tri_normal (tri_of t)) vf) 0 then 1 else 0)%Z) by (destruct (Qlt_le_dec (vdot (tri_normal (tri_of t)) vf) 0); [ exfalso; lra | reflexivity ]).
    assert (B1 := Go vb 1%Z Nb X1 false). assert (B2 := Go vf 0%Z Nf X2 true). cbn iota in B1, B2.
    assert (k = 0%Z) by lia. subst k. exact K.
  Qed.

  (** ** Counting *)
  Definition picked (f : P * P * P -> Z) (v : Z) (l : list (P * P * P)) : list nat :=
    filter (fun i => match nth_error l i with Some t => Z.eqb (f t) v | None => false end) (seq 0 (length l)).
  Lemma picked_in : forall f v l i, In i (picked f v l) <-> exists t, nth_error l i = Some t /\ f t = v.
  Proof.
    intros f v l i. unfold picked. rewrite filter_In, in_seq. split.
    - intros (_ & H). destruct (nth_error l i) as [t | ]; [ | discriminate ]. exists t. split; [ reflexivity | apply Z.eqb_eq, H ].
    - intros (t & E & H). rewrite E. split; [ split; [ lia | ]; cbn; apply nth_error_Some; congruence | apply Z.eqb_eq, H ].
  Qed.
  Lemma picked_nodup : forall f v l, NoDup (picked f v l).
  Proof. intros. apply NoDup_filter, seq_NoDup. Qed.
  Lemma picked_snoc : forall f v l t, length (picked f v (l ++ [t])) = (length (picked f v l) + (if Z.eqb (f t) v then 1 else 0))%nat.
  Proof.
    intros f v l t. unfold picked. rewrite app_length. cbn [length]. rewrite seq_app, filter_app, app_length. cbn [seq plus]. f_equal.
    - f_equal. apply filter_ext_in. intros i J. apply in_seq in J. rewrite nth_error_app1 by lia. reflexivity.
    - cbn [filter]. rewrite nth_error_app2, Nat.sub_diag by lia. cbn. destruct (Z.eqb (f t) v); reflexivity.
  Qed.
  Lemma zsum_picked : forall f l, (forall t, In t l -> f t = 1 \/ f t = 0 \/ f t = -1)%Z -> zsum (map f l) = (Z.of_nat (length (picked f 1 l)) - Z.of_nat (length (picked f (-1) l)))%Z.
  Proof.
    intros f l. induction l as [ | t l IH] using rev_ind; intro H; [ reflexivity | ]. rewrite map_app, zsum_app, IH by (intros u J; apply H, in_app_iff; auto). rewrite !picked_snoc.
    destruct (H t) as [E | [E | E] ]; [ apply in_app_iff; cbn; auto | | | ]; cbn [map zsum fold_right]; rewrite E; cbn [Z.eqb Pos.eqb]; lia.
  Qed.
  Lemma counts_unique : forall (Q : nat -> Prop) n l, counts Q n -> NoDup l -> (forall i, In i l <-> Q i) -> n = length l.
  Proof.
    intros Q n l (l' & N' & <- & H') N H. apply Permutation_length. apply NoDup_Permutation; try assumption. intro i. rewrite H, H'. reflexivity.
  Qed.

  (** What a face contributes. *)
  Lemma cc_in : forall T x y, ~ flat T -> ~ on_tri x T -> (cc T x y = 1%Z <-> 0 < hgt T x /\ hgt T y < 0 /\ exists z, in_segment z x y /\ on_tri z T).
  Proof.
    intros T x y N Ox. unfold cc. destruct (Qlt_le_dec (hgt T x) 0) as [A | A], (Qlt_le_dec (hgt T y) 0) as [B | B].
    - split; [ discriminate | intros (X & _); exfalso; lra ].
    - split; [ | intros (X & _); exfalso; lra ]. intro E. exfalso. unfold memb in E. destruct (sat_dec (cons_tri T) (hcut T x y)); discriminate.
    - split.
      + intro E. assert (S : on_tri (hcut T x y) T) by (unfold memb in E; destruct (sat_dec (cons_tri T) (hcut T x y)) as [S | S]; [ apply (on_tri_iff T _ N), S | discriminate ]).
        split; [ | split; [ exact B | exists (hcut T x y); split; [ apply hcut_segment; auto | exact S ] ] ].
        destruct (Qlt_le_dec 0 (hgt T x)) as [L | L]; [ exact L | exfalso ]. assert (Z0 : hgt T x == 0) by lra. apply Ox. apply (on_tri_same T (hcut T x y)); [ | exact S ].
        rewrite hcut_along. assert (E0 : hgt T x / (hgt T x - hgt T y) == 0) by (rewrite Z0; unfold Qdiv; ring). unfold same, along. cbn [vx vy vz fst snd]. rewrite E0. repeat split; ring.
      + intros (Px & _ & z & (s & Hs & Z) & O). apply memb_in; [ exact N | ]. apply (on_tri_same T z); [ | exact O ]. apply on_hgt in O. rewrite (hgt_same _ _ _ Z), hgt_along, hgt_diff in O.
        rewrite hcut_along. apply (same_trans _ _ _ Z). assert (E0 : s == hgt T x / (hgt T x - hgt T y)).
        { assert (D : ~ hgt T x - hgt T y == 0) by lra. apply (Qmult_inj_r _ _ (hgt T x - hgt T y) D). assert (X : hgt T x / (hgt T x - hgt T y) * (hgt T x - hgt T y) == hgt T x) by (field; exact D). rewrite X. lra. }
        unfold same, along. cbn [vx vy vz fst snd]. rewrite E0. repeat split; reflexivity.
    - split; [ discriminate | intros (_ & X & _); exfalso; lra ].
  Qed.
  Lemma cc_values : forall T x y, (cc T x y = 1 \/ cc T x y = 0 \/ cc T x y = -1)%Z.
  Proof.
    intros T x y. unfold cc, memb. destruct (Qlt_le_dec (hgt T x) 0), (Qlt_le_dec (hgt T y) 0); try (right; left; reflexivity); destruct (sat_dec (cons_tri T) (hcut T x y)); auto.
  Qed.
End Balance.

Section Criterion.
  Context {P D : Type}.
  Variable coords : P -> vec3.
  Variable m : soup P D.
  Hypothesis Hm : meets_conditions coords m.
  Hypothesis Hc : closed_mesh m.

  Theorem bounds_iff_by_turns : (exists S, solid (located coords m) S) <-> by_turns (located coords m).
  Proof.
    destruct (listing coords m Hm Hc) as (ts & L & Ts & Hfl & Hnd & Hsw & Hap & Hmd).
    assert (Tri : forall t, Proof_winding.tri_of coords t = triangle_of coords t) by (intros [ [a b] c]; reflexivity).
    assert (Loc : forall i T, soup_triangle (located coords m) i = Ok T <-> exists t, nth_error ts i = Some t /\ T = Proof_winding.tri_of coords t).
    { intros i T. split.
      - intro E. destruct T as [ [a b] c]. apply located_corners in E. destruct E as (t & F & E). exists t. split; [ apply Ts, F | rewrite Tri; exact E ].
      - intros (t & E & ->). rewrite Tri. apply located_corners. exists t. split; [ apply Ts, E | reflexivity ]. }
    assert (On : forall x, ~ on_boundary (located coords m) x <-> clear coords ts x).
    { intro x. split.
      - intros H t J O. apply H. apply In_nth_error in J. destruct J as (i & E). exists i. destruct (Proof_winding.tri_of coords t) as [ [a b] c] eqn:Et. exists a, b, c. split; [ apply Loc; exists t; auto | exact O ].
      - intros H (i & a & b & c & T & O). apply Loc in T. destruct T as (t & E & Et). apply (H t (nth_error_In _ _ E)). rewrite <- Et. exact O. }
    assert (Av : forall x y, avoids_edges (located coords m) x y <-> ef coords ts x y).
    { intros x y. split.
      - intros H z p q J S Z. unfold all_sides in J. apply in_flat_map in J. destruct J as (t & J & Js). apply In_nth_error in J. destruct J as (i & E). destruct t as [ [a b] c].
        destruct (H i (coords a) (coords b) (coords c) z) as (H1 & H2 & H3); [ apply Loc; exists (a, b, c); auto | exact Z | ].
        cbn in Js. destruct Js as [X | [X | [X | [] ] ] ]; injection X as <- <-; contradiction.
      - intros H i a b c z T Z. apply Loc in T. destruct T as ( [ [p q] r] & E & Et). cbn in Et. injection Et as -> -> ->. apply nth_error_In in E.
        assert (J : forall s, In s (sides_of (p, q, r)) -> In s (all_sides ts)) by (intros s Js; apply in_flat_map; exists (p, q, r); auto).
        split; [ | split ]; intro S; [ apply (H z p q) | apply (H z q r) | apply (H z r p) ]; try exact S; try exact Z; apply J; cbn; auto. }
    assert (In1 : forall x y i, clear coords ts x -> (goes_in (located coords m) x y i <-> exists t, nth_error ts i = Some t /\ cc (Proof_winding.tri_of coords t) x y = 1%Z)).
    { intros x y i Cx. split.
      - intros (a & b & c & T & H1 & H2 & z & Z & O). apply Loc in T. destruct T as (t & E & Et). exists t. split; [ exact E | ]. rewrite <- Et. apply cc_in; [ rewrite Et; apply Hfl; eapply nth_error_In, E | rewrite Et; apply Cx; eapply nth_error_In, E | ].
        split; [ exact H1 | ]. split; [ exact H2 | ]. exists z. split; assumption.
      - intros (t & E & H). apply cc_in in H; [ | apply Hfl; eapply nth_error_In, E | apply Cx; eapply nth_error_In, E ]. destruct H as (H1 & H2 & z & Z & O).
        destruct (Proof_winding.tri_of coords t) as [ [a b] c] eqn:Et. exists a, b, c. split; [ apply Loc; exists t; auto | ]. split; [ exact H1 | ]. split; [ exact H2 | ]. exists z. split; assumption. }
    assert (Tot : forall x y ins outs, clear coords ts x -> clear coords ts y -> counts (goes_in (located coords m) x y) ins -> counts (goes_in (located coords m) y x) outs ->
      total coords ts x y = (Z.of_nat ins - Z.of_nat outs)%Z).
    { intros x y ins outs Cx Cy C1 C2. unfold total. rewrite (zsum_picked (fun t => cc (Proof_winding.tri_of coords t) x y)) by (intros t _; apply cc_values).
      rewrite (counts_unique _ _ (picked (fun t => cc (Proof_winding.tri_of coords t) x y) 1 ts) C1 (picked_nodup _ _ _)) by (intro i; rewrite picked_in; symmetry; apply In1, Cx).
      rewrite (counts_unique _ _ (picked (fun t => cc (Proof_winding.tri_of coords t) x y) (-1) ts) C2 (picked_nodup _ _ _)); [ reflexivity | ].
      intro i. rewrite picked_in, In1 by exact Cy. split; intros (t & E & H); exists t; (split; [ exact E | ]); rewrite cc_anti in H; lia. }
    split.
    - intros (S & Pf & (Wk & Fc) & Dc) x y ins outs Ox Oy A C1 C2. apply On in Ox, Oy. apply Av in A.
      assert (B : (-1 <= total coords ts x y <= 1)%Z).
      { apply (set_total coords ts Hfl Hnd Hsw Hap S); try assumption.
        - intros p q H. apply Wk. intros z Z. apply On, H, Z.
        - intros i t q v E I _. destruct (Proof_winding.tri_of coords t) as [ [a b] c] eqn:Et. destruct (Fc i a b c q v) as (b0 & B0 & Hb); [ apply Loc; exists t; auto | exact I | ].
          exists ((1 # 2) * b0). split; [ lra | ]. intros e E0 E1. apply Hb. lra. }
      rewrite (Tot x y ins outs Ox Oy C1 C2) in B. lia.
    - intro H. apply (level_bounds coords m Hm ts); try assumption. apply total_level; try assumption. intros x y E Cx Cy.
      set (f := fun t => cc (Proof_winding.tri_of coords t) x y). 
      assert (C1 : counts (goes_in (located coords m) x y) (length (picked f 1 ts))) by (exists (picked f 1 ts); split; [ apply picked_nodup | split; [ reflexivity | intro i; rewrite picked_in; symmetry; apply In1, Cx ] ]).
      assert (C2 : counts (goes_in (located coords m) y x) (length (picked f (-1) ts))).
      { exists (picked f (-1) ts). split; [ apply picked_nodup | ]. split; [ reflexivity | ]. intro i. rewrite picked_in, In1 by exact Cy. unfold f. split; intros (t & Et & Hx); exists t; (split; [ exact Et | ]); rewrite cc_anti in Hx; lia. }
      rewrite (Tot x y _ _ Cx Cy C1 C2). apply On in Cx, Cy. apply Av in E. destruct (H x y _ _ Cx Cy E C1 C2). lia.
  Qed.
End Criterion.
