(** * A closed, connected mesh has two sides *)
From Coq Require Import List Arith ZArith QArith Qminmax Lqa Lia.
From Verif Require Import Model_base Model_soup Model_geometry Model_side.
From Verif Require Import Spec_candidates Spec_side Spec_solid Proof_affine Proof_small Proof_walk Proof_link Proof_winding Proof_hinge.
Import ListNotations.
Local Open Scope Q_scope.

Section Around.
  Context {P : Type}.
  Variable coords : P -> vec3.
  Variable ts : list (P * P * P).
  Notation tri_of := (tri_of coords).
  Notation ef := (ef coords ts).
  Notation total := (total coords ts).
  Notation winds := (winds coords ts).
  Hypothesis Hflat : forall t, In t ts -> ~ flat (tri_of t).
  Hypothesis Hnodup : NoDup (all_sides ts).
  Hypothesis Hswap : forall p q, In (p, q) (all_sides ts) -> In (q, p) (all_sides ts).
  (** Faces meet at their sides only. *)
  Hypothesis Hap : forall i j t u x, nth_error ts i = Some t -> nth_error ts j = Some u -> in_tri x (tri_of t) -> on_tri x (tri_of u) -> j = i.
  (** Only two faces contain the middle of an edge. *)
  Hypothesis Hmid : forall i j k t u v p q, nth_error ts i = Some t -> nth_error ts j = Some u -> nth_error ts k = Some v ->
    In (p, q) (sides_of t) -> In (q, p) (sides_of u) -> on_tri (mid (coords p) (coords q)) (tri_of v) -> k = i \/ k = j.

  Let Hfl : forall i t, nth_error ts i = Some t -> ~ flat (tri_of t).
  Proof. intros i t E. apply Hflat. eapply nth_error_In, E. Qed.

  Lemma side_of_face : forall p q, In (p, q) (all_sides ts) -> exists i t, nth_error ts i = Some t /\ forall z, in_segment z (coords p) (coords q) -> side_in (tri_of t) z.
  Proof.
    intros p q J. unfold all_sides in J. apply in_flat_map in J. destruct J as (t & J & S). apply In_nth_error in J. destruct J as (i & E). exists i, t. split; [ exact E | ].
    destruct t as [ [a b] c]. cbn [sides_of tri_of side_in] in *. intros z Z. cbn in S. destruct S as [S | [S | [S | [] ] ] ]; injection S as <- <-; tauto.
  Qed.
  Lemma ef_faces : forall x y, (forall i t z, nth_error ts i = Some t -> in_segment z x y -> ~ side_in (tri_of t) z) -> ef x y.
  Proof. intros x y H z p q J S1 S2. destruct (side_of_face p q J) as (i & t & E & K). exact (H i t z E S2 (K z S1)). Qed.

  (** ** Through a face *)
  Lemma face_step : forall i t q v, nth_error ts i = Some t -> in_tri q (tri_of t) -> ~ vdot (tri_normal (tri_of t)) v == 0 ->
    eventually (fun e => winds q (along q e v) (if Qlt_le_dec (vdot (tri_normal (tri_of t)) v) 0 then 1 else 0) /\ forall u, In u ts -> ~ on_tri (along q e v) (tri_of u)).
  Proof.
    intros i t q v Ei Hq Nv. set (T := tri_of t) in *. set (n := tri_normal T) in *.
    assert (Ev : eventually (fun e => forall u, In u ts -> ~ on_tri q (tri_of u) -> forall z, in_segment z q (along q e v) -> ~ on_tri z (tri_of u))).
    { apply ev_list. intros u Ju. assert (Nu := Hflat u Ju). destruct (on_tri_dec (tri_of u) q Nu) as [O | O].
      - apply ev_true. intros e _ N. contradiction.
      - apply (ev_mono (fun e => forall z, in_segment z q (along q e v) -> ~ sat (cons_tri (tri_of u)) z)).
        + intros e _ H _ z Z S. apply (H z Z). apply (on_tri_iff (tri_of u) z Nu), S.
        + apply ev_point. intro S. apply O. apply (on_tri_iff (tri_of u) q Nu), S. }
    revert Ev. apply ev_mono. intros e E0 Miss.
    assert (Other : forall j u z, nth_error ts j = Some u -> j <> i -> in_segment z q (along q e v) -> ~ on_tri z (tri_of u)).
    { intros j u z Ej Nij. apply Miss; [ eapply nth_error_In, Ej | ]. intro O. apply Nij. exact (Hap i j t u q Ei Ej Hq O). }
    assert (Hq0 : hgt T q == 0) by (apply in_hgt, Hq). assert (He : hgt T (along q e v) == e * vdot n v) by (rewrite hgt_along, Hq0; fold n; ring).
    assert (Ne : ~ e * vdot n v == 0) by (intro E; apply Qmult_integral in E; destruct E as [E | E]; [ lra | contradiction ]).
    assert (NT : ~ flat T) by (eapply Hfl, Ei).
    split.
    - assert (Ef : ef q (along q e v)).
      { apply ef_faces. intros j u z Ej Z S. destruct (Nat.eq_dec j i) as [-> | Nij]; [ | exact (Other j u z Ej Nij Z (side_on _ _ S)) ].
        rewrite Ei in Ej. injection Ej as <-. destruct Z as (s & Hs & E). assert (O := on_hgt _ _ (side_on _ _ S)). fold T in O. rewrite (hgt_segment T z _ _ s E), Hq0, He in O.
        assert (O' : s * (e * vdot n v) == 0) by lra. apply Qmult_integral in O'. destruct O' as [O' | O']; [ | contradiction ].
        apply (open_not_side T q NT Hq). apply (side_same T z q); [ | exact S ]. destruct E as (E1 & E2 & E3). unfold same. rewrite E1, E2, E3. unfold along. cbn [vx vy vz fst snd]. rewrite O'. repeat split; ring. }
      assert (Tot : total q (along q e v) = (if Qlt_le_dec (vdot n v) 0 then 1 else 0)%Z).
      { unfold total, Proof_winding.total. rewrite (zsum_one _ _ ts i t Ei).
        - fold T. destruct (Qlt_le_dec (vdot n v) 0) as [L | L].
          + apply cc_leave; [ exact NT | apply in_on_tri, Hq | ]. rewrite He. assert (0 < e * - vdot n v) by (apply Qmult_lt_0_compat; lra). lra.
          + apply cc_front; [ lra | ]. rewrite He. apply Qmult_le_0_compat; lra.
        - intros j u Ej Nij. apply cc_free; [ eapply Hfl, Ej | ]. intros z Z. exact (Other j u z Ej Nij Z). }
      rewrite <- Tot. apply winds_direct; assumption.
    - intros u Ju. apply In_nth_error in Ju. destruct Ju as (j & Ej). destruct (Nat.eq_dec j i) as [-> | Nij].
      + rewrite Ei in Ej. injection Ej as <-. intro O. apply on_hgt in O. fold T in O. rewrite He in O. contradiction.
      + apply (Other j u _ Ej Nij). apply in_segment_end.
  Qed.

  (** ** In a face *)
  Lemma same_face : forall i t x y, nth_error ts i = Some t -> in_tri x (tri_of t) -> in_tri y (tri_of t) -> winds x y 0.
  Proof.
    intros i t x y Ei X Y. assert (NT := Hfl i t Ei). assert (In_ : forall z, in_segment z x y -> in_tri z (tri_of t)) by (intros z Z; exact (in_convex _ x y z NT X Y Z)).
    assert (E : total x y = 0%Z).
    { unfold total, Proof_winding.total. apply zsum_zero. intros u Ju. apply In_nth_error in Ju. destruct Ju as (j & Ej). destruct (Nat.eq_dec j i) as [-> | Nij].
      - rewrite Ei in Ej. injection Ej as <-. apply cc_front; [ rewrite (in_hgt _ _ X); lra | rewrite (in_hgt _ _ Y); lra ].
      - apply cc_free; [ eapply Hfl, Ej | ]. intros z Z O. apply Nij. exact (Hap i j t u z Ei Ej (In_ z Z) O). }
    rewrite <- E. apply winds_direct; try assumption. apply ef_faces. intros j u z Ej Z S. assert (j = i) by exact (Hap i j t u z Ei Ej (In_ z Z) (side_on _ _ S)). subst j. rewrite Ei in Ej. injection Ej as <-.
    exact (open_not_side _ z NT (In_ z Z) S).
  Qed.

  (** ** Over an edge *)
  Lemma turned_to : forall t p q, In (p, q) (sides_of t) -> ~ flat (tri_of t) -> exists r, let T := (coords p, coords q, coords r) in ~ flat T /\
    (forall z, in_tri z T <-> in_tri z (tri_of t)) /\ (forall z, on_tri z T <-> on_tri z (tri_of t)) /\ (forall z, side_in T z <-> side_in (tri_of t) z) /\ forall x y, cc T x y = cc (tri_of t) x y.
  Proof.
    intros [ [a b] c] p q J N. cbn [sides_of Proof_winding.tri_of] in *. set (T0 := (coords a, coords b, coords c)) in *.
    assert (R1 : ~ flat (rot T0)) by (intro H; apply N, rot_flat, H). assert (R2 : ~ flat (rot (rot T0))) by (intro H; apply R1, rot_flat, H).
    destruct J as [J | [J | [J | [] ] ] ]; injection J as <- <-.
    - exists c. cbv zeta. fold T0. split; [ exact N | ]. split; [ reflexivity | ]. split; [ reflexivity | ]. split; [ reflexivity | reflexivity ].
    - exists a. cbv zeta. change (coords b, coords c, coords a) with (rot T0). split; [ exact R1 | ]. split; [ apply rot_in | ]. split; [ apply rot_on | ]. split; [ apply rot_side_iff | intros; apply rot_cc, N ].
    - exists b. cbv zeta. change (coords c, coords a, coords b) with (rot (rot T0)). split; [ exact R2 | ].
      split; [ intro z; rewrite rot_in; apply rot_in | ]. split; [ intro z; rewrite rot_on; apply rot_on | ]. split; [ intro z; rewrite rot_side_iff; apply rot_side_iff | intros; rewrite (rot_cc _ _ _ R1); apply rot_cc, N ].
  Qed.

  Lemma over_edge : forall i j t u p q, nth_error ts i = Some t -> nth_error ts j = Some u -> i <> j -> In (p, q) (sides_of t) -> In (q, p) (sides_of u) ->
    exists x y, in_tri x (tri_of t) /\ in_tri y (tri_of u) /\ winds x y 0.
  Proof.
    intros i j t u p q Ei Ej Nij St Su. assert (Nt := Hfl i t Ei). assert (Nu := Hfl j u Ej).
    destruct (turned_to t p q St Nt) as (c & NT & InT & OnT & SdT & CcT). destruct (turned_to u q p Su Nu) as (d & NU & InU & OnU & SdU & CcU). cbv zeta in *.
    set (a := coords p) in *. set (b := coords q) in *. set (T := (a, b, coords c)) in *. set (U := (b, a, coords d)) in *.
    destruct (hinge a b (coords c) (coords d) NT NU) as (w & Hw).
    { intros z I O. apply InT in I. apply OnU in O. apply Nij. symmetry. exact (Hap i j t u z Ei Ej I O). }
    { intros z I O. apply InU in I. apply OnT in O. apply Nij. exact (Hap j i u t z Ej Ei I O). }
    set (m := mid a b) in *.
    assert (Ev : forall w1 w2, eventually (fun e => forall v, In v ts -> ~ on_tri m (tri_of v) -> forall z, in_segment z (along m e w1) (along m e w2) -> ~ on_tri z (tri_of v))).
    { intros w1 w2. apply ev_list. intros v Jv. assert (Nv := Hflat v Jv). destruct (on_tri_dec (tri_of v) m Nv) as [O | O].
      - apply ev_true. intros e _ N. contradiction.
      - apply (ev_mono (fun e => forall z, in_segment z (along m e w1) (along m e w2) -> ~ sat (cons_tri (tri_of v)) z)).
        + intros e _ H _ z Z S. apply (H z Z). apply (on_tri_iff (tri_of v) z Nv), S.
        + apply near_seg. intro S. apply O. apply (on_tri_iff (tri_of v) m Nv), S. }
    destruct (ev_witness _ (ev_and _ _ Hw (ev_and _ _ (Ev (vsub (coords c) m) w) (Ev w (vsub (coords d) m))))) as (e & E0 & (Oq & Oq' & Sd & C1 & C2) & M1 & M2). cbv zeta in *.
    set (x := along m e (vsub (coords c) m)) in *. set (y := along m e w) in *. set (x' := along m e (vsub (coords d) m)) in *.
    assert (Other : forall k v, nth_error ts k = Some v -> k <> i -> k <> j -> ~ on_tri m (tri_of v)).
    { intros k v Ek Ki Kj O. destruct (Hmid i j k t u v p q Ei Ej Ek St Su O); contradiction. }
    assert (Leg : forall x0 y0, (forall z, in_segment z x0 y0 -> ~ side_in T z /\ ~ side_in U z) -> (cc T x0 y0 + cc U x0 y0 = 0)%Z ->
      (forall k v z, nth_error ts k = Some v -> k <> i -> k <> j -> in_segment z x0 y0 -> ~ on_tri z (tri_of v)) -> winds x0 y0 0).
    { intros x0 y0 S C M. assert (E : total x0 y0 = 0%Z).
      { unfold total, Proof_winding.total. rewrite (zsum_two _ _ ts i j t u Ei Ej Nij); [ rewrite <- CcT, <- CcU; exact C | ].
        intros k v Ek Ki Kj. apply cc_free; [ eapply Hfl, Ek | ]. intros z Z. exact (M k v z Ek Ki Kj Z). }
      rewrite <- E. apply winds_direct; try assumption. apply ef_faces. intros k v z Ek Z Sv. destruct (S z Z) as (S1 & S2).
      destruct (Nat.eq_dec k i) as [-> | Ki]; [ rewrite Ei in Ek; injection Ek as <-; apply S1, SdT, Sv | ].
      destruct (Nat.eq_dec k j) as [-> | Kj]; [ rewrite Ej in Ek; injection Ek as <-; apply S2, SdU, Sv | ].
      exact (M k v z Ek Ki Kj Z (side_on _ _ Sv)). }
    exists x, x'. split; [ apply InT, Oq | ]. split; [ apply InU, Oq' | ].
    change 0%Z with (0 + 0)%Z. apply (winds_trans coords ts Hflat Hnodup Hswap x y x').
    - apply Leg; [ intros z Z; apply Sd; left; exact Z | exact C1 | ]. intros k v z Ek Ki Kj Z. apply (M1 v); [ eapply nth_error_In, Ek | exact (Other k v Ek Ki Kj) | exact Z ].
    - apply Leg; [ intros z Z; apply Sd; right; exact Z | exact C2 | ]. intros k v z Ek Ki Kj Z. apply (M2 v); [ eapply nth_error_In, Ek | exact (Other k v Ek Ki Kj) | exact Z ].
  Qed.

  (** ** All over the mesh *)
  Inductive joined (i : nat) : nat -> Prop :=
  | joined_self : joined i i
  | joined_edge : forall j k t u p q, joined i j -> nth_error ts j = Some t -> nth_error ts k = Some u -> In (p, q) (sides_of t) -> In (q, p) (sides_of u) -> joined i k.

  Lemma joined_winds : forall i k, joined i k -> forall t u x y, nth_error ts i = Some t -> nth_error ts k = Some u -> in_tri x (tri_of t) -> in_tri y (tri_of u) -> winds x y 0.
  Proof.
    intros i k J. induction J as [ | j k t' u' p q J IH Ej Ek Sj Sk]; intros t u x y Ei Eu X Y.
    - rewrite Ei in Eu. injection Eu as <-. eapply same_face; eassumption.
    - destruct (Nat.eq_dec j k) as [-> | Njk]; [ exact (IH t u x y Ei Eu X Y) | ].
      rewrite Ek in Eu. injection Eu as <-. destruct (over_edge j k t' u' p q Ej Ek Njk Sj Sk) as (x1 & y1 & X1 & Y1 & W1).
      change 0%Z with (0 + (0 + 0))%Z. apply (winds_trans coords ts Hflat Hnodup Hswap x x1 y); [ exact (IH t t' x x1 Ei Ej X X1) | ].
      apply (winds_trans coords ts Hflat Hnodup Hswap x1 y1 y); [ exact W1 | exact (same_face k u' y1 y Ek Y1 Y) ].
  Qed.

  (** ** The two sides *)
  Hypothesis Hlevel : forall i j t u x y, nth_error ts i = Some t -> nth_error ts j = Some u -> in_tri x (tri_of t) -> in_tri y (tri_of u) -> winds x y 0.

  Definition clear (x : vec3) : Prop := forall u, In u ts -> ~ on_tri x (tri_of u).
  Lemma clear_dec : forall x, clear x \/ ~ clear x.
  Proof.
    intro x. assert (D : (exists u, In u ts /\ on_tri x (tri_of u)) \/ clear x).
    { unfold clear. clear - Hflat. induction ts as [ | t l IH]; [ right; intros u [] | ].
      destruct (on_tri_dec (tri_of t) x) as [O | O]; [ apply Hflat; left; reflexivity | left; exists t; split; [ left; reflexivity | exact O ] | ].
      destruct IH as [ (u & J & O') | H ]; [ intros u J; apply Hflat; right; exact J | left; exists u; split; [ right; exact J | exact O' ] | right ].
      intros u [<- | J]; [ exact O | apply H, J ]. }
    destruct D as [ (u & J & O) | C ]; [ right | left; exact C ]. intro C. exact (C u J O).
  Qed.
  Lemma clear_off : forall x, clear x -> off coords ts x.
  Proof. intros x C p q J S. destruct (side_of_face p q J) as (i & t & E & K). exact (C t (nth_error_In _ _ E) (side_on _ _ (K x S))). Qed.

  Theorem two_sides : exists S : vec3 -> Prop,
    (forall x y, (forall z, in_segment z x y -> clear z) -> (S x <-> S y)) /\
    (forall i t q v, nth_error ts i = Some t -> in_tri q (tri_of t) -> ~ vdot (tri_normal (tri_of t)) v == 0 -> eventually (fun e =>
      (vdot (tri_normal (tri_of t)) v < 0 -> S (along q e v)) /\ (0 < vdot (tri_normal (tri_of t)) v -> ~ S (along q e v)))) /\
    forall x, S x \/ ~ S x.
  Proof.
    destruct (nth_error ts 0) as [t0 | ] eqn:E0.
    2: { assert (ts = []) as Z by (destruct ts; [ reflexivity | discriminate ]). exists (fun _ => False). split; [ reflexivity | ]. split; [ | tauto ].
      intros i t q v E. rewrite Z in E. destruct i; discriminate. }
    assert (Q0 : exists q0, in_tri q0 (tri_of t0)) by (destruct t0 as [ [a b] c]; exists (centroid (coords a) (coords b) (coords c)); apply centroid_open). destruct Q0 as (q0 & Q0).
    assert (U := winds_unique coords ts Hflat Hnodup Hswap). assert (Tr := winds_trans coords ts Hflat Hnodup Hswap).
    assert (Any : forall i t q, nth_error ts i = Some t -> in_tri q (tri_of t) -> winds q0 q 0).
    { intros i t q E H. exact (Hlevel 0%nat i t0 t q0 q E0 E Q0 H). }
    assert (O0 : off coords ts q0) by (exact (proj1 (winds_off coords ts _ _ _ (Any 0%nat t0 q0 E0 Q0)))).
    exists (fun x => clear x /\ winds q0 x 1). split; [ | split ].
    - intros x y H. assert (E : ef x y) by (apply ef_faces; intros i t z Ei Z S; exact (H z Z t (nth_error_In _ _ Ei) (side_on _ _ S))).
      assert (T0 : total x y = 0%Z) by (apply zsum_zero; intros t J; apply cc_free; [ apply Hflat, J | intros z Z; exact (H z Z t J) ]).
      assert (W : winds x y 0) by (rewrite <- T0; apply winds_direct; assumption). assert (W' := winds_sym coords ts _ _ _ W). cbn in W'.
      split; intros (_ & K); (split; [ apply H | ]); [ apply in_segment_end | exact (Tr _ _ _ 1%Z 0%Z K W) | apply in_segment_start | exact (Tr _ _ _ 1%Z 0%Z K W') ].
    - intros i t q v Ei Hq Nv. generalize (face_step i t q v Ei Hq Nv). apply ev_mono. intros e _ (W & C). assert (K := Tr _ _ _ _ _ (Any i t q Ei Hq) W). cbn in K. split; intro L.
      + split; [ exact C | ]. destruct (Qlt_le_dec (vdot (tri_normal (tri_of t)) v) 0); [ exact K | exfalso; lra ].
      + intros (_ & K'). assert (E := U _ _ _ _ K K'). destruct (Qlt_le_dec (vdot (tri_normal (tri_of t)) v) 0); [ lra | discriminate ].
    - intro x. destruct (clear_dec x) as [C | C]; [ | right; tauto ]. destruct (winds_exists coords ts q0 x O0 (clear_off x C)) as (k & K).
      destruct (Z.eq_dec k 1) as [-> | N]; [ left; split; assumption | right ]. intros (_ & K'). apply N. exact (U _ _ _ _ K K').
  Qed.
End Around.
