(** * Volumes of arranged meshes *)
From Coq Require Import List Arith Bool QArith Lqa Lia.
From Verif Require Import Model_base Model_soup Model_geometry Model_boolean Model_side Spec_candidates Spec_boolean Spec_side Spec_solid.
From Verif Require Import Proof_affine Proof_touch Proof_walk Proof_tiling_area.
From Verif Require Import Spec_side Spec_solid.
Import ListNotations.
Local Open Scope Q_scope.

Lemma fop_nth : forall {A} (R : A -> A -> Prop) l, (forall i j x y, (i < j)%nat -> nth_error l i = Some x -> nth_error l j = Some y -> R x y) -> ForallOrdPairs R l.
Proof.
  intros A R l. induction l as [ | x l IH]; intro H; constructor.
  - apply Forall_forall. intros y J. apply In_nth_error in J. destruct J as (j & E). apply (H 0%nat (S j)); [ lia | reflexivity | exact E ].
  - apply IH. intros i j y z Lt Ei Ej. apply (H (S i) (S j)); [ lia | exact Ei | exact Ej ].
Qed.
Lemma fop_filter : forall {A} (R : A -> A -> Prop) p l, ForallOrdPairs R l -> ForallOrdPairs R (filter p l).
Proof.
  intros A R p l F. induction F as [ | x l F _ IH]; cbn [filter]; [ constructor | ]. destruct (p x); [ | exact IH ]. constructor; [ | exact IH ].
  rewrite Forall_forall in F |- *. intros y J. apply filter_In in J. apply F, J.
Qed.
Lemma fop_map : forall {A B} (R : B -> B -> Prop) (f : A -> B) l, ForallOrdPairs (fun x y => R (f x) (f y)) l -> ForallOrdPairs R (map f l).
Proof. intros A B R f l F. induction F as [ | x l F _ IH]; cbn [map]; constructor; [ | exact IH ]. apply Forall_map. exact F. Qed.
Lemma fop_imp : forall {A} (R S : A -> A -> Prop) l, (forall x y, In x l -> In y l -> R x y -> S x y) -> ForallOrdPairs R l -> ForallOrdPairs S l.
Proof.
  intros A R S l H F. induction F as [ | x l F _ IH]; constructor.
  - rewrite Forall_forall in F |- *. intros y J. apply H; [ left; reflexivity | right; exact J | exact (F y J) ].
  - apply IH. intros y z J K. apply H; right; assumption.
Qed.
Lemma vsum_app : forall f l k, vsum f (l ++ k) == vsum f l + vsum f k.
Proof. induction l as [ | x l IH]; intro k; cbn [vsum app]; [ ring | rewrite IH; ring ]. Qed.

(** ** Sums by faces *)
Lemma split_sum : forall (ps : list (tri3 * nat)) n,
  vsum det3 (map fst (filter (fun x => snd x <? S n)%nat ps)) == vsum det3 (map fst (filter (fun x => snd x <? n)%nat ps)) + vsum det3 (map fst (filter (fun x => snd x =? n)%nat ps)).
Proof.
  intros ps n. induction ps as [ | [T k] ps IH]; cbn [filter map vsum snd]; [ ring | ].
  destruct (k <? S n)%nat eqn:E1, (k <? n)%nat eqn:E2, (k =? n)%nat eqn:E3; cbn [map vsum fst];
    rewrite ?Nat.ltb_lt, ?Nat.ltb_ge, ?Nat.eqb_eq, ?Nat.eqb_neq in *; try lia; rewrite IH; ring.
Qed.
Lemma sum_by_faces : forall (ps : list (tri3 * nat)) (fs : list tri3), (forall T k, In (T, k) ps -> (k < length fs)%nat) ->
  (forall k U, nth_error fs k = Some U -> vsum det3 (map fst (filter (fun x => snd x =? k)%nat ps)) == det3 U) ->
  vsum det3 (map fst ps) == vsum det3 fs.
Proof.
  intros ps fs Lt H.
  assert (G : forall n, (n <= length fs)%nat -> vsum det3 (map fst (filter (fun x => snd x <? n)%nat ps)) == vsum det3 (firstn n fs)).
  { induction n as [ | n IH]; intro Hn.
    - cbn [firstn vsum]. assert (E : filter (fun x : tri3 * nat => snd x <? 0)%nat ps = []) by (clear; induction ps as [ | x ps IH]; [ reflexivity | exact IH ]). rewrite E. reflexivity.
    - rewrite split_sum, IH by lia. destruct (nth_error fs n) as [U | ] eqn:E; [ | apply nth_error_None in E; lia ]. rewrite (H n U E).
      assert (Ef : firstn (S n) fs = firstn n fs ++ [U]).
      { clear - E. revert n E. induction fs as [ | V fs IH]; intros [ | n] E; try discriminate; [ injection E as ->; reflexivity | ]. cbn [firstn app]. f_equal. exact (IH n E). }
      rewrite Ef, vsum_app. cbn [vsum]. ring. }
  rewrite <- (firstn_all fs), <- (G _ (le_n _)). assert (E : filter (fun x : tri3 * nat => snd x <? length fs)%nat ps = ps); [ | rewrite E; reflexivity ].
  clear - Lt. induction ps as [ | [T k] ps IH]; [ reflexivity | ]. cbn [filter snd]. rewrite (proj2 (Nat.ltb_lt k (length fs))) by (apply (Lt T); left; reflexivity). f_equal. apply IH. intros U j J. apply (Lt U). right. exact J.
Qed.
Lemma choose : forall {A} (Q : A -> nat -> Prop) l, (forall x, In x l -> exists k, Q x k) -> exists ps, map fst ps = l /\ forall x k, In (x, k) ps -> Q x k.
Proof.
  intros A Q l. induction l as [ | x l IH]; intro H; [ exists []; split; [ reflexivity | intros x k [] ] | ].
  destruct (H x (or_introl eq_refl)) as (k & Hk). destruct IH as (ps & E & G); [ intros y J; apply H; right; exact J | ].
  exists ((x, k) :: ps). split; [ cbn [map fst]; now rewrite E | ]. intros y j [J | J]; [ injection J as <- <-; exact Hk | exact (G y j J) ].
Qed.

(** ** Pairs of equal triangles *)
Lemma aligned_pos : forall T U, ~ flat U -> aligned T U -> 0 < vdot (tri_normal T) (tri_normal U).
Proof.
  intros T [ [a b] c] N (k & Hk & Ex & Ey & Ez). unfold vdot. rewrite Ex, Ey, Ez. cbn [scaled vx vy vz fst snd].
  pose proof (nondeg_pos a b c N) as P. change (vcross (vsub b a) (vsub c a)) with (tri_normal (a, b, c)) in P. set (n := tri_normal (a, b, c)) in *.
  assert (X : 0 < k * vdot n n) by (apply Qmult_lt_0_compat; assumption). unfold vdot in X. destruct n as [ [n1 n2] n3]. cbn [vx vy vz scaled fst snd] in *. lra.
Qed.
Lemma same_det : forall T U, ~ flat T -> ~ flat U -> same_triangle T U -> aligned U T -> det3 U == det3 T.
Proof.
  intros T U Ft Fu Sm Al. assert (X : vsum det3 [U] == det3 T); [ | cbn [vsum] in X; lra ]. apply parts_det; [ exact Ft | | | | repeat constructor ].
  - intros V [<- | [] ]. apply aligned_pos; assumption.
  - intros V x [<- | [] ]. apply (Sm x).
  - intros x I. exists U. split; [ left; reflexivity | ]. apply (Sm x). apply in_on_tri. exact I.
Qed.
Definition turn (T : tri3) : tri3 := let '(a, b, c) := T in (a, c, b).
Lemma turn_det : forall T, det3 (turn T) == - det3 T.
Proof. intros [ [ [ [a1 a2] a3] [ [b1 b2] b3] ] [ [c1 c2] c3] ]. cbv [turn det3 vdot vcross vx vy vz fst snd]. ring. Qed.
Lemma turn_on : forall T x, (on_tri x T <-> on_tri x (turn T)) /\ (in_tri x T <-> in_tri x (turn T)).
Proof.
  intros [ [a b] c] x. split; split; intros (u & v & w & H); exists u, w, v; cbn in *; destruct H as (H1 & H2 & H3 & H4 & Hx & Hy & Hz); (split; [ assumption | split; [ assumption | split; [ assumption | split; [ lra | rewrite Hx, Hy, Hz; repeat split; ring ] ] ] ]).
Qed.
Lemma turn_normal : forall T, same (tri_normal (turn T)) (scaled (- (1)) (tri_normal T)).
Proof. intros [ [ [ [a1 a2] a3] [ [b1 b2] b3] ] [ [c1 c2] c3] ]. unfold same, turn, tri_normal, normal, scaled. cbv [vcross vsub vx vy vz fst snd]. repeat split; ring. Qed.
Lemma flat_turn : forall T, ~ flat T -> ~ flat (turn T).
Proof.
  intros T N F. apply N. pose proof (turn_normal T) as E. destruct T as [ [a b] c]. unfold flat, turn, degenerate in *. unfold tri_normal, turn in E. unfold same in *.
  destruct F as (F1 & F2 & F3), E as (E1 & E2 & E3). unfold normal in *. cbn [scaled vx vy vz fst snd] in *. repeat split; lra.
Qed.
Lemma against_det : forall T U, ~ flat T -> ~ flat U -> same_triangle T U -> against U T -> det3 U == - det3 T.
Proof.
  intros T U Ft Fu Sm (k & Hk & E). rewrite <- turn_det. apply same_det; [ apply flat_turn, Ft | exact Fu | | ].
  - intro x. destruct (turn_on T x) as (X1 & X2), (Sm x) as (Y1 & Y2). tauto.
  - exists (- k). split; [ lra | ]. destruct E as (E1 & E2 & E3), (turn_normal T) as (N1 & N2 & N3). unfold same in *. cbn [scaled vx vy vz fst snd] in *. rewrite N1, N2, N3. repeat split; [ rewrite E1 | rewrite E2 | rewrite E3 ]; ring.
Qed.

Lemma partners : forall s (l k : list tri3), ForallOrdPairs apart l -> ForallOrdPairs apart k ->
  (forall T, In T l -> exists U, In U k /\ same_triangle T U) ->
  (forall U, In U k -> exists T, In T l /\ same_triangle T U) ->
  (forall T U, In T l -> In U k -> same_triangle T U -> det3 U == s * det3 T) ->
  vsum det3 k == s * vsum det3 l.
Proof.
  assert (Some' : forall T, exists x, in_tri x T) by (intros [ [a b] c]; exists (centroid a b c); apply centroid_open).
  intros s l. induction l as [ | T l IH]; intros k Al Ak H1 H2 Hd.
  - destruct k as [ | U k]; [ cbn [vsum]; ring | ]. destruct (H2 U (or_introl eq_refl)) as (T & [] & _).
  - inversion Al as [ | x y F Al']; subst. rewrite Forall_forall in F. destruct (H1 T (or_introl eq_refl)) as (U & J & Sm). pose proof (Hd T U (or_introl eq_refl) J Sm) as E.
    apply in_split in J. destruct J as (k1 & k2 & ->).
    assert (Sp : ForallOrdPairs apart (k1 ++ k2) /\ forall V, In V (k1 ++ k2) -> apart U V).
    { clear - Ak. induction k1 as [ | V k1 IHk]; cbn [app] in *; inversion Ak as [ | x y F Ak']; subst.
      - split; [ exact Ak' | ]. rewrite Forall_forall in F. exact F.
      - destruct (IHk Ak') as (X & Y). rewrite Forall_forall in F. split.
        + constructor; [ | exact X ]. apply Forall_forall. intros W J. apply F. apply in_app_iff in J. apply in_app_iff. destruct J; [ left | right; right ]; assumption.
        + intros W [<- | J]; [ | exact (Y W J) ]. intros x X1 X2. apply (F U) with x; [ apply in_app_iff; right; left; reflexivity | exact X2 | exact X1 ]. }
    destruct Sp as (Sp1 & Sp2).
    assert (G : vsum det3 (k1 ++ k2) == s * vsum det3 l).
    { apply IH; [ exact Al' | exact Sp1 | | | ].
      - intros V J. destruct (H1 V (or_intror J)) as (W & JW & SW). exists W. split; [ | exact SW ]. apply in_app_iff in JW. apply in_app_iff. destruct JW as [JW | [<- | JW] ]; [ left; exact JW | exfalso | right; exact JW ].
        destruct (Some' T) as (x & X). apply (F V J x X). apply (SW x), (Sm x), X.
      - intros W J. destruct (H2 W) as (V & [<- | JV] & SV); [ apply in_app_iff in J; apply in_app_iff; destruct J; [ left | right; right ]; assumption | exfalso | exists V; split; assumption ].
        destruct (Some' T) as (x & X). apply (Sp2 W J x); [ apply (Sm x), X | apply (SV x), X ].
      - intros V W JV JW. apply Hd; [ right; exact JV | ]. apply in_app_iff in JW. apply in_app_iff. destruct JW; [ left | right; right ]; assumption. }
    rewrite vsum_app in *. cbn [vsum]. rewrite E. lra.
Qed.

(** ** The sums over the mixed mesh *)
Section Sums.
  Context {D : Type}.
  Variables (L R : soup vec3 D) (A B : vec3 -> Prop) (m : soup vec3 (mixed_data D)).
  Hypothesis PL : proper_faces L.
  Hypothesis PR : proper_faces R.
  Hypothesis Ar : arranged L R A B m.

  Let Pf : forall left, proper_faces (operand L R left).
  Proof. intros []; [ exact PL | exact PR ]. Qed.

  Definition items : list (tri3 * mixed_data D) := combine (tris_list m) (face_data m).
  Definition chosen (p : mixed_data D -> bool) : list tri3 := map fst (filter (fun x => p (snd x)) items).

  Lemma items_at : forall i T md, nth_error items i = Some (T, md) <-> soup_triangle m i = Ok T /\ nth_error (face_data m) i = Some md.
  Proof.
    intros i T md. rewrite (tris_list_ok m (proj1 (ar_valid _ _ _ _ _ Ar))). unfold items. generalize (tris_list m) (face_data m). intros l k. revert i k.
    induction l as [ | x l IH]; intros [ | i] [ | y k]; cbn [combine nth_error]; try (split; [ discriminate | intros (? & ?); discriminate ]).
    - split; [ intro E; injection E as <- <-; auto | intros (E1 & E2); congruence ].
    - apply IH.
  Qed.
  Lemma items_piece : forall i T md, nth_error items i = Some (T, md) -> piece m i (from_left md) (tag md) T.
  Proof. intros i T md E. apply items_at in E. destruct E as (E1 & E2). split; [ exact E1 | ]. exists md. auto. Qed.
  Lemma piece_items : forall i left t T, piece m i left t T -> exists md, nth_error items i = Some (T, md) /\ from_left md = left /\ tag md = t.
  Proof. intros i left t T (E & md & E' & X). exists md. split; [ apply items_at; auto | exact X ]. Qed.
  Lemma in_chosen : forall p T, In T (chosen p) <-> exists i md, nth_error items i = Some (T, md) /\ p md = true.
  Proof.
    intros p T. unfold chosen. rewrite in_map_iff. split.
    - intros ([U md] & <- & J). apply filter_In in J. destruct J as (J & Hp). apply In_nth_error in J. destruct J as (i & E). exists i, md. auto.
    - intros (i & md & E & Hp). exists (T, md). split; [ reflexivity | ]. apply filter_In. split; [ eapply nth_error_In, E | exact Hp ].
  Qed.
  Lemma chosen_apart : forall p left, (forall md, p md = true -> from_left md = left) -> ForallOrdPairs apart (chosen p).
  Proof.
    intros p left Hp. apply fop_map. apply (fop_imp (fun x y => from_left (snd x) = from_left (snd y) -> apart (fst x) (fst y))).
    - intros x y Jx Jy G. apply filter_In in Jx, Jy. apply G. rewrite (Hp _ (proj2 Jx)), (Hp _ (proj2 Jy)). reflexivity.
    - apply fop_filter. apply fop_nth. intros i j [T d] [U e] Lt Ei Ej Eq x X1 X2. cbn [fst snd] in *. apply items_piece in Ei, Ej. rewrite Eq in Ei.
      pose proof (ar_apart _ _ _ _ _ Ar i j _ _ _ _ _ x Ei Ej X1 (in_on_tri _ _ X2)). lia.
  Qed.

  (** The pieces of an operand. *)
  Lemma pieces_sum : forall left, vsum det3 (chosen (fun md => eqb (from_left md) left)) == vsum det3 (tris_list (operand L R left)).
  Proof.
    intro left. set (p := fun md : mixed_data D => eqb (from_left md) left).
    assert (Hp : forall md, p md = true -> from_left md = left) by (intros md E; apply eqb_prop, E).
    destruct (choose (fun T k => exists U, soup_triangle (operand L R left) k = Ok U /\ aligned T U /\ forall x, (on_tri x T -> on_tri x U) /\ (in_tri x T -> in_tri x U)) (chosen p)) as (ps & Em & Hps).
    { intros T J. apply in_chosen in J. destruct J as (i & md & E & Hm). apply items_piece in E. rewrite (Hp _ Hm) in E. destruct (ar_part _ _ _ _ _ Ar _ _ _ _ E) as (fi & U & X). exists fi, U. exact X. }
    pose proof (pf_valid _ (Pf left)) as V. rewrite <- Em. apply sum_by_faces.
    - intros T k J. destruct (Hps T k J) as (U & E & _). apply (tris_list_ok _ V) in E. apply nth_error_Some. congruence.
    - intros k U E. apply (tris_list_ok _ V) in E.
      assert (InU : forall T, In T (map fst (filter (fun x : tri3 * nat => snd x =? k)%nat ps)) <-> In (T, k) ps).
      { intro T. rewrite in_map_iff. split; [ intros ([T' k'] & <- & J) | intro J; exists (T, k); split; [ reflexivity | ] ]; [ apply filter_In in J; destruct J as (J & Ek); apply Nat.eqb_eq in Ek; cbn in *; subst; exact J | apply filter_In; split; [ exact J | apply Nat.eqb_refl ] ]. }
      assert (Own : forall T, In (T, k) ps -> aligned T U /\ forall x, (on_tri x T -> on_tri x U) /\ (in_tri x T -> in_tri x U)).
      { intros T J. destruct (Hps T k J) as (U' & E' & X). rewrite E in E'. injection E' as <-. exact X. }
      assert (Nf : ~ flat U) by (destruct U as [ [a b] c]; exact (pf_nondegenerate _ (Pf left) k a b c E)).
      apply parts_det; [ exact Nf | | | | ].
      + intros T J. apply InU in J. apply aligned_pos; [ exact Nf | apply (Own T J) ].
      + intros T x J. apply InU in J. apply (Own T J).
      + intros x I. destruct (ar_cover _ _ _ _ _ Ar left x) as (i & t & T & Pi & O).
        { exists k. destruct U as [ [a b] c]. exists a, b, c. split; [ exact E | apply in_on_tri in I; exact I ]. }
        destruct (piece_items _ _ _ _ Pi) as (md & Ei & Fl & _). assert (J : In T (chosen p)) by (apply in_chosen; exists i, md; split; [ exact Ei | unfold p; rewrite Fl; apply eqb_reflx ]).
        rewrite <- Em in J. apply in_map_iff in J. destruct J as ([T' k'] & Et & J). cbn [fst] in Et. subst T'. destruct (Hps T k' J) as (U' & E' & _ & Sub).
        assert (k' = k) as ->; [ | exists T; split; [ apply InU, J | exact O ] ].
        destruct U as [ [a b] c], U' as [ [a' b'] c']. apply (pf_apart _ (Pf left) k k' a b c x E I). exists a', b', c'. split; [ exact E' | exact (proj1 (Sub x) O) ].
      + apply fop_map, fop_filter. pose proof (chosen_apart p left Hp) as F. rewrite <- Em in F. clear - F. induction ps as [ | x ps IH]; cbn [map] in F; constructor; inversion F as [ | ? ? F1 F2]; subst.
        * exact (proj1 (Forall_map fst (apart (fst x)) ps) F1).
        * apply IH, F2.
  Qed.

  (** The pieces that lie on each other. *)
  Lemma shared_sum : forall t s, t = COPLANAR /\ s = 1 \/ t = OPPOSITE /\ s = - (1) ->
    vsum det3 (chosen (fun md => negb (from_left md) && face_tag_eqb (tag md) t)) == s * vsum det3 (chosen (fun md => from_left md && face_tag_eqb (tag md) t)).
  Proof.
    intros t s Ht.
    assert (Ct : forall left T, In T (chosen (fun md => eqb (from_left md) left && face_tag_eqb (tag md) t)) <-> exists i, piece m i left t T).
    { intros left T. rewrite in_chosen. split.
      - intros (i & md & E & Hp). apply andb_true_iff in Hp. destruct Hp as (H1 & H2). apply eqb_prop in H1. assert (H3 : tag md = t) by (destruct (tag md), t; try reflexivity; discriminate H2). exists i. apply items_piece in E. rewrite H1, H3 in E. exact E.
      - intros (i & Pi). destruct (piece_items _ _ _ _ Pi) as (md & E & <- & <-). exists i, md. split; [ exact E | ]. rewrite eqb_reflx. destruct (tag md); reflexivity. }
    assert (El : forall p q, (forall md, p md = q md) -> chosen p = chosen q) by (intros p q H; unfold chosen; f_equal; apply filter_ext; intros x; apply H).
    rewrite (El _ (fun md => eqb (from_left md) false && face_tag_eqb (tag md) t)) by (intros md; destruct (from_left md); reflexivity).
    rewrite (El (fun md => from_left md && _) (fun md => eqb (from_left md) true && face_tag_eqb (tag md) t)) by (intros md; destruct (from_left md); reflexivity).
    assert (Sd : forall left, ForallOrdPairs apart (chosen (fun md => eqb (from_left md) left && face_tag_eqb (tag md) t))) by (intro left; apply (chosen_apart _ left); intros md H; apply andb_true_iff in H; apply eqb_prop, H).
    assert (Tg : forall left i T, piece m i left t T -> exists j U, piece m j (negb left) t U /\ same_triangle T U /\ (t = COPLANAR -> aligned T U) /\ (t = OPPOSITE -> against T U)).
    { intros left i T Pi. pose proof (ar_tags _ _ _ _ _ Ar i left t T Pi) as X. destruct Ht as [ (-> & _) | (-> & _) ]; cbn [tag_true] in X; destruct X as (j & U & Pj & Sm & Al); exists j, U; (split; [ exact Pj | split; [ exact Sm | split; intro; (exact Al || discriminate) ] ]). }
    assert (Sy : forall T U, same_triangle T U -> same_triangle U T) by (intros T U Sm x; destruct (Sm x); split; symmetry; assumption).
    assert (Nf : forall left i T, piece m i left t T -> ~ flat T) by (intros left i T Pi; exact (ar_nondegenerate _ _ _ _ _ Ar i left t T Pi)).
    apply partners; [ apply Sd | apply Sd | | | ].
    - intros T J. apply Ct in J. destruct J as (i & Pi). destruct (Tg _ _ _ Pi) as (j & U & Pj & Sm & _). exists U. split; [ apply Ct; exists j; exact Pj | exact Sm ].
    - intros U J. apply Ct in J. destruct J as (i & Pi). destruct (Tg _ _ _ Pi) as (j & T & Pj & Sm & _). exists T. split; [ apply Ct; exists j; exact Pj | apply Sy, Sm ].
    - intros T U JT JU Sm. apply Ct in JT, JU. destruct JT as (i & Pi), JU as (j & Pj). destruct (Tg _ _ _ Pj) as (i' & T' & Pi' & Sm' & Al & Ag).
      assert (i' = i) as ->.
      { assert (X : exists x, in_tri x T) by (destruct T as [ [a b] c]; exists (centroid a b c); apply centroid_open). destruct X as (x & X).
        apply (ar_apart _ _ _ _ _ Ar i i' true t t T T' x Pi Pi' X). apply (Sm' x), (Sm x). apply in_on_tri, X. }
      assert (T' = T) as -> by (destruct Pi as (E & _), Pi' as (E' & _); congruence).
      destruct Ht as [ (-> & ->) | (-> & ->) ].
      + rewrite (same_det T U (Nf _ _ _ Pi) (Nf _ _ _ Pj) Sm (Al eq_refl)). ring.
      + rewrite (against_det T U (Nf _ _ _ Pi) (Nf _ _ _ Pj) Sm (Ag eq_refl)). ring.
  Qed.

  (** The sum with a weight for every kind of piece. *)
  Fixpoint wsum (w : mixed_data D -> Q) (l : list (tri3 * mixed_data D)) : Q := match l with [] => 0 | x :: l => w (snd x) * det3 (fst x) + wsum w l end.
  Lemma wsum_chosen : forall p : mixed_data D -> bool, wsum (fun md => if p md then 1 else 0) items == vsum det3 (chosen p).
  Proof. intro p. unfold chosen. induction items as [ | [T md] l IH]; cbn [wsum filter snd]; [ reflexivity | ]. destruct (p md); cbn [map vsum fst]; rewrite IH; ring. Qed.
  Lemma wsum_ext : forall (w v : mixed_data D -> Q) l, (forall T md, In (T, md) l -> w md == v md) -> wsum w l == wsum v l.
  Proof.
    intros w v l. induction l as [ | [T md] l IH]; intro H; cbn [wsum fst snd]; [ reflexivity | ].
    rewrite (H T md (or_introl eq_refl)), IH; [ reflexivity | ]. intros U e J. apply (H U e). right. exact J.
  Qed.
  Lemma wsum_lin : forall (w v : mixed_data D -> Q) c l, wsum (fun md => w md + c * v md) l == wsum w l + c * wsum v l.
  Proof. intros w v c l. induction l as [ | x l IH]; cbn [wsum]; [ ring | ]. rewrite IH. ring. Qed.
  Lemma known : forall T md, In (T, md) items -> tag md <> UNKNOWN.
  Proof. intros T md J E. apply In_nth_error in J. destruct J as (i & Ei). apply items_piece in Ei. rewrite E in Ei. exact (ar_tags _ _ _ _ _ Ar _ _ _ _ Ei). Qed.
End Sums.
