(** * The result of a Boolean operation on two solids is a solid *)
From Coq Require Import List Arith QArith Lqa Lia Bool Sorted.
From Verif Require Import Model_base Model_soup Model_geometry Model_boolean Model_side.
From Verif Require Import Spec_candidates Spec_side Spec_solid Spec_boolean Spec_open.
From Verif Require Import Proof_base Proof_extract Proof_builder Proof_affine Proof_small Proof_walk Proof_open Proof_arranged.
Import ListNotations.
Local Open Scope nat_scope.

(** ** When no face is selected *)
Lemma run_constant : forall P D (d0 : D) (m : soup P (mixed_data D)) w op pf k,
  wf_mixed m -> picked m op pf = [] ->
  (forall md, In md (face_data m) -> forall b, exists ab, side (from_left md) (tag md) b = Some ab /\ member op ab = k) ->
  (exists md, In md (face_data m) /\ from_left md = true) ->
  (exists md, In md (face_data m) /\ from_left md = false) ->
  run d0 (mk_builder BOUNDARY_DEFINED BOUNDARY_DEFINED m w) op pf = Ok (special k).
Proof.
  intros P D d0 m w op pf k WF Hnil HS (ma & Ha & La) (mb & Hb & Lb).
  destruct (extract_correct d0 m op pf WF) as (s & E & Hwf & HT & _).
  unfold run. cbn [mixed]. rewrite E. cbn [bind].
  pose proof (consists_picked m op pf s HT) as HC.
  assert (Hz : num_faces s = 0).
  { rewrite <- length_tris by auto. rewrite Hnil in HC. inversion HC. reflexivity. }
  rewrite Hz. cbn [Nat.eqb negb first_kind second_kind region_kind_eqb orb].
  destruct (HS ma Ha true) as (a1 & A1 & K1). destruct (HS ma Ha false) as (a2 & A2 & K2).
  destruct (HS mb Hb true) as (b1 & B1 & K3). destruct (HS mb Hb false) as (b2 & B2 & K4).
  rewrite La in A1, A2. rewrite Lb in B1, B2.
  assert (TAG : op = opE \/ op = opJ -> forall md, In md (face_data m) ->
            (tag md = COPLANAR /\ k = apply op false false) \/ (tag md = OPPOSITE /\ k = apply op false true)).
  { intros Hop md Hin. destruct (HS md Hin true) as (n & N1 & N2). destruct (HS md Hin false) as (p & P1 & P2).
    unfold side, in_other, in_own in N1, P1.
    destruct (tag md), (from_left md); try discriminate; injection N1 as <-; injection P1 as <-;
      destruct Hop as [-> | ->]; cbv in N2, P2; clear - N2 P2; try (exfalso; congruence); rewrite <- N2; auto. }
  assert (EJ : (op = opE \/ op = opJ) ->
        (let* cop := all_tags m COPLANAR in
          if (cop : bool) then Ok (special (apply op false false))
          else let* opp := all_tags m OPPOSITE in
            if (opp : bool) then Ok (special (apply op false true)) else @Throw (region P D) RuntimeError) = Ok (special k)).
  { intros Hop. specialize (TAG Hop). rewrite !all_tags_spec by exact WF. cbn [bind].
    destruct (forallb (fun md => face_tag_eqb (tag md) COPLANAR) (face_data m)) eqn:FC.
    - rewrite forallb_forall in FC. pose proof (FC ma Ha) as T. apply face_tag_eqb_eq in T.
      destruct (TAG ma Ha) as [(_ & ->) | (T' & _)]; [ reflexivity | congruence ].
    - assert (KO : k = apply op false true).
      { destruct (bool_dec k (apply op false true)) as [? | N]; [ auto | exfalso ].
        assert (FT : forallb (fun md => face_tag_eqb (tag md) COPLANAR) (face_data m) = true).
        { apply forallb_forall. intros md Hin. destruct (TAG md Hin) as [(-> & _) | (_ & K)]; [ reflexivity | contradiction ]. }
        congruence. }
      assert (FO : forallb (fun md => face_tag_eqb (tag md) OPPOSITE) (face_data m) = true).
      { apply forallb_forall. intros md Hin. destruct (TAG md Hin) as [(_ & K) | (-> & _)]; [ | reflexivity ].
        exfalso. rewrite KO in K. destruct Hop as [-> | ->]; discriminate. }
      rewrite FO, KO. reflexivity. }
  clear TAG. destruct op; try (apply EJ; auto; fail); clear EJ;
    unfold side, in_other, in_own in A1, A2, B1, B2;
    destruct (tag ma), (tag mb); try discriminate; injection A1 as <-; injection A2 as <-; injection B1 as <-; injection B2 as <-;
    cbv in K1, K2, K3, K4; clear - K1 K2 K3 K4; first [ exfalso; congruence | rewrite <- K1; reflexivity ].
Qed.

(** ** Triangles of a soup *)
Lemma Forall2_nth_l : forall A B (R : A -> B -> Prop) l l' i a, Forall2 R l l' -> nth_error l i = Some a ->
  exists b, nth_error l' i = Some b /\ R a b.
Proof.
  intros A B R l l' i a H. revert i. induction H as [ | x y l l' Hxy H IH]; intros [ | i] Hi; cbn [nth_error] in *; try discriminate.
  - injection Hi as <-. eauto.
  - auto.
Qed.
Lemma Forall2_nth_r : forall A B (R : A -> B -> Prop) l l' i b, Forall2 R l l' -> nth_error l' i = Some b ->
  exists a, nth_error l i = Some a /\ R a b.
Proof.
  intros A B R l l' i b H. revert i. induction H as [ | x y l l' Hxy H IH]; intros [ | i] Hi; cbn [nth_error] in *; try discriminate.
  - injection Hi as <-. eauto.
  - auto.
Qed.

Lemma triangle_tri_of : forall P D (s : soup P D) i T,
  soup_triangle s i = Ok T <-> exists f, nth_error (faces s) i = Some f /\ tri_of (points s) f = Some T.
Proof.
  intros P D s i T. unfold soup_triangle, soup_face, soup_point, vec_at, tri_of.
  destruct (nth_error (faces s) i) as [ [ [a b] c] | ]; cbn [bind].
  - split.
    + intro H. exists (a, b, c). split; [ reflexivity | ].
      destruct (nth_error (points s) a), (nth_error (points s) b), (nth_error (points s) c); cbn [bind] in H; try discriminate.
      congruence.
    + intros (f & Ef & H). injection Ef as <-.
      destruct (nth_error (points s) a), (nth_error (points s) b), (nth_error (points s) c); cbn [bind] in *; try discriminate.
      congruence.
  - split; [ discriminate | intros (f & H & _); discriminate ].
Qed.

Definition map3 {P Q} (g : P -> Q) (T : P * P * P) : Q * Q * Q := let '(a, b, c) := T in (g a, g b, g c).

Lemma tri_of_map : forall P Q (g : P -> Q) pts f, tri_of (map g pts) f = option_map (map3 g) (tri_of pts f).
Proof.
  intros P Q g pts [ [a b] c]. unfold tri_of. rewrite !nth_error_map.
  destruct (nth_error pts a), (nth_error pts b), (nth_error pts c); reflexivity.
Qed.

Lemma triangle_located : forall P D (coords : P -> vec3) (s : soup P D) i T,
  soup_triangle (located coords s) i = Ok T <-> exists T0, soup_triangle s i = Ok T0 /\ T = map3 coords T0.
Proof.
  intros P D coords s i T. rewrite triangle_tri_of. cbn [located faces points]. split.
  - intros (f & Hf & HT). rewrite tri_of_map in HT. destruct (tri_of (points s) f) as [T0 | ] eqn:E; [ | discriminate ].
    exists T0. split; [ apply triangle_tri_of; eauto | ]. cbn [option_map] in HT. congruence.
  - intros (T0 & H0 & ->). apply triangle_tri_of in H0. destruct H0 as (f & Hf & E). exists f. split; [ exact Hf | ].
    rewrite tri_of_map, E. reflexivity.
Qed.

Lemma tris_triangle : forall P D (s : soup P D) i t d, nth_error (tris s) i = Some (Some t, d) <->
  soup_triangle s i = Ok t /\ nth_error (face_data s) i = Some d.
Proof.
  intros P D s i t d. rewrite triangle_tri_of. unfold tris. split.
  - intro H. apply nth_error_combine_inv in H. destruct H as (H1 & H2). split; [ | exact H2 ].
    rewrite nth_error_map in H1. destruct (nth_error (faces s) i) as [f | ]; [ | discriminate ].
    cbn [option_map] in H1. injection H1 as H1. eauto.
  - intros ((f & Hf & Ht) & Hd). apply nth_error_combine; [ | exact Hd ]. rewrite nth_error_map, Hf. cbn [option_map]. congruence.
Qed.

Lemma triangle_exists : forall P D (s : soup P D) i, valid_faces s -> i < length (faces s) -> exists T, soup_triangle s i = Ok T.
Proof.
  intros P D s i V H. destruct (nth_error (faces s) i) as [f | ] eqn:E; [ | apply nth_error_None in E; lia ].
  unfold valid_faces in V. rewrite Forall_forall in V. specialize (V f (nth_error_In _ _ E)). destruct f as [ [a b] c].
  destruct V as (Va & Vb & Vc).
  destruct (nth_error (points s) a) as [pa | ] eqn:Ea; [ | apply nth_error_None in Ea; lia ].
  destruct (nth_error (points s) b) as [pb | ] eqn:Eb; [ | apply nth_error_None in Eb; lia ].
  destruct (nth_error (points s) c) as [pc | ] eqn:Ec; [ | apply nth_error_None in Ec; lia ].
  exists (pa, pb, pc). apply triangle_tri_of. exists (a, b, c). split; [ exact E | ]. unfold tri_of. rewrite Ea, Eb, Ec. reflexivity.
Qed.

Lemma triangle_range : forall P D (s : soup P D) i T, soup_triangle s i = Ok T -> i < length (faces s).
Proof. intros P D s i T H. apply triangle_tri_of in H. destruct H as (f & Hf & _). apply nth_error_Some. congruence. Qed.

Lemma flip_map3 : forall P (coords : P -> vec3) T, map3 coords (flip T) = flip_tri (map3 coords T).
Proof. intros P coords [ [a b] c]. reflexivity. Qed.

Definition tri_list {D} (s : soup vec3 D) : list tri3 :=
  flat_map (fun i => match soup_triangle s i with Ok T => [T] | _ => [] end) (seq 0 (length (faces s))).

Lemma in_tri_list : forall D (s : soup vec3 D) T, In T (tri_list s) <-> exists i, soup_triangle s i = Ok T.
Proof.
  intros D s T. unfold tri_list. rewrite in_flat_map. split.
  - intros (i & _ & H). exists i. destruct (soup_triangle s i) as [U | | ]; [ | destruct H | destruct H ].
    destruct H as [-> | []]. reflexivity.
  - intros (i & H). exists i. split; [ apply in_seq; pose proof (triangle_range _ _ _ _ _ H); lia | ]. rewrite H. left. reflexivity.
Qed.

Lemma on_list : forall D (s : soup vec3 D) x, on (tri_list s) x <-> on_boundary s x.
Proof.
  intros D s x. split.
  - intros (T & HT & Ho). apply in_tri_list in HT. destruct HT as (i & HT). destruct T as [ [a b] c]. exists i, a, b, c. auto.
  - intros (i & a & b & c & HT & Ho). exists (a, b, c). split; [ apply in_tri_list; eauto | exact Ho ].
Qed.

Lemma sorted_distinct : forall l i j a, StronglySorted lt l -> nth_error l i = Some a -> nth_error l j = Some a -> i = j.
Proof.
  assert (G : forall l i j a, StronglySorted lt l -> i < j -> nth_error l i = Some a -> nth_error l j = Some a -> False).
  { induction l as [ | x l IH]; intros i j a HS Hij Hi Hj; [ destruct i; discriminate | ].
    apply StronglySorted_inv in HS. destruct HS as (HS & HF). destruct j as [ | j]; [ lia | ]. cbn [nth_error] in Hj.
    destruct i as [ | i].
    - cbn [nth_error] in Hi. injection Hi as ->. rewrite Forall_forall in HF. specialize (HF a (nth_error_In _ _ Hj)). lia.
    - apply (IH i j a HS); auto; lia. }
  intros l i j a HS Hi Hj. destruct (Nat.lt_trichotomy i j) as [K | [K | K]]; auto; exfalso; eauto.
Qed.

(** ** The theorem *)
Section Solid.
  Context {P D : Type}.
  Variables (d0 : D) (coords : P -> vec3) (L R : soup P D) (A B : vec3 -> Prop) (m : soup P (mixed_data D)).
  Variable Dom : vec3 -> Prop.
  Hypothesis HK : open_convex Dom.
  Hypothesis SA : solid_in Dom (located coords L) A.
  Hypothesis SB : solid_in Dom (located coords R) B.
  Hypothesis L_faces : faces L <> [].
  Hypothesis R_faces : faces R <> [].
  Hypothesis AR : arranged (located coords L) (located coords R) A B (located coords m).

  Let O := operand (located coords L) (located coords R).
  Let X := member_of A B.
  Let OT (s : bool) : list tri3 := tri_list (O s).

  Lemma O_solid : forall s, solid_in Dom (O s) (X s).
  Proof. intros []; assumption. Qed.

  Lemma X_dec : forall s x, Dom x -> X s x \/ ~ X s x.
  Proof. intros s. exact (proj1 (proj2 (proj2 (O_solid s)))). Qed.

  Lemma OT_flat : forall s T, In T (OT s) -> ~ flat T.
  Proof.
    intros s T H. apply in_tri_list in H. destruct H as (i & H). destruct T as [ [a b] c].
    exact (pf_nondegenerate _ (proj1 (O_solid s)) i a b c H).
  Qed.

  Lemma OT_apart : forall s T U x, In T (OT s) -> In U (OT s) -> in_tri x T -> on_tri x U -> U = T.
  Proof.
    intros s T U x HT HU Hi Ho. apply in_tri_list in HT, HU. destruct HT as (i & HT), HU as (j & HU).
    destruct T as [ [a b] c], U as [ [a' b'] c'].
    assert (E : j = i).
    { apply (pf_apart _ (proj1 (O_solid s)) i j a b c x HT Hi). exists a', b', c'. auto. }
    subst j. congruence.
  Qed.

  Lemma X_walk : forall s x y, Dom x -> Dom y -> (forall z, in_segment z x y -> ~ on (OT s) z) -> (X s x <-> X s y).
  Proof.
    intros s x y Kx Ky H. apply (bi_walk _ _ _ (proj1 (proj2 (O_solid s))) x y Kx Ky). intros z Hz Ho. apply (H z Hz). apply on_list. exact Ho.
  Qed.

  Lemma X_face : forall s T q v, In T (OT s) -> in_tri q T ->
    eventually (fun e => ((vdot (tri_normal T) v < 0)%Q -> X s (along q e v)) /\
                         ((0 < vdot (tri_normal T) v)%Q -> ~ X s (along q e v))).
  Proof.
    intros s T q v HT Hq. apply in_tri_list in HT. destruct HT as (i & HT). destruct T as [ [a b] c].
    destruct (bi_face _ _ _ (proj1 (proj2 (O_solid s))) i a b c q v HT Hq) as (bound & Hb & H).
    exists (bound * (1 # 2))%Q. split; [ clear - Hb; lra | ]. intros e He1 He2. apply H. clear - He1 He2 Hb. lra.
  Qed.

  Lemma OT_in : forall s T q, In T (OT s) -> in_tri q T -> Dom q.
  Proof.
    intros s T q H Hq. apply in_tri_list in H. destruct H as (i & H). destruct T as [ [a b] c].
    exact (proj2 (proj2 (proj2 (O_solid s))) i a b c q H Hq).
  Qed.

  Definition piece_list : list (bool * face_tag * tri3) :=
    flat_map (fun i => match soup_triangle (located coords m) i, nth_error (face_data m) i with
                       | Ok T, Some md => [(from_left md, tag md, T)]
                       | _, _ => [] end) (seq 0 (length (faces m))).

  Lemma in_piece_list : forall s t T, In (s, t, T) piece_list <-> exists i, piece (located coords m) i s t T.
  Proof.
    intros s t T. unfold piece_list. rewrite in_flat_map. split.
    - intros (i & _ & H). destruct (soup_triangle (located coords m) i) as [U | | ] eqn:E; try destruct H.
      destruct (nth_error (face_data m) i) as [md | ] eqn:Ed; [ | destruct H ].
      destruct H as [H | []]. injection H as <- <- <-. exists i. split; [ exact E | ]. exists md. auto.
    - intros (i & HT & md & Hd & Hs & Ht). exists i. split.
      + apply in_seq. pose proof (triangle_range _ _ _ _ _ HT) as K. cbn [located faces] in K. lia.
      + cbn [located face_data] in Hd. rewrite HT, Hd. left. rewrite Hs, Ht. reflexivity.
  Qed.

  Lemma P_flat : forall s t T, In (s, t, T) piece_list -> ~ flat T.
  Proof. intros s t T H. apply in_piece_list in H. destruct H as (i & H). exact (ar_nondegenerate _ _ _ _ _ AR i s t T H). Qed.

  Lemma P_part : forall s t T, In (s, t, T) piece_list -> exists U, In U (OT s) /\ aligned T U /\
    forall x, (on_tri x T -> on_tri x U) /\ (in_tri x T -> in_tri x U).
  Proof.
    intros s t T H. apply in_piece_list in H. destruct H as (i & H).
    destruct (ar_part _ _ _ _ _ AR i s t T H) as (fi & U & HU & Hal & Hin).
    exists U. split; [ apply in_tri_list; exists fi; exact HU | auto ].
  Qed.

  Lemma P_cover : forall s x, on (OT s) x -> exists t T, In (s, t, T) piece_list /\ on_tri x T.
  Proof.
    intros s x H. apply on_list in H. destruct (ar_cover _ _ _ _ _ AR s x H) as (i & t & T & HT & Ho).
    exists t, T. split; [ apply in_piece_list; eauto | exact Ho ].
  Qed.

  Lemma P_tag : forall s t T, In (s, t, T) piece_list ->
    match t with
    | UNKNOWN => False
    | EXTERIOR => forall x, in_tri x T -> ~ on (OT (negb s)) x /\ ~ X (negb s) x
    | INTERIOR => forall x, in_tri x T -> ~ on (OT (negb s)) x /\ X (negb s) x
    | COPLANAR => exists U, In (negb s, COPLANAR, U) piece_list /\ same_triangle T U /\ aligned T U
    | OPPOSITE => exists U, In (negb s, OPPOSITE, U) piece_list /\ same_triangle T U /\ against T U
    end.
  Proof.
    intros s t T H. apply in_piece_list in H. destruct H as (i & H). assert (G := ar_tags _ _ _ _ _ AR i s t T H).
    destruct t; cbn [tag_true] in G.
    - exact G.
    - intros x Hx. destruct (G x Hx) as (G1 & G2). split; [ intro K; apply G1, on_list, K | exact G2 ].
    - intros x Hx. destruct (G x Hx) as (G1 & G2). split; [ intro K; apply G1, on_list, K | exact G2 ].
    - destruct G as (j & U & HU & G). exists U. split; [ apply in_piece_list; eauto | exact G ].
    - destruct G as (j & U & HU & G). exists U. split; [ apply in_piece_list; eauto | exact G ].
  Qed.

  Variables (op : boolean_operator) (pf : bool).

  Let C := combined OT X Dom piece_list op pf.

  Lemma off_iff : forall x, off OT x <-> ~ on_boundary (located coords L) x /\ ~ on_boundary (located coords R) x.
  Proof.
    intro x. split.
    - intro H. split; intro K; [ apply (H true) | apply (H false) ]; apply on_list; exact K.
    - intros (H1 & H2) [] K; apply on_list in K; auto.
  Qed.

  Lemma m_wf : wf_mixed m.
  Proof.
    destruct (ar_valid _ _ _ _ _ AR) as (V & E). cbn [located face_data faces] in E. split; [ exact E | ].
    unfold valid_faces in V. cbn [located faces points] in V. rewrite map_length in V. exact V.
  Qed.

  (** The faces selected, as triangles. *)
  Lemma chosen_iff : forall T, chosen piece_list op pf T <->
    exists i rv U, In (i, rv) (picked m op pf) /\ soup_triangle (located coords m) i = Ok U /\
      T = if rv then flip_tri U else U.
  Proof.
    intro T. split.
    - intros (s & t & U & HU & HT). apply in_piece_list in HU. destruct HU as (i & HU & md & Hd & <- & <-).
      destruct HT as [ (K & ->) | (K & ->) ].
      + exists i, false, U. split; [ apply in_picked; [ exact m_wf | exists md; auto ] | auto ].
      + exists i, true, U. split; [ apply in_picked; [ exact m_wf | exists md; auto ] | auto ].
    - intros (i & rv & U & Hin & HU & ->). apply in_picked in Hin; [ | exact m_wf ]. destruct Hin as (md & Hd & K).
      exists (from_left md), (tag md), U. split; [ apply in_piece_list; exists i; split; [ exact HU | exists md; auto ] | ].
      destruct rv; auto.
  Qed.

  Section Result.
    Variable r : soup P D.
    Hypothesis r_wf : wf_soup r.
    Hypothesis r_tris : consists_of m r (picked m op pf).

    Lemma r_face : forall k T, soup_triangle (located coords r) k = Ok T ->
      exists i rv U, nth_error (picked m op pf) k = Some (i, rv) /\ soup_triangle (located coords m) i = Ok U /\
        T = if rv then flip_tri U else U.
    Proof.
      intros k T H. apply triangle_located in H. destruct H as (T0 & H0 & ->).
      assert (Hk := triangle_range _ _ _ _ _ H0).
      destruct (nth_error (face_data r) k) as [dd | ] eqn:Ed.
      2:{ apply nth_error_None in Ed. destruct r_wf as (E & _). lia. }
      assert (Ht : nth_error (tris r) k = Some (Some T0, dd)) by (apply tris_triangle; auto).
      destruct (Forall2_nth_r _ _ _ _ _ k _ r_tris Ht) as ([i rv] & Hs & t & md & Hm & E). cbn [fst snd] in *.
      injection E as E _.
      assert (Em : exists U0, t = Some U0).
      { destruct rv; [ destruct t as [U0 | ]; [ eauto | discriminate E ] | eauto ]. }
      destruct Em as (U0 & ->). apply tris_triangle in Hm. destruct Hm as (Hm & _).
      exists i, rv, (map3 coords U0). split; [ exact Hs | ]. split; [ apply triangle_located; eauto | ].
      destruct rv; cbn [option_map] in E; injection E as ->; [ apply flip_map3 | reflexivity ].
    Qed.

    Lemma r_has : forall T, chosen piece_list op pf T -> exists k, soup_triangle (located coords r) k = Ok T.
    Proof.
      intros T H. apply chosen_iff in H. destruct H as (i & rv & U & Hin & HU & ->).
      apply In_nth_error in Hin. destruct Hin as (k & Hk).
      destruct (Forall2_nth_l _ _ _ _ _ k _ r_tris Hk) as ([t0 dd] & Hr & t & md & Hm & E). cbn [fst snd] in *.
      injection E as E _. apply triangle_located in HU. destruct HU as (U0 & HU & ->).
      assert (Et : t = Some U0).
      { destruct t as [U1 | ].
        - apply tris_triangle in Hm. destruct Hm as (Hm & _). congruence.
        - exfalso. unfold tris in Hm. apply nth_error_combine_inv in Hm. destruct Hm as (Hm & _). rewrite nth_error_map in Hm.
          apply triangle_tri_of in HU. destruct HU as (f & Hf & Ht). rewrite Hf in Hm. cbn [option_map] in Hm. congruence. }
      subst t. exists k. apply triangle_located.
      exists (if rv then flip U0 else U0). split.
      - apply (tris_triangle _ _ r k _ dd). rewrite Hr. destruct rv; cbn [option_map] in E; congruence.
      - destruct rv; [ symmetry; apply flip_map3 | reflexivity ].
    Qed.

    Lemma r_on : forall x, on_boundary (located coords r) x <-> on_result piece_list op pf x.
    Proof.
      intro x. split.
      - intros (k & a & b & c & HT & Ho). exists (a, b, c). split; [ | exact Ho ].
        destruct (r_face k _ HT) as (i & rv & U & Hk & HU & E). apply chosen_iff. exists i, rv, U. split; [ exact (nth_error_In _ _ Hk) | auto ].
      - intros (T & HT & Ho). destruct (r_has T HT) as (k & Hk). destruct T as [ [a b] c]. exists k, a, b, c. auto.
    Qed.

    Lemma r_proper : proper_faces (located coords r).
    Proof.
      split.
      - destruct r_wf as (_ & V). unfold valid_faces. cbn [located faces points]. rewrite map_length. exact V.
      - intros fi a b c HT HD. destruct (r_face fi _ HT) as (i & rv & U & Hk & HU & E).
        assert (Hin := nth_error_In _ _ Hk). apply in_picked in Hin; [ | exact m_wf ]. destruct Hin as (md & Hd & _).
        assert (NF : ~ flat U).
        { apply (ar_nondegenerate _ _ _ _ _ AR i (from_left md) (tag md) U). split; [ exact HU | exists md; auto ]. }
        destruct rv; [ apply (flat_flip U NF) | apply NF ]; rewrite <- E; exact HD.
      - intros fi fj a b c x HT Hx (a' & b' & c' & HU & Ho).
        destruct (r_face fi _ HT) as (i & rv & U & Hi & Hm & E). destruct (r_face fj _ HU) as (j & rw & V & Hj & Hn & F).
        assert (Hix : in_tri x U) by (destruct rv; [ apply in_flip; rewrite <- E; exact Hx | rewrite <- E; exact Hx ]).
        assert (Hjx : on_tri x V) by (destruct rw; [ apply on_flip; rewrite <- F; exact Ho | rewrite <- F; exact Ho ]).
        assert (Ii := nth_error_In _ _ Hi). apply in_picked in Ii; [ | exact m_wf ]. destruct Ii as (md & Hd & Ki).
        assert (Ij := nth_error_In _ _ Hj). apply in_picked in Ij; [ | exact m_wf ]. destruct Ij as (me & He & Kj).
        assert (Pi : piece (located coords m) i (from_left md) (tag md) U) by (split; [ exact Hm | exists md; auto ]).
        assert (Pj : piece (located coords m) j (from_left me) (tag me) V) by (split; [ exact Hn | exists me; auto ]).
        assert (Eij : j = i).
        { destruct (bool_dec (from_left me) (from_left md)) as [Es | Ns].
          - apply (ar_apart _ _ _ _ _ AR i j (from_left md) (tag md) (tag me) U V x Pi); [ rewrite <- Es; exact Pj | exact Hix | exact Hjx ].
          - exfalso. assert (Es : from_left me = negb (from_left md)) by (destruct (from_left me), (from_left md); auto; congruence).
            assert (OnO : on_boundary (O (negb (from_left md))) x).
            { destruct (ar_part _ _ _ _ _ AR j (from_left me) (tag me) V Pj) as (fi' & W & HW & _ & Hin). rewrite Es in HW.
              destruct W as [ [wa wb] wc]. exists fi', wa, wb, wc. split; [ exact HW | exact (proj1 (Hin x) Hjx) ]. }
            assert (Over : forall t V', t = COPLANAR \/ t = OPPOSITE -> tag md = t ->
                       (exists j', piece (located coords m) j' (negb (from_left md)) t V') -> in_tri x V' -> False).
            { intros t V' Ht Em (j' & Pj') Hx'.
              assert (Ej : j = j').
              { apply (ar_apart _ _ _ _ _ AR j' j (negb (from_left md)) t (tag me) V' V x Pj'); [ rewrite <- Es; exact Pj | exact Hx' | exact Hjx ]. }
              subst j'. assert (Em' : tag me = t).
              { destruct Pj' as (_ & me' & He' & _ & Et'). cbn [located face_data] in He'. congruence. }
              clear - Ki Kj Em Em' Ht Es. unfold required in Ki, Kj. rewrite Em in Ki. rewrite Em', Es in Kj.
              destruct Ht as [-> | ->]; cbn [side in_other in_own] in *;
                destruct rv, rw, (from_left md), pf; simpl in *; discriminate. }
            assert (G := ar_tags _ _ _ _ _ AR i (from_left md) (tag md) U Pi). destruct (tag md) eqn:Em; cbn [tag_true] in G.
            + exact G.
            + exact (proj1 (G x Hix) OnO).
            + exact (proj1 (G x Hix) OnO).
            + destruct G as (j' & V' & PV & HS & _). apply (Over COPLANAR V'); eauto. apply (proj2 (HS x)), Hix.
            + destruct G as (j' & V' & PV & HS & _). apply (Over OPPOSITE V'); eauto. apply (proj2 (HS x)), Hix. }
        subst j. apply (sorted_distinct (map fst (picked m op pf)) fj fi i (picked_sorted m op pf)).
        + exact (map_nth_error fst _ _ Hj).
        + exact (map_nth_error fst _ _ Hi).
    Qed.

    Lemma r_solid : solid_in Dom (located coords r) C.
    Proof.
      split; [ exact r_proper | ]. split; [ split | split ].
      - intros x y Kx Ky H.
        assert (H' : forall z, in_segment z x y -> ~ on_result piece_list op pf z).
        { intros z Hz Ho. apply (H z Hz). apply r_on. exact Ho. }
        assert (H'' : forall z, in_segment z y x -> ~ on_result piece_list op pf z).
        { intros z Hz. apply H'. apply in_segment_sym. exact Hz. }
        split.
        + exact (combined_walk OT X Dom HK OT_flat X_walk X_face OT_in piece_list P_flat P_part P_cover P_tag op pf x y Kx Ky H').
        + exact (combined_walk OT X Dom HK OT_flat X_walk X_face OT_in piece_list P_flat P_part P_cover P_tag op pf y x Ky Kx H'').
      - intros fi a b c q v HT Hq.
        assert (Hc : chosen piece_list op pf (a, b, c)).
        { destruct (r_face fi _ HT) as (i & rv & U & Hk & HU & E). apply chosen_iff. exists i, rv, U.
          split; [ exact (nth_error_In _ _ Hk) | auto ]. }
        destruct (combined_face OT X Dom HK OT_flat OT_apart X_walk X_face OT_in piece_list P_flat P_part P_cover P_tag op pf
                    (a, b, c) q v Hc Hq) as (e & He & H).
        exists e. split; [ exact He | ]. intros e' (H1 & H2). apply (H e'); [ exact H1 | apply Qlt_le_weak; exact H2 ].
      - exact (combined_dec OT X Dom HK X_dec OT_flat X_walk X_face OT_in piece_list P_flat P_part P_cover P_tag op pf).
      - intros fi a b c q HT Hq. destruct (r_face fi _ HT) as (i & rv & U & Hk & HU & E).
        assert (Hin := nth_error_In _ _ Hk). apply in_picked in Hin; [ | exact m_wf ]. destruct Hin as (md & Hd & _).
        assert (Pi : piece (located coords m) i (from_left md) (tag md) U) by (split; [ exact HU | exists md; auto ]).
        apply (P_in OT Dom OT_in piece_list P_part (from_left md) (tag md) U q); [ apply in_piece_list; eauto | ].
        destruct rv; [ apply in_flip; rewrite <- E; exact Hq | rewrite <- E; exact Hq ].
    Qed.
  End Result.

  (** With a face in the result, whatever the kinds of the operands are said to be. *)
  Lemma some_result : picked m op pf <> [] -> forall ka kb w, exists r,
    run d0 (mk_builder ka kb m w) op pf = Ok r /\ kind r = BOUNDARY_DEFINED /\ wf_soup (boundary r) /\ faces (boundary r) <> [] /\
    (forall x, on_boundary (located coords (boundary r)) x -> on_boundary (located coords L) x \/ on_boundary (located coords R) x) /\
    exists S, solid_in Dom (located coords (boundary r)) S /\
      forall x, Dom x -> ~ on_boundary (located coords L) x -> ~ on_boundary (located coords R) x -> (S x <-> set_of op A B x).
  Proof.
    intros Ep ka kb w. destruct (extract_correct d0 m op pf m_wf) as (s & E & Hwf & HT & _).
    assert (HC := consists_picked m op pf s HT).
    assert (Hn : faces s <> []).
    { intro K. unfold consists_of in HC. unfold tris in HC. rewrite K in HC. cbn [map combine] in HC. inversion HC. congruence. }
    assert (Hnz : num_faces s <> 0) by (unfold num_faces; destruct (faces s); [ congruence | discriminate ]).
    unfold run. cbn [mixed]. rewrite E. cbn [bind]. destruct (Nat.eqb_spec (num_faces s) 0) as [Z | _]; [ contradiction | ].
    cbn [negb]. unfold region_of_soup. destruct (Nat.eqb_spec (num_faces s) 0) as [Z | _]; [ contradiction | ].
    eexists. split; [ reflexivity | ]. cbn [kind boundary]. split; [ reflexivity | ]. split; [ exact Hwf | ]. split; [ exact Hn | ]. split.
    - intros x Ho. apply (r_on s Hwf HC) in Ho. destruct Ho as (T & HTc & Ho).
      apply chosen_iff in HTc. destruct HTc as (i & rv & U & Hin & HU & ET).
      apply in_picked in Hin; [ | exact m_wf ]. destruct Hin as (md & Hd & _).
      assert (Pi : piece (located coords m) i (from_left md) (tag md) U) by (split; [ exact HU | exists md; auto ]).
      assert (HoU : on_tri x U) by (subst T; destruct rv; [ apply on_flip, Ho | exact Ho ]).
      destruct (ar_part _ _ _ _ _ AR i _ _ U Pi) as (fi & W & HW & _ & Hi).
      assert (HoW := proj1 (Hi x) HoU). destruct W as [ [wa wb] wc].
      destruct (from_left md); [ left | right ]; exists fi, wa, wb, wc; auto.
    - exists C. split; [ exact (r_solid s Hwf HC) | ]. intros x Kx H1 H2.
      apply (combined_off OT X Dom HK OT_flat X_walk X_face OT_in piece_list P_flat P_part P_cover P_tag op pf x Kx). apply off_iff. auto.
  Qed.

  (** Without one, both sides of every piece belong to the result, or none does. *)
  Lemma none_sides : picked m op pf = [] -> forall i s t T, piece (located coords m) i s t T -> forall b, exists ab, side s t b = Some ab /\
    forall x, Dom x -> ~ on_boundary (located coords L) x -> ~ on_boundary (located coords R) x -> (set_of op A B x <-> member op ab = true).
  Proof.
    intros Ep i s t T HT b.
    assert (NC : forall T, ~ chosen piece_list op pf T).
    { intros T' H. apply chosen_iff in H. destruct H as (j & rv & U & Hin & _). rewrite Ep in Hin. exact Hin. }
    destruct (both_sides OT X Dom HK OT_flat OT_apart X_walk X_face OT_in piece_list P_flat P_part P_cover P_tag op pf NC s t T (proj2 (in_piece_list s t T) (ex_intro _ i HT)) b) as (ab & E & H).
    exists ab. split; [ exact E | ]. intros x Kx H1 H2. apply H; [ exact Kx | ]. apply off_iff. auto.
  Qed.

  Lemma has_piece : forall s, exists md, In md (face_data m) /\ from_left md = s.
  Proof.
    intro s. assert (E : exists T, soup_triangle (O s) 0 = Ok T).
    { apply triangle_exists; [ apply (O_solid s) | ]. unfold O, operand. destruct s; cbn [located faces].
      - destruct (faces L); [ congruence | cbn [length]; lia ].
      - destruct (faces R); [ congruence | cbn [length]; lia ]. }
    destruct E as (T & HT). destruct (inner_point T) as (q & Hq).
    assert (Ho : on_boundary (O s) q).
    { assert (K := in_on_tri q T Hq). destruct T as [ [a b] c]. exists 0, a, b, c. auto. }
    destruct (ar_cover _ _ _ _ _ AR s q Ho) as (i & t & U & (_ & md & Hd & Hs & _) & _).
    exists md. split; [ exact (nth_error_In _ _ Hd) | exact Hs ].
  Qed.

  Theorem solid_result : forall w, exists r,
    run d0 (mk_builder BOUNDARY_DEFINED BOUNDARY_DEFINED m w) op pf = Ok r /\
    match kind r with
    | EMPTY => forall x, Dom x -> ~ on_boundary (located coords L) x -> ~ on_boundary (located coords R) x -> ~ set_of op A B x
    | FULL => forall x, Dom x -> ~ on_boundary (located coords L) x -> ~ on_boundary (located coords R) x -> set_of op A B x
    | BOUNDARY_DEFINED => faces (boundary r) <> [] /\
        (forall x, on_boundary (located coords (boundary r)) x ->
           on_boundary (located coords L) x \/ on_boundary (located coords R) x) /\
        exists S, solid_in Dom (located coords (boundary r)) S /\
          forall x, Dom x -> ~ on_boundary (located coords L) x -> ~ on_boundary (located coords R) x -> (S x <-> set_of op A B x)
    end.
  Proof.
    intro w. destruct (picked m op pf) as [ | p0 ps] eqn:Ep.
    - (* nothing selected *)
      assert (NC : forall T, ~ chosen piece_list op pf T).
      { intros T H. apply chosen_iff in H. destruct H as (i & rv & U & Hin & _). rewrite Ep in Hin. exact Hin. }
      assert (BS := both_sides OT X Dom HK OT_flat OT_apart X_walk X_face OT_in piece_list P_flat P_part P_cover P_tag op pf NC).
      assert (PL : forall md, In md (face_data m) -> exists T, In (from_left md, tag md, T) piece_list).
      { intros md Hin. apply In_nth_error in Hin. destruct Hin as (i & Hi).
        destruct (ar_valid _ _ _ _ _ AR) as (V & E). cbn [located face_data faces] in E.
        destruct (triangle_exists _ _ (located coords m) i V) as (T & HT).
        { cbn [located faces]. rewrite <- E. apply nth_error_Some. congruence. }
        exists T. apply in_piece_list. exists i. split; [ exact HT | exists md; auto ]. }
      destruct (has_piece true) as (ma & Ha & La). destruct (PL ma Ha) as (Ta & HTa).
      destruct (BS _ _ _ HTa true) as (ab & Hab & Hk).
      assert (Ex : exists x0, Dom x0 /\ off OT x0).
      { destruct (leaving OT OT_flat) as (v & Hw). destruct (inner_point Ta) as (q & Hq).
        pose proof (P_in OT Dom OT_in piece_list P_part _ _ Ta q HTa Hq) as Kq.
        destruct (ev_witness _ (ev_and _ _ (ev_in Dom HK q v Kq) (Hw q))) as (e & _ & K0 & K). eauto. }
      destruct Ex as (x0 & Kx0 & Hx0).
      exists (special (member op ab)). split.
      + apply run_constant; [ exact m_wf | exact Ep | | apply has_piece | apply has_piece ].
        intros md Hin b. destruct (PL md Hin) as (T & HT). destruct (BS _ _ _ HT b) as (ab' & Hab' & Hk').
        exists ab'. split; [ exact Hab' | ]. assert (K := Hk x0 Kx0 Hx0). assert (K' := Hk' x0 Kx0 Hx0).
        destruct (member op ab), (member op ab'); auto; [ exact (proj1 K' (proj2 K eq_refl)) | exact (eq_sym (proj1 K (proj2 K' eq_refl))) ].
      + destruct (member op ab); cbn [special kind region_full region_empty].
        * intros x Kx H1 H2. apply (Hk x Kx); [ apply off_iff; auto | reflexivity ].
        * intros x Kx H1 H2 K. apply (Hk x Kx) in K; [ discriminate | apply off_iff; auto ].
    - assert (N : picked m op pf <> []) by (rewrite Ep; discriminate).
      destruct (some_result N BOUNDARY_DEFINED BOUNDARY_DEFINED w) as (r & E & Hk & _ & H). exists r. split; [ exact E | ]. rewrite Hk. exact H.
  Qed.
End Solid.
