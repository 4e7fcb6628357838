From Coq Require Import List Arith Bool Lia QArith Lqa Permutation Sorted.
From Verif Require Import Model_base Model_soup Model_mesh Proof_base Proof_mesh Proof_propagate Proof_classify.
From Verif Require Import Model_classify Model_geometry Model_local
  Spec_mesh Spec_classify Spec_radial Spec_local Proof_radial Proof_local Proof_around.
Import ListNotations.
Open Scope nat_scope.

(** *** Geometry of the projection *)
Section Projection.
  Local Open Scope Q_scope.
  (** [|u|^2 (w x n) = (w . v) u - (w . u) v] *)
  Lemma projection_identity : forall u n w : vec3, vdot u n == 0 ->
    let v := vcross n u in
    vdot u u * vx (vcross w n) == vdot w v * vx u - vdot w u * vx v /\
    vdot u u * vy (vcross w n) == vdot w v * vy u - vdot w u * vy v /\
    vdot u u * vz (vcross w n) == vdot w v * vz u - vdot w u * vz v.
  Proof.
    intros [[u1 u2] u3] [[n1 n2] n3] [[w1 w2] w3] H. unfold vdot, vcross, vx, vy, vz in *. simpl in *.
    split; [|split].
    - setoid_replace ((u1 * u1 + u2 * u2 + u3 * u3) * (w2 * n3 - w3 * n2))
        with ((u1 * u1 + u2 * u2 + u3 * u3) * (w2 * n3 - w3 * n2) - (w2 * u3 - w3 * u2) * (u1 * n1 + u2 * n2 + u3 * n3)) by (rewrite H; ring).
      ring.
    - setoid_replace ((u1 * u1 + u2 * u2 + u3 * u3) * (w3 * n1 - w1 * n3))
        with ((u1 * u1 + u2 * u2 + u3 * u3) * (w3 * n1 - w1 * n3) - (w3 * u1 - w1 * u3) * (u1 * n1 + u2 * n2 + u3 * n3)) by (rewrite H; ring).
      ring.
    - setoid_replace ((u1 * u1 + u2 * u2 + u3 * u3) * (w1 * n2 - w2 * n1))
        with ((u1 * u1 + u2 * u2 + u3 * u3) * (w1 * n2 - w2 * n1) - (w1 * u2 - w2 * u1) * (u1 * n1 + u2 * n2 + u3 * n3)) by (rewrite H; ring).
      ring.
  Qed.

  Lemma mul_zero_r : forall a b : Q, 0 < a -> a * b == 0 -> b == 0.
  Proof. intros a b Ha H. apply Qmult_integral in H. destruct H; auto. lra. Qed.

  Lemma projection_nonzero : forall u n w : vec3, vdot u n == 0 -> 0 < vdot u u ->
    vdot w u == 0 -> vdot w (vcross n u) == 0 ->
    vx (vcross w n) == 0 /\ vy (vcross w n) == 0 /\ vz (vcross w n) == 0.
  Proof.
    intros u n w Hn Hu H1 H2. destruct (projection_identity u n w Hn) as (A & B & C).
    simpl in *. rewrite H1, H2 in A, B, C.
    split; [|split]; apply (mul_zero_r (vdot u u)); auto; [rewrite A|rewrite B|rewrite C]; ring.
  Qed.

  (** Which side of the face's plane a point is on, in the projection: the
      normal of a face pqr points in the direction of increasing angles. *)
  Lemma side_identity : forall nv w z u : vec3, vdot u nv == 0 ->
    let v := vcross nv u in
    det2 (vdot w u, vdot w v) (vdot z u, vdot z v) == vdot u u * vdot (vcross nv w) z.
  Proof.
    intros nv w z u H v.
    assert (E : det2 (vdot w u, vdot w v) (vdot z u, vdot z v) ==
                vdot u u * vdot (vcross nv w) z - vdot u nv * vdot (vcross w z) u).
    { subst v. destruct nv as [[n1 n2] n3], w as [[w1 w2] w3], z as [[z1 z2] z3], u as [[u1 u2] u3].
      unfold det2, vdot, vcross, vx, vy, vz. simpl. ring. }
    rewrite E, H. ring.
  Qed.
End Projection.

Lemma mapM_ok : forall A B (f : A -> res B) (P : A -> B -> Prop) l,
  (forall a, In a l -> exists b, f a = Ok b /\ P a b) -> exists r, mapM f l = Ok r /\ Forall2 P l r.
Proof.
  intros A B f P. induction l as [|a l IH]; intros H.
  - exists []. split; auto.
  - destruct (H a) as (b & E & HP); [now left|]. destruct IH as (r & Er & F2); [intros; apply H; now right|].
    exists (b :: r). simpl. rewrite E. cbn [bind]. rewrite Er. cbn [bind]. auto.
Qed.

Section Edge.
  Variable D : Type.
  Variable m : mesh vec3 (mixed_data D).
  Variables a b : nat.
  Variables base1 base2 : vec3 -> vec3.
  Variable sort : list around -> list around.
  Hypothesis HF : finalized m.
  Hypothesis HWF : wf_mixed_mesh m.
  Hypothesis Hab : a <> b.
  Hypothesis HB : plane_bases base1 base2.
  Hypothesis HSort : sorts sort.
  Variables pa pb : vec3.
  Hypothesis Hpa : nth_error (m_points m) a = Some pa.
  Hypothesis Hpb : nth_error (m_points m) b = Some pb.
  Let u := base1 (vsub pb pa).
  Let v := base2 (vsub pb pa).
  (** No face around the edge is degenerate. *)
  Hypothesis Hcol : forall g t r pr, nth_error (m_faces m) g = Some t -> rotation t a b r \/ rotation t b a r ->
    nth_error (m_points m) r = Some pr -> not_collinear pa pb pr.

  Lemma face_around_ok : forall g, incident (m_faces m) g a -> incident (m_faces m) g b ->
    exists f, face_around m (a, b) pa u v g = Ok f /\ fi f = g /\ describes m a b u v f.
  Proof.
    intros g (t & Ht & Ha) (t' & Ht' & Hb). assert (t' = t) by congruence. subst t'.
    destruct HWF as (_ & HV & HN).
    unfold nondegenerate in HN. rewrite Forall_forall in HV, HN.
    pose proof (HV t (nth_error_In _ _ Ht)) as HVt. pose proof (HN t (nth_error_In _ _ Ht)) as HNt.
    destruct t as [[x y] z]. simpl in Ha, Hb.
    unfold face_around. rewrite (proj2 (vec_at_ok _ _ _ _) Ht). cbn [bind fst snd].
    (* the third vertex and the orientation *)
    assert (G : exists i j k o r, find_vertex (x, y, z) a = Ok i /\ find_vertex (x, y, z) b = Ok j /\
        (3 <? i + j) = false /\ face_at (x, y, z) (3 - (i + j)) = Ok r /\ k = 3 - (i + j) /\
        o = (if j =? (i + 1) mod 3 then COUNTERCLOCKWISE else CLOCKWISE) /\
        r < length (m_points m) /\
        (o = COUNTERCLOCKWISE /\ rotation (x, y, z) a b r \/ o = CLOCKWISE /\ rotation (x, y, z) b a r)).
    { unfold find_vertex, rotation.
      destruct Ha as [-> | [-> | ->]]; destruct Hb as [-> | [-> | ->]]; try congruence;
      repeat match goal with |- context [Nat.eqb ?p ?q] => destruct (Nat.eqb_spec p q); try (exfalso; lia) end;
      try (exfalso; tauto);
      eexists; eexists; eexists; eexists; eexists;
      (split; [reflexivity|]); (split; [reflexivity|]); (split; [reflexivity|]); (split; [reflexivity|]);
      (split; [reflexivity|]); (split; [reflexivity|]); simpl; (split; [tauto|]); auto. }
    destruct G as (i & j & k & o & r & Ei & Ej & Eij & Er & _ & Eo & Hr & Hrot).
    rewrite Ei. cbn [bind]. rewrite Ej. cbn [bind]. rewrite Eij, Er. cbn [bind].
    destruct (nth_error (m_points m) r) as [pr|] eqn:Epr; [|apply nth_error_None in Epr; lia].
    rewrite (proj2 (vec_at_ok _ _ _ _) Epr). cbn [bind]. rewrite <- Eo.
    unfold make_around.
    assert (Hc : not_collinear pa pb pr).
    { apply (Hcol g (x, y, z) r pr); auto. destruct Hrot as [(_ & R)|(_ & R)]; auto. }
    destruct (bin_total (vdot (vsub pr pa) u, vdot (vsub pr pa) v)) as [(bin & Eb & _)|(_ & Z1 & Z2)].
    - rewrite Eb. cbn [bind]. eexists. split; [reflexivity|]. split; [reflexivity|].
      exists (x, y, z), pa, pr. cbn [fi orient vi_r r_uv radial_bin]. repeat (split; auto).
    - exfalso. cbn [fst snd] in Z1, Z2. apply Hc. unfold not_collinear in Hc.
      assert (Hn : ~ (vx (vsub pb pa) == 0 /\ vy (vsub pb pa) == 0 /\ vz (vsub pb pa) == 0)%Q).
      { intros (N1 & N2 & N3). apply Hc. revert N1 N2 N3. generalize (vsub pb pa), (vsub pr pa).
        intros [[n1 n2] n3] [[w1 w2] w3]. unfold vcross, vx, vy, vz. simpl. intros -> -> ->.
        split; [|split]; ring. }
      destruct (HB _ Hn) as (B1 & B2 & B3). unfold v in Z2. rewrite B3 in Z2. unfold u in *.
      destruct (projection_nonzero _ _ _ B1 B2 Z1 Z2) as (A1 & A2 & A3).
      revert A1 A2 A3. generalize (vsub pb pa), (vsub pr pa).
      intros [[n1 n2] n3] [[w1 w2] w3]. unfold vcross, vx, vy, vz. simpl. intros A1 A2 A3.
      split; [|split]; lra.
  Qed.

  Lemma StronglySorted_lt_NoDup : forall l, StronglySorted lt l -> NoDup l.
  Proof.
    induction 1; constructor; auto. intros K. rewrite Forall_forall in H0. specialize (H0 _ K). lia.
  Qed.

  Lemma describes_same_edge : forall fs, (forall f, In f fs -> describes m a b u v f) -> same_edge (fun f => In f fs).
  Proof.
    intros fs H. split.
    - intros f Hf. destruct (H f Hf) as (t & p & r & _ & _ & _ & _ & _ & E). auto.
    - intros f g Hf Hg E. destruct (H f Hf) as (t & p & r & _ & _ & A & B & C & _).
      destruct (H g Hg) as (t' & p' & r' & _ & _ & A' & B' & C' & _).
      rewrite E in B. assert (p' = p) by congruence. assert (r' = r) by congruence. subst. congruence.
  Qed.

  Hypothesis Hua : within_used (m_faces m) a.
  Hypothesis Hub : within_used (m_faces m) b.

  Lemma collect_ok : exists l fs, faces_around_edge m (a, b) = Ok l /\
    mapM (face_around m (a, b) pa u v) l = Ok fs /\ arrangement m a b u v (sort fs) /\
    (forall g, In g l <-> In g (map fi (sort fs))).
  Proof.
    destruct (faces_around_edge_exact _ _ m a b HF Hua Hub) as (l & El & Hl & _ & Hs).
    assert (HND : NoDup l). { apply StronglySorted_lt_NoDup. apply Hs. now destruct HWF as (_ & _ & ?). }
    destruct (mapM_ok _ _ (face_around m (a, b) pa u v)
      (fun g f => fi f = g /\ describes m a b u v f) l) as (fs & Ef & F2).
    { intros g Hg. apply Hl in Hg. destruct Hg as (H1 & H2).
      destruct (face_around_ok g H1 H2) as (f & E & E1 & E2). eauto. }
    exists l, fs. split; auto. split; auto.
    assert (Hmap : map fi fs = l).
    { clear -F2. induction F2; simpl; auto. destruct H as (-> & _). now rewrite IHF2. }
    assert (Hdes : forall f, In f fs -> describes m a b u v f).
    { clear -F2. induction F2; simpl; [contradiction|]. intros f [<-|Hf]; auto. tauto. }
    destruct (HSort fs (describes_same_edge fs Hdes)) as (HP & HR).
    assert (HPm : Permutation l (map fi (sort fs))). { rewrite <- Hmap. now apply Permutation_map. }
    assert (Hin : forall g, In g l <-> In g (map fi (sort fs))).
    { intros g. split; apply Permutation_in; auto. now apply Permutation_sym. }
    split; auto. split; [|split; [|split]].
    - now apply (Permutation_NoDup HPm).
    - intros g. rewrite <- Hin. apply Hl.
    - intros f Hf. apply Hdes. now apply (Permutation_in _ (Permutation_sym HP)).
    - auto.
  Qed.

  Variable border : list edge.
  Variable left : nat -> bool.
  Variable truth : nat -> face_tag.
  Hypothesis Hleft : forall g d, nth_error (m_data m) g = Some d -> from_left d = left g.
  Hypothesis Hconst : forall f g, neighbour (m_faces m) border f g -> truth f = truth g.
  Hypothesis Hsound : sound truth m.
  Hypothesis Hsolid : forall fs, arrangement m a b u v fs -> exists inside, solid_edge left truth fs inside.

  (** Later meshes of the run. *)
  Definition later (m' : mesh vec3 (mixed_data D)) : Prop :=
    m_points m' = m_points m /\ m_faces m' = m_faces m /\ indices m' = indices m /\ face_indices m' = face_indices m /\
    length (m_data m') = length (m_data m) /\ sound truth m' /\
    forall g d, nth_error (m_data m) g = Some d -> exists d', nth_error (m_data m') g = Some d' /\
      from_left d' = from_left d /\ data d' = data d /\ (tag d <> UNKNOWN -> d' = d).

  Lemma later_finalized : forall m', later m' -> finalized m'.
  Proof.
    intros m' (_ & L2 & L3 & L4 & _). destruct HF as (m0 & A & B & C & E & G).
    exists m0. rewrite L2, L3, L4. auto.
  Qed.

  Lemma reached_truth : forall m' seed g, later m' -> reached m' border seed g -> truth g = truth seed.
  Proof.
    intros m' seed g (_ & L2 & _) H. induction H; auto. rewrite <- IHreached. symmetry. apply Hconst.
    now rewrite <- L2.
  Qed.

  Lemma propagate_later : forall m' seed d, later m' -> nth_error (m_data m') seed = Some d -> tag d <> UNKNOWN ->
    exists m'', propagate m' border seed = Ok (m'', no_warnings) /\ later m'' /\
      (forall g t, tagged m' g t -> t <> UNKNOWN -> tagged m'' g t) /\
      (forall g, tagged m' g UNKNOWN -> reached m' border seed g -> ~ tagged m'' g UNKNOWN) /\
      (forall g, tagged m'' g UNKNOWN -> tagged m' g UNKNOWN) /\
      (forall g, tagged m' g UNKNOWN -> tagged m'' g UNKNOWN \/ reached m' border seed g).
  Proof.
    intros m' seed d HL Hd Ht.
    assert (Htr : tag d = truth seed).
    { destruct HL as (_ & _ & _ & _ & _ & HS & _). destruct (HS seed (tag d)); [exists d; auto|congruence|auto]. }
    destruct (propagate_correct _ _ m' border seed d) as (m'' & w & E & H1 & _ & H3 & _); auto.
    { now apply later_finalized. }
    { destruct HL as (_ & L2 & _ & _ & L5 & _). rewrite L2, L5. now destruct HWF. }
    exists m''. rewrite E, H3.
    - split; auto.
      destruct H1 as (R1 & R2 & R3 & R4 & R5 & R6).
      pose proof HL as (L1 & L2 & L3 & L4 & L5 & L6 & L7).
      assert (Hcase : forall g d0, nth_error (m_data m') g = Some d0 ->
        nth_error (m_data m'') g = Some d0 \/
        (tag d0 = UNKNOWN /\ reached m' border seed g /\ nth_error (m_data m'') g = Some (mk_mixed (from_left d0) (tag d) (data d0)))).
      { pose proof (propagate_correct _ _ m' border seed d (later_finalized m' HL)) as PC.
        destruct PC as (m1 & w1 & E1 & _ & _ & _ & _ & HC); auto.
        { rewrite L2, L5. now destruct HWF. }
        rewrite E in E1. injection E1 as <- <-. intros g d0 Hg. destruct (HC g d0 Hg) as [Q|(Q1 & Q2 & Q3)]; auto. }
      split.
      + split; [congruence|]. split; [congruence|]. split; [congruence|]. split; [congruence|]. split; [congruence|]. split.
        * intros g t (d1 & G1 & <-).
          assert (Hg : g < length (m_data m')) by (rewrite <- R5; apply nth_error_Some; congruence).
          destruct (nth_error (m_data m') g) as [d0|] eqn:G0; [|apply nth_error_None in G0; lia].
          destruct (Hcase g d0 G0) as [Q|(Q1 & Q2 & Q3)].
          -- rewrite Q in G1. injection G1 as <-. apply L6. exists d0. auto.
          -- rewrite Q3 in G1. injection G1 as <-. right. cbn [tag]. rewrite Htr. symmetry. now apply (reached_truth m').
        * intros g d0 G0. destruct (L7 g d0 G0) as (d1 & G1 & A1 & A2 & A3).
          destruct (Hcase g d1 G1) as [Q|(Q1 & Q2 & Q3)]; eauto.
          exists (mk_mixed (from_left d1) (tag d) (data d1)). cbn [from_left data]. repeat (split; auto).
          intros K. rewrite (A3 K) in Q1. contradiction.
      + split; [|split; [|split]].
        * intros g t (d0 & G0 & <-) Hu. destruct (Hcase g d0 G0) as [Q|(Q1 & _)]; [exists d0; auto|contradiction].
        * intros g Hu Hg (d1 & G1 & E1). assert (K := Hu). destruct K as (d0 & G0 & E0). destruct (R6 g d0 G0) as (K & _).
          rewrite (K (conj Hu Hg)) in G1. injection G1 as <-. cbn [tag] in E1. contradiction.
        * intros g (d1 & G1 & E1).
          assert (Hg : g < length (m_data m')) by (rewrite <- R5; apply nth_error_Some; congruence).
          destruct (nth_error (m_data m') g) as [d0|] eqn:G0; [|apply nth_error_None in G0; lia].
          destruct (Hcase g d0 G0) as [Q|(Q1 & _)]; exists d0; split; congruence.
        * intros g (d0 & G0 & E0). destruct (Hcase g d0 G0) as [Q|(_ & Q & _)]; [left; exists d0; auto|auto].
    - intros (f & g & t' & C1 & C2 & (d1 & C3 & <-) & C4 & C5).
      destruct HL as (L1 & L2 & L3 & L4 & L5 & L6 & L7).
      destruct (L6 g (tag d1)) as [Q|Q]; [exists d1; auto|contradiction|].
      apply C5. rewrite Q, Htr. rewrite <- (reached_truth m' seed f); auto; [|repeat (split; auto)].
      symmetry. apply Hconst. now rewrite <- L2.
  Qed.

  Lemma propagate_all : forall fs m', later m' ->
    (forall f, In f fs -> fi f < length (m_data m')) ->
    exists m'', foldM (propagate_step border) (m', no_warnings) fs = Ok (m'', no_warnings) /\ later m'' /\
      (forall g t, tagged m' g t -> t <> UNKNOWN -> tagged m'' g t) /\
      ((forall f g, neighbour (m_faces m) border f g -> tagged m' f UNKNOWN -> tagged m' g UNKNOWN \/ In g (map fi fs)) ->
       unknown_closed m'' border).
  Proof.
    induction fs as [|f fs IH]; intros m' HL Hv.
    - exists m'. simpl. split; auto. split; auto. split; auto.
      intros H f g Hn Hu. pose proof HL as (_ & Q & _). rewrite Q in Hn. destruct (H f g Hn Hu) as [K|[]]. exact K.
    - cbn [foldM]. unfold propagate_step at 1. unfold get_tag.
      assert (Hf : fi f < length (m_data m')) by (apply Hv; now left).
      destruct (nth_error (m_data m') (fi f)) as [d|] eqn:Ed; [|apply nth_error_None in Ed; lia].
      rewrite (proj2 (vec_at_ok _ _ _ _) Ed). cbn [bind].
      destruct (face_tag_eqb_spec (tag d) UNKNOWN) as [Hu|Hu]; cbn [bind].
      + destruct (IH m' HL) as (m2 & E2 & L2 & K2 & K3); [intros; apply Hv; now right|].
        exists m2. split; auto. split; auto. split; auto. intros H. apply K3. intros x y Hn Hx.
        destruct (H x y Hn Hx) as [K|[<-|K]]; auto. left. exists d. auto.
      + destruct (propagate_later m' (fi f) d HL Ed Hu) as (m1 & E1 & L1 & K1 & K1a & K1b & K1c). rewrite E1. cbn [bind].
        change (warn_or no_warnings no_warnings) with no_warnings.
        destruct (IH m1 L1) as (m2 & E2 & L2 & K2 & K3).
        { intros f' Hf'. pose proof L1 as (_ & _ & _ & _ & Q & _). rewrite Q.
          pose proof HL as (_ & _ & _ & _ & Q' & _). rewrite <- Q'. apply Hv. now right. }
        exists m2. split; auto. split; auto. split; auto. intros H. apply K3. intros x y Hn Hx.
        pose proof HL as (_ & Q & _).
        assert (Hyx : neighbour (m_faces m) border y x) by (apply neighbour_sym; [now destruct HWF as (_ & _ & ?)|exact Hn]).
        destruct (H x y Hn (K1b x Hx)) as [K|[<-|K]]; auto.
        * destruct (K1c y K) as [Ky|Ky]; [auto|]. exfalso. apply (K1a x (K1b x Hx)); [|exact Hx].
          apply (reached_step _ _ m' border (fi f) y x Ky); [now rewrite Q|apply K1b, Hx].
        * exfalso. apply (K1a x (K1b x Hx)); [|exact Hx].
          apply (reached_step _ _ m' border (fi f) (fi f) x (reached_seed _ _ _ _ _)); [now rewrite Q|apply K1b, Hx].
  Qed.

  Lemma has_untagged_ok : forall l, (forall f, In f l -> f < length (m_data m)) ->
    exists r, has_untagged (m_data m) l = Ok r /\ (r = false -> forall g, In g l -> ~ tagged m g UNKNOWN).
  Proof.
    intros l Hl. unfold has_untagged.
    destruct (foldM_inv _ _ (fun (acc : bool) f => if acc then Ok true
                      else let* t := get_tag (m_data m) f in Ok (face_tag_eqb t UNKNOWN))
      (fun pre acc => acc = false -> forall g, In g pre -> ~ tagged m g UNKNOWN) l false) as (r & E & H).
    - intros _ g [].
    - intros pre f post acc E HI. destruct acc.
      + exists true. split; auto. discriminate.
      + assert (Hf : f < length (m_data m)) by (apply Hl; rewrite E; apply in_app_iff; right; now left).
        unfold get_tag. destruct (nth_error (m_data m) f) as [d|] eqn:Ed; [|apply nth_error_None in Ed; lia].
        rewrite (proj2 (vec_at_ok _ _ _ _) Ed). cbn [bind]. eexists. split; [reflexivity|].
        intros Hu g Hg. apply in_app_iff in Hg. destruct Hg as [Hg|[<-|[]]]; [now apply HI|].
        intros (d' & G & Ht). assert (d' = d) by congruence. subst d'. rewrite Ht in Hu. discriminate.
    - exists r. auto.
  Qed.

  Theorem classify_edge_closed : exists m',
    classify_locally base1 base2 sort m (a, b) border = Ok (m', no_warnings) /\
    m_points m' = m_points m /\ m_faces m' = m_faces m /\ length (m_data m') = length (m_data m) /\
    (forall g d, nth_error (m_data m) g = Some d -> exists d', nth_error (m_data m') g = Some d' /\
       from_left d' = from_left d /\ data d' = data d /\ (tag d <> UNKNOWN -> d' = d)) /\
    sound truth m' /\
    (forall fs, arrangement m a b u v fs ->
       (forall f i, nth_error fs i = Some f -> overlapping fs i -> ~ tagged m' (fi f) UNKNOWN)) /\
    (exists fs, arrangement m a b u v fs /\
       ((exists i, i < length fs /\ ~ overlapping fs i /\ ~ overlapping fs (next_pos (length fs) i) /\ equally_oriented fs i) ->
        forall g, incident (m_faces m) g a -> incident (m_faces m) g b -> ~ tagged m' g UNKNOWN)) /\
    (unknown_closed m border -> unknown_closed m' border).
  Proof.
    destruct collect_ok as (l & fs0 & El & Ef & HA & Hin). set (fs := sort fs0) in *.
    pose proof HA as (A1 & A2 & A3 & A4).
    destruct HWF as (W1 & W2 & W3).
    assert (Hlen : forall g, In g l -> g < length (m_data m)).
    { intros g Hg. apply Hin, A2 in Hg. destruct Hg as ((t & Ht & _) & _). rewrite W1. apply nth_error_Some. congruence. }
    unfold classify_locally. rewrite El. cbn [bind].
    destruct (has_untagged_ok l Hlen) as (r & Er & Hr). rewrite Er. cbn [bind].
    assert (Hov : forall fs' f i, arrangement m a b u v fs' -> nth_error fs' i = Some f -> overlapping fs' i ->
              exists i', nth_error fs i' = Some f /\ overlapping fs i').
    { (* the describing record is determined by the face *)
      intros fs' f i HA' Hf (f1 & j & g & B1 & B2 & B3 & B4).
      assert (f1 = f) by congruence. subst f1.
      assert (Huniq : forall f1 f2, describes m a b u v f1 -> describes m a b u v f2 -> fi f1 = fi f2 -> f1 = f2).
      { intros f1 f2 (t & p & r1 & C1 & C2 & C3 & C4 & C5 & C6) (t' & p' & r1' & C1' & C2' & C3' & C4' & C5' & C6') E.
        rewrite E in C1. assert (t' = t) by congruence. subst t'. assert (p' = p) by congruence. subst p'.
        assert (Hor : orient f1 = orient f2 /\ vi_r f1 = vi_r f2).
        { assert (Hnd : let '(x, y, z) := t in x <> y /\ y <> z /\ z <> x).
          { unfold nondegenerate in W3. rewrite Forall_forall in W3. apply W3. now apply nth_error_In with (fi f2). }
          destruct t as [[x y] z]. unfold rotation in C2, C2'.
          destruct C2 as [(O1 & [R|[R|R]])|(O1 & [R|[R|R]])]; destruct C2' as [(O2 & [R'|[R'|R']])|(O2 & [R'|[R'|R']])];
            injection R; injection R'; intros; split; first [congruence | lia | exfalso; lia]. }
        destruct Hor as (O1 & O2). rewrite O2 in C4. assert (r1' = r1) by congruence. subst r1'.
        rewrite <- C5 in C5'. rewrite C5' in C6'. assert (radial_bin f1 = radial_bin f2) by congruence.
        destruct f1, f2. simpl in *. congruence. }
      destruct HA' as (A1' & A2' & A3' & A4').
      assert (Hmem : forall x, In x fs' -> In x fs).
      { intros x Hx. assert (Hfx : In (fi x) (map fi fs)). { apply A2, A2'. now apply in_map. }
        apply in_map_iff in Hfx. destruct Hfx as (x' & E' & Hx').
        rewrite <- (Huniq x' x); auto. }
      pose proof (Hmem f (nth_error_In _ _ Hf)) as If. pose proof (Hmem g (nth_error_In _ _ B3)) as Ig.
      apply In_nth_error in If, Ig. destruct If as (i1 & If). destruct Ig as (j1 & Ig).
      exists i1. split; auto. exists f, j1, g. split; auto. split; auto.
      intros ->. assert (f = g) by congruence. subst g. apply B2.
      apply (proj1 (NoDup_nth_error (map fi fs')) A1').
      - rewrite map_length. apply nth_error_Some. congruence.
      - rewrite !nth_error_map, Hf, B3. reflexivity. }
    destruct r; cbn [negb].
    2:{ assert (Hall : forall g, incident (m_faces m) g a -> incident (m_faces m) g b -> ~ tagged m g UNKNOWN).
        { intros g G1 G2. apply Hr; auto. apply Hin, A2. auto. }
        exists m. split; auto. do 3 (split; auto). split; [intros g d Hg; exists d; auto|]. split; auto. split.
        - intros fs' (A1' & A2' & A3' & A4') f i Hf Ho. apply Hall; apply (A2' (fi f)); apply in_map; now apply nth_error_In with i.
        - split; [exists fs; auto|auto]. }
    cbn [fst snd].    rewrite (proj2 (vec_at_ok _ _ _ _) Hpa). cbn [bind]. rewrite (proj2 (vec_at_ok _ _ _ _) Hpb). cbn [bind].
    fold u v. rewrite Ef. cbn [bind]. fold fs.
    destruct (Hsolid fs HA) as (inside & S1 & S2 & S3 & S4).
    assert (Hfl : forall f, In f fs -> fi f < length (m_data m)).
    { intros f Hf. apply Hlen, Hin. now apply in_map. }
    destruct (wedges_correct D fs A1 left inside (describes_same_edge fs A3) A4 S1 S2 S3 (m_data m) Hfl)
      as (ds' & Et & (O1 & O2) & T1 & T2 & T3 & T4).
    { intros i f t Hf Ht. destruct (Hsound (fi f) t Ht) as [Q|Q]; auto. right.
      (* the true tag exists *)
      assert (Hex : exists t', true_tag left fs inside i t').
      { destruct (F_eq fs i f Hf) as (Hi & ->).
        assert (Hdec : overlapping fs i \/ ~ overlapping fs i).
        { destruct (existsb (fun j => negb (j =? i) && (vi_r (F fs j) =? vi_r (F fs i))) (seq 0 (length fs))) eqn:Eb.
          - left. apply existsb_exists in Eb. destruct Eb as (j & Hj & Eb). apply in_seq in Hj.
            apply andb_true_iff in Eb. destruct Eb as (E1 & E2). apply negb_true_iff, Nat.eqb_neq in E1. apply Nat.eqb_eq in E2.
            exists (F fs i), j, (F fs j). split; auto. split; auto. split; auto. apply F_nth. lia.
          - right. intros (f & j & g & B1 & B2 & B3 & B4). destruct (F_eq fs i f B1) as (_ & ->). destruct (F_eq fs j g B3) as (Hj & ->).
            assert (K : existsb (fun j => negb (j =? i) && (vi_r (F fs j) =? vi_r (F fs i))) (seq 0 (length fs)) = true).
            { apply existsb_exists. exists j. split; [apply in_seq; lia|]. apply andb_true_iff.
              split; [apply negb_true_iff; now apply Nat.eqb_neq|now apply Nat.eqb_eq]. }
            congruence. }
        destruct Hdec as [(f & j & g & B1 & B2 & B3 & B4)|Hno].
        - exists (if orientation_eqb (orient g) (orient f) then COPLANAR else OPPOSITE). left. exists f, j, g.
          repeat (split; auto); destruct (orientation_eqb_spec (orient g) (orient f)); tauto.
        - exists (if inside (negb (left (fi (F fs i)))) i then INTERIOR else EXTERIOR). right. exists (F fs i).
          repeat (split; auto); intros ->; auto. }
      destruct Hex as (t' & Ht'). rewrite Q. rewrite <- (S4 i f t' Hf Ht'). auto. }
    rewrite Et. cbn [bind].
    assert (HL1 : later (with_data m ds')).
    { unfold later, with_data. cbn [m_points m_faces m_data indices face_indices]. do 5 (split; auto). split.
      - intros g t (d & G & <-). cbn [m_data] in G.
        destruct (in_dec Nat.eq_dec g (map fi fs)) as [Hg|Hg].
        + apply in_map_iff in Hg. destruct Hg as (f & <- & Hf). apply In_nth_error in Hf. destruct Hf as (i & Hf).
          destruct (T1 i f (tag d) Hf) as [Q|Q]; [exists d; auto|auto|]. right. now apply (S4 i).
        + assert (Hgl : g < length (m_data m)) by (rewrite <- O1; apply nth_error_Some; congruence).
          destruct (nth_error (m_data m) g) as [d0|] eqn:G0; [|apply nth_error_None in G0; lia].
          destruct (O2 g d0 G0) as (d1 & G1 & _ & _ & K). rewrite (K Hg) in G1.
          assert (d = d0) by congruence. subst d0. apply Hsound. exists d. auto.
      - intros g d0 G0. destruct (O2 g d0 G0) as (d1 & G1 & B1 & B2 & K). exists d1. split; auto. split; auto. split; auto.
        intros Hu. destruct (in_dec Nat.eq_dec g (map fi fs)) as [Hg|Hg]; [|auto].
        apply in_map_iff in Hg. destruct Hg as (f & <- & Hf). apply In_nth_error in Hf. destruct Hf as (i & Hf).
        assert (Et' : tag d1 = tag d0).
        { destruct (Hsound (fi f) (tag d0)) as [Q|Q]; [exists d0; auto|contradiction|].
          destruct (T1 i f (tag d1) Hf) as [Q'|Q']; [exists d1; auto| |].
          - exfalso. destruct (T2 i f Hf) as (d2 & G2 & Q2); [exists d1; auto|]. congruence.
          - rewrite Q. now apply (S4 i). }
        destruct d0, d1. simpl in *. congruence. }
    destruct (propagate_all fs (with_data m ds') HL1) as (m' & Ep & HL' & HK & HC).
    { intros f Hf. cbn [with_data m_data]. rewrite O1. auto. }
    exists m'. split; auto. destruct HL' as (L1 & L2 & L3 & L4 & L5 & L6 & L7). do 5 (split; auto).
    assert (Hnu : forall f i, nth_error fs i = Some f -> ~ has_tag ds' (fi f) UNKNOWN -> ~ tagged m' (fi f) UNKNOWN).
    { intros f i Hf Hn (d & G & Hu).
      assert (Hl : fi f < length ds') by (rewrite O1; apply Hfl; now apply nth_error_In with i).
      destruct (nth_error ds' (fi f)) as [d0|] eqn:G0; [|apply nth_error_None in G0; lia].
      destruct (face_tag_eqb_spec (tag d0) UNKNOWN) as [Q|Q]; [apply Hn; exists d0; auto|].
      destruct (HK (fi f) (tag d0)) as (d1 & G1 & Q1); auto; [exists d0; auto|]. congruence. }
    split; [|split].
    - intros fs' HA' f i Hf Ho. destruct (Hov fs' f i HA' Hf Ho) as (i' & Hf' & Ho').
      apply (Hnu f i'); auto. now apply (T3 i').
    - exists fs. split; auto. intros (i & Hi & N1 & N2 & He) g G1 G2.
      assert (Hg : In g (map fi fs)) by (apply A2; auto).
      apply in_map_iff in Hg. destruct Hg as (f & <- & Hf). apply In_nth_error in Hf. destruct Hf as (j & Hf).
      apply (Hnu f j); auto. now apply (T4 i Hi N1 N2 He j).
    - intros Hcl. apply HC. intros x y Hn (dx & Gx & Ex). cbn [with_data m_data] in Gx.
      destruct (in_dec Nat.eq_dec y (map fi fs)) as [Hy|Hy]; [auto|]. left.
      assert (Hxu : tagged m x UNKNOWN).
      { assert (Hl : x < length (m_data m)) by (rewrite <- O1; apply nth_error_Some; congruence).
        destruct (nth_error (m_data m) x) as [d0|] eqn:G0; [|apply nth_error_None in G0; lia].
        exists d0. split; auto. destruct (in_dec Nat.eq_dec x (map fi fs)) as [Hx|Hx].
        - apply in_map_iff in Hx. destruct Hx as (f & <- & Hf). apply In_nth_error in Hf. destruct Hf as (i & Hf).
          destruct (T2 i f Hf) as (d2 & G2 & Q2); [exists dx; auto|]. congruence.
        - destruct (O2 x d0 G0) as (d1 & G1 & _ & _ & K). rewrite (K Hx) in G1. congruence. }
      destruct (Hcl x y Hn Hxu) as (dy & Gy & Ey). destruct (O2 y dy Gy) as (d1 & G1 & _ & _ & K).
      exists d1. split; [exact G1|]. now rewrite (K Hy).
  Qed.

  Theorem classify_edge : exists m',
    classify_locally base1 base2 sort m (a, b) border = Ok (m', no_warnings) /\
    m_points m' = m_points m /\ m_faces m' = m_faces m /\ length (m_data m') = length (m_data m) /\
    (forall g d, nth_error (m_data m) g = Some d -> exists d', nth_error (m_data m') g = Some d' /\
       from_left d' = from_left d /\ data d' = data d /\ (tag d <> UNKNOWN -> d' = d)) /\
    sound truth m' /\
    (forall fs, arrangement m a b u v fs ->
       (forall f i, nth_error fs i = Some f -> overlapping fs i -> ~ tagged m' (fi f) UNKNOWN)) /\
    (exists fs, arrangement m a b u v fs /\
       ((exists i, i < length fs /\ ~ overlapping fs i /\ ~ overlapping fs (next_pos (length fs) i) /\ equally_oriented fs i) ->
        forall g, incident (m_faces m) g a -> incident (m_faces m) g b -> ~ tagged m' g UNKNOWN)).
  Proof.
    destruct classify_edge_closed as (m' & H1 & H2 & H3 & H4 & H5 & H6 & H7 & H8 & _). exists m'. do 7 (split; auto).
  Qed.
End Edge.
