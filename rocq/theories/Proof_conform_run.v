(** * Running the classification on a conforming mesh *)
From Coq Require Import List Arith Bool Lia QArith Lqa Permutation Relation_Operators.
From Verif Require Import Model_base Model_soup Model_mesh Model_geometry Model_boolean Model_classify Model_local Model_side Model_mix.
From Verif Require Import Spec_boolean Spec_candidates Spec_side Spec_solid Spec_mesh Spec_classify Spec_radial Spec_local Spec_conform Spec_open.
From Verif Require Import Proof_base Proof_affine Proof_small Proof_walk Proof_arranged Proof_solid Proof_mesh Proof_propagate Proof_classify.
From Verif Require Import Proof_edge Proof_conform Proof_border_edge Proof_twins.
Import ListNotations.
Local Open Scope nat_scope.

Lemma finalized_indices : forall P P' D D' (m : mesh P D) (m' : mesh P' D'), finalized m ->
  m_faces m' = m_faces m -> indices m' = indices m -> face_indices m' = face_indices m -> finalized m'.
Proof.
  intros P P' D D' m m' (m0 & H1 & H2 & H3 & H4 & H5) E1 E2 E3.
  exists (mk_mesh (m_points m') (m_faces m') (m_data m') [] []). cbn [indices face_indices m_faces].
  do 3 (split; [ reflexivity | ]). rewrite E2, E3, H4, H5. unfold finalize. cbn [m_faces indices face_indices].
  rewrite H1, H2, E1, H3. destruct (fold_left finalize_step _ _) as [ [ [i1 i2] i3] i4]. split; reflexivity.
Qed.

Section Run.
  Context {P D : Type}.
  Variable coords : P -> vec3.
  Notation loc := (Spec_solid.located coords).
  Variables (base1 base2 : vec3 -> vec3) (sort_around : list Model_local.around -> list Model_local.around).
  Variable centroid : P -> P -> P -> P.
  Variable side_of : soup P D -> P -> res oriented_side.
  Variables (L R : soup P D) (A B : vec3 -> Prop) (border : list edge).
  Variable m0 : mesh P (mixed_data D).
  Variable Dom : vec3 -> Prop.
  Hypothesis HK : open_convex Dom.
  Hypothesis HA : solid_in Dom (loc L) A.
  Hypothesis HB : solid_in Dom (loc R) B.
  Hypothesis Hbases : plane_bases base1 base2.
  Hypothesis Hsort : sorts sort_around.
  Hypothesis HF : finalized m0.
  Notation m := (loc (take_soup m0)).
  Hypothesis C : conforming (loc L) (loc R) m border.
  Hypothesis St : starting (loc L) (loc R) A B m border.
  Notation part := (part m).
  Notation says := (says (loc L) (loc R) A B m).
  Variable truth : nat -> face_tag.
  Hypothesis Htruth : forall i s T, part i s T -> says s (truth i) T.

  (** *** The meshes of the run *)
  Definition kept (ds : list (mixed_data D)) : Prop :=
    length ds = length (m_data m0) /\
    forall g d, nth_error (m_data m0) g = Some d -> exists d', nth_error ds g = Some d' /\ from_left d' = from_left d /\ data d' = data d.

  Record run_inv (ds : list (mixed_data D)) (pre : list edge) : Prop := {
    ri_kept : kept ds;
    ri_sound : sound truth (with_data m0 ds);
    ri_tagged : forall f d, nth_error (m_data m0) f = Some d -> tag d <> UNKNOWN -> ~ tagged (with_data m0 ds) f UNKNOWN;
    ri_closed : unknown_closed (with_data m0 ds) border;
    ri_twins : forall a b f, In (a, b) pre -> incident (m_faces m0) f a -> incident (m_faces m0) f b ->
      truth f = COPLANAR \/ truth f = OPPOSITE -> ~ tagged (with_data m0 ds) f UNKNOWN
  }.

  Lemma part_data : forall ds i s T, kept ds -> part i s T -> exists d, nth_error ds i = Some d /\ from_left d = s.
  Proof.
    intros ds i s T (_ & K) (_ & md & H1 & H2). cbn [Spec_solid.located take_soup face_data] in H1.
    destruct (K i md H1) as (d' & E1 & E2 & _). exists d'. split; congruence.
  Qed.

  Lemma data_part : forall ds i d, kept ds -> nth_error ds i = Some d -> exists T, part i (from_left d) T.
  Proof.
    intros ds i d K Hd. destruct (cf_valid _ _ _ _ C) as (_ & E). cbn [Spec_solid.located take_soup face_data faces] in E.
    assert (Hi : i < length (faces m)).
    { cbn [Spec_solid.located take_soup faces]. rewrite <- E, <- (proj1 K). apply nth_error_Some. congruence. }
    destruct (face_part _ _ m border C i Hi) as (s & T & HT). exists T.
    destruct (part_data ds i s T K HT) as (d' & E1 & E2). assert (d' = d) by congruence. subst d'. congruence.
  Qed.

  Lemma wf_run : forall ds, kept ds -> wf_mixed_mesh (with_data m0 ds).
  Proof.
    intros ds K. destruct (cf_valid _ _ _ _ C) as (V & E). cbn [Spec_solid.located take_soup face_data faces] in E.
    unfold wf_mixed_mesh, with_data. cbn [m_points m_faces m_data]. split; [ rewrite (proj1 K); exact E | ]. split.
    - apply Forall_forall. intros [ [a b] c] Hf. unfold valid_faces in V. cbn [Spec_solid.located take_soup faces points] in V.
      rewrite Forall_forall in V. specialize (V _ Hf). cbn in V. rewrite map_length in V. exact V.
    - apply Forall_forall. intros [ [a b] c] Hf. apply In_nth_error in Hf. destruct Hf as (i & Hf).
      assert (Hi : i < length (faces m)) by (apply nth_error_Some; intro Z; pose proof (eq_trans (eq_sym Hf) Z) as Z'; discriminate).
      destruct (face_part _ _ m border C i Hi) as (s & T & HT). exact (corners_distinct _ _ m border C i s T a b c HT Hf).
  Qed.

  Lemma data_of_m0 : kept (m_data m0).
  Proof. split; [ reflexivity | ]. intros g d H. exists d. auto. Qed.

  (** What is needed to look around an edge of the mesh. *)
  Lemma at_edge : forall ds a b i, kept ds -> a <> b -> incident (faces m) i a -> incident (faces m) i b ->
    let mm := Model_mix.located coords (with_data m0 ds) in
    exists pa pb, nth_error (points m) a = Some pa /\ nth_error (points m) b = Some pb /\
      finalized mm /\ wf_mixed_mesh mm /\
      (forall i s T, part i s T -> operand_of mm i = s) /\
      (forall g t r pr, nth_error (m_faces mm) g = Some t -> rotation t a b r \/ rotation t b a r ->
        nth_error (m_points mm) r = Some pr -> not_collinear pa pb pr) /\
      ~ same (vsub pb pa) zero3 /\
      (Dom (along pa (1 # 2) (vsub pb pa)) -> forall fs, arrangement mm a b (base1 (vsub pb pa)) (base2 (vsub pb pa)) fs ->
        same_edge (fun f => In f fs) /\ exists inside, solid_edge (operand_of mm) truth fs inside).
  Proof.
    intros ds a b i K Nab Ia Ib mm.
    assert (Hi : i < length (faces m)). { destruct Ia as (t & E & _). apply nth_error_Some. congruence. }
    destruct (face_part _ _ m border C i Hi) as (s & T & HT).
    assert (Pts : forall v, incident (faces m) i v -> exists p, nth_error (points m) v = Some p).
    { intros v (t & E & Hv). destruct (part_face m i s T HT) as (x & y & z & px & py & pz & Ef & Ex & Ey & Ez & _).
      rewrite Ef in E. injection E as <-. destruct Hv as [ -> | [ -> | -> ] ]; eauto. }
    destruct (Pts a Ia) as (pa & Ha). destruct (Pts b Ib) as (pb & Hb).
    pose proof (wf_run ds K) as W.
    assert (Hleft : forall i s T, part i s T -> operand_of mm i = s).
    { intros i' s' T' HT'. destruct (part_data ds i' s' T' K HT') as (d & E1 & E2). unfold operand_of, mm.
      cbn [Model_mix.located with_data m_data]. now rewrite E1. }
    assert (Hcol : forall g t r pr, nth_error (m_faces mm) g = Some t -> rotation t a b r \/ rotation t b a r ->
      nth_error (m_points mm) r = Some pr -> not_collinear pa pb pr).
    { intros g t r pr Hg Hr Hp. change (m_faces mm) with (faces m) in Hg. change (m_points mm) with (points m) in Hp.
      assert (Hgl : g < length (faces m)) by (apply nth_error_Some; congruence).
      destruct (face_part _ _ m border C g Hgl) as (s' & T' & HT'). intros (Z1 & Z2 & Z3).
      apply (cf_nondegenerate _ _ _ _ C g s' T' HT'). destruct Hr as [ Hr | Hr ].
      - apply (flat_ccw pa pb true T' pr); [ | split; [ | split ]; assumption ].
        exact (rot_part m g s' T' t a b r pa pb pr HT' Hg Hr Ha Hb Hp).
      - apply (flat_ccw pa pb false T' pr); [ | split; [ | split ]; assumption ].
        exact (rot_part m g s' T' t b a r pb pa pr HT' Hg Hr Hb Ha Hp). }
    assert (Hn : ~ same (vsub pb pa) zero3).
    { intros (Z1 & Z2 & Z3). destruct Ia as (t & Et & Va). destruct Ib as (t' & Et' & Vb). assert (t' = t) by congruence. subst t'.
      assert (G : exists r, rotation t a b r \/ rotation t b a r).
      { destruct t as [ [x y] z]. unfold rotation. destruct Va as [ -> | [ -> | -> ] ], Vb as [ -> | [ -> | -> ] ]; try congruence; eauto 6. }
      destruct G as (r & Hr).
      assert (Ir : incident (faces m) i r).
      { exists t. split; [ exact Et | ]. destruct t as [ [x y] z]. unfold has_vertex.
        destruct Hr as [ [ E | [ E | E ] ] | [ E | [ E | E ] ] ]; injection E as -> -> ->; auto. }
      destruct (Pts r Ir) as (pr & Hp). apply (Hcol i t r pr Et Hr Hp).
      clear - Z1 Z2 Z3. unfold zero3 in *. revert Z1 Z2 Z3. generalize (vsub pb pa), (vsub pr pa).
      intros [ [n1 n2] n3] [ [w1 w2] w3]. unfold vcross, vx, vy, vz. cbn [fst snd]. intros -> -> ->. repeat split; ring. }
    destruct (Hbases (vsub pb pa)) as (B1 & B2 & B3).
    { intros (Z1 & Z2 & Z3). apply Hn. unfold same, zero3. cbn [vx vy vz fst snd]. auto. }
    exists pa, pb. split; [ exact Ha | ]. split; [ exact Hb | ].
    split; [ apply (finalized_indices _ _ _ _ m0); auto | ].
    split; [ unfold mm, Model_mix.located; unfold wf_mixed_mesh in *; cbn [m_points m_faces m_data with_data] in *; rewrite map_length; exact W | ].
    split; [ exact Hleft | ]. split; [ exact Hcol | ]. split; [ exact Hn | ]. intros Kq fs Harr. split.
    - exact (same_edge_ _ _ m border C mm eq_refl eq_refl Hleft a b pa pb _ _ Ha Hb fs Harr).
    - exact (solid_edge_ _ _ A B m border Dom HK HA HB C truth Htruth mm eq_refl eq_refl Hleft a b pa pb _ _ i Nab Ia Ib Ha Hb Kq Hn B1 B2 B3 fs Harr).
  Qed.

  (** A face around the edge that coincides with another is not alone in its direction. *)
  Lemma twin_overlapping : forall ds a b pa pb u v fs k h, kept ds -> a <> b ->
    let mm := Model_mix.located coords (with_data m0 ds) in
    (forall i s T, part i s T -> operand_of mm i = s) ->
    nth_error (points m) a = Some pa -> nth_error (points m) b = Some pb ->
    arrangement mm a b u v fs -> nth_error fs k = Some h ->
    truth (fi h) = COPLANAR \/ truth (fi h) = OPPOSITE -> overlapping fs k.
  Proof.
    intros ds a b pa pb u v fs k h K Nab mm Hleft Ha Hb Harr Hk Ht. pose proof (nth_error_In _ _ Hk) as Hh.
    destruct (around_face _ _ m border C mm eq_refl eq_refl Hleft a b pa pb _ _ Ha Hb fs Harr h Hh) as (s1 & T1 & pr & HT1 & _).
    destruct (proj1 (twin_tag _ _ A B m border C _ s1 T1 _ HT1 (Htruth _ s1 T1 HT1)) Ht) as (j & U & HU & HC).
    destruct (part_face m j _ U HU) as (x1 & x2 & x3 & _ & _ & _ & Hj & _).
    destruct (third_vertex _ _ m border C mm eq_refl eq_refl Hleft a b pa pb _ _ Nab Ha Hb fs Harr h j _ Hh Hj HC) as (g & Hg & Eg & Vg).
    apply In_nth_error in Hg. destruct Hg as (k' & Hg).
    exists h, k', g. split; [ exact Hk | ]. split; [ | auto ].
    intros ->. assert (g = h) by congruence. subst g. rewrite Eg in HT1.
    destruct (part_fun m _ _ _ _ _ HT1 HU) as (Z & _). destruct s1; discriminate.
  Qed.

  Hypothesis Hshared : shared_in Dom m border.

  Lemma truth_neighbour : forall f g, neighbour (m_faces m0) border f g -> truth f = truth g.
  Proof.
    intros f g (a & b & Hs & Iga1 & Igb1 & Nb).
    pose proof (conj Iga1 Igb1) as Iga.
    assert (Hf : f < length (faces m) /\ g < length (faces m)).
    { destruct Hs as (t & E & _). destruct Iga1 as (t' & E' & _). cbn [Spec_solid.located take_soup faces].
      split; apply nth_error_Some; congruence. }
    destruct (face_part _ _ m border C f (proj1 Hf)) as (s & T & HT). destruct (face_part _ _ m border C g (proj2 Hf)) as (s' & U & HU).
    assert (Ifa : incident (m_faces m0) f a /\ incident (m_faces m0) f b).
    { destruct Hs as ([ [x y] z] & Ef & Hs). split; exists (x, y, z); (split; [ exact Ef | ]); destruct Hs as [ (-> & ->) | [ (-> & ->) | (-> & ->) ] ]; cbn [has_vertex]; auto. }
    assert (Nab : a <> b).
    { destruct Hs as ([ [x y] z] & Ht & Hs). destruct (corners_distinct _ _ m border C f s T x y z HT Ht) as (N1 & N2 & N3).
      destruct Hs as [ (-> & ->) | [ (-> & ->) | (-> & ->) ] ]; auto. }
    destruct (Nat.eq_dec f g) as [ -> | Nfg ]; [ reflexivity | ].
    destruct (at_edge (m_data m0) a b f data_of_m0 Nab (proj1 Ifa) (proj2 Ifa)) as (pa & pb & Ha & Hb & Hfin & W & Hleft & Hcol & Hn & Hsolid).
    assert (Kq : Dom (along pa (1 # 2) (vsub pb pa))).
    { apply (Hshared a b pa pb Ha Hb). right. split; [ exact Nab | ]. exists f, g. split; [ exact Nfg | ]. destruct Ifa, Iga. auto. }
    specialize (Hsolid Kq).
    destruct (twin_dec _ _ m border C f s T HT) as [ (j & V & HV & HC) | NT ].
    - (* every face around the edge has a twin *)
      destruct (side_middle m f s T a b HT Hs) as (pa' & pb' & Ha' & Hb' & Hq & _).
      assert (pa' = pa) by congruence. assert (pb' = pb) by congruence. subst pa' pb'.
      assert (Bd : forall z, on_boundary (operand (loc L) (loc R) z) (along pa (1 # 2) (vsub pb pa))).
      { intro z. apply (boundary_part _ _ m border C). destruct (Bool.bool_dec z s) as [ -> | E ]; [ exists f, T; auto | ].
        apply opposite_of in E. subst z. exists j, V. split; [ exact HV | ].
        destruct (same_corners_rot _ _ m border C f j s T V HT HV HC) as (Z & _). now apply Z. }
      assert (All : forall k, incident (m_faces m0) k a -> incident (m_faces m0) k b -> truth k = COPLANAR \/ truth k = OPPOSITE).
      { intros k Ka Kb. assert (Hk : k < length (faces m)). { destruct Ka as (t & E & _). cbn [Spec_solid.located take_soup faces]. apply nth_error_Some. congruence. }
        destruct (face_part _ _ m border C k Hk) as (s1 & T1 & HT1).
        apply (twin_tag _ _ A B m border C k s1 T1 _ HT1 (Htruth k s1 T1 HT1)).
        destruct (incident_side m k s1 T1 a b HT1 Nab Ka Kb) as [ Q | Q ].
        - destruct (cf_side _ _ _ _ C k s1 T1 a b pa pb _ HT1 Q Ha Hb (middle_open pa pb) (Bd _)) as [ Z | Z ]; [ contradiction | exact Z ].
        - destruct (cf_side _ _ _ _ C k s1 T1 b a pb pa (along pb (1 # 2) (vsub pa pb)) HT1 Q Hb Ha (middle_open pb pa)) as [ Z | Z ]; [ | | exact Z ].
          + exact (on_boundary_same _ _ m border C _ _ _ (along_middle_sym pa pb) (Bd _)).
          + rewrite make_edge_sym in Z. contradiction. }
      destruct (Hbases (vsub pb pa)) as (B1 & B2 & B3).
      { intros (Z1 & Z2 & Z3). apply Hn. unfold same, zero3. cbn [vx vy vz fst snd]. auto. }
      destruct (collect_ok _ (Model_mix.located coords (with_data m0 (m_data m0))) a b base1 base2 sort_around) with (pa := pa) (pb := pb)
        as (l & fs0 & _ & _ & Harr & _); auto.
      { exists f, a. split; [ exact (proj1 Ifa) | auto ]. }
      { exists f, b. split; [ exact (proj2 Ifa) | auto ]. }
      destruct (Hsolid _ Harr) as (HSE & inside & HE).
      pose proof Harr as (_ & Hin & _ & HSort).
      assert (Mem : forall k, incident (m_faces m0) k a -> incident (m_faces m0) k b -> exists h, In h (sort_around fs0) /\ fi h = k).
      { intros k Ka Kb. assert (Z : In k (map fi (sort_around fs0))) by (apply Hin; auto).
        apply in_map_iff in Z. destruct Z as (h & Z1 & Z2). eauto. }
      destruct (Mem f (proj1 Ifa) (proj2 Ifa)) as (hf & Hhf & <-). destruct (Mem g (proj1 Iga) (proj2 Iga)) as (hg & Hhg & <-).
      apply (same_truth _ _ inside truth HSE HSort HE); auto.
      intros k Hk. destruct (nth_error (sort_around fs0) k) as [ h | ] eqn:Eh; [ | apply nth_error_None in Eh; lia ].
      apply (twin_overlapping (m_data m0) a b pa pb _ _ _ k h data_of_m0 Nab Hleft Ha Hb Harr Eh).
      assert (Z : In (fi h) (map fi (sort_around fs0))) by (apply in_map; exact (nth_error_In _ _ Eh)).
      apply Hin in Z. destruct Z as (Z1 & Z2). exact (All _ Z1 Z2).
    - apply (truth_constant_off _ _ A B m border Dom HK HA HB C f g s T s' U _ _ a b pa pb Hs (proj1 Iga) (proj2 Iga) Ha Hb HT HU); auto.
      intro Z. destruct (cf_side _ _ _ _ C f s T a b pa pb _ HT Hs Ha Hb (middle_open pa pb) Z) as [ Q | (j & V & HV & HC) ]; [ contradiction | ].
      exact (NT j V HV HC).
  Qed.

  Lemma run_init : run_inv (m_data m0) [].
  Proof.
    assert (S : sound truth (with_data m0 (m_data m0))).
    { intros g t (d & Hd & <-). cbn [with_data m_data] in Hd. destruct (data_part _ g d data_of_m0 Hd) as (T & HT).
      destruct (st_right _ _ _ _ _ _ St g (from_left d) T d HT Hd) as [ K | K ]; [ auto | right ].
      exact (says_fun _ _ A B m border C g _ T _ _ HT K (Htruth g _ T HT)). }
    split.
    - exact data_of_m0.
    - exact S.
    - intros f d Hd Nu (d' & Hd' & Hu). cbn [with_data m_data] in Hd'. congruence.
    - intros f g Hn Hu. cbn [with_data m_faces] in Hn.
      exact (st_apart _ _ _ _ _ _ St f g Hn Hu).
    - intros a b f [].
  Qed.

  Lemma run_step : forall ds pre a b, run_inv ds pre -> In (a, b) border ->
    exists ds', Model_mix.classify_edge coords base1 base2 sort_around border (with_data m0 ds, no_warnings) (a, b) =
      Ok (with_data m0 ds', no_warnings) /\ run_inv ds' (pre ++ [(a, b)]).
  Proof.
    intros ds pre a b I He. pose proof (ri_kept _ _ I) as K.
    destruct (cf_border _ _ _ _ C a b He) as (Nab & i & Ia & Ib).
    destruct (at_edge ds a b i K Nab Ia Ib) as (pa & pb & Ha & Hb & Hfin & W & Hleft & Hcol & Hn & Hsolid).
    specialize (Hsolid (Hshared a b pa pb Ha Hb (or_introl He))).
    set (mm := Model_mix.located coords (with_data m0 ds)) in *.
    pose proof (fun fs Harr => proj2 (Hsolid fs Harr)) as Hsolid'.
    destruct (classify_edge_closed D mm a b base1 base2 sort_around) with (pa := pa) (pb := pb) (border := border)
      (left := operand_of mm) (truth := truth) as (m' & E & E1 & E2 & E3 & E4 & E5 & E6 & (fs & Harr & _) & E8); auto.
    - exists i, a. auto.
    - exists i, b. auto.
    - exact truth_neighbour.
    - exact (ri_sound _ _ I).
    - exists (m_data m'). unfold Model_mix.classify_edge. fold mm. rewrite E. cbn [bind].
      split; [ reflexivity | ].
      change (m_data mm) with ds in *. change (m_faces mm) with (m_faces m0) in *.
      split.
      + destruct K as (K1 & K2). split; [ congruence | ]. intros g d Hg. destruct (K2 g d Hg) as (d1 & F1 & F2 & F3).
        destruct (E4 g d1 F1) as (d2 & G1 & G2 & G3 & _). exists d2. split; [ exact G1 | ]. split; congruence.
      + intros g t (d & Hd & <-). apply E5. exists d. auto.
      + intros f d Hd Nu (d' & Hd' & Hu). cbn [with_data m_data] in Hd'.
        destruct (proj2 K f d Hd) as (d1 & F1 & _).
        assert (Nu1 : tag d1 <> UNKNOWN). { intro Z. apply (ri_tagged _ _ I f d Hd Nu). exists d1. auto. }
        destruct (E4 f d1 F1) as (d2 & G1 & _ & _ & G4). rewrite (G4 Nu1) in G1. congruence.
      + intros f g Hfg (d & Hd & Ht). cbn [with_data m_faces m_data] in *.
        destruct (E8 (ri_closed _ _ I) f g) as (d' & Hd' & Ht'); [ now rewrite E2 | exists d; auto | exists d'; auto ].
      + intros x y f Hin Hx Hy Ht. apply in_app_iff in Hin. destruct Hin as [ Hin | [ Hin | [] ] ].
        * intros (d & Hd & Hu). cbn [with_data m_data] in Hd.
          assert (Hl : f < length ds) by (rewrite <- E3; apply nth_error_Some; congruence).
          destruct (nth_error ds f) as [ d0 | ] eqn:Ed; [ | apply nth_error_None in Ed; lia ].
          destruct (E4 f d0 Ed) as (d1 & G1 & _ & _ & G4). assert (Nu : tag d0 <> UNKNOWN).
          { intro Z. apply (ri_twins _ _ I x y f Hin Hx Hy Ht). exists d0. auto. }
          rewrite (G4 Nu) in G1. congruence.
        * injection Hin as <- <-. intros (d & Hd & Hu). cbn [with_data m_data] in Hd.
          assert (Hif : In f (map fi fs)). { apply (proj1 (proj2 Harr)). auto. }
          apply in_map_iff in Hif. destruct Hif as (h & <- & Hh). apply In_nth_error in Hh. destruct Hh as (k & Hh).
          apply (E6 fs Harr h k Hh); [ | exists d; auto ].
          exact (twin_overlapping ds a b pa pb _ _ fs k h K Nab Hleft Ha Hb Harr Hh Ht).
  Qed.

  Lemma run_fold : forall order ds pre, run_inv ds pre -> (forall e, In e order -> In e border) ->
    exists ds', foldM (Model_mix.classify_edge coords base1 base2 sort_around border) (with_data m0 ds, no_warnings) order =
      Ok (with_data m0 ds', no_warnings) /\ run_inv ds' (pre ++ order).
  Proof.
    induction order as [ | [a b] order IH ]; intros ds pre I Hin.
    - exists ds. rewrite app_nil_r. auto.
    - cbn [foldM]. destruct (run_step ds pre a b I (Hin _ (or_introl eq_refl))) as (ds1 & E1 & I1). rewrite E1. cbn [bind].
      destruct (IH ds1 _ I1) as (ds2 & E2 & I2); [ intros e He; apply Hin; now right | ].
      exists ds2. split; [ exact E2 | ]. now rewrite <- app_assoc in I2.
  Qed.

  (** *** The global phase *)
  Hypothesis Hcentroid : forall p q r, in_open_triangle (coords (centroid p q r)) (coords p) (coords q) (coords r).
  Hypothesis Hsides : forall s x, Dom (coords x) -> ~ on_boundary (operand (loc L) (loc R) s) (coords x) ->
    side_of (if s then L else R) x = Throw RuntimeError \/
    ((member_of A B s (coords x) -> side_of (if s then L else R) x = Ok NEGATIVE_SIDE) /\
     (~ member_of A B s (coords x) -> side_of (if s then L else R) x = Ok POSITIVE_SIDE)).
  Definition gave_up : Prop := exists s x, Dom (coords x) /\ ~ on_boundary (operand (loc L) (loc R) s) (coords x) /\ side_of (if s then L else R) x = Throw RuntimeError.

  Lemma side_truth : forall ds f q, kept ds -> truth f = EXTERIOR \/ truth f = INTERIOR ->
    face_query centroid (side_of L) (side_of R) (with_data m0 ds) f q ->
    (q = Throw RuntimeError /\ gave_up) \/ (truth f = EXTERIOR /\ q = Ok POSITIVE_SIDE) \/ (truth f = INTERIOR /\ q = Ok NEGATIVE_SIDE).
  Proof.
    intros ds f q K Ht (d & a & b & c & pa & pb & pc & H1 & H2 & H3 & H4 & H5 & ->).
    cbn [with_data m_data m_faces m_points] in *.
    destruct (data_part ds f d K H1) as (T & HT).
    destruct (part_face m f _ T HT) as (a' & b' & c' & qa & qb & qc & Ef & Ea & Eb & Ec & ->).
    cbn [Spec_solid.located take_soup faces points] in Ef, Ea, Eb, Ec. rewrite H2 in Ef. injection Ef as <- <- <-.
    rewrite nth_error_map in Ea, Eb, Ec. rewrite H3 in Ea. rewrite H4 in Eb. rewrite H5 in Ec. cbn [option_map] in Ea, Eb, Ec.
    injection Ea as <-. injection Eb as <-. injection Ec as <-.
    pose proof (Htruth f _ _ HT) as Hsay. pose proof (Hcentroid pa pb pc) as Hc.
    assert (Off : ~ on_boundary (operand (loc L) (loc R) (negb (from_left d))) (coords (centroid pa pb pc))).
    { destruct Ht as [ Z | Z ]; rewrite Z in Hsay; exact (proj1 (Hsay _ Hc)). }
    assert (Eq : (if from_left d then side_of R else side_of L) (centroid pa pb pc) = side_of (if negb (from_left d) then L else R) (centroid pa pb pc)) by (destruct (from_left d); reflexivity).
    pose proof (part_in _ _ A B m border Dom HA HB C f _ _ _ HT Hc) as Kc.
    rewrite Eq. destruct (Hsides (negb (from_left d)) (centroid pa pb pc) Kc Off) as [ G | (S1 & S2) ].
    - left. split; [ exact G | ]. exists (negb (from_left d)), (centroid pa pb pc). auto.
    - right. destruct Ht as [ Z | Z ]; [ left | right ]; (split; [ exact Z | ]); rewrite Z in Hsay; pose proof (proj2 (Hsay _ Hc)) as Hm; auto.
  Qed.

  Theorem run_all : forall order order', set_elements border order -> (forall l, Permutation l (order' l)) ->
    (exists m', classified coords base1 base2 sort_around centroid side_of border L R m0 order order' = Ok (m', no_warnings) /\
      m_points m' = m_points m0 /\ m_faces m' = m_faces m0 /\ kept (m_data m') /\
      forall g d, nth_error (m_data m') g = Some d -> tag d = truth g) \/
    (classified coords base1 base2 sort_around centroid side_of border L R m0 order order' = Throw RuntimeError /\ gave_up).
  Proof.
    intros order order' (_ & Ho) Hp. unfold classified.
    destruct (run_fold order (m_data m0) [] run_init) as (ds & E & I); [ intros e He; now apply Ho | ].
    assert (Em : with_data m0 (m_data m0) = m0) by (destruct m0; reflexivity). rewrite Em in E. rewrite E. cbn [bind].
    pose proof (ri_kept _ _ I) as K.
    assert (Hu : forall f, tagged (with_data m0 ds) f UNKNOWN -> truth f = EXTERIOR \/ truth f = INTERIOR).
    { intros f Hf. destruct Hf as (d & Hd & Ht). cbn [with_data m_data] in Hd.
      destruct (data_part ds f d K Hd) as (T & HT).
      assert (N : ~ (truth f = COPLANAR \/ truth f = OPPOSITE)).
      { intros Z. destruct (proj1 (twin_tag _ _ A B m border C f _ T _ HT (Htruth f _ T HT)) Z) as (j & U & HU & HC).
        assert (Hun : untagged m f).
        { destruct (nth_error (m_data m0) f) as [ d1 | ] eqn:E1.
          - destruct (face_tag_eqb_spec (tag d1) UNKNOWN) as [ Q | Q ]; [ exists d1; auto | ]. exfalso.
            exact (ri_tagged _ _ I f d1 E1 Q (ex_intro _ d (conj Hd Ht))).
          - apply nth_error_None in E1. assert (f < length ds) by (apply nth_error_Some; congruence). rewrite (proj1 K) in *. lia. }
        destruct (st_reach _ _ _ _ _ _ St f j _ T U HT Hun HU HC) as (k & a & b & Hch & Ka & Kb & Hb).
        assert (Ch : forall x y, clos_refl_trans nat (neighbour (m_faces m0) border) x y ->
          truth x = truth y /\ (tagged (with_data m0 ds) x UNKNOWN -> tagged (with_data m0 ds) y UNKNOWN)).
        { intros x y Hxy. induction Hxy as [ x y Q | x | x y z _ IH1 _ IH2 ].
          - split; [ now apply truth_neighbour | exact (ri_closed _ _ I x y Q) ].
          - auto.
          - destruct IH1, IH2. split; [ congruence | auto ]. }
        destruct (Ch f k Hch) as (C1 & C2). rewrite C1 in Z.
        apply Ho in Hb. exact (ri_twins _ _ I _ _ k Hb Ka Kb Z (C2 (ex_intro _ d (conj Hd Ht)))). }
      pose proof (Htruth f _ T HT) as Hsay. destruct (truth f); auto; try (exfalso; apply N; auto; fail). contradiction. }
    assert (Hq : forall f, tagged (with_data m0 ds) f UNKNOWN -> exists q, face_query centroid (side_of L) (side_of R) (with_data m0 ds) f q).
    { intros f (d & Hd & _). apply (face_query_total P D (with_data m0 ds)); [ exact (wf_run ds K) | ].
      rewrite <- (proj1 (wf_run ds K)). apply nth_error_Some. congruence. }
    destruct (classify_globally_or P D (with_data m0 ds) border) with (centroid := centroid) (side_left := side_of L)
      (side_right := side_of R) (order := order') as [ (m' & Eg & G1 & G2 & G3 & G4 & G5 & G6) | (f & e & Hf & _ & He & Eg) ]; auto.
    - exact (wf_run ds K).
    - exact (ri_closed _ _ I).
    - intros f Hf. destruct (Hq f Hf) as (q & Hs). destruct (side_truth ds f q K (Hu f Hf) Hs) as [ (-> & _) | [ (_ & ->) | (_ & ->) ] ].
      + right. exists RuntimeError. left. exact Hs.
      + left. exists POSITIVE_SIDE. split; [ exact Hs | discriminate ].
      + left. exists NEGATIVE_SIDE. split; [ exact Hs | discriminate ].
    - left. rewrite Eg. cbn [bind]. exists m'. split; [ reflexivity | ]. cbn [with_data m_points m_faces m_data] in *.
      split; [ exact G1 | ]. split; [ exact G2 | ].
      assert (Hd : forall g d, nth_error ds g = Some d -> exists d', nth_error (m_data m') g = Some d' /\ from_left d' = from_left d /\
        data d' = data d /\ tag d' = truth g).
      { intros g d Hg. destruct (face_tag_eqb_spec (tag d) UNKNOWN) as [ Z | Z ].
        - destruct (G6 g d Hg Z) as (r & s & t & R1 & _ & R3 & R4 & R5). eexists. split; [ exact R5 | ]. cbn [from_left data tag].
          do 2 (split; [ reflexivity | ]).
          assert (Er : truth r = truth g).
          { clear - R1 Htruth HK HA HB C Hbases Hsort HF St Hshared. induction R1 as [ | f h _ IH Hn _ ]; [ reflexivity | ]. rewrite <- IH. symmetry. now apply truth_neighbour. }
          assert (Ht : truth g = EXTERIOR \/ truth g = INTERIOR) by (apply Hu; exists d; auto).
          rewrite <- Er in Ht |- *. destruct (side_truth ds r (Ok s) K Ht R3) as [ (Q & _) | [ (Q & E') | (Q & E') ] ]; [ discriminate | | ];
            injection E' as ->; rewrite Q; destruct R4 as [ (X & Y) | (X & Y) ]; auto; discriminate.
        - exists d. split; [ exact (G5 g d Hg Z) | ]. do 2 (split; [ reflexivity | ]).
          destruct (ri_sound _ _ I g (tag d)) as [ Q | Q ]; [ exists d; auto | contradiction | exact Q ]. }
      split.
      + destruct K as (K1 & K2). split; [ congruence | ]. intros g d Hg. destruct (K2 g d Hg) as (d1 & F1 & F2 & F3).
        destruct (Hd g d1 F1) as (d2 & J1 & J2 & J3 & _). exists d2. split; [ exact J1 | ]. split; congruence.
      + intros g d' Hg. assert (Hl : g < length ds) by (rewrite <- G3; apply nth_error_Some; congruence).
        destruct (nth_error ds g) as [ d | ] eqn:Ed; [ | apply nth_error_None in Ed; lia ].
        destruct (Hd g d Ed) as (d2 & J1 & _ & _ & J4). congruence.
    - right. rewrite Eg. cbn [bind]. assert (X : e = RuntimeError /\ gave_up); [ | destruct X as (-> & X); auto ].
      destruct He as [ He | (He & ->) ]; destruct (side_truth ds f _ K (Hu f Hf) He) as [ (Q & W) | [ (_ & Q) | (_ & Q) ] ]; try discriminate.
      injection Q as ->. auto.
  Qed.

  Lemma aligned_sym : forall T U, aligned T U -> aligned U T.
  Proof.
    intros T U (k & Hk & E1 & E2 & E3). exists (/ k)%Q. split; [ now apply Qinv_lt_0_compat | ].
    unfold same, scaled in *. cbn [vx vy vz fst snd] in *. rewrite E1, E2, E3. repeat split; field; lra.
  Qed.
  Lemma against_sym : forall T U, against T U -> against U T.
  Proof.
    intros T U (k & Hk & E1 & E2 & E3). exists (/ k)%Q. split.
    - assert (Z : (0 < / - k)%Q) by (apply Qinv_lt_0_compat; lra). setoid_replace (/ k)%Q with (- / - k)%Q by (field; lra). lra.
    - unfold same, scaled in *. cbn [vx vy vz fst snd] in *. rewrite E1, E2, E3. repeat split; field; lra.
  Qed.
  Lemma same_triangle_sym : forall T U, same_triangle T U -> same_triangle U T.
  Proof. intros T U H x. destruct (H x) as (H1 & H2). split; now symmetry. Qed.

  Lemma all_true_arranged : forall m', m_points m' = m_points m0 -> m_faces m' = m_faces m0 -> kept (m_data m') ->
    (forall g d, nth_error (m_data m') g = Some d -> tag d = truth g) ->
    arranged (loc L) (loc R) A B (loc (take_soup m')).
  Proof.
    intros m' E1 E2 K Ht.
    assert (Etri : forall i, soup_triangle (loc (take_soup m')) i = soup_triangle m i).
    { intro i. unfold soup_triangle, soup_face, soup_point. cbn [Spec_solid.located take_soup faces points]. rewrite E1, E2. reflexivity. }
    assert (PP : forall i s t T, piece (loc (take_soup m')) i s t T <-> part i s T /\ t = truth i).
    { intros i s t T. unfold piece. rewrite Etri. cbn [Spec_solid.located take_soup face_data]. split.
      - intros (H1 & md & H2 & H3 & H4). split; [ | rewrite <- H4; now apply Ht ].
        destruct (data_part _ i md K H2) as (T' & HT'). assert (T' = T) by (destruct HT' as (Z & _); congruence). congruence.
      - intros (HT & ->). destruct (part_data _ i s T K HT) as (d & G1 & G2). split; [ exact (proj1 HT) | ].
        exists d. split; [ exact G1 | ]. split; [ exact G2 | now apply Ht ]. }
    split.
    - destruct (cf_valid _ _ _ _ C) as (V & El). cbn [Spec_solid.located take_soup face_data faces] in *. split.
      + unfold valid_faces in *. cbn [Spec_solid.located take_soup faces points] in *. rewrite E1, E2. exact V.
      + rewrite E2, (proj1 K). exact El.
    - intros i s t T H. apply PP in H. exact (cf_nondegenerate _ _ _ _ C i s T (proj1 H)).
    - intros i s t T H. apply PP in H. exact (cf_part _ _ _ _ C i s T (proj1 H)).
    - intros s x Hx. destruct (cf_cover _ _ _ _ C s x Hx) as (i & T & HT & Ho). exists i, (truth i), T. split; [ now apply PP | exact Ho ].
    - intros i j s t u T U x H1 H2. apply PP in H1. apply PP in H2. exact (cf_apart _ _ _ _ C i j s T U x (proj1 H1) (proj1 H2)).
    - intros i s t T H. apply PP in H. destruct H as (HT & ->). pose proof (Htruth i s T HT) as Hsay.
      destruct (truth i) eqn:Ei; cbn [Spec_conform.says tag_true] in *; auto.
      + destruct Hsay as (j & U & HU & S & Al). exists j, U. split; [ apply PP; split; [ exact HU | ] | auto ].
        apply (says_fun _ _ A B m border C j _ U _ _ HU); [ | now apply Htruth ].
        exists i, T. rewrite negb_involutive. split; [ exact HT | ]. split; [ now apply same_triangle_sym | now apply aligned_sym ].
      + destruct Hsay as (j & U & HU & S & Al). exists j, U. split; [ apply PP; split; [ exact HU | ] | auto ].
        apply (says_fun _ _ A B m border C j _ U _ _ HU); [ | now apply Htruth ].
        exists i, T. rewrite negb_involutive. split; [ exact HT | ]. split; [ now apply same_triangle_sym | now apply against_sym ].
  Qed.
End Run.
