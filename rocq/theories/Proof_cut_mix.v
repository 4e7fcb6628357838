(** * The mixed mesh conforms to the arrangement of the two meshes *)
From Coq Require Import List Arith Bool QArith Lqa Lia Relation_Operators Operators_Properties.
From Verif Require Import Model_base Proof_base Model_geometry Model_soup Model_mesh Model_aabb Model_points Model_boolean Model_classify Model_corefine Model_mix.
From Verif Require Import Spec_candidates Spec_side Spec_solid Spec_conform Spec_defects Spec_ffi Spec_corefine Spec_mix Spec_cut.
From Verif Require Import Proof_candidates Proof_corefine_all Proof_corefine_rec Proof_mix_faces Proof_bridge Proof_pairs.
From Verif Require Import Proof_fan Proof_extreme Proof_hull Proof_ffi_result Proof_cells Proof_outline Proof_cut Proof_cut_faces Proof_cut_edges Proof_cut_reach Proof_cut_pre Proof_cut_run Proof_cut_agree.
Import ListNotations.
Local Open Scope nat_scope.

(** ** The order of the pieces: side, face, number *)
Definition key : Type := bool * nat * nat.
Definition keys_of (s : bool) (count : nat -> nat) (l : list nat) : list key := flat_map (fun F => map (fun k => (s, F, k)) (seq 0 (count F))) l.

Lemma in_keys : forall s count l s' F k, In (s', F, k) (keys_of s count l) <-> s' = s /\ In F l /\ k < count F.
Proof.
  intros s count l s' F k. unfold keys_of. rewrite in_flat_map. split.
  - intros (G & J & H). apply in_map_iff in H. destruct H as (j & E & Hj). injection E as <- <- <-. apply in_seq in Hj. split; [ reflexivity | ]. split; [ exact J | lia ].
  - intros (-> & J & H). exists F. split; [ exact J | ]. apply in_map_iff. exists k. split; [ reflexivity | apply in_seq; lia ].
Qed.
Lemma nodup_keys : forall s count l, NoDup l -> NoDup (keys_of s count l).
Proof.
  intros s count l H. induction H as [ | F l N H IH]; cbn; [ constructor | ]. apply NoDup_app_disjoint.
  - apply FinFun.Injective_map_NoDup; [ intros i j E; injection E; auto | apply seq_NoDup ].
  - exact IH.
  - intros [ [s' G] k] J J'. apply in_map_iff in J. destruct J as (j & E & _). injection E as <- <- <-. apply in_keys in J'. apply N, J'.
Qed.
Lemma Forall2_weaken : forall {A B} (R S : A -> B -> Prop) l l', (forall a b, R a b -> S a b) -> Forall2 R l l' -> Forall2 S l l'.
Proof. intros A B R S l l' H F. induction F; constructor; auto. Qed.
Lemma Forall2_repeat : forall {A B} (R : A -> B -> Prop) l b, (forall a, In a l -> R a b) -> Forall2 R l (repeat b (length l)).
Proof. intros A B R l b. induction l as [ | a l IH]; intro H; cbn; constructor; [ apply H; left; reflexivity | apply IH; intros x J; apply H; right; exact J ]. Qed.
Lemma mix_faces_keys : forall {P D} (m : soup P D) get s (tl : nat -> list face) (tg : list face_tag),
  (forall F, F < num_faces m -> exists t d, get F = Ok (t, tl F) /\ nth_error tg F = Some t /\ nth_error (face_data m) F = Some d) ->
  forall fs0 ds0, exists fs ds, mix_faces m get s (fs0, ds0) = Ok (fs0 ++ fs, ds0 ++ ds) /\
    Forall2 (fun (x : key) f => nth_error (tl (snd (fst x))) (snd x) = Some f) (keys_of s (fun F => length (tl F)) (seq 0 (num_faces m))) fs /\
    Forall2 (fun (x : key) md => exists t d, nth_error tg (snd (fst x)) = Some t /\ nth_error (face_data m) (snd (fst x)) = Some d /\ md = mk_mixed s t d)
      (keys_of s (fun F => length (tl F)) (seq 0 (num_faces m))) ds.
Proof.
  intros P D m get s tl tg H. unfold mix_faces.
  enough (G : forall l, (forall F, In F l -> F < num_faces m) -> forall fs0 ds0, exists fs ds,
    foldM (fun st fi => let '(fs, ds) := st in let* (t, new) := get fi in let* d := soup_data m fi in Ok (fs ++ new, ds ++ repeat (mk_mixed s t d) (length new))) (fs0, ds0) l = Ok (fs0 ++ fs, ds0 ++ ds) /\
    Forall2 (fun (x : key) f => nth_error (tl (snd (fst x))) (snd x) = Some f) (keys_of s (fun F => length (tl F)) l) fs /\
    Forall2 (fun (x : key) md => exists t d, nth_error tg (snd (fst x)) = Some t /\ nth_error (face_data m) (snd (fst x)) = Some d /\ md = mk_mixed s t d) (keys_of s (fun F => length (tl F)) l) ds).
  { intros fs0 ds0. apply G. intros F J. apply in_seq in J. lia. }
  induction l as [ | F l IH]; intros Hl fs0 ds0.
  - exists [], []. cbn. rewrite !app_nil_r. repeat split; constructor.
  - destruct (H F (Hl F (or_introl eq_refl))) as (t & d & E1 & E2 & E3). cbn [foldM]. rewrite E1. cbn [bind]. unfold soup_data. rewrite (proj2 (vec_at_ok _ _ _ _) E3). cbn [bind].
    destruct (IH (fun G J => Hl G (or_intror J)) (fs0 ++ tl F) (ds0 ++ repeat (mk_mixed s t d) (length (tl F)))) as (fs & ds & E & Ff & Fd).
    exists (tl F ++ fs), (repeat (mk_mixed s t d) (length (tl F)) ++ ds). split; [ rewrite <- !app_assoc in E; exact E | ]. cbn [keys_of flat_map]. split; apply Forall2_app; try assumption.
    + clear. enough (G : forall l pre : list face, Forall2 (fun (x : key) f => snd (fst x) = F /\ nth_error (pre ++ l) (snd x) = Some f) (map (fun k => (s, F, k)) (seq (length pre) (length l))) l).
      { eapply Forall2_weaken; [ | exact (G (tl F) []) ]. intros x f [E1 E2]. rewrite E1. exact E2. }
      induction l as [ | a l IH]; intro pre; cbn; constructor.
      * cbn. rewrite nth_error_app2, Nat.sub_diag; [ auto | lia ].
      * specialize (IH (pre ++ [a])). rewrite app_length in IH. cbn in IH. rewrite Nat.add_1_r in IH. rewrite <- app_assoc in IH. exact IH.
    + set (ks := map (fun k => (s, F, k)) (seq 0 (length (tl F)))). replace (length (tl F)) with (length ks) by (unfold ks; rewrite map_length, seq_length; reflexivity).
      apply Forall2_repeat. intros x J. apply in_map_iff in J. destruct J as (k & <- & _). cbn. eauto.
Qed.

Lemma Forall2_len : forall {A B} (R : A -> B -> Prop) l l', Forall2 R l l' -> length l = length l'.
Proof. intros A B R l l' F. induction F; cbn; congruence. Qed.
Lemma Forall2_nth_l : forall {A B} (R : A -> B -> Prop) l l' i a, Forall2 R l l' -> nth_error l i = Some a -> exists b, nth_error l' i = Some b /\ R a b.
Proof. intros A B R l l' i a F. revert i. induction F as [ | x y l l' H F IH]; intros [ | i] E; cbn in *; try discriminate; [ injection E as <-; eauto | auto ]. Qed.
Lemma Forall2_nth_r : forall {A B} (R : A -> B -> Prop) l l' i b, Forall2 R l l' -> nth_error l' i = Some b -> exists a, nth_error l i = Some a /\ R a b.
Proof. intros A B R l l' i a F. revert i. induction F as [ | x y l l' H F IH]; intros [ | i] E; cbn in *; try discriminate; [ injection E as <-; eauto | auto ]. Qed.
Lemma edge_make : forall i j, edge_between i j (make_edge i j) /\ make_edge i j = make_edge j i.
Proof.
  intros i j. unfold edge_between, make_edge. destruct (Nat.ltb_spec j i), (Nat.ltb_spec i j); cbn; try (exfalso; lia); (split; [ split; [ auto | lia ] | ]); try reflexivity.
  assert (i = j) as -> by lia. reflexivity.
Qed.
Lemma make_of : forall i j e, edge_between i j e -> e = make_edge i j.
Proof.
  intros i j e [ [-> | ->] L]; cbn in L; unfold make_edge; destruct (Nat.ltb_spec j i); try reflexivity; try (exfalso; lia). assert (i = j) as -> by lia. reflexivity.
Qed.

Section Whole.
  Context {P D : Type}.
  Variable coords : P -> vec3.
  Variables left right : soup P D.
  Variable pts : list P.
  Variable pos : nat -> vec3.
  Variable fc : bool -> nat -> nat * nat * nat -> Prop.
  Variable unk : bool -> nat -> Prop.
  Variable tiles_of : bool -> nat -> list (nat * nat * nat).
  Variable outl : bool -> nat -> nat -> list nat.
  Notation tri := (triangle_of pos).
  Notation tile := (tile tiles_of).
  Notation vert := (vert fc outl).
  Notation mesh s := (mesh_ left right s).
  Hypothesis C : cutting pos fc unk tiles_of outl.
  Hypothesis fc_corners : forall s F f, fc s F f -> exists t, face_corners (mesh s) F t /\ at_face pts f = Some t.
  Hypothesis corners_fc : forall s F t, face_corners (mesh s) F t -> exists f, fc s F f /\ at_face pts f = Some t.
  Hypothesis points_alike : forall s F f s' G g t u, fc s F f -> fc s' G g -> at_face pts f = Some t -> at_face pts g = Some u -> (forall p, has_point t p <-> has_point u p) -> alike f g.
  Hypothesis fc_range : forall s F f, fc s F f -> F < num_faces (mesh s).
  Hypothesis at_tri : forall f t, at_face pts f = Some t -> tri f = triangle_of coords t.
  Hypothesis vert_point : forall s F v, vert s F v -> exists p, nth_error pts v = Some p /\ pos v = coords p.
  Variable tags : bool -> list face_tag.
  Hypothesis unk_tag : forall s F, unk s F <-> nth_error (tags s) F = Some UNKNOWN.
  Hypothesis tag_right : forall s F t, face_corners (mesh s) F t -> exists tag, nth_error (tags s) F = Some tag /\ right_tag (mesh (negb s)) t tag.
  Variables (ks : list key) (fs : list face) (ds : list (mixed_data D)).
  Hypothesis ks_nodup : NoDup ks.
  Hypothesis ks_all : forall s F k, In (s, F, k) ks <-> F < num_faces (mesh s) /\ k < length (tiles_of s F).
  Hypothesis ks_faces : Forall2 (fun (x : key) f => let '(s, F, k) := x in tile s F k f) ks fs.
  Hypothesis ks_data : Forall2 (fun (x : key) md => let '(s, F, k) := x in exists t d, nth_error (tags s) F = Some t /\ md = mk_mixed s t d) ks ds.
  Hypothesis tile_fc : forall s F k T, tile s F k T -> exists t, fc s F t.
  Variable border : list edge.
  Hypothesis border_iff : forall e, In e border <-> exists F G i j, neighbours (outl true F G) i j /\ edge_between i j e.
  Notation mixed := (located coords (mk_soup pts fs ds)).
  Notation L := (located coords left).
  Notation R := (located coords right).

  (** *** Pieces by number and by key *)
  Lemma tile_points : forall s F k f, tile s F k f -> exists t, at_face pts f = Some t.
  Proof.
    intros s F k [ [a b] c] H. assert (X : forall v, has_vertex (a, b, c) v -> exists p, nth_error pts v = Some p).
    { intros v Hv. destruct (vert_point s F v (ct_vert _ _ _ _ _ C s F k _ v H Hv)) as (p & E & _). eauto. }
    destruct (X a) as (p & A); [ cbn; auto | ]. destruct (X b) as (q & B); [ cbn; auto | ]. destruct (X c) as (r & E); [ cbn; auto | ]. exists (p, q, r). unfold at_face. rewrite A, B, E. reflexivity.
  Qed.
  Lemma at_corners : forall i f t, nth_error fs i = Some f -> at_face pts f = Some t -> face_corners (mk_soup pts fs ds) i t.
  Proof.
    intros i [ [a b] c] t E A. unfold at_face in A. destruct (nth_error pts a) as [p | ] eqn:Ea; [ | discriminate ]. destruct (nth_error pts b) as [q | ] eqn:Eb; [ | discriminate ]. destruct (nth_error pts c) as [r | ] eqn:Ec; [ | discriminate ].
    injection A as <-. exists a, b, c, p, q, r. cbn [faces points]. auto 8.
  Qed.
  Lemma piece_of_key : forall i s F k, nth_error ks i = Some (s, F, k) -> exists f, nth_error fs i = Some f /\ tile s F k f /\ part mixed i s (tri f).
  Proof.
    intros i s F k E. destruct (Forall2_nth_l _ _ _ _ _ ks_faces E) as (f & Ef & Hf). destruct (Forall2_nth_l _ _ _ _ _ ks_data E) as (md & Ed & (t & d & Et & ->)). exists f. split; [ exact Ef | ]. split; [ exact Hf | ].
    destruct (tile_points s F k f Hf) as (u & Au). split.
    - apply located_corners. exists u. split; [ exact (at_corners i f u Ef Au) | exact (at_tri f u Au) ].
    - exists (mk_mixed s t d). split; [ exact Ed | reflexivity ].
  Qed.
  Lemma key_of_face : forall i f, nth_error fs i = Some f -> exists s F k, nth_error ks i = Some (s, F, k) /\ tile s F k f.
  Proof. intros i f E. destruct (Forall2_nth_r _ _ _ _ _ ks_faces E) as ([ [s F] k] & Ek & H). exists s, F, k. auto. Qed.
  Lemma key_of_piece : forall i s T, part mixed i s T -> exists F k f, nth_error ks i = Some (s, F, k) /\ tile s F k f /\ nth_error fs i = Some f /\ T = tri f.
  Proof.
    intros i s T [E (md & Ed & Es)]. apply located_corners in E. destruct E as (t & (a & b & c & p & q & r & Ef & A & B & E & ->) & ->). cbn [faces points face_data located] in *.
    destruct (key_of_face i _ Ef) as (s' & F & k & Ek & H). destruct (Forall2_nth_l _ _ _ _ _ ks_data Ek) as (md' & Ed' & (t' & d & Et & ->)). rewrite Ed in Ed'. injection Ed' as ->. cbn in Es. subst s'.
    exists F, k, (a, b, c). split; [ exact Ek | ]. split; [ exact H | ]. split; [ exact Ef | ]. symmetry. apply at_tri. unfold at_face. rewrite A, B, E. reflexivity.
  Qed.
  Lemma index_of : forall s F k f, tile s F k f -> exists i, nth_error ks i = Some (s, F, k) /\ nth_error fs i = Some f /\ part mixed i s (tri f).
  Proof.
    intros s F k f H. destruct (tile_fc s F k f H) as (t & Hf). assert (J : In (s, F, k) ks).
    { apply ks_all. split; [ exact (fc_range s F t Hf) | ]. unfold Proof_cut_faces.tile in H. apply nth_error_Some. congruence. }
    apply In_nth_error in J. destruct J as (i & E). destruct (piece_of_key i s F k E) as (f' & Ef & H' & Hp). unfold Proof_cut_faces.tile in *. rewrite H in H'. injection H' as <-. eauto.
  Qed.
  Lemma untagged_key : forall i s F k, nth_error ks i = Some (s, F, k) -> (untagged mixed i <-> unk s F).
  Proof.
    intros i s F k E. destruct (Forall2_nth_l _ _ _ _ _ ks_data E) as (md & Ed & (t & d & Et & ->)). rewrite unk_tag, Et. unfold untagged. cbn [face_data located]. rewrite Ed. split.
    - intros (md & X & Y). injection X as <-. cbn in Y. congruence.
    - intro X. exists (mk_mixed s t d). split; [ reflexivity | cbn; congruence ].
  Qed.
  Lemma boundary_fc : forall s x, on_boundary (operand L R s) x <-> exists F f, fc s F f /\ inside (tri f) x.
  Proof.
    intros s x. replace (operand L R s) with (located coords (mesh s)) by (destruct s; reflexivity). rewrite located_boundary. split.
    - intros (F & t & Ct & I). destruct (corners_fc s F t Ct) as (f & H & A). exists F, f. split; [ exact H | ]. rewrite (at_tri f t A). exact I.
    - intros (F & f & H & I). destruct (fc_corners s F f H) as (t & Ct & A). exists F, t. split; [ exact Ct | ]. rewrite <- (at_tri f t A). exact I.
  Qed.
  Lemma border_make : forall s F G a b, neighbours (outl s F G) a b \/ neighbours (outl s F G) b a -> In (make_edge a b) border.
  Proof.
    intros s F G a b H. destruct (edge_make a b) as [E1 E2]. destruct (edge_make b a) as [E3 _].
    destruct s; [ | rewrite <- (ct_sym _ _ _ _ _ C false F G) in H; cbn [negb] in H ]; apply border_iff; destruct H as [H | H]; do 4 eexists; split; try exact H; [ exact E1 | rewrite E2; exact E3 | exact E1 | rewrite E2; exact E3 ].
  Qed.
  Lemma same_corners_alike : forall i j f g, nth_error fs i = Some f -> nth_error fs j = Some g -> (same_corners mixed i j <-> alike f g).
  Proof.
    intros i j f g E E'. unfold same_corners. cbn [faces located]. rewrite E, E'. split.
    - intros (f' & g' & X & Y & H). injection X as <-. injection Y as <-. exact H.
    - intro H. exists f, g. auto.
  Qed.

  Lemma overlaps_alike : overlaps_agree mixed -> overlap_alike pos fc unk tiles_of.
  Proof.
    intros H s F t k T G u l U x Hf _ HT Hg _ HU FT FU. destruct (index_of _ _ _ _ HT) as (i & _ & Ei & Pi). destruct (index_of _ _ _ _ HU) as (j & _ & Ej & Pj).
    apply in_full in FT, FU. destruct s; cbn [negb] in *.
    - apply (same_corners_alike i j T U Ei Ej). exact (H i j _ _ x Pi Pj FT FU).
    - apply alike_sym. apply (same_corners_alike j i U T Ej Ei). exact (H j i _ _ x Pj Pi FU FT).
  Qed.

  Hypothesis agree : forall s F t G u k T, fc s F t -> unk s F -> fc (negb s) G u -> unk (negb s) G -> tile s F k T ->
    (forall x, inside (tri T) x -> inside (tri u) x) -> exists l U, tile (negb s) G l U /\ alike T U.
  Hypothesis fair : forall s F t G u a b, fc s F t -> unk s F -> fc (negb s) G u -> a <> b ->
    has_vertex t a -> has_vertex t b -> has_vertex u a -> has_vertex u b ->
    exists G' u', fc (negb s) G' u' /\ unk (negb s) G' /\ has_vertex u' a /\ has_vertex u' b.

  Lemma incident_face : forall i v, Spec_mesh.incident fs i v -> exists f, nth_error fs i = Some f /\ has_vertex f v.
  Proof. intros i v (f & E & H). exists f. split; [ exact E | exact H ]. Qed.
  Lemma pos_point : forall s F k f v p, tile s F k f -> has_vertex f v -> nth_error (points mixed) v = Some p -> p = pos v.
  Proof.
    intros s F k f v p H Hv E. destruct (vert_point s F v (ct_vert _ _ _ _ _ C s F k f v H Hv)) as (q & Eq & ->). cbn [points located] in E. rewrite nth_error_map, Eq in E. cbn in E. congruence.
  Qed.

  Lemma side_vertices : forall f a b, nondegenerate (tri f) -> (let '(p, q, r) := f in (a = p /\ b = q) \/ (a = q /\ b = r) \/ (a = r /\ b = p)) -> has_vertex f a /\ has_vertex f b /\ a <> b.
  Proof.
    intros f a b N Sd. pose proof (distinct_corners pos f N) as Nd. destruct f as [ [p q] r]. inversion Nd as [ | ? ? N1 N2]; subst. inversion N2 as [ | ? ? N3 _]; subst. cbn in N1, N3, Sd. cbn.
    destruct Sd as [ [-> ->] | [ [-> ->] | [-> ->] ] ]; repeat split; auto; intuition congruence.
  Qed.

  Theorem whole_conforming : conforming L R mixed border.
  Proof.
    split.
    - split.
      + apply Forall_forall. cbn [faces points located]. intros f J. apply In_nth_error in J. destruct J as (i & E). destruct (key_of_face i f E) as (s & F & k & _ & H). destruct (tile_points s F k f H) as (t & A).
        rewrite map_length. assert (X : at_face pts f <> None) by congruence. apply in_range_of_some in X. destruct f as [ [a b] c]. exact X.
      + change (length ds = length fs). transitivity (length ks); [ symmetry; exact (Forall2_len _ _ _ ks_data) | exact (Forall2_len _ _ _ ks_faces) ].
    - intros i s T H. destruct (key_of_piece i s T H) as (F & k & f & _ & Hf & _ & ->). destruct (tile_fc s F k f Hf) as (t & Ht). apply nd_flat. exact (proj1 (tile_in _ _ _ _ _ C s F t k f Ht Hf)).
    - intros i s T H. destruct (key_of_piece i s T H) as (F & k & f & _ & Hf & _ & ->). destruct (tile_fc s F k f Hf) as (t & Ht). destruct (tile_in _ _ _ _ _ C s F t k f Ht Hf) as (N & I & O).
      destruct (fc_corners s F t Ht) as (u & Cu & Au). exists F, (tri t). split; [ | split ].
      + replace (operand L R s) with (located coords (mesh s)) by (destruct s; reflexivity). apply located_corners. exists u. split; [ exact Cu | exact (at_tri t u Au) ].
      + apply part_aligned; [ | exact I ]. apply (tl_turn _ _ (ct_tiles _ _ _ _ _ C s F t Ht)). apply in_map. exact (nth_error_In _ _ Hf).
      + intro x. rewrite !on_inside, !in_full. auto.
    - intros s x H. apply boundary_fc in H. destruct H as (F & t & Ht & I). destruct (tl_cover _ _ (ct_tiles _ _ _ _ _ C s F t Ht) x I) as (T & J & IT). apply in_map_iff in J. destruct J as (f & <- & J).
      apply In_nth_error in J. destruct J as (k & Hf). destruct (index_of s F k f Hf) as (i & _ & _ & Hp). exists i, (tri f). split; [ exact Hp | apply on_inside, IT ].
    - intros i j s T U x HT HU IT IU. destruct (key_of_piece i s T HT) as (F & k & f & Ei & Hf & _ & ->). destruct (key_of_piece j s U HU) as (G & l & g & Ej & Hg & _ & ->).
      apply in_full in IT. apply on_inside in IU. destruct (tile_fc s F k f Hf) as (t & Ht). destruct (tile_fc s G l g Hg) as (u & Hu).
      destruct (tile_in _ _ _ _ _ C s F t k f Ht Hf) as (_ & _ & O). destruct (tile_in _ _ _ _ _ C s G u l g Hu Hg) as (_ & I & _).
      pose proof (face_apart _ _ _ _ _ C s F G t u x Ht Hu (O x IT) (I x IU)). subst G. pose proof (tile_apart _ _ _ _ _ C s F t k l f g x Ht Hf Hg IT IU). subst l.
      symmetry. apply (proj1 (NoDup_nth_error ks) ks_nodup); [ apply nth_error_Some; congruence | congruence ].
    - intros i j s T U x HT HU IT IU. destruct (key_of_piece i s T HT) as (F & k & f & _ & Hf & Ei & ->). destruct (key_of_piece j _ U HU) as (G & l & g & _ & Hg & Ej & ->).
      apply in_full in IT. apply on_inside in IU. destruct (tile_fc s F k f Hf) as (t & Ht). destruct (tile_fc _ G l g Hg) as (u & Hu).
      apply (same_corners_alike i j f g Ei Ej). exact (open_alike _ _ _ _ _ C agree s F t k f G u l g x Ht Hf Hu Hg IT IU).
    - intros i j a b pa pb x s T Nab Ha Hb Ea Eb B HT IT. destruct (incident_face _ _ Ha) as (f & Ei & Fa). destruct (incident_face _ _ Hb) as (f' & Ei' & Fb). rewrite Ei in Ei'. injection Ei' as <-.
      destruct (key_of_face i f Ei) as (s' & F & k & _ & Hf). destruct (key_of_piece j s T HT) as (G & l & g & _ & Hg & Ej & ->). destruct (tile_fc _ F k f Hf) as (t & Ht). destruct (tile_fc _ G l g Hg) as (u & Hu).
      rewrite (pos_point _ _ _ _ _ _ Hf Fa Ea), (pos_point _ _ _ _ _ _ Hf Fb Eb) in B. apply open_between in B. apply on_inside in IT.
      destruct (edge_to_edge _ _ _ _ _ C agree s' F t k f s G u l g a b x Ht Hf Hu Hg Fa Fb Nab B IT) as [Ga Gb]. split; exists g; auto.
    - intros i s T a b pa pb x HT (f' & Ei' & Sd) Ea Eb B Ob. destruct (key_of_piece i s T HT) as (F & k & f & _ & Hf & Ei & ->). cbn [faces located] in Ei'. rewrite Ei in Ei'. injection Ei' as <-.
      destruct (tile_fc _ F k f Hf) as (t & Ht). pose proof (proj1 (tile_in _ _ _ _ _ C s F t k f Ht Hf)) as Nf.
      destruct (side_vertices f a b Nf Sd) as (Fa & Fb & Nab). rewrite (pos_point _ _ _ _ _ _ Hf Fa Ea), (pos_point _ _ _ _ _ _ Hf Fb Eb) in B. apply open_between in B. apply boundary_fc in Ob. destruct Ob as (G & u & Hu & I).
      destruct (side_meets _ _ _ _ _ C agree fair s F t k f G u a b x Ht Hf Hu Fa Fb Nab B I) as [(G' & N) | (G' & u' & l & g & Hu' & Hg & A)]; [ left; exact (border_make s F G' a b N) | right ].
      destruct (index_of _ _ _ _ Hg) as (j & _ & Ej & Hj). exists j, (tri g). split; [ exact Hj | ]. apply (same_corners_alike i j f g Ei Ej). exact A.
    - intros a b J. apply border_iff in J. destruct J as (F & G & i & j & N & E). pose proof (neighbours_ne _ _ _ (ct_nodup _ _ _ _ _ C true F G) N) as Nij.
      destruct (ct_edge _ _ _ _ _ C true F G i j N) as (k & f & Hf & Fi & Fj). destruct (index_of _ _ _ _ Hf) as (n & _ & En & _).
      destruct E as [ [E | E] _]; injection E as -> ->; (split; [ congruence | ]); exists n; split; exists f; auto.
  Qed.

  (** A border edge is an edge of a piece of each mesh. *)
  Lemma whole_border_shared : forall a b, In (a, b) border -> exists i j, i <> j /\
    Spec_mesh.incident fs i a /\ Spec_mesh.incident fs i b /\ Spec_mesh.incident fs j a /\ Spec_mesh.incident fs j b.
  Proof.
    intros a b J. apply border_iff in J. destruct J as (F & G & i & j & N & E).
    destruct (ct_edge _ _ _ _ _ C true F G i j N) as (k & f & Hf & Fi & Fj). destruct (index_of _ _ _ _ Hf) as (n & Kn & En & _).
    pose proof N as N'. rewrite <- (ct_sym _ _ _ _ _ C true F G) in N'.
    destruct (ct_edge _ _ _ _ _ C false G F i j N') as (l & g & Hg & Gi & Gj). destruct (index_of _ _ _ _ Hg) as (n' & Kn' & En' & _).
    exists n, n'. split.
    { intros <-. rewrite Kn in Kn'. discriminate. }
    destruct E as [ [E | E] _]; injection E as -> ->; (split; [ exists f; auto | ]); (split; [ exists f; auto | ]); split; exists g; auto.
  Qed.

  Lemma alike_triangles : forall f g, nondegenerate (tri f) -> nondegenerate (tri g) -> alike f g -> same_triangle (tri f) (tri g).
  Proof.
    intros f g Nf Ng E x. rewrite !on_inside, !in_full. assert (I : forall y, inside (tri f) y <-> inside (tri g) y) by (intro y; split; apply same_inside; intros v; apply E).
    split; [ apply I | ]. split; apply interior_part; try (intro y; apply I); assumption.
  Qed.
  Lemma vertex_side : forall i f a b, nth_error fs i = Some f -> has_vertex f a -> has_vertex f b -> a <> b -> Spec_mesh.side_of fs i a b \/ Spec_mesh.side_of fs i b a.
  Proof.
    intros i [ [p q] r] a b E Ha Hb N. cbn in Ha, Hb. unfold Spec_mesh.side_of. rewrite E.
    destruct Ha as [-> | [-> | ->] ], Hb as [-> | [-> | ->] ]; try congruence; [ left | right | right | left | left | right ]; eexists; (split; [ reflexivity | ]); cbn; auto.
  Qed.

  Variables A B : vec3 -> Prop.
  Theorem whole_starting : starting L R A B mixed border.
  Proof.
    split.
    - intros i s T md HT Ed. destruct (key_of_piece i s T HT) as (F & k & f & Ek & Hf & Ei & ->). destruct (tile_fc s F k f Hf) as (t & Ht).
      destruct (Forall2_nth_l _ _ _ _ _ ks_data Ek) as (md' & Ed' & (tg & d & Et & ->)). cbn [face_data located] in Ed. rewrite Ed in Ed'. injection Ed' as ->. cbn [tag].
      destruct (fc_corners s F t Ht) as (p & Cp & Ap). destruct (tag_right s F p Cp) as (tg' & Et' & Rt). rewrite Et in Et'. injection Et' as <-.
      assert (X : tg <> UNKNOWN -> f = t). { intro N. apply (single _ _ _ _ _ C s F t k f Ht); [ rewrite unk_tag, Et; congruence | exact Hf ]. }
      assert (Y : forall G q, face_corners (mesh (negb s)) G q -> turned p q \/ turned_over p q -> exists j g, part mixed j (negb s) (tri g) /\ same_triangle (tri t) (tri g) /\ tri g = triangle_of coords q).
      { intros G q Cq Tq. destruct (corners_fc _ G q Cq) as (g & Hg & Ag). pose proof (turned_points p q Tq) as Hpq.
        assert (Ag' : alike t g) by exact (points_alike s F t (negb s) G g p q Ht Hg Ap Ag Hpq).
        assert (Ng : ~ unk (negb s) G). { intro U. apply (ct_unk _ _ _ _ _ C (negb s) G g F t Hg U); [ rewrite negb_involutive; exact Ht | apply alike_sym, Ag' ]. }
        assert (Hg0 : tile (negb s) G 0 g). { unfold Proof_cut_faces.tile. rewrite (ct_single _ _ _ _ _ C _ _ _ Hg Ng). reflexivity. }
        destruct (index_of _ _ _ _ Hg0) as (j & _ & _ & Hj). exists j, g. split; [ exact Hj | ]. split; [ exact (alike_triangles t g (ct_nd _ _ _ _ _ C _ _ _ Ht) (ct_nd _ _ _ _ _ C _ _ _ Hg) Ag') | exact (at_tri g q Ag) ]. }
      destruct tg; [ left; reflexivity | right .. ]; cbn [right_tag] in Rt; try (destruct Rt); (rewrite X by discriminate); cbn [says].
      + destruct H as (q & Cq & Tq). destruct (Y _ q Cq (or_introl Tq)) as (j & g & Hj & Sm & Eg). exists j, (tri g). split; [ exact Hj | ]. split; [ exact Sm | ]. rewrite Eg, (at_tri t p Ap). apply turned_aligned, Tq.
      + destruct H as (q & Cq & Tq). destruct (Y _ q Cq (or_intror Tq)) as (j & g & Hj & Sm & Eg). exists j, (tri g). split; [ exact Hj | ]. split; [ exact Sm | ]. rewrite Eg, (at_tri t p Ap). apply turned_against, Tq.
    - intros md J. cbn [face_data located] in J. apply In_nth_error in J. destruct J as (i & Ed). destruct (Forall2_nth_r _ _ _ _ _ ks_data Ed) as ([ [s F] k] & Ek & (tg & d & Et & ->)). cbn [tag].
      destruct (piece_of_key i s F k Ek) as (f & _ & Hf & _). destruct (tile_fc s F k f Hf) as (t & Ht). destruct (fc_corners s F t Ht) as (p & Cp & _). destruct (tag_right s F p Cp) as (tg' & Et' & Rt).
      rewrite Et in Et'. injection Et' as <-. split; intros ->; exact Rt.
    - intros i j (a & b & (f & Ei & Sd) & Ia & Ib & Nb) Ui. cbn [faces located] in *. destruct (incident_face _ _ Ia) as (g & Ej & Ga). destruct (incident_face _ _ Ib) as (g' & Ej' & Gb). rewrite Ej in Ej'. injection Ej' as <-.
      destruct (key_of_face i f Ei) as (s & F & k & Ek & Hf). destruct (key_of_face j g Ej) as (s' & G & l & El & Hg). apply (untagged_key i s F k Ek) in Ui. apply (untagged_key j s' G l El).
      destruct (tile_fc _ F k f Hf) as (t & Ht). destruct (tile_fc _ G l g Hg) as (u & Hu). destruct (ct_tag _ _ _ _ _ C s' G u Hu) as [Ug | (Ng & _)]; [ exact Ug | exfalso ].
      pose proof (proj1 (tile_in _ _ _ _ _ C s F t k f Ht Hf)) as Nf. destruct (side_vertices f a b Nf Sd) as (Fa & Fb & Nab).
      destruct (tags_apart _ _ _ _ _ C agree fair s F t k f s' G u l g a b Ht Ui Hf Hu Ng Hg Fa Fb Nab Ga Gb) as (G' & N). exact (Nb (border_make s F G' a b N)).
    - intros i j s T U HT Ui HU Sc. destruct (key_of_piece i s T HT) as (F & k & f & Ek & Hf & Ei & ->). destruct (key_of_piece j _ U HU) as (G & l & g & El & Hg & Ej & ->).
      apply (untagged_key i s F k Ek) in Ui. apply (same_corners_alike i j f g Ei Ej) in Sc. destruct (tile_fc _ F k f Hf) as (t & Ht). destruct (tile_fc _ G l g Hg) as (u & Hu).
      set (bd := fun a b => In (make_edge a b) border).
      assert (bd_dec : forall a b, bd a b \/ ~ bd a b). { intros a b. assert (dec : forall x y : nat * nat, {x = y} + {x <> y}) by (decide equality; apply Nat.eq_dec). destruct (in_dec dec (make_edge a b) border); auto. }
      destruct (twin_reaches _ _ _ _ _ C agree bd bd_dec border_make s F t k f G u l g Ht Ui Hf Hu Hg Sc) as (k' & Path & (f' & a & b & Hf' & Fa & Fb & Nab & Bd)).
      destruct (index_of s F k' f' Hf') as (i' & Ek' & Ei' & _). exists i'. destruct (make_edge a b) as [a' b'] eqn:Em. exists a', b'.
      split; [ | split; [ | split ] ].
      + clear - Path Ek Ek' C tile_fc fc_range ks_all ks_nodup ks_faces ks_data at_tri vert_point. revert i Ek i' Ek'.
        assert (Uq : forall x y z, nth_error ks x = Some z -> nth_error ks y = Some z -> x = y).
        { intros x y z Hx Hy. apply (proj1 (NoDup_nth_error ks) ks_nodup); [ apply nth_error_Some; congruence | congruence ]. }
        apply clos_rt_rt1n in Path. induction Path as [k1 | k1 k2 k3 St P1 IH]; intros i Ei i' Ei'.
        * rewrite (Uq i i' _ Ei Ei'). apply rt_refl.
        * destruct St as (T & U & a & b & HT & HU & Ta & Tb & Nab & Ua & Ub & Nb). destruct (index_of s F k1 T HT) as (x & X1 & X2 & _). destruct (index_of s F k2 U HU) as (y & Y1 & Y2 & _).
          eapply rt_trans; [ | exact (IH y Y1 i' Ei') ]. apply rt_step. rewrite (Uq i x _ Ei X1). cbn [faces located].
          destruct (vertex_side x T a b X2 Ta Tb Nab) as [Sd | Sd]; [ exists a, b | exists b, a; unfold bd in Nb; rewrite (proj2 (edge_make a b)) in Nb ].
          all: split; [ exact Sd | ]; split; [ exists U; auto | ]; split; [ exists U; auto | exact Nb ].
      + cbn [faces located]. exists f'. split; [ exact Ei' | ]. assert (E : a' = a \/ a' = b). { unfold make_edge in Em. destruct (b <? a); injection Em as <- <-; auto. } destruct E as [-> | ->]; assumption.
      + cbn [faces located]. exists f'. split; [ exact Ei' | ]. assert (E : b' = a \/ b' = b). { unfold make_edge in Em. destruct (b <? a); injection Em as <- <-; auto. } destruct E as [-> | ->]; assumption.
      + rewrite <- Em. exact Bd.
  Qed.
End Whole.

(** ** The mixed mesh, piece by piece *)
Section Keys.
  Context {P D : Type}.
  Variable cdt_faces : triangulation P -> list (nat * nat * nat).
  Variables left right : soup P D.
  Variable cf : corefined P.
  Notation mesh s := (mesh_ left right s).
  Notation tiles s F := (tiles_ cdt_faces left right cf s F).
  Notation tags s := (tags_ cf s).
  Hypothesis Hdata : forall s, length (face_data (mesh s)) = num_faces (mesh s).
  Hypothesis Htl : forall s, length (tags s) = num_faces (mesh s).
  Hypothesis Hget : forall s F, F < num_faces (mesh s) -> get_faces cdt_faces (mesh s) F (tris_ cf s) (ids_ cf s) = Ok (tiles s F).

  Lemma get_ok : forall s F, F < num_faces (mesh s) -> exists t d,
    (if s then get_left_faces cdt_faces cf left F else get_right_faces cdt_faces cf right F) = Ok (t, tiles s F) /\ nth_error (tags s) F = Some t /\ nth_error (face_data (mesh s)) F = Some d.
  Proof.
    intros s F H. destruct (nth_error (tags s) F) as [t | ] eqn:Et; [ | apply nth_error_None in Et; rewrite Htl in Et; lia ].
    destruct (nth_error (face_data (mesh s)) F) as [d | ] eqn:Ed; [ | apply nth_error_None in Ed; rewrite Hdata in Ed; lia ]. exists t, d. split; [ | auto ].
    pose proof (Hget s F H) as G. destruct s; unfold get_left_faces, get_right_faces; cbn [tags_ mesh_ tris_ ids_] in *; rewrite (proj2 (vec_at_ok _ _ _ _) Et); cbn [bind]; rewrite G; reflexivity.
  Qed.

  Lemma mixed_keys : exists ks fs ds, mixed_mesh cdt_faces cf left right = Ok (finalize (mesh_of (cf_points cf) fs ds)) /\ NoDup ks /\
    (forall s F k, In (s, F, k) ks <-> F < num_faces (mesh s) /\ k < length (tiles s F)) /\
    Forall2 (fun (x : key) f => let '(s, F, k) := x in tile (tiles_ cdt_faces left right cf) s F k f) ks fs /\
    Forall2 (fun (x : key) md => let '(s, F, k) := x in exists t d, nth_error (tags s) F = Some t /\ md = mk_mixed s t d) ks ds.
  Proof.
    destruct (mix_faces_keys left (get_left_faces cdt_faces cf left) true (fun F => tiles true F) (tags true) (get_ok true) [] []) as (fs1 & ds1 & E1 & F1 & D1).
    destruct (mix_faces_keys right (get_right_faces cdt_faces cf right) false (fun F => tiles false F) (tags false) (get_ok false) fs1 ds1) as (fs2 & ds2 & E2 & F2 & D2).
    set (k1 := keys_of true _ _) in *. set (k2 := keys_of false _ _) in *. exists (k1 ++ k2), (fs1 ++ fs2), (ds1 ++ ds2).
    assert (S1 : forall s F k, In (s, F, k) k1 <-> s = true /\ F < num_faces left /\ k < length (tiles true F)) by (intros s F k; unfold k1; rewrite in_keys, in_seq; intuition).
    assert (S2 : forall s F k, In (s, F, k) k2 <-> s = false /\ F < num_faces right /\ k < length (tiles false F)) by (intros s F k; unfold k2; rewrite in_keys, in_seq; intuition).
    assert (W : forall {B} (R R' : key -> B -> Prop) l l', (forall a b, In a l -> R a b -> R' a b) -> Forall2 R l l' -> Forall2 R' l l').
    { clear. intros B R R' l l' H F. induction F as [ | a b l l' X F IH]; constructor; [ apply H; [ left; reflexivity | exact X ] | apply IH; intros; apply H; [ right | ]; assumption ]. }
    split; [ | split; [ | split; [ | split ] ] ].
    - unfold mixed_mesh. rewrite E1. cbn [bind app]. rewrite E2. reflexivity.
    - apply NoDup_app_disjoint; [ apply nodup_keys, seq_NoDup | apply nodup_keys, seq_NoDup | ]. intros [ [s F] k] J1 J2. apply S1 in J1. apply S2 in J2. destruct J1 as [-> _], J2 as [X _]. discriminate X.
    - intros s F k. rewrite in_app_iff, S1, S2. destruct s; cbn [mesh_]; intuition discriminate.
    - apply Forall2_app; (eapply W; [ | eassumption ]); intros [ [s F] k] f J H; [ apply S1 in J | apply S2 in J ]; destruct J as [-> _]; exact H.
    - apply Forall2_app; (eapply W; [ | eassumption ]); intros [ [s F] k] md J (t & d & A & _ & B); [ apply S1 in J | apply S2 in J ]; destruct J as [-> _]; exists t, d; auto.
  Qed.
End Keys.
