(** * Running the classification by threads that overlap *)
From Coq Require Import List Arith Bool Lia QArith Lqa Permutation Relation_Operators.
From Verif Require Import Model_base Model_soup Model_mesh Model_geometry Model_boolean Model_classify Model_local Model_side Model_corefine Model_mix Model_schedule.
From Verif Require Import Spec_boolean Spec_candidates Spec_side Spec_solid Spec_mesh Spec_classify Spec_radial Spec_local Spec_conform Spec_open.
From Verif Require Import Proof_base Proof_affine Proof_small Proof_walk Proof_arranged Proof_solid Proof_mesh Proof_propagate Proof_classify.
From Verif Require Import Proof_edge Proof_conform Proof_border_edge Proof_twins Proof_conform_run.
From Verif Require Import Proof_schedule Proof_schedule_propagate Proof_schedule_local.
Import ListNotations.
Local Open Scope nat_scope.

Lemma has_untagged_safe : forall D truth E l mine (ds : list (mixed_data D)), good truth ds -> owned mine ds -> (forall f, In f l -> f < length ds) ->
  safe truth E (fun b mine' ds' => mine' = mine /\ (b = false -> forall f, In f l -> known ds' f)) (p_has_untagged l) mine ds.
Proof.
  intros D truth E. induction l as [ | f l IH ]; intros mine ds G O Hl; cbn [p_has_untagged safe].
  - intros ds' _. split; [ reflexivity | ]. intros _ f [].
  - intros ds1 (X1 & G1 & O1). assert (Hf : f < length ds1) by (rewrite (proj1 X1); apply Hl; now left).
    destruct (nth_error ds1 f) as [ d | ] eqn:Ed; [ | apply nth_error_None in Ed; lia ]. exists d. split; [ reflexivity | ].
    destruct (face_tag_eqb_spec (tag d) UNKNOWN) as [ Z | Z ]; cbn [safe].
    + intros ds2 _. split; [ reflexivity | discriminate ].
    + eapply safe_conseq; [ | apply IH; auto ].
      * cbn beta. intros b mine' ds2 X2 _ _ _ (-> & H). split; [ reflexivity | ]. intros Hb g [ <- | Hg ]; [ | auto ].
        apply (known_ext _ _ _ X2). exists d. auto.
      * intros g Hg. rewrite (proj1 X1). apply Hl. now right.
Qed.

Section Threads.
  Context {P D : Type}.
  Variable coords : P -> vec3.
  Notation loc := (Spec_solid.located coords).
  Variables (base1 base2 : vec3 -> vec3) (sort_around : list Model_local.around -> list Model_local.around).
  Variable centroid : P -> P -> P -> P.
  Variable side_of : soup P D -> P -> res oriented_side.
  Variables (L R : soup P D) (A B : vec3 -> Prop) (border : list edge).
  Variable m0 : mesh P (mixed_data D).
  Variable Dom : vec3 -> Prop.
  Hypothesis HK : open_convex Dom.
  Hypothesis HA : solid_in Dom (loc L) A.
  Hypothesis HB : solid_in Dom (loc R) B.
  Hypothesis Hbases : plane_bases base1 base2.
  Hypothesis Hsort : sorts sort_around.
  Hypothesis HF : finalized m0.
  Notation m := (loc (take_soup m0)).
  Hypothesis C : conforming (loc L) (loc R) m border.
  Hypothesis St : starting (loc L) (loc R) A B m border.
  Notation part := (part m).
  Notation says := (says (loc L) (loc R) A B m).
  Variable truth : nat -> face_tag.
  Hypothesis Htruth : forall i s T, part i s T -> says s (truth i) T.
  Hypothesis Hshared : shared_in Dom m border.
  Notation ds0 := (m_data m0).
  Notation run_inv := (run_inv border m0 truth).
  Notation kept := (kept m0).
  Notation nb := (neighbour (m_faces m0) border).

  Lemma truth_nb : forall f g, nb f g -> truth f = truth g.
  Proof. exact (truth_neighbour coords base1 base2 sort_around L R A B border m0 Dom HK HA HB Hbases Hsort HF C truth Htruth Hshared). Qed.

  Lemma Hnd : Spec_mesh.nondegenerate (m_faces m0).
  Proof. exact (proj2 (proj2 (wf_run coords L R border m0 C ds0 (data_of_m0 m0)))). Qed.
  Lemma len_m0 : length ds0 = length (m_faces m0).
  Proof. exact (proj1 (wf_run coords L R border m0 C ds0 (data_of_m0 m0))). Qed.

  Lemma ext_kept : forall ds ds', kept ds -> ext ds ds' -> kept ds'.
  Proof.
    intros ds ds' (K1 & K2) (X1 & X2). split; [ congruence | ]. intros g d Hg. destruct (K2 g d Hg) as (d1 & E1 & E2 & E3).
    destruct (X2 g d1 E1) as (d2 & F1 & F2 & F3 & _). exists d2. split; [ exact F1 | ]. split; congruence.
  Qed.

  Lemma good_sound : forall ds pre, run_inv ds pre -> good truth ds.
  Proof.
    intros ds pre I g d Hg. pose proof (ri_kept _ _ _ _ _ I) as K. destruct (data_part coords L R border m0 C ds g d K Hg) as (T & HT).
    split; [ intro Z; pose proof (Htruth g _ T HT) as Y; rewrite Z in Y; exact Y | ].
    apply (ri_sound _ _ _ _ _ I g (tag d)). exists d. auto.
  Qed.

  (** *** The local phase *)
  Definition edge_post (e : edge) (w : warnings) (mine : list nat) (ds : list (mixed_data D)) : Prop :=
    w = no_warnings /\ (forall f, In f mine -> closed_at m0 border ds f) /\
    (forall f, incident (m_faces m0) f (fst e) -> incident (m_faces m0) f (snd e) ->
       truth f = COPLANAR \/ truth f = OPPOSITE -> known ds f).

  Lemma edge_safe : forall E a b, In (a, b) border ->
    safe truth E (edge_post (a, b)) (p_edge coords base1 base2 sort_around m0 border (a, b)) [] ds0.
  Proof.
    intros E a b He.
    pose proof (run_init coords L R A B border m0 C St truth Htruth) as I0. pose proof (good_sound _ _ I0) as G0.
    destruct (cf_border _ _ _ _ C a b He) as (Nab & i & Ia & Ib).
    destruct (at_edge coords base1 base2 L R A B border m0 Dom HK HA HB Hbases HF C truth Htruth ds0 a b i (data_of_m0 m0) Nab Ia Ib)
      as (pa & pb & Ha & Hb & Hfin & W & Hleft & Hcol & Hn & Hsolid).
    specialize (Hsolid (Hshared a b pa pb Ha Hb (or_introl He))).
    set (mm := Model_mix.located coords (with_data m0 ds0)) in *.
    destruct (collect_ok _ mm a b base1 base2 sort_around Hfin W Nab Hbases Hsort pa pb Ha Hb Hcol) as (l & fs0 & El & Em & Harr & Hl).
    { exists i, a. auto. }
    { exists i, b. auto. }
    destruct (Hsolid _ Harr) as (HSE & inside & HE). pose proof Harr as (HND & Hin & _ & HSort).
    change (m_faces mm) with (m_faces m0) in *.
    set (fs := sort_around fs0) in *.
    assert (Hfl : forall f, In f (map fi fs) -> f < length ds0).
    { intros f Hf. apply Hin in Hf. destruct Hf as ((t & Ef & _) & _). rewrite len_m0. apply nth_error_Some. congruence. }
    assert (Tw : forall (ds : list (mixed_data D)) f, overlaps_known fs ds -> incident (m_faces m0) f a -> incident (m_faces m0) f b ->
      truth f = COPLANAR \/ truth f = OPPOSITE -> known ds f).
    { intros ds f Hov Fa Fb Ht. assert (Hif : In f (map fi fs)) by (apply Hin; auto).
      apply in_map_iff in Hif. destruct Hif as (h & <- & Hh). apply In_nth_error in Hh. destruct Hh as (k & Hk).
      assert (Hkl : k < length fs) by (apply nth_error_Some; congruence).
      assert (EF : Proof_local.F fs k = h) by (pose proof (Proof_local.F_nth fs k Hkl) as Z; congruence).
      rewrite <- EF. apply Hov; [ exact Hkl | ].
      exact (twin_overlapping coords L R A B border m0 C truth Htruth ds0 a b pa pb _ _ fs k h (data_of_m0 m0) Nab Hleft Ha Hb Harr Hk Ht). }
    assert (Hfm : finalized (Model_mix.located coords m0)) by (apply (finalized_indices _ _ _ _ m0); auto).
    unfold p_edge, p_locally, pure.
    change (faces_around_edge (Model_mix.located coords m0) (a, b)) with (faces_around_edge mm (a, b)). rewrite El. cbn [pbind].
    eapply safe_bind; [ exact G0 | intros f [] | apply has_untagged_safe; [ exact G0 | intros f [] | intros f Hf; apply Hfl; now apply Hl ] | ].
    cbn beta. intros un mine1 ds1 X1 G1 O1 _ (-> & Hun). destruct un; cbn [negb].
    2: { cbn [safe]. intros ds2 (X2 & _). split; [ reflexivity | ]. split; [ intros f [] | ]. cbn [fst snd]. intros f Fa Fb _.
         apply (known_ext _ _ _ X2). apply (Hun eq_refl). apply Hl, Hin. auto. }
    cbn [fst snd].
    assert (Ea : vec_at (m_points (Model_mix.located coords m0)) a = Ok pa) by (unfold vec_at; change (nth_error (m_points (Model_mix.located coords m0)) a) with (nth_error (points m) a); rewrite Ha; reflexivity).
    assert (Eb : vec_at (m_points (Model_mix.located coords m0)) b = Ok pb) by (unfold vec_at; change (nth_error (m_points (Model_mix.located coords m0)) b) with (nth_error (points m) b); rewrite Hb; reflexivity).
    rewrite Ea, Eb. cbn [pbind].
    change (mapM (face_around (Model_mix.located coords m0) (a, b) pa (base1 (vsub pb pa)) (base2 (vsub pb pa))) l)
      with (mapM (face_around mm (a, b) pa (base1 (vsub pb pa)) (base2 (vsub pb pa))) l).
    rewrite Em. cbn [pbind]. fold fs.
    assert (L1 : length ds1 = length ds0) by exact (proj1 X1).
    eapply safe_bind; [ exact G1 | exact O1 | apply (around_safe fs (operand_of mm) truth inside HSE HSort HE E (length ds0)); auto | ].
    { intros k Hk. apply Hfl. apply in_map. now apply nth_In. }
    cbn beta. intros _ mine2 ds2 X2 G2 O2 _ (L2 & W2 & Ov2).
    set (Inv := fun (pre : list Model_local.around) (w : warnings) (mine : list nat) (ds : list (mixed_data D)) =>
      w = no_warnings /\ length ds = length ds0 /\ overlaps_known fs ds /\
      forall post, fs = pre ++ post -> forall f, In f mine -> closed_at m0 border ds f \/ In f (map fi post)).
    assert (InvX : forall pre w mine ds ds', ext ds ds' -> Inv pre w mine ds -> Inv pre w mine ds').
    { intros pre w mine ds ds' X (K1 & K2 & K3 & K4). split; [ exact K1 | ]. split; [ rewrite (proj1 X); exact K2 | ].
      split; [ exact (overlaps_known_ext _ _ _ X K3) | ]. intros post Ep f Hf.
      destruct (K4 post Ep f Hf) as [ Z | Z ]; [ left; exact (closed_ext _ _ _ _ _ X Z) | auto ]. }
    apply (safe_conseq truth _ E (Inv fs)).
    { intros w mine ds X G O _ (K1 & K2 & K3 & K4). split; [ exact K1 | ]. split.
      - intros f Hf. destruct (K4 [] ltac:(now rewrite app_nil_r) f Hf) as [ Z | [] ]. exact Z.
      - cbn [fst snd]. intros f Fa Fb Ht. now apply Tw. }
    apply (safe_fold truth _ _ E Inv); auto.
    - split; [ reflexivity | ]. split; [ exact L2 | ]. split; [ exact Ov2 | ]. intros post Ep f Hf. cbn [app] in Ep. rewrite <- Ep. right. now apply W2.
    - intros pre w mine ds ds' (X & _). now apply InvX.
    - intros pre x post w mine ds Efs X G O HI. unfold p_propagate_step. cbn [safe]. intros ds3 (X3 & G3 & O3).
      pose proof (InvX _ _ _ _ _ X3 HI) as HI3. pose proof HI3 as (-> & L3 & Ov3 & M3).
      assert (Hx : fi x < length ds3). { rewrite L3. apply Hfl. rewrite Efs. apply in_map. apply in_app_iff. right. now left. }
      destruct (nth_error ds3 (fi x)) as [ d | ] eqn:Ed; [ | apply nth_error_None in Ed; lia ]. exists d. split; [ reflexivity | ].
      assert (Next : forall post', fs = (pre ++ [x]) ++ post' -> post' = post).
      { intros post' E'. rewrite <- app_assoc in E'. rewrite Efs in E'. apply app_inv_head in E'. cbn [app] in E'. congruence. }
      destruct (face_tag_eqb_spec (tag d) UNKNOWN) as [ Z | Z ].
      + cbn [safe]. intros ds4 (X4 & _). pose proof (InvX _ _ _ _ _ X4 HI3) as (_ & L4 & Ov4 & M4).
        split; [ reflexivity | ]. split; [ exact L4 | ]. split; [ exact Ov4 | ]. intros post' E' f Hf. rewrite (Next _ E').
        destruct (M4 (x :: post) Efs f Hf) as [ Y | [ Y | Y ] ]; auto. exfalso. subst f.
        destruct (O3 _ Hf) as (d' & Q1 & Q2). congruence.
      + eapply safe_bind; [ exact G3 | exact O3 | | ].
        * apply (propagate_safe (Model_mix.located coords m0) border truth Hfm truth_nb E (fun f => In f (map fi post))); auto.
          -- rewrite L3. exact len_m0.
          -- exists d. auto.
          -- intros f Hf. destruct (M3 (x :: post) Efs f Hf) as [ Y | [ Y | Y ] ]; auto.
        * cbn beta. intros lw mine' ds4 X4 G4 O4 Hi (-> & M4 & _). cbn [safe]. intros ds5 (X5 & _).
          assert (X35 : ext ds3 ds5) by exact (ext_trans _ _ _ X4 X5).
          split; [ reflexivity | ]. split; [ rewrite (proj1 X35); exact L3 | ]. split; [ exact (overlaps_known_ext _ _ _ X35 Ov3) | ].
          intros post' E' f Hf. rewrite (Next _ E'). destruct (M4 f Hf) as [ Y | Y ]; [ left; exact (closed_ext _ _ _ _ _ X5 Y) | auto ].
  Qed.

  Lemma no_warnings_all : forall ws, (forall w, In w ws -> w = no_warnings) -> fold_left warn_or ws no_warnings = no_warnings.
  Proof.
    induction ws as [ | w ws IH ]; intros H; [ reflexivity | ]. cbn [fold_left]. rewrite (H w (or_introl eq_refl)).
    apply IH. intros w' Hw. apply H. now right.
  Qed.

  Lemma known_not_unknown : forall (ds : list (mixed_data D)) f, known ds f -> ~ tagged (with_data m0 ds) f UNKNOWN.
  Proof. intros ds f (d & E1 & N) (d' & E2 & U). cbn [with_data m_data] in E2. congruence. Qed.

  Lemma local_phase : forall order r, (forall e, In e order -> In e border) ->
    parallel (map (p_edge coords base1 base2 sort_around m0 border) order) ds0 r ->
    exists ds, r = Ok (ds, no_warnings) /\ run_inv ds order.
  Proof.
    intros order r Ho Hp. pose proof (run_init coords L R A B border m0 C St truth Htruth) as I0. pose proof (good_sound _ _ I0) as G0.
    assert (Safe : forall i p, nth_error (map (p_edge coords base1 base2 sort_around m0 border) order) i = Some p ->
      safe truth (fun _ => False) (edge_post (nth i order (0, 0))) p [] ds0).
    { intros i p Hi. rewrite nth_error_map in Hi. destruct (nth_error order i) as [ [a b] | ] eqn:Ei; [ | discriminate ]. injection Hi as <-.
      rewrite (nth_error_nth _ _ _ Ei). apply edge_safe. apply Ho. exact (nth_error_In _ _ Ei). }
    destruct (parallel_safe truth (fun _ => False) (fun i => edge_post (nth i order (0, 0))) _ ds0 r G0 Safe Hp)
      as [ (ds & ws & mss & -> & G & X & Lw & Hc & Lm & HQ) | (e & _ & []) ].
    - rewrite map_length in Lw, Lm. exists ds.
      assert (HQ' : forall i mine, nth_error mss i = Some mine -> exists w, nth_error ws i = Some w /\ edge_post (nth i order (0, 0)) w mine ds).
      { intros i mine Hm. assert (i < length mss) by (apply nth_error_Some; congruence).
        destruct (nth_error ws i) as [ w | ] eqn:Ew; [ | apply nth_error_None in Ew; lia ]. exists w. split; [ reflexivity | ]. exact (proj1 (HQ i w mine Ew Hm)). }
      split.
      { f_equal. f_equal. apply no_warnings_all. intros w Hw. apply In_nth_error in Hw. destruct Hw as (i & Hw).
        destruct (nth_error mss i) as [ mine | ] eqn:Em; [ | apply nth_error_None in Em; assert (i < length ws) by (apply nth_error_Some; congruence); lia ].
        exact (proj1 (proj1 (HQ i w mine Hw Em))). }
      split.
      + exact (ext_kept _ _ (data_of_m0 m0) X).
      + intros g t (d & Hd & <-). exact (proj2 (G g d Hd)).
      + intros f d Hd Nu. apply known_not_unknown. apply (known_ext _ _ _ X). exists d. auto.
      + intros f g Hn (d & Hd & Hu). cbn [with_data m_data m_faces] in *. 
        assert (Hfl : f < length ds0) by (rewrite <- (proj1 X); apply nth_error_Some; congruence).
        assert (Hu0 : untagged m f).
        { destruct (nth_error ds0 f) as [ d0 | ] eqn:E0; [ | apply nth_error_None in E0; lia ]. exists d0. split; [ exact E0 | ].
          destruct (face_tag_eqb_spec (tag d0) UNKNOWN) as [ Q | Q ]; [ exact Q | ].
          destruct (known_ext _ _ f X (ex_intro _ d0 (conj E0 Q))) as (d' & Z1 & Z2). congruence. }
        assert (Hg : g < length ds).
        { rewrite (proj1 X), len_m0. destruct Hn as (a & b & _ & (t & Z & _) & _). apply nth_error_Some. congruence. }
        destruct (nth_error ds g) as [ dg | ] eqn:Eg; [ | apply nth_error_None in Eg; lia ]. exists dg. split; [ exact Eg | ].
        destruct (face_tag_eqb_spec (tag dg) UNKNOWN) as [ Q | Q ]; [ exact Q | exfalso ].
        destruct (Hc g (ex_intro _ dg (conj Eg Q))) as [ (d1 & Z1 & Z2) | (i & mine & Hm & Hin) ].
        * destruct (st_apart _ _ _ _ _ _ St f g Hn Hu0) as (d2 & Y1 & Y2).
          pose proof (eq_trans (eq_sym Z1) Y1) as Y3. congruence.
        * destruct (HQ' i mine Hm) as (w & _ & _ & Hcl & _). assert (Kf : known ds f) by (apply (Hcl g Hin); apply neighbour_sym; [ exact Hnd | exact Hn ]).
          destruct Kf as (d' & Z1 & Z2). congruence.
      + intros a b f Hin Fa Fb Ht. apply known_not_unknown. apply In_nth_error in Hin. destruct Hin as (i & Hi).
        assert (i < length mss) by (rewrite Lm; apply nth_error_Some; intro Z; pose proof (eq_trans (eq_sym Hi) Z) as Z1; discriminate).
        destruct (nth_error mss i) as [ mine | ] eqn:Em; [ | apply nth_error_None in Em; lia ].
        destruct (HQ' i mine Em) as (w & _ & _ & _ & Htw). rewrite (nth_error_nth _ _ _ Hi) in Htw. cbn [fst snd] in Htw. auto.
  Qed.
  Lemma local_writes : forall order ps' ds' i f t k, (forall e, In e order -> In e border) ->
    steps (map (p_edge coords base1 base2 sort_around m0 border) order, ds0) (ps', ds') ->
    nth_error ps' i = Some (Write f t k) -> t = truth f /\ t <> UNKNOWN.
  Proof.
    intros order ps' ds' i f t k Ho H Hi. pose proof (run_init coords L R A B border m0 C St truth Htruth) as I0. pose proof (good_sound _ _ I0) as G0.
    destruct (together_steps truth _ (fun _ => False) (fun i => edge_post (nth i order (0, 0))) ds0 _ _ H) as (G & X & mss & El & _ & S).
    { split; [ exact G0 | ]. split; [ apply ext_refl | ]. exists (repeat [] (length order)). rewrite map_length. split; [ apply repeat_length | ].
      split; [ intros g Hg; now left | ]. intros j p mine Hj Hm. apply nth_error_repeat_nil in Hm. subst mine. split; [ | intros g [] ].
      rewrite nth_error_map in Hj. destruct (nth_error order j) as [ [a b] | ] eqn:Ej; [ | discriminate ]. injection Hj as <-.
      rewrite (nth_error_nth _ _ _ Ej). apply edge_safe. apply Ho. exact (nth_error_In _ _ Ej). }
    destruct (nth_error mss i) as [ mine | ] eqn:Em; [ | apply nth_error_None in Em; assert (i < length ps') by (apply nth_error_Some; congruence); lia ].
    destruct (S i _ mine Hi Em) as (Sw & O). cbn [safe] in Sw. destruct (Sw ds' (stage_refl truth mine ds' G O)) as (Hl & -> & _).
    split; [ reflexivity | ]. destruct (nth_error ds' f) as [ d | ] eqn:Ed; [ | apply nth_error_None in Ed; lia ]. exact (proj1 (G f d Ed)).
  Qed.

  (** *** The global phase *)
  Hypothesis Hcentroid : forall p q r, in_open_triangle (coords (centroid p q r)) (coords p) (coords q) (coords r).
  Hypothesis Hsides : forall s x, Dom (coords x) -> ~ on_boundary (operand (loc L) (loc R) s) (coords x) ->
    side_of (if s then L else R) x = Throw RuntimeError \/
    ((member_of A B s (coords x) -> side_of (if s then L else R) x = Ok NEGATIVE_SIDE) /\
     (~ member_of A B s (coords x) -> side_of (if s then L else R) x = Ok POSITIVE_SIDE)).
  Notation gave_up := (gave_up coords side_of L R Dom).

  Lemma unknown_truth : forall ds order, set_elements border order -> run_inv ds order ->
    forall f, tagged (with_data m0 ds) f UNKNOWN -> truth f = EXTERIOR \/ truth f = INTERIOR.
  Proof.
    intros ds order (_ & Ho) I f Hf. pose proof (ri_kept _ _ _ _ _ I) as K.
    destruct Hf as (d & Hd & Ht). cbn [with_data m_data] in Hd.
    destruct (data_part coords L R border m0 C ds f d K Hd) as (T & HT).
    assert (N : ~ (truth f = COPLANAR \/ truth f = OPPOSITE)).
    { intros Z. destruct (proj1 (twin_tag _ _ A B m border C f _ T _ HT (Htruth f _ T HT)) Z) as (j & U & HU & HC).
      assert (Hun : untagged m f).
      { destruct (nth_error ds0 f) as [ d1 | ] eqn:E1.
        - destruct (face_tag_eqb_spec (tag d1) UNKNOWN) as [ Q | Q ]; [ exists d1; auto | ]. exfalso.
          exact (ri_tagged _ _ _ _ _ I f d1 E1 Q (ex_intro _ d (conj Hd Ht))).
        - apply nth_error_None in E1. assert (f < length ds) by (apply nth_error_Some; congruence). rewrite (proj1 K) in *. lia. }
      destruct (st_reach _ _ _ _ _ _ St f j _ T U HT Hun HU HC) as (k & a & b & Hch & Ka & Kb & Hb).
      assert (Ch : forall x y, clos_refl_trans nat nb x y ->
        truth x = truth y /\ (tagged (with_data m0 ds) x UNKNOWN -> tagged (with_data m0 ds) y UNKNOWN)).
      { intros x y Hxy. induction Hxy as [ x y Q | x | x y z _ IH1 _ IH2 ].
        - split; [ now apply truth_nb | exact (ri_closed _ _ _ _ _ I x y Q) ].
        - auto.
        - destruct IH1, IH2. split; [ congruence | auto ]. }
      destruct (Ch f k Hch) as (C1 & C2). rewrite C1 in Z.
      apply Ho in Hb. exact (ri_twins _ _ _ _ _ I _ _ k Hb Ka Kb Z (C2 (ex_intro _ d (conj Hd Ht)))). }
    pose proof (Htruth f _ T HT) as Hsay. destruct (truth f); auto; try (exfalso; apply N; auto; fail). contradiction.
  Qed.

  Definition rep_post (r : nat) (w : warnings) (mine : list nat) (ds : list (mixed_data D)) : Prop :=
    w = no_warnings /\ known ds r /\ forall f, In f mine -> closed_at m0 border ds f.
  Definition rep_throws (e : exn) : Prop := e = RuntimeError /\ gave_up.

  Lemma rep_safe : forall ds r, good truth ds -> kept ds -> r < length ds -> truth r = EXTERIOR \/ truth r = INTERIOR ->
    safe truth rep_throws (rep_post r) (p_rep centroid (side_of L) (side_of R) m0 border r) [] ds.
  Proof.
    intros ds r G K Hr Ht. unfold p_rep. cbn [safe]. intros ds1 (X1 & G1 & O1). pose proof (ext_kept _ _ K X1) as K1.
    assert (L1 : length ds1 = length (m_faces m0)) by (rewrite (proj1 K1); exact len_m0).
    assert (Hr1 : r < length ds1) by (rewrite (proj1 X1); exact Hr).
    destruct (nth_error ds1 r) as [ d | ] eqn:Ed; [ | apply nth_error_None in Ed; lia ]. exists d. split; [ reflexivity | ].
    destruct (face_query_total P D (with_data m0 ds1) (wf_run coords L R border m0 C ds1 K1) centroid (side_of L) (side_of R) r) as (q & Hq).
    { cbn [with_data m_faces]. lia. }
    pose proof Hq as (d' & a & b & c & pa & pb & pc & H1 & H2 & H3 & H4 & H5 & H6). cbn [with_data m_data m_faces m_points] in *.
    assert (d' = d) by congruence. subst d'. unfold pure, vec_at. rewrite H2. cbn [pbind]. rewrite H3, H4, H5. cbn [pbind].
    replace (if from_left d then side_of R (centroid pa pb pc) else side_of L (centroid pa pb pc)) with q by (rewrite H6; destruct (from_left d); reflexivity).
    assert (Go : forall t, t = truth r -> safe truth rep_throws (rep_post r) (Write r t (p_propagate m0 border r)) [] ds1).
    { intros t Et. cbn [safe]. intros ds2 (X2 & G2 & O2).
      assert (L2 : length ds2 = length (m_faces m0)) by (rewrite (proj1 X2); exact L1).
      split; [ lia | ]. split; [ exact Et | ]. intros d2 Hd2. subst t.
      destruct (write_ext truth ds2 r d2 G2 Hd2) as (W1 & W2 & W3).
      eapply safe_conseq; [ | apply (propagate_safe m0 border truth HF truth_nb rep_throws (fun _ => False)); auto ].
      - cbn beta. intros w mine' ds3 X3 G3 O3 Hi (-> & M & _). split; [ reflexivity | ]. split; [ exact (known_ext _ _ _ X3 W3) | ].
        intros f Hf. destruct (M f Hf) as [ Z | [] ]. exact Z.
      - intros f [ <- | [] ]. exact W3.
      - rewrite (proj1 W2). exact L2.
      - intros f [ <- | [] ]. auto. }
    destruct (side_truth coords centroid side_of L R A B border m0 Dom HA HB C truth Htruth Hcentroid Hsides ds1 r q K1 Ht Hq) as [ (-> & Gu) | [ (Z & ->) | (Z & ->) ] ].
    - cbn [pbind safe]. split; [ reflexivity | exact Gu ].
    - cbn [pbind oriented_side_eqb]. apply Go. now rewrite Z.
    - cbn [pbind oriented_side_eqb]. apply Go. now rewrite Z.
  Qed.

  Theorem threads_right : forall order r, set_elements border order ->
    classifies coords base1 base2 sort_around centroid side_of border L R m0 order r ->
    (exists m', r = Ok (m', no_warnings) /\ m_points m' = m_points m0 /\ m_faces m' = m_faces m0 /\ kept (m_data m') /\
      forall g d, nth_error (m_data m') g = Some d -> tag d = truth g) \/
    (r = Throw RuntimeError /\ gave_up).
  Proof.
    intros order r Ho Hc.
    assert (Ho' : forall e, In e order -> In e border) by (intros e He; now apply Ho).
    assert (Find : forall ds, run_inv ds order -> exists reps, find_unclassified (with_data m0 ds) border = Ok reps /\
      (forall x, In x reps -> tagged (with_data m0 ds) x UNKNOWN) /\
      (forall f, tagged (with_data m0 ds) f UNKNOWN -> exists x, In x reps /\ reached (with_data m0 ds) border x f)).
    { intros ds I. pose proof (ri_kept _ _ _ _ _ I) as K.
      destruct (find_unclassified_spec P D (with_data m0 ds) border) as (reps & E & (_ & R2 & _) & HC).
      - apply (finalized_indices _ _ _ _ m0); auto.
      - exact (wf_run coords L R border m0 C ds K).
      - exists reps. split; [ exact E | ]. split; [ intros x Hx; exact (proj1 (R2 x Hx)) | exact (HC (ri_closed _ _ _ _ _ I)) ]. }
    assert (Glob : forall ds reps r', run_inv ds order -> find_unclassified (with_data m0 ds) border = Ok reps ->
      parallel (map (p_rep centroid (side_of L) (side_of R) m0 border) reps) ds r' ->
      (exists ds', r' = Ok (ds', no_warnings) /\ kept ds' /\ forall g d, nth_error ds' g = Some d -> tag d = truth g) \/
      (r' = Throw RuntimeError /\ gave_up)).
    { intros ds reps r' I Ef Hp. destruct (Find ds I) as (reps' & Ef' & Hu & Hreach). assert (reps' = reps) by congruence. subst reps'.
      pose proof (ri_kept _ _ _ _ _ I) as K. pose proof (good_sound _ _ I) as G0.
      assert (Safe : forall i p, nth_error (map (p_rep centroid (side_of L) (side_of R) m0 border) reps) i = Some p ->
        safe truth rep_throws (rep_post (nth i reps 0)) p [] ds).
      { intros i p Hi. rewrite nth_error_map in Hi. destruct (nth_error reps i) as [ x | ] eqn:Ei; [ | discriminate ]. injection Hi as <-.
        rewrite (nth_error_nth _ _ _ Ei). pose proof (Hu x (nth_error_In _ _ Ei)) as Hx. apply rep_safe; auto.
        - destruct Hx as (d & Hd & _). cbn [with_data m_data] in Hd. apply nth_error_Some. congruence.
        - exact (unknown_truth ds order Ho I x Hx). }
      destruct (parallel_safe truth rep_throws (fun i => rep_post (nth i reps 0)) _ ds r' G0 Safe Hp)
        as [ (ds' & ws & mss & -> & G & X & Lw & Hcl & Lm & HQ) | (e & -> & -> & Gu) ]; [ left | right; auto ].
      rewrite map_length in Lw, Lm. exists ds'. split.
      { f_equal. f_equal. apply no_warnings_all. intros w Hw. apply In_nth_error in Hw. destruct Hw as (i & Hw).
        destruct (nth_error mss i) as [ mine | ] eqn:Em; [ | apply nth_error_None in Em; assert (i < length ws) by (apply nth_error_Some; congruence); lia ].
        exact (proj1 (proj1 (HQ i w mine Hw Em))). }
      split; [ exact (ext_kept _ _ K X) | ].
      assert (HQ' : forall i mine, nth_error mss i = Some mine -> exists w, nth_error ws i = Some w /\ rep_post (nth i reps 0) w mine ds').
      { intros i mine Hm. assert (i < length mss) by (apply nth_error_Some; congruence).
        destruct (nth_error ws i) as [ w | ] eqn:Ew; [ | apply nth_error_None in Ew; lia ]. exists w. split; [ reflexivity | ]. exact (proj1 (HQ i w mine Ew Hm)). }
      assert (Kr : forall x f, In x reps -> reached (with_data m0 ds) border x f -> known ds' f /\ tagged (with_data m0 ds) f UNKNOWN).
      { intros x f Hx Hf. induction Hf as [ | f g Hf IH Hn Hg ].
        - split; [ | now apply Hu ]. apply In_nth_error in Hx. destruct Hx as (i & Hi).
          assert (i < length mss) by (rewrite Lm; apply nth_error_Some; congruence).
          destruct (nth_error mss i) as [ mine | ] eqn:Em; [ | apply nth_error_None in Em; lia ].
          destruct (HQ' i mine Em) as (w & _ & _ & Z & _). now rewrite (nth_error_nth _ _ _ Hi) in Z.
        - destruct IH as (IH1 & IH2). split; [ | exact Hg ].
          destruct (Hcl f IH1) as [ Z | (i & mine & Hm & Hin) ]; [ exfalso; exact (known_not_unknown _ _ Z IH2) | ].
          destruct (HQ' i mine Hm) as (w & _ & _ & _ & Z). exact (Z f Hin g Hn). }
      intros g d Hg. apply (known_truth truth ds'); auto.
      assert (Hl : g < length ds) by (rewrite <- (proj1 X); apply nth_error_Some; congruence).
      destruct (nth_error ds g) as [ d0 | ] eqn:E0; [ | apply nth_error_None in E0; lia ].
      destruct (face_tag_eqb_spec (tag d0) UNKNOWN) as [ Q | Q ].
      - destruct (Hreach g) as (x & Hx & Hxg); [ exists d0; auto | ]. exact (proj1 (Kr x g Hx Hxg)).
      - apply (known_ext _ _ _ X). exists d0. auto. }
    destruct Hc as [ ds w reps ds' w' P1 P2 P3 | r1 o P1 Hf | ds w o P1 Hf | ds w reps r1 o P1 P2 P3 Hf ];
      destruct (local_phase order _ Ho' P1) as (ds1 & E1 & I).
    - injection E1 as -> ->. destruct (Glob ds1 reps _ I P2 P3) as [ (ds2 & E2 & K & Ht) | (E2 & _) ]; [ | discriminate ].
      injection E2 as -> ->. left. exists (with_data m0 ds2). auto.
    - subst r1. contradiction.
    - injection E1 as -> ->. destruct (Find ds1 I) as (reps & E & _). rewrite E in Hf. contradiction.
    - injection E1 as -> ->. destruct (Glob ds1 reps _ I P2 P3) as [ (ds2 & -> & _) | (-> & Gu) ]; [ contradiction | ].
      cbn [fails] in Hf. right. auto.
  Qed.
End Threads.
