(** * Proofs about Find_possibly_intersecting_faces *)
From Coq Require Import List Arith Bool Lia Permutation QArith Qminmax Lqa.
From Verif Require Import Model_base Proof_base Model_soup Model_parallel_do Model_forkjoin.
From Verif Require Import Model_geometry Model_aabb Spec_aabb Proof_aabb Prop_aabb.
From Verif Require Import Model_candidates Spec_candidates Proof_collect.
Import ListNotations.
Local Open Scope nat_scope.

Lemma foldM_snoc_map : forall {A B} (f : A -> res B) (g : A -> B) (l : list A) acc,
  (forall a, In a l -> f a = Ok (g a)) ->
  foldM (fun ls a => let* b := f a in Ok (ls ++ [b])) acc l = Ok (acc ++ map g l).
Proof.
  intros A B f g. induction l as [ | a l IH]; intros acc H; cbn [foldM map].
  - rewrite app_nil_r. reflexivity.
  - rewrite (H a (or_introl eq_refl)). cbn [bind]. rewrite IH by (intros; apply H; right; assumption).
    rewrite <- app_assoc. reflexivity.
Qed.

Lemma NoDup_app_disjoint : forall {A} (l l' : list A), NoDup l -> NoDup l' ->
  (forall x, In x l -> In x l' -> False) -> NoDup (l ++ l').
Proof.
  intros A l l' H H' Hd. induction H as [ | x l Hx H IH]; [ exact H' | ]. cbn [app]. constructor.
  - rewrite in_app_iff. intros [Hi | Hi]; [ contradiction | ]. apply (Hd x); [ left; reflexivity | exact Hi ].
  - apply IH. intros y Hy. apply Hd. right. exact Hy.
Qed.

Lemma boxes_intersect_sym : forall a b, boxes_intersect a b = boxes_intersect b a.
Proof.
  intros a b. unfold boxes_intersect. f_equal.
  destruct (Qltb (xmax a) (xmin b)), (Qltb (xmax b) (xmin a)), (Qltb (ymax a) (ymin b)),
    (Qltb (ymax b) (ymin a)), (Qltb (zmax a) (zmin b)), (Qltb (zmax b) (zmin a)); reflexivity.
Qed.

Section PairsProof.
  Context {P D : Type}.
  Variable pbox : P -> box.

  Lemma valid_corners : forall (m : soup P D) fi, valid_faces m -> fi < num_faces m ->
    exists v0 v1 v2 p0 p1 p2, nth_error (faces m) fi = Some (v0, v1, v2) /\
      nth_error (points m) v0 = Some p0 /\ nth_error (points m) v1 = Some p1 /\
      nth_error (points m) v2 = Some p2.
  Proof.
    intros m fi Hv Hi. destruct (nth_error (faces m) fi) as [ [ [v0 v1] v2] | ] eqn:E.
    - unfold valid_faces in Hv. rewrite Forall_forall in Hv. specialize (Hv _ (nth_error_In _ _ E)).
      cbn in Hv. destruct Hv as [H0 [H1 H2] ].
      destruct (nth_error (points m) v0) as [p0 | ] eqn:E0; [ | apply nth_error_None in E0; lia ].
      destruct (nth_error (points m) v1) as [p1 | ] eqn:E1; [ | apply nth_error_None in E1; lia ].
      destruct (nth_error (points m) v2) as [p2 | ] eqn:E2; [ | apply nth_error_None in E2; lia ].
      exists v0, v1, v2, p0, p1, p2. auto.
    - apply nth_error_None in E. unfold num_faces in Hi. lia.
  Qed.

  Definition the_box (m : soup P D) (fi : nat) : box :=
    match face_bbox pbox m fi with Ok b => b | _ => mk_box 0 0 0 0 0 0 end.

  Lemma the_box_ok : forall (m : soup P D) fi, valid_faces m -> fi < num_faces m ->
    face_bbox pbox m fi = Ok (the_box m fi) /\ is_face_box pbox m fi (the_box m fi).
  Proof.
    intros m fi Hv Hi.
    destruct (valid_corners m fi Hv Hi) as (v0 & v1 & v2 & p0 & p1 & p2 & Hf & H0 & H1 & H2).
    assert (E : face_bbox pbox m fi = Ok (box_join (box_join (pbox p0) (pbox p1)) (pbox p2))).
    { unfold face_bbox, soup_triangle, soup_face, soup_point, vec_at. rewrite Hf. cbn [bind].
      rewrite H0, H1, H2. reflexivity. }
    unfold the_box. rewrite E. split; [ reflexivity | ]. split.
    - intros p (w0 & w1 & w2 & Hf' & Hp). rewrite Hf in Hf'. injection Hf' as <- <- <-.
      destruct Hp as [Hp | [Hp | Hp] ].
      + assert (p = p0) by congruence. subst p.
        eapply box_in_trans; [ apply box_join_l | apply box_join_l ].
      + assert (p = p1) by congruence. subst p.
        eapply box_in_trans; [ apply box_join_r | apply box_join_l ].
      + assert (p = p2) by congruence. subst p. apply box_join_r.
    - intros c Hc.
      assert (C0 : box_in (pbox p0) c) by (apply Hc; exists v0, v1, v2; auto).
      assert (C1 : box_in (pbox p1) c) by (apply Hc; exists v0, v1, v2; auto).
      assert (C2 : box_in (pbox p2) c) by (apply Hc; exists v0, v1, v2; auto).
      destruct C0 as (a1 & a2 & a3 & a4 & a5 & a6), C1 as (b1 & b2 & b3 & b4 & b5 & b6),
        C2 as (c1 & c2 & c3 & c4 & c5 & c6).
      repeat split; cbn; repeat (apply Q.min_glb || apply Q.max_lub); assumption.
  Qed.

  (** The box of a face is determined up to the choice of fractions. *)
  Lemma boxes_intersect_box_in : forall a a' b b', box_in a a' -> box_in b b' ->
    boxes_intersect a b = true -> boxes_intersect a' b' = true.
  Proof.
    intros a a' b b' [H1 [H2 [H3 [H4 [H5 H6] ] ] ] ] [G1 [G2 [G3 [G4 [G5 G6] ] ] ] ] H.
    unfold boxes_intersect, Qltb in *.
    rewrite negb_true_iff in *. rewrite !orb_false_iff in *. rewrite !negb_false_iff in *.
    rewrite !Qle_bool_iff in *.
    destruct H as [ [ [ [ [A1 A2] A3] A4] A5] A6].
    repeat split; Lqa.lra.
  Qed.

  Variable longest_axis : option box -> nat.
  Variable sort_by : nat -> list (box * nat) -> list (box * nat).
  Variable nth_element_by : nat -> nat -> list (box * nat) -> list (box * nat).
  Hypothesis Hre : rearranges sort_by nth_element_by.

  Lemma leaves_ok : forall (m : soup P D), valid_faces m ->
    soup_leaves pbox m = Ok (map (fun fi => (the_box m fi, fi)) (seq 0 (num_faces m))).
  Proof.
    intros m Hv. unfold soup_leaves.
    assert (G : forall l acc, (forall fi, In fi l -> fi < num_faces m) ->
      foldM (fun ls fi => let* b := face_bbox pbox m fi in Ok (ls ++ [(b, fi)])) acc l =
      Ok (acc ++ map (fun fi => (the_box m fi, fi)) l)).
    { induction l as [ | fi l IH]; intros acc Hl; cbn [foldM map].
      - rewrite app_nil_r. reflexivity.
      - rewrite (proj1 (the_box_ok m fi Hv (Hl fi (or_introl eq_refl)))). cbn [bind].
        rewrite IH by (intros; apply Hl; right; assumption). rewrite <- app_assoc. reflexivity. }
    rewrite G; [ reflexivity | ]. intros fi Hi. apply in_seq in Hi. lia.
  Qed.

  Definition unknown (tags : list face_tag) (fi : nat) : bool :=
    match nth_error tags fi with Some UNKNOWN => true | _ => false end.

  Lemma pairs_of_leaves_ok : forall (left_is_a : bool) (a_tags : list face_tag) (t : tree (box * nat)) b_fi found leaves acc,
    Forall2 (fun i l => nth_error (t_leaves t) i = Some l) found leaves ->
    (forall l, In l leaves -> snd l < length a_tags) ->
    foldM (fun ps i =>
        match nth_error (t_leaves t) i with
        | None => UB
        | Some l =>
            let a_fi := snd l in
            let* tag := vec_at a_tags a_fi in
            if negb (face_tag_eqb tag UNKNOWN) then Ok ps
            else Ok (ps ++ [if left_is_a then (a_fi, b_fi) else (b_fi, a_fi)])
        end) acc found =
    Ok (acc ++ map (fun a_fi => if left_is_a then (a_fi, b_fi) else (b_fi, a_fi))
              (filter (unknown a_tags) (map snd leaves))).
  Proof.
    intros left_is_a a_tags t b_fi found leaves acc H.
    match goal with |- _ -> foldM ?f _ _ = _ => set (F := f) end.
    revert acc. induction H as [ | i l found leaves Hi H IH]; intros acc Hl; cbn [foldM map filter].
    - rewrite app_nil_r. reflexivity.
    - assert (L := Hl l (or_introl eq_refl)).
      destruct (nth_error a_tags (snd l)) as [tag | ] eqn:E; [ | apply nth_error_None in E; lia ].
      assert (EF : F acc i = Ok (if unknown a_tags (snd l) then
        acc ++ [if left_is_a then (snd l, b_fi) else (b_fi, snd l)] else acc)).
      { unfold F, vec_at, unknown. rewrite Hi. cbv zeta. rewrite E. cbn [bind]. destruct tag; reflexivity. }
      rewrite EF. cbn [bind]. rewrite IH by (intros; apply Hl; right; assumption).
      destruct (unknown a_tags (snd l)); cbn [map]; try rewrite <- app_assoc; reflexivity.
  Qed.

  Lemma pairs_body_ok : forall (left_is_a : bool) (a b : soup P D) a_tags b_tags t b_fi,
    valid_faces a -> valid_faces b -> length a_tags = num_faces a -> length b_tags = num_faces b ->
    aabb_tree pbox longest_axis sort_by nth_element_by a t ->
    b_fi < num_faces b ->
    exists fs, pairs_body pbox left_is_a b a_tags b_tags t b_fi =
      Ok (map (fun a_fi => if left_is_a then (a_fi, b_fi) else (b_fi, a_fi)) fs) /\
      NoDup fs /\
      (forall a_fi, In a_fi fs <-> a_fi < num_faces a /\ unknown a_tags a_fi = true /\
         unknown b_tags b_fi = true /\ boxes_intersect (the_box a a_fi) (the_box b b_fi) = true).
  Proof.
    intros left_is_a a b a_tags b_tags t b_fi Va Vb La Lb Ht Hb.
    unfold pairs_body. destruct (nth_error b_tags b_fi) as [tag | ] eqn:Et; [ | apply nth_error_None in Et; lia ].
    unfold vec_at at 1. rewrite Et. cbn [bind]. unfold unknown at 2. rewrite Et.
    destruct (negb (face_tag_eqb tag UNKNOWN)) eqn:Eu.
    { exists []. split; [ reflexivity | split; [ constructor | ] ]. intro a_fi. split; [ intros [] | ].
      intros (_ & _ & H & _). destruct tag; cbn in Eu; congruence. }
    assert (tag = UNKNOWN) by (destruct tag; cbn in Eu; congruence). subst tag.
    rewrite (proj1 (the_box_ok b b_fi Vb Hb)). cbn [bind].
    destruct Ht as [limit ls t Hls Hst]. rewrite (leaves_ok a Va) in Hls. injection Hls as <-.
    destruct (C23_query_exact _ _ _ _ _ _ _ _ (fun x => boxes_intersect x (the_box b b_fi)) Hre Hst
                (C23_box_query (the_box b b_fi))) as (found & leaves & Hq & Hnd & Hf & Hp).
    rewrite Hq. cbn [bind]. unfold pairs_of_leaves.
    assert (Hp' : Permutation (map snd leaves)
      (filter (fun fi => boxes_intersect (the_box a fi) (the_box b b_fi)) (seq 0 (num_faces a)))).
    { apply (Permutation_map snd) in Hp. eapply Permutation_trans; [ exact Hp | ].
      clear. induction (seq 0 (num_faces a)) as [ | fi l IH]; [ apply Permutation_refl | ].
      cbn [map filter fst]. destruct (boxes_intersect (the_box a fi) (the_box b b_fi)); cbn [map snd];
        [ apply perm_skip | ]; exact IH. }
    assert (Hin : forall fi, In fi (map snd leaves) <->
      fi < num_faces a /\ boxes_intersect (the_box a fi) (the_box b b_fi) = true).
    { intro fi. split.
      - intro H. apply (Permutation_in _ Hp') in H. apply filter_In in H. destruct H as [H1 H2].
        apply in_seq in H1. split; [ lia | exact H2 ].
      - intros [H1 H2]. apply (Permutation_in _ (Permutation_sym Hp')). apply filter_In.
        split; [ apply in_seq; lia | exact H2 ]. }
    exists (filter (unknown a_tags) (map snd leaves)). split; [ | split ].
    - apply (pairs_of_leaves_ok left_is_a a_tags t b_fi found leaves [] Hf).
      intros l Hl. assert (In (snd l) (map snd leaves)) as H by (apply in_map; exact Hl).
        apply Hin in H. rewrite La. apply H.
    - apply NoDup_filter. apply (Permutation_NoDup (Permutation_sym Hp')). apply NoDup_filter, seq_NoDup.
    - intro a_fi. rewrite filter_In, Hin. tauto.
  Qed.

  Lemma find_pairs_ok : forall nt (left right : soup P D) l_tags r_tags pairs x,
    valid_faces left -> valid_faces right ->
    length l_tags = num_faces left -> length r_tags = num_faces right -> 1 <= nt ->
    find_pairs pbox longest_axis sort_by nth_element_by nt left right l_tags r_tags pairs x ->
    x = None /\ NoDup pairs /\
    forall l r, In (l, r) pairs <->
      l < num_faces left /\ r < num_faces right /\ unknown l_tags l = true /\ unknown r_tags r = true /\
      boxes_intersect (the_box left l) (the_box right r) = true.
  Proof.
    intros nt left right l_tags r_tags pairs x Vl Vr Ll Lr Hnt H.
    destruct H as [t tr pairs x lia_ a b a_tags b_tags Ht Hpd].
    assert (Va : valid_faces a) by (subst a; destruct lia_; assumption).
    assert (Vb : valid_faces b) by (subst b; destruct lia_; assumption).
    assert (La : length a_tags = num_faces a) by (subst a a_tags; destruct lia_; assumption).
    assert (Lb : length b_tags = num_faces b) by (subst b b_tags; destruct lia_; assumption).
    set (f := pairs_body pbox lia_ b a_tags b_tags t) in *.
    set (h := fun i => match f i with Ok r => r | _ => [] end).
    assert (Hf : forall i, In i (seq 0 (num_faces b)) -> f i = Ok (h i)).
    { intros i Hi. apply in_seq in Hi.
      destruct (pairs_body_ok lia_ a b a_tags b_tags t i Va Vb La Lb Ht ltac:(lia)) as [fs [E _] ].
      unfold h. fold f in E. rewrite E. reflexivity. }
    destruct (collect (fun x y : nat * nat => ltac:(decide equality; apply Nat.eq_dec)) f h _ _ _ _ _ Hf Hnt Hpd)
      as [-> Hp].
    assert (Hh : forall i, i < num_faces b -> exists fs,
      h i = map (fun a_fi => if lia_ then (a_fi, i) else (i, a_fi)) fs /\ NoDup fs /\
      (forall a_fi, In a_fi fs <-> a_fi < num_faces a /\ unknown a_tags a_fi = true /\
         unknown b_tags i = true /\ boxes_intersect (the_box a a_fi) (the_box b i) = true)).
    { intros i Hi.
      destruct (pairs_body_ok lia_ a b a_tags b_tags t i Va Vb La Lb Ht Hi) as [fs [E F] ].
      exists fs. split; [ | exact F ]. unfold h, f. rewrite E. reflexivity. }
    split; [ reflexivity | split ].
    - apply (Permutation_NoDup (Permutation_sym Hp)).
      assert (G : forall l, NoDup l -> (forall i, In i l -> i < num_faces b) -> NoDup (flat_map h l)).
      { induction l as [ | i l IH]; intros Hn Hl; cbn [flat_map]; [ constructor | ].
        inversion Hn; subst. destruct (Hh i (Hl i (or_introl eq_refl))) as [fs [E [N _] ] ].
        assert (G2 : forall p, In p (h i) -> (if lia_ then snd p else fst p) = i).
        { intros p Hpp. rewrite E in Hpp. apply in_map_iff in Hpp. destruct Hpp as [a_fi [<- _] ].
          destruct lia_; reflexivity. }
        apply NoDup_app_disjoint.
        - rewrite E. apply FinFun.Injective_map_NoDup; [ | exact N ].
          intros u v Huv. destruct lia_; congruence.
        - apply IH; auto. intros; apply Hl; right; assumption.
        - intros p Hp1 Hp2. apply in_flat_map in Hp2. destruct Hp2 as [j [Hj Hp2] ].
          assert (j = i).
          { rewrite <- (G2 p Hp1).
            destruct (Hh j (Hl j (or_intror Hj))) as [gs [Ej _] ]. rewrite Ej in Hp2.
            apply in_map_iff in Hp2. destruct Hp2 as [a_fi [<- _] ]. destruct lia_; reflexivity. }
          subst j. contradiction. }
      apply G; [ apply seq_NoDup | ]. intros i Hi. apply in_seq in Hi. lia.
    - intros l r.
      assert (E : In (l, r) pairs <-> In (l, r) (flat_map h (seq 0 (num_faces b)))).
      { split; apply Permutation_in; [ exact Hp | apply Permutation_sym; exact Hp ]. }
      rewrite E. rewrite in_flat_map. split.
      + intros [i [Hi Hin] ]. apply in_seq in Hi. destruct (Hh i ltac:(lia)) as [fs [E' [_ F] ] ].
        rewrite E' in Hin. apply in_map_iff in Hin. destruct Hin as [a_fi [Ep Ha] ]. apply F in Ha.
        subst a b a_tags b_tags. destruct lia_; injection Ep as <- <-.
        * intuition lia.
        * destruct Ha as (A1 & A2 & A3 & A4). repeat split; auto; [ lia | ].
          rewrite <- A4. apply boxes_intersect_sym.
      + intros (A1 & A2 & A3 & A4 & A5). subst a b a_tags b_tags. destruct lia_.
        * exists r. split; [ apply in_seq; lia | ]. destruct (Hh r A2) as [fs [E' [_ F] ] ].
          rewrite E'. apply in_map_iff. exists l. split; [ reflexivity | ]. apply F. auto.
        * exists l. split; [ apply in_seq; lia | ]. destruct (Hh l A1) as [fs [E' [_ F] ] ].
          rewrite E'. apply in_map_iff. exists r. split; [ reflexivity | ]. apply F.
          repeat split; auto. rewrite <- A5. apply boxes_intersect_sym.
  Qed.
End PairsProof.
