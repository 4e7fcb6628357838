(** * C21, C22: coinciding faces and candidate pairs *)
From Coq Require Import List Arith Bool Lia Permutation QArith Lqa.
From Verif Require Import Model_base Proof_base Model_soup Model_parallel_do Model_forkjoin Model_interleave.
From Verif Require Import Model_geometry Model_aabb Spec_aabb Proof_aabb Prop_aabb.
From Verif Require Import Model_candidates Spec_candidates Proof_candidates Proof_collect Proof_pairs.
Import ListNotations.
Local Open Scope nat_scope.

Lemma nth_error_ext : forall {A} (l l' : list A), (forall i, nth_error l i = nth_error l' i) -> l = l'.
Proof.
  intros A. induction l as [ | x l IH]; intros [ | y l'] H; auto.
  - specialize (H 0). discriminate.
  - specialize (H 0). discriminate.
  - assert (E := H 0). cbn in E. injection E as ->. f_equal. apply IH. intro i. exact (H (S i)).
Qed.

(** ** C21 *)

(** Every face of both meshes gets the expected tag, under every schedule. *)
Theorem C21_tags_exact : forall P D (left right : soup P D) lp rp lt rt,
  clean left lp -> clean right rp ->
  find_coplanar_faces left right lp rp lt rt ->
  length lt = num_faces left /\ length rt = num_faces right /\
  (forall i, i < num_faces left ->
     exists tag, nth_error lt i = Some tag /\ expected_tag left lp right rp i tag) /\
  (forall j, j < num_faces right ->
     exists tag, nth_error rt j = Some tag /\ expected_tag right rp left lp j tag).
Proof.
  assert (G : forall P D (a b : soup P D) ap bp ta tb, clean a ap -> clean b bp ->
    coplanar_ab a b ap bp (ta, tb) ->
    length ta = num_faces a /\ length tb = num_faces b /\
    (forall i, i < num_faces a -> exists tag, nth_error ta i = Some tag /\ expected_tag a ap b bp i tag) /\
    (forall j, j < num_faces b -> exists tag, nth_error tb j = Some tag /\ expected_tag b bp a ap j tag)).
  { intros P D a b ap bp ta tb Ca Cb H. remember (ta, tb) as r eqn:Er.
    destruct H as [tab bodies tr Hk Hb Hi].
    destruct (key_table_spec a ap Ca) as [tab' [Hk' Htab] ]. rewrite Hk in Hk'. injection Hk' as <-.
    destruct (final_lengths a b tr) as [L1 L2].
    assert (Fa := final_a a b ap bp Ca Cb tab Htab bodies Hb tr Hi).
    assert (Fb := final_b a b ap bp Ca Cb tab Htab bodies Hb tr Hi).
    rewrite Er in L1, L2, Fa, Fb. cbn [fst snd cell_of] in *. auto. }
  intros P D left right lp rp lt rt Cl Cr H. destruct H as [ta tb Hn H | ta tb Hn H].
  - exact (G _ _ _ _ _ _ _ _ Cl Cr H).
  - destruct (G _ _ _ _ _ _ _ _ Cr Cl H) as (A & B & C & E). auto.
Qed.
Print Assumptions C21_tags_exact.

(** There is at most one expected tag, so the tags do not depend on the schedule. *)
Theorem C21_schedule_irrelevant : forall P D (left right : soup P D) lp rp lt rt lt' rt',
  clean left lp -> clean right rp ->
  find_coplanar_faces left right lp rp lt rt -> find_coplanar_faces left right lp rp lt' rt' ->
  lt = lt' /\ rt = rt'.
Proof.
  assert (U : forall P D (m o : soup P D) mp op i tag tag',
    expected_tag m mp o op i tag -> expected_tag m mp o op i tag' -> tag = tag').
  { intros P D m o mp op i tag tag' [t [Ht H] ] [t' [Ht' H'] ].
    rewrite (face_points_fun _ _ _ _ _ Ht' Ht) in H'. clear t' Ht'.
    destruct tag, tag'; try reflexivity; try contradiction; exfalso.
    - destruct H' as (j & u & Hu & Hs). exact (proj1 (H _ _ Hu) Hs).
    - destruct H' as [ (j & u & Hu & Hs) _]. exact (proj2 (H _ _ Hu) Hs).
    - destruct H as (j & u & Hu & Hs). exact (proj1 (H' _ _ Hu) Hs).
    - destruct H as (j & u & Hu & Hs), H' as [_ N]. exact (N _ _ Hu Hs).
    - destruct H as [ (j & u & Hu & Hs) _]. exact (proj2 (H' _ _ Hu) Hs).
    - destruct H' as (j & u & Hu & Hs), H as [_ N]. exact (N _ _ Hu Hs). }
  intros P D left right lp rp lt rt lt' rt' Cl Cr H H'.
  destruct (C21_tags_exact _ _ _ _ _ _ _ _ Cl Cr H) as (A & B & C & E).
  destruct (C21_tags_exact _ _ _ _ _ _ _ _ Cl Cr H') as (A' & B' & C' & E').
  assert (X : forall (l l' : list face_tag) n (Q : nat -> face_tag -> Prop),
    length l = n -> length l' = n ->
    (forall i, i < n -> exists t, nth_error l i = Some t /\ Q i t) ->
    (forall i, i < n -> exists t, nth_error l' i = Some t /\ Q i t) ->
    (forall i t t', Q i t -> Q i t' -> t = t') -> l = l').
  { intros l l' n Q L L' F F' V. apply nth_error_ext. intro i.
    destruct (Nat.lt_ge_cases i n) as [Hi | Hi].
    - destruct (F i Hi) as [t [-> Ht] ], (F' i Hi) as [t' [-> Ht'] ]. f_equal. eapply V; eassumption.
    - replace (nth_error l i) with (@None face_tag) by (symmetry; apply nth_error_None; lia).
      symmetry. apply nth_error_None. lia. }
  split.
  - apply (X lt lt' (num_faces left) (expected_tag left lp right rp)); auto. intros i t t'. apply U.
  - apply (X rt rt' (num_faces right) (expected_tag right rp left lp)); auto. intros i t t'. apply U.
Qed.
Print Assumptions C21_schedule_irrelevant.

(** The search always succeeds: no index is out of range, and there is an execution. *)
Theorem C21_no_exception : forall P D (left right : soup P D) lp rp,
  clean left lp -> clean right rp ->
  exists lt rt, find_coplanar_faces left right lp rp lt rt.
Proof.
  assert (G : forall P D (a b : soup P D) ap bp, clean a ap -> clean b bp ->
    exists ta tb, coplanar_ab a b ap bp (ta, tb)).
  { intros P D a b ap bp Ca Cb. destruct (key_table_spec a ap Ca) as [tab [Hk Htab] ].
    destruct (bodies_ok a b ap bp Ca Cb tab Htab) as [bodies Hb].
    assert (H := cab a b ap bp tab bodies (concat bodies) Hk Hb (interleave_exists bodies)).
    destruct (fold_left do_write (concat bodies) (repeat UNKNOWN (num_faces a), repeat UNKNOWN (num_faces b)))
      as [ta tb]. eauto. }
  intros P D left right lp rp Cl Cr.
  destruct (Nat.lt_ge_cases (num_faces left) (num_faces right)) as [H | H].
  - destruct (G _ _ left right lp rp Cl Cr) as (ta & tb & Hab). exists ta, tb. apply fcf_left; auto.
  - destruct (G _ _ right left rp lp Cr Cl) as (ta & tb & Hab). exists tb, ta. apply fcf_right; auto. lia.
Qed.
Print Assumptions C21_no_exception.

(** No two iterations of the parallel loop write the same element of the tag
    vectors, so the loop has no data race on them. *)
Theorem C21_race_free : forall P D (a b : soup P D) ap bp tab i j wi wj w w',
  clean a ap -> clean b bp -> key_table a ap = Ok tab ->
  coplanar_body tab b bp i = Ok wi -> coplanar_body tab b bp j = Ok wj ->
  i < num_faces b -> j < num_faces b -> i <> j ->
  In w wi -> In w' wj -> ~ (tw_a w = tw_a w' /\ tw_idx w = tw_idx w').
Proof.
  intros P D a b ap bp tab i j wi wj w w' Ca Cb Hk Hi Hj Li Lj N Hw Hw'.
  destruct (key_table_spec a ap Ca) as [tab' [Hk' Htab] ]. rewrite Hk in Hk'. injection Hk' as <-.
  destruct (bodies_ok a b ap bp Ca Cb tab Htab) as [bodies Hb].
  assert (E : forall f wf, f < num_faces b -> coplanar_body tab b bp f = Ok wf -> nth_error bodies f = Some wf).
  { intros f wf Lf Hf. destruct (body_exists b bp tab bodies Hb f Lf) as [ws Hws]. rewrite Hws.
    assert (G : forall n k l, Forall2 (fun fi ws => coplanar_body tab b bp fi = Ok ws) (seq k n) l ->
        forall i w, nth_error l i = Some w -> coplanar_body tab b bp (k + i) = Ok w).
    { clear. induction n as [ | n IH]; intros k l Hf i w Hi; inversion Hf as [ | x y xs ys Hx Hr]; subst.
      - destruct i; discriminate.
      - destruct i as [ | i]; cbn in Hi.
        + injection Hi as <-. rewrite Nat.add_0_r. exact Hx.
        + replace (k + S i) with (S k + i) by lia. exact (IH _ _ Hr _ _ Hi). }
    assert (X := G _ _ _ Hb f ws Hws). cbn [Nat.add] in X. congruence. }
  exact (different_cells a b ap bp Ca Cb tab Htab bodies Hb i j wi wj w w' (E i wi Li Hi) (E j wj Lj Hj) N Hw Hw').
Qed.
Print Assumptions C21_race_free.

(** Without cleanness the tags do depend on the schedule: b has a face and its
    opposite. *)
Definition ex_a : soup nat unit := mk_soup [0; 1; 2] [(0, 1, 2)] [tt].
Definition ex_b : soup nat unit := mk_soup [0; 1; 2] [(1, 2, 0); (2, 1, 0)] [tt; tt].
Theorem C21_cleanness_needed :
  exists lt lt' rt, find_coplanar_faces ex_a ex_b [0; 1; 2] [0; 1; 2] lt rt /\
    find_coplanar_faces ex_a ex_b [0; 1; 2] [0; 1; 2] lt' rt /\ lt <> lt'.
Proof.
  set (b1 := [mk_tw true 0 COPLANAR; mk_tw false 0 COPLANAR]).
  set (b2 := [mk_tw true 0 OPPOSITE; mk_tw false 1 OPPOSITE]).
  assert (Hk : key_table ex_a [0; 1; 2] = Ok [((0, 1, 2), 0)]) by (vm_compute; reflexivity).
  assert (Hb : Forall2 (fun fi ws => coplanar_body [((0, 1, 2), 0)] ex_b [0; 1; 2] fi = Ok ws)
    (seq 0 (num_faces ex_b)) [b1; b2]).
  { apply Forall2_cons; [ vm_compute; reflexivity | ].
    apply Forall2_cons; [ vm_compute; reflexivity | apply Forall2_nil ]. }
  exists [OPPOSITE], [COPLANAR], [COPLANAR; OPPOSITE]. split; [ | split; [ | discriminate ] ].
  - apply fcf_left; [ vm_compute; lia | ].
    exact (cab ex_a ex_b _ _ _ _ _ Hk Hb (interleave_exists [b1; b2])).
  - apply fcf_left; [ vm_compute; lia | ].
    refine (cab ex_a ex_b _ _ _ _ (b2 ++ b1) Hk Hb _).
    apply il_next with (i := 1) (r := [mk_tw false 1 OPPOSITE]); [ reflexivity | ].
    apply il_next with (i := 1) (r := []); [ reflexivity | ].
    apply il_next with (i := 0) (r := [mk_tw false 0 COPLANAR]); [ reflexivity | ].
    apply il_next with (i := 0) (r := []); [ reflexivity | ].
    apply il_done. cbn. auto.
Qed.
Print Assumptions C21_cleanness_needed.

(** A case with all three tags: a tetrahedron against three of its faces, rotated,
    one turned over, and one other face. *)
Definition ex_l : soup nat unit :=
  mk_soup [0; 1; 2; 3] [(0, 2, 1); (0, 1, 3); (1, 2, 3); (2, 0, 3)] [tt; tt; tt; tt].
Definition ex_r : soup nat unit :=
  mk_soup [0; 1; 2; 3; 4] [(1, 0, 2); (3, 1, 2); (1, 0, 3); (0, 1, 4); (3, 2, 4)] [tt; tt; tt; tt; tt].
Definition check_clean {P D} (m : soup P D) (pts : list nat) : bool :=
  forallb (fun i =>
    match triangle_key m i pts with
    | Ok (x, y, z) =>
        negb (x =? y) && negb (y =? z) && negb (z =? x) &&
        forallb (fun j => if i =? j then true else
          match triangle_key m j pts with
          | Ok t => negb (triple_eqb (x, y, z) t) && negb (triple_eqb (x, z, y) t)
          | _ => false
          end) (seq 0 (num_faces m))
    | _ => false
    end) (seq 0 (num_faces m)).
Lemma rotate_min_distinct : forall t, distinct3 (rotate_min t) -> distinct3 t.
Proof.
  intros [ [x y] z]. unfold rotate_min. destruct (y <? x), (z <? y), (z <? x); cbn; intuition congruence.
Qed.
Lemma check_clean_ok : forall {P D} (m : soup P D) pts, check_clean m pts = true -> clean m pts.
Proof.
  intros P D m pts H. unfold check_clean in H. rewrite forallb_forall in H.
  assert (K : forall i t, triangle_key m i pts = Ok t -> exists u, face_points m pts i u /\ rotate_min u = t).
  { intros i t Hk. unfold triangle_key, soup_face, vec_at in Hk.
    destruct (nth_error (faces m) i) as [ [ [v0 v1] v2] | ] eqn:E; [ | discriminate ]. cbn [bind] in Hk.
    destruct (nth_error pts v0) as [p0 | ] eqn:E0; [ | discriminate ]. cbn [bind] in Hk.
    destruct (nth_error pts v1) as [p1 | ] eqn:E1; [ | discriminate ]. cbn [bind] in Hk.
    destruct (nth_error pts v2) as [p2 | ] eqn:E2; [ | discriminate ]. cbn [bind] in Hk.
    exists (p0, p1, p2). split; [ exists v0, v1, v2, p0, p1, p2; auto | congruence ]. }
  assert (D1 : forall fi, fi < num_faces m -> exists t, face_points m pts fi t /\ distinct3 t).
  { intros fi Hi. specialize (H fi). destruct (triangle_key m fi pts) as [ [ [x y] z] | | ] eqn:E.
    - destruct (K _ _ E) as [u [Hu Hk] ]. exists u. split; [ exact Hu | ].
      apply rotate_min_distinct. rewrite Hk.
      specialize (H ltac:(apply in_seq; lia)). rewrite !andb_true_iff, !negb_true_iff, !Nat.eqb_neq in H.
      cbn. tauto.
    - discriminate H. apply in_seq. lia.
    - discriminate H. apply in_seq. lia. }
  constructor; [ exact D1 | ]. intros i j t u Ht Hu Hc.
  assert (Li := face_points_lt _ _ _ _ Ht). assert (Lj := face_points_lt _ _ _ _ Hu).
  destruct (D1 i Li) as [t' [Ht' Dt] ]. rewrite (face_points_fun _ _ _ _ _ Ht' Ht) in Dt.
  destruct (D1 j Lj) as [u' [Hu' Du] ]. rewrite (face_points_fun _ _ _ _ _ Hu' Hu) in Du.
  specialize (H i ltac:(apply in_seq; lia)). rewrite (face_points_key _ _ _ _ Ht) in H.
  destruct (rotate_min t) as [ [x y] z] eqn:E. apply andb_true_iff in H. destruct H as [_ H].
  rewrite forallb_forall in H. specialize (H j ltac:(apply in_seq; lia)).
  destruct (Nat.eqb_spec i j) as [ | N]; [ assumption | ].
  rewrite (face_points_key _ _ _ _ Hu) in H. rewrite andb_true_iff, !negb_true_iff in H.
  destruct H as [H1 H2]. destruct Hc as [Hc | Hc].
  - apply rotate_min_same in Hc; auto. rewrite E in Hc. rewrite Hc in H1.
    rewrite (proj2 (triple_eqb_ok (rotate_min u) (rotate_min u)) eq_refl) in H1. discriminate.
  - apply opposite_cycle_sym in Hc. apply rotate_min_opposite in Hc; auto. rewrite E in Hc. cbn in Hc.
    rewrite <- Hc in H2.
    rewrite (proj2 (triple_eqb_ok (rotate_min u) (rotate_min u)) eq_refl) in H2. discriminate.
Qed.

Example C21_example : clean ex_l [7; 3; 5; 9] /\ clean ex_r [7; 3; 5; 9; 11] /\
  exists lt rt, find_coplanar_faces ex_l ex_r [7; 3; 5; 9] [7; 3; 5; 9; 11] lt rt /\
    lt = [COPLANAR; OPPOSITE; COPLANAR; UNKNOWN] /\
    rt = [COPLANAR; COPLANAR; OPPOSITE; UNKNOWN; UNKNOWN].
Proof.
  split; [ apply check_clean_ok; vm_compute; reflexivity | ].
  split; [ apply check_clean_ok; vm_compute; reflexivity | ].
  do 2 eexists. split; [ apply fcf_left; [ vm_compute; lia | ] | split; reflexivity ].
  assert (Hk : exists tab, key_table ex_l [7; 3; 5; 9] = Ok tab) by (eexists; vm_compute; reflexivity).
  destruct Hk as [tab Hk].
  set (ws1 := [mk_tw true 0 COPLANAR; mk_tw false 0 COPLANAR]).
  set (ws2 := [mk_tw true 2 COPLANAR; mk_tw false 1 COPLANAR]).
  set (ws3 := [mk_tw true 1 OPPOSITE; mk_tw false 2 OPPOSITE]).
  assert (Hb : Forall2 (fun fi ws => coplanar_body tab ex_r [7; 3; 5; 9; 11] fi = Ok ws)
    (seq 0 (num_faces ex_r)) [ws1; ws2; ws3; []; []]).
  { vm_compute in Hk. injection Hk as <-.
    repeat (apply Forall2_cons; [ vm_compute; reflexivity | ]). apply Forall2_nil. }
  exact (cab ex_l ex_r _ _ _ _ _ Hk Hb (interleave_exists [ws1; ws2; ws3; []; []])).
Qed.

(** ** C22 *)

(** The candidates are exactly the pairs of faces that are not tagged yet and whose
    boxes intersect; each pair is there once; nothing is thrown. *)
Theorem C22_pairs_exact :
  forall P D (pbox : P -> box) longest_axis sort_by nth_element_by num_threads
    (left right : soup P D) l_tags r_tags pairs x,
  rearranges sort_by nth_element_by ->
  valid_faces left -> valid_faces right ->
  length l_tags = num_faces left -> length r_tags = num_faces right -> 1 <= num_threads ->
  find_pairs pbox longest_axis sort_by nth_element_by num_threads left right l_tags r_tags pairs x ->
  x = None /\ NoDup pairs /\
  forall l r, In (l, r) pairs <->
    nth_error l_tags l = Some UNKNOWN /\ nth_error r_tags r = Some UNKNOWN /\
    exists lb rb, is_face_box pbox left l lb /\ is_face_box pbox right r rb /\
      boxes_intersect lb rb = true.
Proof.
  intros P D pbox la sb ne nt left right l_tags r_tags pairs x Hre Vl Vr Ll Lr Hnt H.
  destruct (find_pairs_ok pbox la sb ne Hre nt left right l_tags r_tags pairs x Vl Vr Ll Lr Hnt H)
    as (Hx & Hn & Hin).
  split; [ exact Hx | split; [ exact Hn | ] ].
  assert (U : forall tags fi, unknown tags fi = true <-> nth_error tags fi = Some UNKNOWN).
  { intros tags fi. unfold unknown. destruct (nth_error tags fi) as [ [ ] | ]; intuition congruence. }
  intros l r. rewrite Hin, !U. split.
  - intros (A1 & A2 & A3 & A4 & A5). split; [ exact A3 | split; [ exact A4 | ] ].
    exists (the_box pbox left l), (the_box pbox right r).
    split; [ apply the_box_ok; assumption | split; [ apply the_box_ok; assumption | exact A5 ] ].
  - intros (A3 & A4 & lb & rb & Bl & Br & A5).
    assert (A1 : l < num_faces left) by (rewrite <- Ll; apply nth_error_Some; congruence).
    assert (A2 : r < num_faces right) by (rewrite <- Lr; apply nth_error_Some; congruence).
    repeat split; auto.
    destruct (the_box_ok pbox left l Vl A1) as [_ [Cl _] ].
    destruct (the_box_ok pbox right r Vr A2) as [_ [Cr _] ].
    exact (boxes_intersect_box_in _ _ _ _ (proj2 Bl _ Cl) (proj2 Br _ Cr) A5).
Qed.
Print Assumptions C22_pairs_exact.

(** Hence no intersection is missed: if the triangles of two untagged faces have a
    common point, they are a candidate pair. *)
Theorem C22_no_intersection_missed :
  forall P D (pbox : P -> box) (loc : P -> vec3) longest_axis sort_by nth_element_by num_threads
    (left right : soup P D) l_tags r_tags pairs e l r pl0 pl1 pl2 pr0 pr1 pr2 x,
  rearranges sort_by nth_element_by ->
  (forall p, in_box (loc p) (pbox p)) ->
  valid_faces left -> valid_faces right ->
  length l_tags = num_faces left -> length r_tags = num_faces right -> 1 <= num_threads ->
  find_pairs pbox longest_axis sort_by nth_element_by num_threads left right l_tags r_tags pairs e ->
  nth_error l_tags l = Some UNKNOWN -> nth_error r_tags r = Some UNKNOWN ->
  soup_triangle left l = Ok (pl0, pl1, pl2) -> soup_triangle right r = Ok (pr0, pr1, pr2) ->
  in_triangle x (loc pl0) (loc pl1) (loc pl2) -> in_triangle x (loc pr0) (loc pr1) (loc pr2) ->
  In (l, r) pairs.
Proof.
  intros P D pbox loc la sb ne nt left right l_tags r_tags pairs e l r pl0 pl1 pl2 pr0 pr1 pr2 x
    Hre Hloc Vl Vr Ll Lr Hnt H Tl Tr Hl Hr Xl Xr.
  destruct (find_pairs_ok pbox la sb ne Hre nt left right l_tags r_tags pairs e Vl Vr Ll Lr Hnt H)
    as (_ & _ & Hin).
  assert (C : forall u v w a b c m : Q, (0 <= u -> 0 <= v -> 0 <= w -> u + v + w == 1 ->
    m <= a -> m <= b -> m <= c -> m <= u * a + v * b + w * c)%Q).
  { intros u v w a b c m Hu Hv Hw Hs Ha Hb Hc.
    assert (0 <= u * (a - m))%Q by (apply Qmult_le_0_compat; lra).
    assert (0 <= v * (b - m))%Q by (apply Qmult_le_0_compat; lra).
    assert (0 <= w * (c - m))%Q by (apply Qmult_le_0_compat; lra).
    assert (E : (u * a + v * b + w * c == u * (a - m) + v * (b - m) + w * (c - m) + (u + v + w) * m)%Q) by ring.
    rewrite E, Hs. lra. }
  assert (C' : forall u v w a b c m : Q, (0 <= u -> 0 <= v -> 0 <= w -> u + v + w == 1 ->
    a <= m -> b <= m -> c <= m -> u * a + v * b + w * c <= m)%Q).
  { intros u v w a b c m Hu Hv Hw Hs Ha Hb Hc.
    assert (X := C u v w (-a) (-b) (-c) (-m) Hu Hv Hw Hs). lra. }
  assert (B : forall (m : soup P D) f p0 p1 p2, valid_faces m -> f < num_faces m ->
    soup_triangle m f = Ok (p0, p1, p2) ->
    in_triangle x (loc p0) (loc p1) (loc p2) -> in_box x (the_box pbox m f)).
  { intros m f p0 p1 p2 Hv Hf Ht (u & v & w & Hu & Hv' & Hw & Hs & Ex & Ey & Ez).
    unfold the_box, face_bbox. rewrite Ht. cbn [bind].
    destruct (Hloc p0) as (a1 & a2 & a3), (Hloc p1) as (b1 & b2 & b3), (Hloc p2) as (c1 & c2 & c3).
    assert (J1 := box_join_l (box_join (pbox p0) (pbox p1)) (pbox p2)).
    assert (J2 := box_join_r (box_join (pbox p0) (pbox p1)) (pbox p2)).
    assert (J3 := box_in_trans _ _ _ (box_join_l (pbox p0) (pbox p1)) J1).
    assert (J4 := box_in_trans _ _ _ (box_join_r (pbox p0) (pbox p1)) J1).
    destruct J2 as (d1 & d2 & d3 & d4 & d5 & d6), J3 as (f1 & f2 & f3 & f4 & f5 & f6),
      J4 as (g1 & g2 & g3 & g4 & g5 & g6).
    generalize dependent (box_join (box_join (pbox p0) (pbox p1)) (pbox p2)). intros bx; intros.
    split; [ | split ].
    - rewrite Ex. split; [ apply C | apply C' ]; lra.
    - rewrite Ey. split; [ apply C | apply C' ]; lra.
    - rewrite Ez. split; [ apply C | apply C' ]; lra. }
  assert (A1 : l < num_faces left) by (rewrite <- Ll; apply nth_error_Some; congruence).
  assert (A2 : r < num_faces right) by (rewrite <- Lr; apply nth_error_Some; congruence).
  apply Hin. unfold unknown. rewrite Tl, Tr. repeat split; auto.
  destruct (B _ _ _ _ _ Vl A1 Hl Xl) as (a1 & a2 & a3).
  destruct (B _ _ _ _ _ Vr A2 Hr Xr) as (b1 & b2 & b3).
  unfold boxes_intersect, Qltb.
  rewrite negb_true_iff, !orb_false_iff, !negb_false_iff, !Qle_bool_iff. repeat split; lra.
Qed.
Print Assumptions C22_no_intersection_missed.

(** Two triangles that cross, a third one far away and a fourth one already
    tagged, with an execution of one thread. *)
Definition ex_pbox (p : vec3) : box := mk_box (vx p) (vy p) (vz p) (vx p) (vy p) (vz p).
Definition mkv (x y z : Q) : vec3 := (x, y, z).
Definition ex_left : soup vec3 unit :=
  mk_soup [mkv 0 0 0; mkv 4 0 0; mkv 0 4 0; mkv 40 40 40; mkv 41 40 40; mkv 40 41 40]
    [(0, 1, 2); (3, 4, 5); (1, 0, 2)] [tt; tt; tt].
Definition ex_right : soup vec3 unit :=
  mk_soup [mkv 1 1 (-1); mkv 1 1 3; mkv 9 1 3] [(0, 1, 2)] [tt].
Example C22_example :
  valid_faces ex_left /\ valid_faces ex_right /\
  exists x, find_pairs ex_pbox (fun _ => 0) (fun _ l => l) (fun _ _ l => l) 1 ex_left ex_right
    [UNKNOWN; UNKNOWN; COPLANAR] [UNKNOWN] [(0, 0)] x.
Proof.
  split; [ repeat (apply Forall_cons; [ cbn; lia | ]); apply Forall_nil | ].
  split; [ repeat (apply Forall_cons; [ cbn; lia | ]); apply Forall_nil | ].
  exists None. refine (fp_intro _ _ _ _ 1 ex_left ex_right _ _ _ _ _ _ _ _).
  - apply aabb_tree_intro with (limit := 0) (ls := [(the_box ex_pbox ex_right 0, 0)]).
    + vm_compute. reflexivity.
    + apply steps_refl.
  - apply pd_single.
    + vm_compute. discriminate.
    + reflexivity.
    + vm_compute. reflexivity.
Qed.
