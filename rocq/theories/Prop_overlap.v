(** * C43: overlapping faces *)
From Coq Require Import List Arith Bool NArith ZArith QArith Lqa Lia Setoid Permutation.
From Verif Require Import Model_base Proof_base Model_soup Model_points Model_parallel_do Model_aabb Spec_aabb Prop_aabb Model_candidates Spec_candidates Proof_pairs Proof_collect.
From Verif Require Import Model_geometry Model_region Model_ffi Model_overlap Model_defects Spec_defects Proof_defect_edges Prop_defects.
From Verif Require Import Spec_ffi Spec_overlap Proof_overlap.
Import ListNotations.
Local Open Scope nat_scope.

(** What Find_defects reports for the mesh [m]: the constructor merges equal points
    (Find_defects.h:33-34 and C42), and overlapping_faces receives the faces that the other
    two reports found degenerate (Find_defects.h:41-44). *)
Definition overlap_report {P D} (P_eqb : P -> P -> bool) (d0 : D) coords pbox longest_axis sort_by nth_element_by
    (num_threads : nat) (m : soup P D) (fis : list nat) (x : option (option exn)) : Prop :=
  exists m' trivial non_trivial,
    merge_duplicate_vertices P_eqb d0 m = Ok m' /\
    trivial_degenerate_faces m' = Ok trivial /\
    non_trivial_degenerate_faces coords num_threads m' non_trivial None /\
    overlapping_faces P_eqb coords pbox longest_axis sort_by nth_element_by num_threads m' trivial non_trivial fis x.

Lemma corners_exist : forall {P D} (m : soup P D) fi f, valid_faces m -> nth_error (faces m) fi = Some f -> exists p q r, face_corners m fi (p, q, r).
Proof.
  intros P D m fi f V H. assert (L : fi < num_faces m) by (apply nth_error_Some; congruence).
  destruct (valid_corners m fi V L) as (v0 & v1 & v2 & p0 & p1 & p2 & Hf & H0 & H1 & H2). exists p0, p1, p2, v0, v1, v2, p0, p1, p2. auto.
Qed.
(** The degenerate faces are the ones of the two reports. *)
Lemma degenerate_iff : forall {P D} (coords : P -> vec3) (m : soup P D) nt trivial non_trivial, valid_faces m -> 1 <= nt ->
  trivial_degenerate_faces m = Ok trivial -> non_trivial_degenerate_faces coords nt m non_trivial None ->
  forall fi, fi < num_faces m -> (In fi (trivial ++ non_trivial) <-> degenerate_face coords m fi).
Proof.
  intros P D coords m nt triv nontriv V Hnt Et Rn fi Hfi. destruct (C33_trivial P D m) as (tr & Et' & _ & Ht). rewrite Et in Et'. injection Et' as <-.
  destruct (C33_non_trivial P D coords m nt nontriv None V Hnt Rn) as (_ & _ & Hn). rewrite in_app_iff, Ht, Hn. unfold degenerate_face. split.
  - intros [ (f & Ef & Np) | (f & p & q & r & Ef & Pf & Fc & C)]; [ | exists p, q, r; auto ].
    destruct (valid_corners m fi V Hfi) as (v0 & v1 & v2 & p0 & p1 & p2 & Hf & H0 & H1 & H2). exists p0, p1, p2. split; [ exists v0, v1, v2, p0, p1, p2; auto | ].
    rewrite Ef in Hf. injection Hf as ->.
    assert (K : forall u v : vec3, collinear u u v /\ collinear u v u /\ collinear v u u).
    { intros u v. assert (A : on_line u (vsub v u) u) by (exists 0%Q; repeat split; ring). assert (B : on_line u (vsub v u) v) by (exists 1%Q; unfold vsub, vx, vy, vz; cbn [fst snd]; repeat split; ring).
      repeat split; exists u, (vsub v u); auto. }
    destruct (Nat.eq_dec v0 v1) as [-> | N1]; [ rewrite H0 in H1; injection H1 as <-; apply K | ].
    destruct (Nat.eq_dec v1 v2) as [-> | N2]; [ rewrite H1 in H2; injection H2 as <-; apply K | ].
    destruct (Nat.eq_dec v2 v0) as [-> | N3]; [ rewrite H0 in H2; injection H2 as <-; apply K | ]. exfalso. apply Np. cbn. auto.
  - intros (p & q & r & Fc & C). destruct (nth_error (faces m) fi) as [f | ] eqn:Ef; [ | apply nth_error_None in Ef; unfold num_faces in Hfi; lia ].
    destruct f as [ [a b] c]. destruct (properb (a, b, c)) eqn:Pb; unfold properb in Pb.
    + right. exists (a, b, c), p, q, r. rewrite !andb_true_iff, !negb_true_iff, !Nat.eqb_neq in Pb. split; [ reflexivity | ]. split; [ cbn; tauto | auto ].
    + left. exists (a, b, c). split; [ reflexivity | ]. intros (N1 & N2 & N3). apply Nat.eqb_neq in N1, N2, N3. rewrite N1, N2, N3 in Pb. discriminate.
Qed.

(** Under every schedule nothing is thrown, and the report lists, once, exactly the faces
    (that are not degenerate) which overlap a later face (that is not degenerate). *)
Theorem C43_exact :
  forall (P D : Type) (P_eqb : P -> P -> bool) (d0 : D) (coords : P -> vec3) (pbox : P -> box) longest_axis sort_by nth_element_by
    num_threads (m : soup P D) fis x,
  (forall p q, P_eqb p q = true <-> p = q) -> (forall p, in_box (coords p) (pbox p)) -> rearranges sort_by nth_element_by ->
  valid_faces m -> 1 <= num_threads ->
  overlap_report P_eqb d0 coords pbox longest_axis sort_by nth_element_by num_threads m fis x ->
  x = None /\ NoDup fis /\
  forall fi, In fi fis <-> fi < num_faces m /\ ~ degenerate_face coords m fi /\
    exists fj, fi < fj /\ fj < num_faces m /\ ~ degenerate_face coords m fj /\ overlap coords m fi fj.
Proof.
  intros P D P_eqb d0 coords pbox la sb ne nt m fis x He Hb Hre V Hnt (m' & triv & nontriv & Em & Et & Rn & Ro).
  destruct (C42_merge P D P_eqb d0 m He V) as (m1 & E1 & Dp & Ip & Nf & _ & V' & Fc). assert (m1 = m') by congruence. subst m1.
  assert (Ed : forall fi, degenerate_face coords m' fi <-> degenerate_face coords m fi).
  { intro fi. unfold degenerate_face. split; intros (p & q & r & F & C); exists p, q, r; (split; [ apply Fc; exact F | exact C ]). }
  assert (Ef : forall fi x, on_face coords m' fi x <-> on_face coords m fi x).
  { intros fi y. unfold on_face. split; intros (p & q & r & F & C); exists p, q, r; (split; [ apply Fc; exact F | exact C ]). }
  assert (Ec : forall fi p, corner_of m' fi p <-> corner_of m fi p).
  { intros fi y. unfold corner_of. split; intros (p & q & r & F & C); exists p, q, r; (split; [ apply Fc; exact F | exact C ]). }
  assert (Eo : forall fi fj, overlap coords m' fi fj <-> overlap coords m fi fj).
  { intros fi fj. unfold overlap, shared. split; intros (y & A & B & C); exists y; (split; [ apply Ef; exact A | ]); (split; [ apply Ef; exact B | ]);
      intros p q [K1 K2] [K3 K4]; apply C; split; apply Ec; assumption. }
  pose proof (degenerate_iff coords m' nt triv nontriv V' Hnt Et Rn) as Dg.
  destruct Ro as [t tr fis x Ht Hpd]. rewrite (overlap_points_ok P_eqb m') in Hpd.
  set (f := overlap_body coords pbox m' (triv ++ nontriv) (points m') t) in *.
  set (h := fun i => match f i with Ok r => r | _ => [] end).
  assert (Hf : forall i, In i (seq 0 (num_faces m')) -> f i = Ok (h i)).
  { intros i Hi. apply in_seq in Hi. destruct (overlap_body_ok P_eqb coords m' V' Dp (triv ++ nontriv) Dg pbox Hb la sb ne Hre t i Ht ltac:(lia)) as (b & E & _).
    unfold h. fold f in E. rewrite E. reflexivity. }
  destruct (collect Nat.eq_dec f h _ _ _ _ _ Hf Hnt Hpd) as [-> Hp].
  assert (Hh : forall i, i < num_faces m' -> exists b : bool, h i = (if b then [i] else []) /\
    (b = true <-> ~ degenerate_face coords m' i /\ exists fj, i < fj /\ fj < num_faces m' /\ ~ degenerate_face coords m' fj /\ overlap coords m' i fj)).
  { intros i Hi. destruct (overlap_body_ok P_eqb coords m' V' Dp (triv ++ nontriv) Dg pbox Hb la sb ne Hre t i Ht Hi) as (b & E & B). exists b. unfold h. fold f in E. rewrite E. auto. }
  split; [ reflexivity | ]. split.
  - apply (Permutation_NoDup (Permutation_sym Hp)).
    assert (G : forall l, NoDup l -> (forall i, In i l -> i < num_faces m') -> NoDup (flat_map h l)).
    { induction l as [ | i l IH]; intros Hn Hl; cbn [flat_map]; [ constructor | ]. inversion Hn as [ | ? ? Ni Hn']; subst.
      apply NoDup_app_disjoint; [ | apply IH; [ exact Hn' | intros; apply Hl; right; assumption ] | ].
      - destruct (Hh i (Hl i (or_introl eq_refl))) as (b & -> & _). destruct b; repeat constructor. intros [ ].
      - intros y A B. destruct (Hh i (Hl i (or_introl eq_refl))) as (b & Eb & _). rewrite Eb in A. destruct b; [ | destruct A ]. destruct A as [<- | [ ] ].
        apply in_flat_map in B. destruct B as (j & Hj & B). destruct (Hh j (Hl j (or_intror Hj))) as (b & Ej & _). rewrite Ej in B. destruct b; [ | destruct B ]. destruct B as [<- | [ ] ]. auto. }
    apply G; [ apply seq_NoDup | intros i Hi; apply in_seq in Hi; lia ].
  - intro fi. assert (E : In fi fis <-> In fi (flat_map h (seq 0 (num_faces m')))) by (split; apply Permutation_in; [ exact Hp | apply Permutation_sym; exact Hp ]).
    rewrite E, in_flat_map, <- Nf. split.
    + intros (i & Hi & J). apply in_seq in Hi. destruct (Hh i ltac:(lia)) as (b & Eb & B). rewrite Eb in J. destruct b; [ | destruct J ]. destruct J as [<- | [ ] ].
      destruct (proj1 B eq_refl) as (N & fj & K1 & K2 & K3 & K4). rewrite Ed in N, K3. rewrite Eo in K4. split; [ lia | ]. split; [ exact N | ]. exists fj. auto.
    + intros (Hi & N & fj & K1 & K2 & K3 & K4). rewrite <- Ed in N, K3. rewrite <- Eo in K4. exists fi. split; [ apply in_seq; lia | ].
      destruct (Hh fi Hi) as (b & Eb & B). rewrite Eb. assert (Hbt : b = true) by (apply B; split; [ exact N | exists fj; auto ]). rewrite Hbt. left. reflexivity.
Qed.
Print Assumptions C43_exact.

(** The report is empty exactly if no two non-degenerate faces overlap. *)
Theorem C43_flag :
  forall (P D : Type) (P_eqb : P -> P -> bool) (d0 : D) (coords : P -> vec3) (pbox : P -> box) longest_axis sort_by nth_element_by
    num_threads (m : soup P D) fis x,
  (forall p q, P_eqb p q = true <-> p = q) -> (forall p, in_box (coords p) (pbox p)) -> rearranges sort_by nth_element_by ->
  valid_faces m -> 1 <= num_threads ->
  overlap_report P_eqb d0 coords pbox longest_axis sort_by nth_element_by num_threads m fis x ->
  (fis = [] <-> forall fi fj, fi < num_faces m -> fj < num_faces m -> fi <> fj ->
    ~ degenerate_face coords m fi -> ~ degenerate_face coords m fj -> ~ overlap coords m fi fj).
Proof.
  intros P D P_eqb d0 coords pbox la sb ne nt m fis x He Hb Hre V Hnt R.
  destruct (C43_exact P D P_eqb d0 coords pbox la sb ne nt m fis x He Hb Hre V Hnt R) as (_ & _ & I).
  assert (Sy : forall i j, overlap coords m i j -> overlap coords m j i).
  { intros i j (y & A & B & C). exists y. split; [ exact B | ]. split; [ exact A | ]. intros p q [K1 K2] [K3 K4]. apply C; split; assumption. }
  split.
  - intros -> fi fj Hi Hj N Ni Nj O. destruct (Nat.lt_ge_cases fi fj) as [L | L].
    + apply (proj2 (I fi)). split; [ exact Hi | ]. split; [ exact Ni | ]. exists fj. auto.
    + apply (proj2 (I fj)). split; [ exact Hj | ]. split; [ exact Nj | ]. exists fi. split; [ lia | ]. split; [ exact Hi | ]. split; [ exact Ni | apply Sy; exact O ].
  - intro H. destruct fis as [ | fi l]; [ reflexivity | exfalso ]. destruct (proj1 (I fi) (or_introl eq_refl)) as (Hi & Ni & fj & L & Hj & Nj & O).
    apply (H fi fj); auto. lia.
Qed.
Print Assumptions C43_flag.

(** ** Cases *)
(** Every mesh with a face has a report (with one thread). *)
Example C43_can_run : forall (P D : Type) (P_eqb : P -> P -> bool) (d0 : D) (coords : P -> vec3) (pbox : P -> box) longest_axis sort_by nth_element_by (m : soup P D),
  (forall p q, P_eqb p q = true <-> p = q) -> valid_faces m -> 1 <= num_faces m ->
  exists fis x, overlap_report P_eqb d0 coords pbox longest_axis sort_by nth_element_by 1 m fis x.
Proof.
  intros P D P_eqb d0 coords pbox la sb ne m He V N. destruct (C42_merge P D P_eqb d0 m He V) as (m' & E1 & Dp & Ip & Nf & _ & V' & Fc).
  destruct (C33_trivial P D m') as (triv & Et & _).
  assert (Run : forall body : nat -> res (list nat), exists fis x, exists tr, parallel_do (to_body body) append_post (seq 0 (num_faces m')) true 1 [] [] tr fis x).
  { intro body. destruct (seq_do (to_body body) (@append_post nat) (seq 0 (num_faces m')) true [] []) as [ [tr g] x] eqn:Es. exists g, x, tr. apply pd_single; [ | | exact Es ].
    - destruct (num_faces m') as [ | k] eqn:Ek; [ lia | discriminate ].
    - rewrite seq_length. lia. }
  destruct (Run (degenerate_body coords m')) as (nontriv & x & tr & R).
  assert (Rn : non_trivial_degenerate_faces coords 1 m' nontriv x) by (exists tr; exact R).
  destruct (C33_non_trivial P D coords m' 1 nontriv x V' ltac:(lia) Rn) as (-> & _).
  destruct (C23_can_be_built (box * nat) (@fst box nat) la sb ne 0 (map (fun fi => (the_box pbox m' fi, fi)) (seq 0 (num_faces m')))) as (t & Ht).
  destruct (Run (overlap_body coords pbox m' (triv ++ nontriv) (overlap_points P_eqb m') t)) as (fis & x & tr' & R').
  exists fis, x, m', triv, nontriv. split; [ exact E1 | ]. split; [ exact Et | ]. split; [ exact Rn | ].
  apply (of_intro P_eqb coords pbox la sb ne 1 m' triv nontriv t tr' fis x); [ | exact R' ].
  eapply aabb_tree_intro; [ apply leaves_ok; exact V' | exact Ht ].
Qed.

(** Two faces with a common edge; a face through the first one; a face that touches the
    vertex 1 with its own vertex 8 (given twice, once as 1 and once as 8). *)
Definition zp (x y z : Z) : vec3 := (inject_Z x, inject_Z y, inject_Z z).
Definition ov_points : list vec3 := [zp 0 0 0; zp 8 0 0; zp 0 8 0; zp 8 8 0; zp 1 1 (-1); zp 1 1 1; zp 2 2 1; zp 9 0 5; zp 9 0 9].
Definition ov_mesh : soup vec3 unit := mk_soup ov_points [(0, 1, 2); (1, 3, 2); (4, 5, 6); (1, 7, 8)] [tt; tt; tt; tt].
Example C43_tests :
  overlap_test (fun p => p) ov_points (0, 1, 2) (1, 3, 2) = Ok false /\
  overlap_test (fun p => p) ov_points (0, 1, 2) (4, 5, 6) = Ok true /\
  overlap_test (fun p => p) ov_points (0, 1, 2) (1, 7, 8) = Ok false /\
  overlap_test (fun p => p) ov_points (0, 1, 2) (2, 1, 0) = Ok true.
Proof. vm_compute. auto. Qed.
Example C43_overlap : overlap (fun p => p) ov_mesh 0 2.
Proof.
  exists (zp 1 1 0). split; [ | split ].
  - exists (zp 0 0 0), (zp 8 0 0), (zp 0 8 0). split; [ exists 0, 1, 2, (zp 0 0 0), (zp 8 0 0), (zp 0 8 0); repeat split | ].
    exists (3 # 4)%Q, (1 # 8)%Q, (1 # 8)%Q. repeat split; vm_compute; congruence.
  - exists (zp 1 1 (-1)), (zp 1 1 1), (zp 2 2 1). split; [ exists 4, 5, 6, (zp 1 1 (-1)), (zp 1 1 1), (zp 2 2 1); repeat split | ].
    exists (1 # 2)%Q, (1 # 2)%Q, 0%Q. repeat split; vm_compute; congruence.
  - intros p q [ (a & b & c & (i & j & k & a' & b' & c' & Ef & Ha & Hb & Hc & E) & Hp) (a1 & b1 & c1 & (i1 & j1 & k1 & a1' & b1' & c1' & Ef1 & Ha1 & Hb1 & Hc1 & E1) & Hp1)] _ _.
    cbn in Ef, Ef1. injection Ef as <- <- <-. injection Ef1 as <- <- <-. cbn in Ha, Hb, Hc, Ha1, Hb1, Hc1.
    injection Ha as <-. injection Hb as <-. injection Hc as <-. injection Ha1 as <-. injection Hb1 as <-. injection Hc1 as <-.
    injection E as -> -> ->. injection E1 as -> -> ->. destruct Hp as [-> | [-> | ->] ]; destruct Hp1 as [E | [E | E] ]; vm_compute in E; discriminate.
Qed.
