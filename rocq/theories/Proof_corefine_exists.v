(** * Corefinement has an outcome *)
From Coq Require Import List Arith NArith Bool QArith Lqa Lia Permutation Sorted.
From Verif Require Import Model_base Proof_base Model_geometry Model_soup Model_region Model_points Model_ffi Model_aabb Model_parallel_do Model_candidates Model_corefine.
From Verif Require Import Spec_aabb Spec_points Spec_candidates Spec_defects Spec_ffi Spec_corefine Prop_parallel_do Prop_aabb Prop_candidates Proof_candidates Proof_pairs Proof_ffi_edge Proof_corefine_run Proof_corefine_rec Proof_corefine_all.
Import ListNotations.
Local Open Scope nat_scope.

Lemma pd_exists : forall A S X G (body : A -> S -> S * option X) (post : S -> G -> G * option X) l has_post nt s0 g0,
  1 <= nt -> exists tr g x, parallel_do body post l has_post nt s0 g0 tr g x.
Proof.
  intros A S X G body post l hp nt s0 g0 Hnt. destruct l as [ | a l]; [ exists [], g0, None; apply pd_empty; reflexivity | ].
  destruct (Nat.eq_dec (Nat.min nt (length (a :: l))) 1) as [E | E].
  - destruct (seq_do body post (a :: l) hp s0 g0) as [ [tr g] x] eqn:Es. exists tr, g, x. apply pd_single; [ discriminate | exact E | exact Es ].
  - destruct (C15_always_returns _ _ _ _ body post (a :: l) hp (Nat.min nt (length (a :: l))) s0 g0 [] _ _ (run_start _ _ _ _ body post (a :: l) hp _ s0 g0)) as (_ & tr & st & x & R).
    exists tr, (glob (snd st)), x. apply pd_workers; [ discriminate | exact E | exact R ].
Qed.

Lemma sorts_exists : forall key l, exists l', sorts key l l'.
Proof.
  intros key l. induction l as [ | i l (l' & Pm & So)]; [ exists []; split; constructor | ].
  assert (G : exists l'', Permutation (i :: l') l'' /\ StronglySorted (fun i j => key i <= key j) l'').
  { clear Pm l. induction So as [ | j l' So (l'' & Pm & So') Hj]; [ exists [i]; split; repeat constructor | ].
    destruct (Nat.le_gt_cases (key i) (key j)) as [H | H].
    - exists (i :: j :: l'). split; [ apply Permutation_refl | ]. constructor; [ constructor; assumption | ]. constructor; [ exact H | ].
      rewrite Forall_forall in *. intros x J. specialize (Hj x J). cbn in *. lia.
    - exists (j :: l''). split; [ eapply perm_trans; [ apply perm_swap | constructor; exact Pm ] | ]. constructor; [ exact So' | ].
      apply (Permutation_Forall Pm). constructor; [ lia | exact Hj ]. }
  destruct G as (l'' & P'' & S''). exists l''. split; [ | exact S'' ]. eapply perm_trans; [ constructor; exact Pm | exact P'' ].
Qed.

Lemma for_ranges_exists : forall {P} (f : list info -> res (nat * triangulation P)) rs, exists r, for_ranges f rs r.
Proof.
  intros P f rs.
  assert (G : (exists ts, Forall2 (fun r t => f r = Ok t) rs ts) \/ exists r, In r rs /\ forall t, f r <> Ok t).
  { induction rs as [ | r rs IH]; [ left; exists []; constructor | ]. destruct (f r) as [t | e | ] eqn:E.
    - destruct IH as [(ts & F) | (r' & J & N)]; [ left; exists (t :: ts); constructor; assumption | right; exists r'; split; [ right; exact J | exact N ] ].
    - right. exists r. split; [ left; reflexivity | congruence ].
    - right. exists r. split; [ left; reflexivity | congruence ]. }
  destruct G as [(ts & F) | (r & J & N)]; [ exists (Ok ts); constructor; exact F | ].
  destruct (f r) as [t | e | ] eqn:E; [ destruct (N t eq_refl) | exists (Throw e); eapply fr_throw; eassumption | exists UB; eapply fr_ub; eassumption ].
Qed.

Section Exists.
  Context {P D : Type}.
  Variable P_eqb : P -> P -> bool.
  Hypothesis Heq : forall a b, P_eqb a b = true <-> a = b.
  Variable coords : P -> vec3.

  Lemma clean_ids : forall (m : soup P D) pts ids, proper coords m -> no_twins m -> NoDup pts -> length ids = length (points m) ->
    (forall v p i, nth_error (points m) v = Some p -> nth_error ids v = Some i -> nth_error pts i = Some p) -> clean m ids.
  Proof.
    intros m pts ids Pm Tw Nd Hl Hid.
    assert (Uniq : forall i j p, nth_error pts i = Some p -> nth_error pts j = Some p -> i = j).
    { intros i j p H1 H2. apply (proj1 (NoDup_nth_error pts) Nd); [ apply nth_error_Some; congruence | congruence ]. }
    assert (Ids : forall v p, nth_error (points m) v = Some p -> exists i, nth_error ids v = Some i /\ nth_error pts i = Some p).
    { intros v p H. destruct (nth_error ids v) as [i | ] eqn:E; [ exists i; split; [ reflexivity | eapply Hid; eassumption ] | ].
      apply nth_error_None in E. assert (v < length (points m)) by (apply nth_error_Some; congruence). lia. }
    assert (Back : forall fi a b c, face_points m ids fi (a, b, c) -> exists p q r, face_corners m fi (p, q, r) /\ nth_error pts a = Some p /\ nth_error pts b = Some q /\ nth_error pts c = Some r).
    { intros fi a b c (v0 & v1 & v2 & i0 & i1 & i2 & Hf & H0 & H1 & H2 & X). injection X as <- <- <-.
      destruct (Pm fi) as (t & (w0 & w1 & w2 & p & q & r & Hf' & A & B & C & ->) & _); [ unfold num_faces; apply nth_error_Some; congruence | ].
      rewrite Hf in Hf'. injection Hf' as <- <- <-. exists p, q, r. split; [ exists v0, v1, v2, p, q, r; auto | ]. split; [ | split ]; eapply Hid; eassumption. }
    split.
    - intros fi Hfi. destruct (Pm fi Hfi) as (t & (v0 & v1 & v2 & p & q & r & Hf & A & B & C & ->) & N).
      destruct (Ids _ _ A) as (a & A1 & A2), (Ids _ _ B) as (b & B1 & B2), (Ids _ _ C) as (c & C1 & C2).
      exists (a, b, c). split; [ exists v0, v1, v2, a, b, c; auto | ]. destruct (distinct_corners _ _ _ N) as (X & Y & Z).
      assert (R : forall x, same_point x x) by (intro x; repeat split; reflexivity).
      assert (W : forall i j x y, nth_error pts i = Some x -> nth_error pts j = Some y -> i = j -> same_point (coords x) (coords y)) by (intros i j x y Hx Hy ->; rewrite Hx in Hy; injection Hy as ->; apply R).
      split; [ | split ]; intro E; [ apply X | apply Y | apply Z ]; [ exact (W _ _ _ _ A2 B2 E) | exact (W _ _ _ _ B2 C2 E) | exact (W _ _ _ _ C2 A2 E) ].
    - intros i j [ [a b] c] [ [a' b'] c'] Hi Hj Hc. destruct (Back _ _ _ _ Hi) as (p & q & r & Ci & A & B & C), (Back _ _ _ _ Hj) as (p' & q' & r' & Cj & A' & B' & C').
      apply (Tw i j p q r p' q' r' Ci Cj). intro x. destruct Hc as [ [E | [E | E] ] | [E | [E | E] ] ]; injection E as -> -> ->; rewrite A, B, C in *; cbn;
        repeat match goal with H : Some _ = Some _ |- _ => injection H as H end; subst; tauto.
  Qed.

  Lemma tag_of : forall (m o : soup P D) pts ids oids L t tag, NoDup pts -> proper coords o ->
    length ids = length (points m) -> length oids = length (points o) ->
    (forall v p i, nth_error (points m) v = Some p -> nth_error ids v = Some i -> nth_error pts i = Some p) ->
    (forall v p i, nth_error (points o) v = Some p -> nth_error oids v = Some i -> nth_error pts i = Some p) ->
    face_corners m L t -> expected_tag m ids o oids L tag -> right_tag o t tag.
  Proof.
    intros m o pts ids oids L t tag Nd Po Hl Hl' Hid Hid' C (f & Hf & E).
    assert (Uniq : forall i j p, nth_error pts i = Some p -> nth_error pts j = Some p -> i = j).
    { intros i j p H1 H2. apply (proj1 (NoDup_nth_error pts) Nd); [ apply nth_error_Some; congruence | congruence ]. }
    set (names := fun (f : nat * nat * nat) (t : P * P * P) => let '(a, b, c) := f in let '(p, q, r) := t in
      nth_error pts a = Some p /\ nth_error pts b = Some q /\ nth_error pts c = Some r).
    assert (Ids : forall v p, nth_error (points o) v = Some p -> exists i, nth_error oids v = Some i /\ nth_error pts i = Some p).
    { intros v p H. destruct (nth_error oids v) as [i | ] eqn:Ei; [ exists i; split; [ reflexivity | eapply Hid'; eassumption ] | ].
      apply nth_error_None in Ei. assert (v < length (points o)) by (apply nth_error_Some; congruence). lia. }
    assert (Nf : names f t).
    { destruct Hf as (v0 & v1 & v2 & i0 & i1 & i2 & Hf & H0 & H1 & H2 & ->). destruct C as (w0 & w1 & w2 & p & q & r & Hf' & A & B & C & ->).
      rewrite Hf in Hf'. injection Hf' as <- <- <-. split; [ | split ]; eapply Hid; eassumption. }
    assert (Fwd : forall j g, face_points o oids j g -> exists u, face_corners o j u /\ names g u).
    { intros j g (v0 & v1 & v2 & i0 & i1 & i2 & Hg & H0 & H1 & H2 & ->).
      destruct (Po j) as (u & (w0 & w1 & w2 & p & q & r & Hg' & A & B & C' & ->) & _); [ unfold num_faces; apply nth_error_Some; congruence | ].
      rewrite Hg in Hg'. injection Hg' as <- <- <-. exists (p, q, r). split; [ exists v0, v1, v2, p, q, r; auto | ]. split; [ | split ]; eapply Hid'; eassumption. }
    assert (Bwd : forall j u, face_corners o j u -> exists g, face_points o oids j g /\ names g u).
    { intros j u (v0 & v1 & v2 & p & q & r & Hg & A & B & C' & ->). destruct (Ids _ _ A) as (a & A1 & A2), (Ids _ _ B) as (b & B1 & B2), (Ids _ _ C') as (c & C1 & C2).
      exists (a, b, c). split; [ exists v0, v1, v2, a, b, c; auto | ]. split; [ | split ]; assumption. }
    assert (Cy : forall g u, names g u -> (same_cycle f g <-> turned t u) /\ (opposite_cycle f g <-> turned_over t u)).
    { clear - Nf Uniq. intros [ [a' b'] c'] [ [p' q'] r'] (A' & B' & C'). destruct f as [ [a b] c], t as [ [p q] r]. destruct Nf as (A & B & C).
      assert (G : forall i j x y, nth_error pts i = Some x -> nth_error pts j = Some y -> (j = i <-> y = x)).
      { intros i j x y Hx Hy. split; [ intros -> | intros ->; eapply Uniq; eassumption ]. congruence. }
      unfold opposite_cycle, turned_over, same_cycle, turned.
      assert (Tr : forall i j k i' j' k' x y z x' y' z', nth_error pts i = Some x -> nth_error pts j = Some y -> nth_error pts k = Some z ->
        nth_error pts i' = Some x' -> nth_error pts j' = Some y' -> nth_error pts k' = Some z' -> ((i', j', k') = (i, j, k) <-> (x', y', z') = (x, y, z))).
      { intros i j k i' j' k' x y z x' y' z' X Y Z X' Y' Z'. assert (Gx := G _ _ _ _ X X'). assert (Gy := G _ _ _ _ Y Y'). assert (Gz := G _ _ _ _ Z Z').
        split; intro H; injection H as H1 H2 H3; apply Gx in H1; apply Gy in H2; apply Gz in H3; congruence. }
      assert (T1 := fun i j k x y z X Y Z => Tr i j k _ _ _ x y z _ _ _ X Y Z A' B' C').
      rewrite (T1 _ _ _ _ _ _ A B C), (T1 _ _ _ _ _ _ B C A), (T1 _ _ _ _ _ _ C A B), (T1 _ _ _ _ _ _ C B A), (T1 _ _ _ _ _ _ B A C), (T1 _ _ _ _ _ _ A C B). tauto. }
    destruct tag; cbn [right_tag]; try exact E.
    - intros j u Cu. destruct (Bwd _ _ Cu) as (g & Fg & N). destruct (E _ _ Fg) as [N1 N2]. destruct (Cy _ _ N) as [<- <-]. auto.
    - destruct E as (j & g & Fg & S). destruct (Fwd _ _ Fg) as (u & Cu & N). exists j, u. split; [ exact Cu | apply (Cy _ _ N), S ].
    - destruct E as ((j & g & Fg & S) & _). destruct (Fwd _ _ Fg) as (u & Cu & N). exists j, u. split; [ exact Cu | apply (Cy _ _ N), S ].
  Qed.

  Variable pbox : P -> box.
  Variable longest_axis : option box -> nat.
  Variable sort_by : nat -> list (box * nat) -> list (box * nat).
  Variable nth_element_by : nat -> nat -> list (box * nat) -> list (box * nat).
  Lemma find_pairs_exists : forall nt (left right : soup P D) lt rt, 1 <= nt -> proper coords left -> proper coords right ->
    exists pairs x, find_pairs pbox longest_axis sort_by nth_element_by nt left right lt rt pairs x.
  Proof.
    intros nt left right lt rt Hnt Pl Pr.
    assert (T : forall m : soup P D, proper coords m -> exists t, aabb_tree pbox longest_axis sort_by nth_element_by m t).
    { intros m Pm. assert (L := leaves_ok pbox m (proper_valid coords m Pm)). destruct (C23_can_be_built _ (@fst box nat) longest_axis sort_by nth_element_by 0 (map (fun fi => (the_box pbox m fi, fi)) (seq 0 (num_faces m)))) as (t & Ht).
      exists t. eapply aabb_tree_intro; [ exact L | exact Ht ]. }
    destruct (T (if num_faces left <? num_faces right then left else right)) as (t & Ht); [ destruct (num_faces left <? num_faces right); assumption | ].
    match type of Ht with aabb_tree _ _ _ _ ?m _ => 
      destruct (pd_exists _ _ _ _ (to_body (pairs_body pbox (num_faces left <? num_faces right) (if num_faces left <? num_faces right then right else left)
      (if num_faces left <? num_faces right then lt else rt) (if num_faces left <? num_faces right then rt else lt) t)) (@append_post (nat * nat))
      (seq 0 (num_faces (if num_faces left <? num_faces right then right else left))) true nt [] [] Hnt) as (tr & g & x & H) end.
    exists g, x. econstructor; [ exact Ht | exact H ].
  Qed.

  Variable cll : P -> P -> P -> P -> P.
  Variable cpl : P -> P -> P -> P -> P -> P.
  Variable accepts : triangulation P -> nat -> nat -> bool.
  Lemma corefine_exists : forall nt (left right : soup P D), 1 <= nt -> proper coords left -> proper coords right ->
    no_twins left -> no_twins right ->
    exists r, corefine P_eqb coords pbox longest_axis sort_by nth_element_by cll cpl accepts nt left right r.
  Proof.
    intros nt left right Hnt Pl Pr Tl Tr.
    destruct (start_points P_eqb left right) as [ [pl lids] rids] eqn:Hs.
    destruct (start_points_ok P_eqb Heq _ _ _ _ _ Hs) as (_ & Ll & Lr & Il & Ir & Nd).
    destruct (C21_no_exception _ _ left right lids rids (clean_ids left _ _ Pl Tl Nd Ll Il) (clean_ids right _ _ Pr Tr Nd Lr Ir)) as (lt & rt & Ht).
    destruct (find_pairs_exists nt left right lt rt Hnt Pl Pr) as (pairs & x & Hp).
    destruct x as [x | ]; [ exists (raised_as x); eapply corefine_pairs; eassumption | ].
    destruct (pd_exists _ _ _ _ (to_body (pair_body coords (pl_points pl) left right lids rids)) (@append_post info) pairs true nt [] [] Hnt) as (tr & infos0 & ix & Hr).
    destruct ix as [x | ]; [ exists (raised_as x); eapply corefine_records; eassumption | ].
    destruct (insert_infos P_eqb cll cpl pl left right lids rids infos0) as [ [pl' infos1] | e | ] eqn:Hi.
    2: exists (Throw e); eapply corefine_points; try eassumption; rewrite Hi; reflexivity.
    2: exists UB; eapply corefine_points; try eassumption; rewrite Hi; reflexivity.
    destruct (sorts_exists i_left infos1) as (infos2 & S2).
    destruct (for_ranges_exists (triangulate P_eqb accepts LEFT_FACE i_left (pl_points pl') left lids) (ranges (length infos2) i_left infos2)) as (r2 & F2).
    destruct r2 as [ltris | e | ].
    2: exists (Throw e); eapply corefine_left; try eassumption; reflexivity.
    2: exists UB; eapply corefine_left; try eassumption; reflexivity.
    destruct (sorts_exists i_right infos2) as (infos3 & S3).
    destruct (for_ranges_exists (triangulate P_eqb accepts RIGHT_FACE i_right (pl_points pl') right rids) (ranges (length infos3) i_right infos3)) as (r3 & F3).
    destruct r3 as [rtris | e | ].
    - eexists. eapply corefine_ok; eassumption.
    - exists (Throw e); eapply corefine_right; try eassumption; reflexivity.
    - exists UB; eapply corefine_right; try eassumption; reflexivity.
  Qed.
End Exists.
