(** * C41: successive computations *)
From Coq Require Import List Arith Bool Lia.
From Verif Require Import Model_reuse Proof_reuse.
Import ListNotations.

(** A computation that parallel_do runs on threads of its own reads its own points,
    whatever other computations run before, between or at the same time, on this or on other
    threads.  What is missing: computations that run on the calling thread, because they
    have one face pair (or face) or because one thread is allowed; see below. *)
Theorem C41_own_points_partial : forall comps es s c th used,
  history comps initial es s -> In (Body c th used) es ->
  Nat.min (c_threads (comps c)) (c_length (comps c)) <> 1 ->
  used = Some c.
Proof.
  intros comps es s c th used H I W. apply in_split in I. destruct I as (pre & post & ->).
  apply history_app in H. destruct H as (s1 & H1 & H2). inversion H2 as [ | ? ? s2 ? ? He Hh]; subst.
  assert (J := inv_history comps _ _ _ H1 inv_initial).
  inversion He as [ | ? ? a ? b ? L R B U | ]; subst. destruct J as (J1 & J2 & J3).
  destruct R as [_ R]. fold (workers comps c) in W. destruct (Nat.eqb_spec (workers comps c) 1) as [E | _]; [ contradiction | ]. destruct R as (k & _ & ->).
  apply (lives_fun s1 a used (Some c) (conj J1 (conj J2 J3))); [ | constructor; exact L ].
  destruct (slots s1 (c_site (comps c)) (Worker c k)) as [b | ] eqn:Es; [ | exact U ].
  destruct (J3 _ _ _ _ Es) as [_ [K | K] ]; rewrite L in K; [ injection K as <-; exact U | discriminate ].
Qed.
Print Assumptions C41_own_points_partial.

(** On the calling thread: the first computation that uses a thread's object decides where
    that object looks for points, for ever.  A later computation reads its own points
    exactly if its point list happens to be at the same address. *)
Theorem C41_calling_thread : forall comps es1 c0 a0 u0 es2 c a used s th,
  history comps initial ((es1 ++ Body c0 th u0 :: es2) ++ [Body c th used]) s ->
  (* the first use of the object *)
  (forall e, In e es1 -> ~ uses comps (c_site (comps c)) th e) ->
  c_site (comps c0) = c_site (comps c) ->
  In (Begin c0 a0) es1 -> In (Begin c a) (es1 ++ Body c0 th u0 :: es2) ->
  u0 = Some c0 /\ (used = Some c <-> a = a0).
Proof.
  intros comps es1 c0 a0 u0 es2 c a used s th H F Es B0 B.
  assert (Hs := H). apply history_snoc in H. destruct H as (s1 & H1 & H2). assert (H1' := H1).
  apply history_app in H1. destruct H1 as (s0 & Ha & Hb). inversion Hb as [ | ? ? s0' ? ? He Hh]; subst.
  assert (J0 := inv_history comps _ _ _ Ha inv_initial). assert (J1 := inv_history comps _ _ _ H1' inv_initial).
  assert (N : slots s0 (c_site (comps c)) th = None) by (apply (slot_unset comps _ _ _ _ _ Ha); [ apply Forall_forall; exact F | reflexivity ]).
  inversion He as [ | ? ? x ? b ? L R Eb U | ]; subst. rewrite Es, N in U.
  assert (x = a0).
  { destruct (begin_at comps _ _ _ _ Ha _ L) as [X | X]; [ discriminate | ]. exact (begin_unique comps _ _ _ _ _ _ Ha X B0). }
  subst x. split; [ apply (lives_fun s0 a0 _ _ J0 U); constructor; exact L | ].
  rewrite Es, N in Hh.
  match type of Hh with history _ ?s00 _ _ => assert (K : slots s00 (c_site (comps c)) th = Some a0) end.
  { cbn [slots]. rewrite (proj2 (site_eqb_eq _ _) eq_refl), (proj2 (thread_eqb_eq _ _) eq_refl). reflexivity. }
  apply (slot_kept comps _ _ _ _ _ _ Hh) in K.
  inversion H2 as [ | ? ? y ? b ? L' R' Eb U' | ]; subst. rewrite K in U'.
  assert (y = a).
  { destruct (begin_at comps _ _ _ _ H1' _ L') as [X | X]; [ discriminate | ]. exact (begin_unique comps _ _ _ _ _ _ H1' X B). }
  subst y. split.
  - intros ->. inversion U'; subst. congruence.
  - intros ->. apply (lives_fun s1 a0 _ _ J1 U'). constructor. exact L'.
Qed.
Print Assumptions C41_calling_thread.

(** The claim is false as stated: two computations with one face pair each, one after the other on one
    thread, with any number of threads allowed; the second one uses a dangling reference. *)
Theorem C41_refuted : forall threads addr1 addr2, 1 <= threads -> addr1 <> addr2 ->
  let comps := fun _ => mk_computation InCorefine 0 1 threads in
  exists s, history comps initial
    [Begin 1 addr1; Body 1 (App 0) (Some 1); End 1; Begin 2 addr2; Body 2 (App 0) None] s.
Proof.
  intros threads addr1 addr2 Ht Ha comps.
  assert (R : forall c, runs_on comps c (App 0)).
  { intro c. unfold runs_on, workers, comps. cbn. replace (Nat.min threads 1) with 1 by lia. cbn. split; [ lia | reflexivity ]. }
  eexists. eapply history_cons; [ apply step_begin; cbn; try tauto; intros; discriminate | ].
  eapply history_cons; [ eapply (step_body _ _ 1 addr1); [ reflexivity | apply R | reflexivity | ] | ].
  { cbn. constructor. reflexivity. }
  eapply history_cons; [ eapply step_end; reflexivity | ].
  eapply history_cons; [ apply (step_begin _ _ 2 addr2); cbn; [ lia | | ] | ].
  { intros [ | [ | c'] ]; discriminate. }
  { intros [ | [ | c'] ]; discriminate. }
  eapply history_cons; [ eapply (step_body _ _ 2 addr2); [ reflexivity | apply R | reflexivity | ] | apply history_nil ].
  cbn. constructor. intros [ | [ | [ | c'] ] ]; cbn; congruence.
Qed.
Print Assumptions C41_refuted.

(** It may also silently read the points of another computation that is in progress on
    another thread. *)
Theorem C41_other_points_refuted : forall addr1 addr2, addr1 <> addr2 ->
  let comps := fun c => mk_computation InCorefine (if c =? 3 then 1 else 0) (if c =? 3 then 2 else 1) 4 in
  exists s, history comps initial
    [Begin 1 addr1; Body 1 (App 0) (Some 1); End 1; Begin 3 addr1; Begin 2 addr2; Body 3 (Worker 3 1) (Some 3); Body 2 (App 0) (Some 3)] s.
Proof.
  intros addr1 addr2 Ha comps.
  assert (R : forall c, c <> 3 -> runs_on comps c (App 0)).
  { intros c N. unfold runs_on, workers, comps. apply Nat.eqb_neq in N. rewrite N. cbn. split; [ lia | reflexivity ]. }
  eexists. eapply history_cons; [ apply step_begin; cbn; try tauto; intros; discriminate | ].
  eapply history_cons; [ eapply (step_body _ _ 1 addr1); [ reflexivity | apply R; lia | reflexivity | ] | ].
  { cbn. constructor. reflexivity. }
  eapply history_cons; [ eapply step_end; reflexivity | ].
  eapply history_cons; [ apply (step_begin _ _ 3 addr1); cbn; [ lia | | ] | ].
  { intros [ | [ | c'] ]; discriminate. }
  { intros [ | [ | c'] ]; discriminate. }
  eapply history_cons; [ apply (step_begin _ _ 2 addr2); cbn; [ lia | | ] | ].
  { intros [ | [ | [ | [ | c'] ] ] ]; cbn; congruence. }
  { intros [ | [ | [ | [ | c'] ] ] ]; cbn; intros; try discriminate. }
  eapply history_cons; [ eapply (step_body _ _ 3 addr1 (Worker 3 1)); [ reflexivity | | reflexivity | ] | ].
  { split; [ cbn; lia | ]. cbn. exists 1. split; [ lia | reflexivity ]. }
  { cbn. constructor. reflexivity. }
  eapply history_cons; [ eapply (step_body _ _ 2 addr2); [ reflexivity | apply R; lia | reflexivity | ] | apply history_nil ].
  cbn. constructor. reflexivity.
Qed.
Print Assumptions C41_other_points_refuted.

(** The hypotheses of C41_own_points_partial are met by computation 3 of the last history. *)
Example C41_workers : Nat.min 4 2 <> 1.
Proof. discriminate. Qed.
