(** * C19, C20: point ids *)
From Coq Require Import List Arith NArith Bool Lia Permutation.
From Verif Require Import Model_base Proof_base Model_region Model_points Spec_points Proof_points.
Import ListNotations.
Local Open Scope nat_scope.

(** ** C19: ids name points

    For every history of calls made while uniqueness checking is on, followed by
    any further calls [more]. *)
Theorem C19_ids_name_points : forall P (P_eqb : P -> P -> bool),
  (forall a b, P_eqb a b = true <-> a = b) ->
  forall ops more pl1 ids1 pl2 ids2,
  ~ In OpStop ops ->
  pl_run P_eqb (pl_start pl_empty) ops = (pl1, ids1) ->
  pl_run P_eqb pl1 more = (pl2, ids2) ->
  (* one id per inserted point *)
  length ids1 = length (inserted ops) /\
  (* the same id iff the same point *)
  (forall m n p q i j,
     nth_error (inserted ops) m = Some p -> nth_error ids1 m = Some i ->
     nth_error (inserted ops) n = Some q -> nth_error ids1 n = Some j ->
     (i = j <-> p = q)) /\
  (* the id leads back to the point, then and after any later calls *)
  (forall m p i, nth_error (inserted ops) m = Some p -> nth_error ids1 m = Some i ->
     pl_at pl1 i = Ok p /\ pl_at pl2 i = Ok p) /\
  (* ids are dense *)
  (forall i, i < length (pl_points pl1) <-> In i ids1).
Proof.
  intros P P_eqb Heq ops more pl1 ids1 pl2 ids2 Hns H1 H2.
  destruct (pl_run_inv P P_eqb Heq _ _ _ _ (pl_inv_start P) Hns H1) as [Hinv [Hf Hq] ].
  assert (Hat : forall m p i, nth_error (inserted ops) m = Some p -> nth_error ids1 m = Some i ->
     nth_error (pl_points pl1) i = Some p).
  { clear - Hf. induction Hf as [ | p i ps is Hpi Hf IH]; intros [ | m] q j A B; cbn in A, B;
      try discriminate.
    - injection A as <-. injection B as <-. exact Hpi.
    - exact (IH _ _ _ A B). }
  split; [ symmetry; exact (Forall2_len _ _ _ _ _ Hf) | ]. split; [ | split ].
  - intros m n p q i j A B C D. pose proof (Hat _ _ _ A B) as E. pose proof (Hat _ _ _ C D) as F.
    split.
    + intros ->. congruence.
    + intros ->. pose proof (proj1 (NoDup_nth_error _) (pi_nodup _ _ Hinv)) as N.
      apply N; [ apply nth_error_Some; congruence | congruence ].
  - intros m p i A B. pose proof (Hat _ _ _ A B) as E. unfold pl_at, vec_at. rewrite E.
    split; [ reflexivity | ]. destruct (pl_run_prefix _ _ _ _ _ _ H2) as [r Hr].
    rewrite Hr, nth_error_app1 by (apply nth_error_Some; congruence). rewrite E. reflexivity.
  - intro i. split.
    + intro Hi. destruct (nth_error (pl_points pl1) i) as [p | ] eqn:E;
        [ | apply nth_error_None in E; lia ].
      assert (In p (inserted ops)) as Hin.
      { apply nth_error_In in E. apply Hq in E. destruct E as [ [] | E]. exact E. }
      apply In_nth_error in Hin. destruct Hin as [m Hm].
      destruct (nth_error ids1 m) as [j | ] eqn:Ej.
      * pose proof (Hat _ _ _ Hm Ej) as F.
        assert (i = j) as ->.
        { pose proof (proj1 (NoDup_nth_error _) (pi_nodup _ _ Hinv)) as N. apply N; congruence. }
        eapply nth_error_In; exact Ej.
      * apply nth_error_None in Ej. rewrite <- (Forall2_len _ _ _ _ _ Hf) in Ej.
        apply nth_error_None in Ej. congruence.
    + intro Hin. apply In_nth_error in Hin. destruct Hin as [m Hm].
      destruct (nth_error (inserted ops) m) as [p | ] eqn:E.
      * pose proof (Hat _ _ _ E Hm) as F. apply nth_error_Some. congruence.
      * apply nth_error_None in E. rewrite (Forall2_len _ _ _ _ _ Hf) in E.
        apply nth_error_None in E. congruence.
Qed.
Print Assumptions C19_ids_name_points.

(** With checking off every insertion makes a new id, which leads back to the
    point. *)
Theorem C19_unchecked_ids_are_new : forall P (P_eqb : P -> P -> bool) pl p pl' i,
  pl_check pl = false -> pl_insert P_eqb pl p = (pl', i) ->
  i = length (pl_points pl) /\ pl_at pl' i = Ok p /\ length (pl_points pl') = S i.
Proof.
  intros P P_eqb pl p pl' i Hc H. rewrite (pl_insert_unchecked P P_eqb _ _ Hc) in H.
  injection H as <- <-. cbn [pl_points]. split; [ reflexivity | ].
  unfold pl_at, vec_at. cbn [pl_points].
  rewrite nth_error_app2, Nat.sub_diag, app_length by lia. cbn. split; [ reflexivity | lia ].
Qed.
Print Assumptions C19_unchecked_ids_are_new.

Example C19_example :
  pl_run Nat.eqb (pl_start pl_empty)
    [OpInsert 7; OpReserve 9; OpInsert 5; OpInsert 7; OpStart; OpInsert 6; OpInsert 5]
  = (mk_pl [7; 5; 6] [(7, 0); (5, 1); (6, 2)] true, [0; 1; 0; 2; 1]).
Proof. reflexivity. Qed.

(** Checking that starts on a list which already has points misses them: the
    guarantee is for lists checked from the start. *)
Example C19_start_late :
  pl_run Nat.eqb pl_empty [OpInsert 7; OpStart; OpInsert 7]
  = (mk_pl [7; 7] [(7, 1)] true, [0; 1]).
Proof. reflexivity. Qed.

(** ** C20: intersection points are named by their features

    For every history of requests about the points of a list no longer checked for
    uniqueness (as in Corefine.h:53).  [valid_request] excludes two edges with a
    common end; see C20_shared_end_refuted. *)
Theorem C20_one_id_per_feature_partial : forall P (P_eqb : P -> P -> bool) construct_ll construct_pl
    pl rqs,
  pl_check pl = false ->
  Forall (valid_request (length (pl_points pl))) rqs ->
  exists st ids,
    in_run P_eqb construct_ll construct_pl (in_new pl) rqs = Ok (st, ids) /\
    length ids = length rqs /\
    (* a vertex is its own id *)
    (forall n rq id, nth_error rqs n = Some rq -> nth_error ids n = Some id -> at_vertex rq ->
       left_vertices rq = [id] \/ right_vertices rq = [id]) /\
    (* otherwise the id is new, and the same iff the features are the same *)
    (forall n rq id, nth_error rqs n = Some rq -> nth_error ids n = Some id -> ~ at_vertex rq ->
       length (pl_points pl) <= id < length (pl_points (in_points st))) /\
    (forall m n r1 r2 i j,
       nth_error rqs m = Some r1 -> nth_error ids m = Some i -> ~ at_vertex r1 ->
       nth_error rqs n = Some r2 -> nth_error ids n = Some j -> ~ at_vertex r2 ->
       (i = j <-> same_feature r1 r2)) /\
    (* nothing else is constructed *)
    (forall id, length (pl_points pl) <= id < length (pl_points (in_points st)) ->
       exists n rq, nth_error rqs n = Some rq /\ nth_error ids n = Some id /\ ~ at_vertex rq) /\
    (* and the points there were stay *)
    (exists new, pl_points (in_points st) = pl_points pl ++ new).
Proof.
  intros P P_eqb cll cpl pl rqs Hc Hv.
  destruct (in_run_spec P P_eqb cll cpl (pl_points pl) rqs (in_new pl) (in_inv_new P cll cpl pl Hc) Hv)
    as [st [ids [H1 [H2 [_ [H4 H5] ] ] ] ] ].
  exists st, ids. split; [ exact H1 | ].
  assert (Hans : forall n rq id, nth_error rqs n = Some rq -> nth_error ids n = Some id ->
     answered P st rq id).
  { clear - H4. induction H4 as [ | p i ps is Hpi Hf IH]; intros [ | m] q j A B; cbn in A, B;
      try discriminate.
    - injection A as <-. injection B as <-. exact Hpi.
    - exact (IH _ _ _ A B). }
  split; [ symmetry; exact (Forall2_len _ _ _ _ _ H4) | ].
  split; [ | split; [ | split; [ | split ] ] ].
  - intros n rq id A B C. destruct (Hans _ _ _ A B) as [ [_ ->] | [D _] ]; [ | contradiction ].
    unfold vertex_id. destruct C as [C | C].
    + destruct (left_vertices rq) as [ | x [ | y l] ]; cbn in C; try discriminate. auto.
    + destruct (left_vertices rq) as [ | x [ | y l] ]; auto;
        destruct (right_vertices rq) as [ | x' [ | y' l'] ]; cbn in C; try discriminate; auto.
  - intros n rq id A B C. destruct (Hans _ _ _ A B) as [ [D _] | [_ [X [Y [_ D] ] ] ] ];
      [ contradiction | ].
    exact (ii_range _ _ _ _ _ H2 _ _ D).
  - intros m n r1 r2 i j A B C A' B' C'.
    destruct (Hans _ _ _ A B) as [ [D _] | [_ [X [Y [E D] ] ] ] ]; [ contradiction | ].
    destruct (Hans _ _ _ A' B') as [ [D' _] | [_ [X' [Y' [E' D'] ] ] ] ]; [ contradiction | ].
    rewrite <- (canonical_iff _ _ _ _ _ _ E E'). split.
    + intros <-. exact (ii_id_fun _ _ _ _ _ H2 _ _ _ D D').
    + intro He. rewrite <- He in D'. exact (ii_key_fun _ _ _ _ _ H2 _ _ _ D D').
  - intros id Hid. destruct (ii_dense _ _ _ _ _ H2 _ Hid) as [k Hk].
    destruct (H5 _ _ Hk) as [ [] | H]. exact H.
  - exact (ii_pts _ _ _ _ _ H2).
Qed.
Print Assumptions C20_one_id_per_feature_partial.

(** The id leads to the constructed intersection point of the two edges, or of the
    face and the edge, as the points were before the requests. *)
Theorem C20_id_is_the_construction : forall P (P_eqb : P -> P -> bool) construct_ll construct_pl
    pl rqs st ids,
  pl_check pl = false ->
  Forall (valid_request (length (pl_points pl))) rqs ->
  in_run P_eqb construct_ll construct_pl (in_new pl) rqs = Ok (st, ids) ->
  forall n rq id, nth_error rqs n = Some rq -> nth_error ids n = Some id -> ~ at_vertex rq ->
  (exists l r a b p q pa pb pp pq,
     ((l, r) = (left_vertices rq, right_vertices rq) \/ (l, r) = (right_vertices rq, left_vertices rq)) /\
     Permutation l [a; b] /\ Permutation r [p; q] /\
     points_of (pl_points pl) [a; b; p; q] [pa; pb; pp; pq] /\
     pl_at (in_points st) id = Ok (construct_ll pa pb pp pq)) \/
  (exists l r a b c p q pa pb pc pp pq,
     ((l, r) = (left_vertices rq, right_vertices rq) \/ (l, r) = (right_vertices rq, left_vertices rq)) /\
     Permutation l [a; b; c] /\ Permutation r [p; q] /\
     points_of (pl_points pl) [a; b; c; p; q] [pa; pb; pc; pp; pq] /\
     pl_at (in_points st) id = Ok (construct_pl pa pb pc pp pq)).
Proof.
  intros P P_eqb cll cpl pl rqs st ids Hc Hv Hrun n rq id A B C.
  destruct (in_run_spec P P_eqb cll cpl (pl_points pl) rqs (in_new pl) (in_inv_new P cll cpl pl Hc) Hv)
    as [st' [ids' [H1 [H2 [_ [H4 H5] ] ] ] ] ].
  rewrite Hrun in H1. injection H1 as <- <-.
  assert (Hans : answered P st rq id).
  { clear - H4 A B. revert n A B.
    induction H4 as [ | p i ps is Hpi Hf IH]; intros [ | m] A B; cbn in A, B; try discriminate.
    - injection A as <-. injection B as <-. exact Hpi.
    - exact (IH _ A B). }
  destruct Hans as [ [D _] | [_ [X [Y [E D] ] ] ] ]; [ contradiction | ].
  destruct (ii_point _ _ _ _ _ H2 _ _ D) as [x [Hx Hk] ].
  assert (Hlr : exists l r,
    ((l, r) = (left_vertices rq, right_vertices rq) \/ (l, r) = (right_vertices rq, left_vertices rq)) /\
    Permutation l X /\ Permutation r Y).
  { destruct (cn_match _ _ _ _ E) as [ [U V] | [U V] ].
    - exists (left_vertices rq), (right_vertices rq). auto.
    - exists (right_vertices rq), (left_vertices rq). auto. }
  destruct Hlr as [l [r [Hlr [PX PY] ] ] ].
  destruct Hk as [ (a & b & p & q & pa & pb & pp & pq & Hk & K1 & K2 & K3 & K4 & K5)
                 | (a & b & c & p & q & pa & pb & pc & pp & pq & Hk & K1 & K2 & K3 & K4 & K5 & K6) ].
  - assert (X = [a; b] /\ Y = [p; q]) as [-> ->].
    { destruct (cn_order _ _ _ _ E) as [ [L1 L2] | [L1 [L2 _] ] ];
        pose proof (f_equal (@length nat) Hk) as HL; rewrite app_length in HL; cbn [length] in HL;
        [ lia | ].
      destruct X as [ | x1 [ | x2 [ | ] ] ]; cbn in L1; try discriminate.
      cbn in Hk. injection Hk as -> -> ->. auto. }
    left. exists l, r, a, b, p, q, pa, pb, pp, pq. split; [ exact Hlr | ].
    split; [ exact PX | split; [ exact PY | split ] ].
    + repeat constructor; assumption.
    + unfold pl_at, vec_at. rewrite Hx, K5. reflexivity.
  - assert (X = [a; b; c] /\ Y = [p; q]) as [-> ->].
    { destruct (cn_order _ _ _ _ E) as [ [L1 L2] | [L1 [L2 _] ] ];
        pose proof (f_equal (@length nat) Hk) as HL; rewrite app_length in HL; cbn [length] in HL;
        [ | lia ].
      destruct X as [ | x1 [ | x2 [ | x3 [ | ] ] ] ]; cbn in L1; try discriminate.
      cbn in Hk. injection Hk as -> -> -> ->. auto. }
    right. exists l, r, a, b, c, p, q, pa, pb, pc, pp, pq. split; [ exact Hlr | ].
    split; [ exact PX | split; [ exact PY | split ] ].
    + repeat constructor; assumption.
    + unfold pl_at, vec_at. rewrite Hx, K6. reflexivity.
Qed.
Print Assumptions C20_id_is_the_construction.

(** Two edges with a common end: exchanging the two triangles gives a new id.  The
    keys (0,2,0,1) and (0,1,0,2) are both left as they are. *)
Theorem C20_shared_end_refuted : forall P (P_eqb : P -> P -> bool) construct_ll construct_pl
    (x y z u v : P),
  let r1 := mk_req LEFT_EDGE_01 0 1 3 RIGHT_EDGE_01 0 2 4 in
  let r2 := mk_req LEFT_EDGE_01 0 2 4 RIGHT_EDGE_01 0 1 3 in
  same_feature r1 r2 /\
  exists st, in_run P_eqb construct_ll construct_pl (in_new (mk_pl [x; y; z; u; v] [] false)) [r1; r2]
             = Ok (st, [5; 6]).
Proof.
  intros P P_eqb cll cpl x y z u v r1 r2. split.
  - right. split; apply Permutation_refl.
  - eexists. reflexivity.
Qed.
Print Assumptions C20_shared_end_refuted.

Definition ex_rqs : list request :=
  [ mk_req LEFT_EDGE_12 0 1 2 RIGHT_EDGE_20 3 4 5;
    mk_req LEFT_EDGE_01 5 3 4 RIGHT_EDGE_12 0 2 1;
    mk_req LEFT_FACE 0 1 2 RIGHT_EDGE_01 3 4 5;
    mk_req LEFT_EDGE_20 3 5 4 RIGHT_FACE 2 0 1;
    mk_req LEFT_VERTEX_1 0 1 2 RIGHT_FACE 3 4 5 ].

Example C20_example_valid : Forall (valid_request 6) ex_rqs.
Proof.
  unfold ex_rqs. repeat apply Forall_cons; try apply Forall_nil; split; cbn;
    repeat apply Forall_cons; try apply Forall_nil; repeat apply NoDup_cons; try apply NoDup_nil;
    cbn; try tauto; try lia; intros; lia.
Qed.

Example C20_example : exists st,
  in_run Nat.eqb (fun a b p q => a + b + p + q) (fun a b c p q => a * b * c * p * q)
    (in_new (mk_pl [1; 2; 3; 5; 7; 11] [] false)) ex_rqs = Ok (st, [6; 6; 7; 7; 1]) /\
  pl_points (in_points st) = [1; 2; 3; 5; 7; 11; 21; 210].
Proof. eexists. split; reflexivity. Qed.
