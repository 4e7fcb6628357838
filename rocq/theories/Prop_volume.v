(** * C64: Volumes of results add up *)
From Coq Require Import List Arith Bool NArith QArith Lqa Lia.
From Verif Require Import Model_base Proof_base Model_soup Model_geometry Model_boolean Spec_boolean Prop_boolean Spec_volume.
Import ListNotations.
Local Open Scope Q_scope.

Lemma qsum_app : forall l k, qsum (l ++ k) == qsum l + qsum k.
Proof. induction l as [ | x l IH]; intro k; cbn [qsum app]; [ ring | rewrite IH; ring ]. Qed.

Lemma total_tris : forall {P D} (f : P * P * P -> Q) (m : soup P D), length (face_data m) = length (faces m) ->
  total f m = qsum (map (fun x => at_face f (fst x)) (tris m)).
Proof.
  intros P D f m L. unfold total, tris. f_equal. revert L. generalize (face_data m). induction (faces m) as [ | h fs IH]; intros [ | d ds] L; try discriminate; [ reflexivity | ].
  cbn [map combine fst]. f_equal. apply IH. now injection L.
Qed.

(** How often the face is used, and which way around. *)
Definition weight (op : boolean_operator) (pf : bool) {D} (md : mixed_data D) : Q :=
  match required op pf (tag md) (from_left md) with Drop => 0 | Keep => 1 | Reverse => - (1) end.
Definition weighted {P D} (w : mixed_data D -> Q) (f : P * P * P -> Q) (l : list (option (P * P * P) * mixed_data D)) : Q :=
  qsum (map (fun x => w (snd x) * at_face f (fst x)) l).

Lemma required_total : forall {P D} (f : P * P * P -> Q), odd f -> forall op pf (l : list (option (P * P * P) * mixed_data D)),
  qsum (map (fun x => at_face f (fst x)) (flat_map (fun x : option (P * P * P) * mixed_data D =>
              let '(t, md) := x in
              match required op pf (tag md) (from_left md) with
              | Drop => []
              | Keep => [(t, data md)]
              | Reverse => [(option_map flip t, data md)]
              end) l)) == weighted (weight op pf) f l.
Proof.
  intros P D f O op pf l. unfold weighted. induction l as [ | [t md] l IH]; [ reflexivity | ].
  cbn [flat_map map qsum fst snd]. rewrite map_app, qsum_app, IH. unfold weight at 2.
  destruct (required op pf (tag md) (from_left md)); cbn [map qsum fst]; [ ring | ring | ].
  destruct t as [t | ]; cbn [option_map at_face]; [ rewrite (O t) | ]; ring.
Qed.

Lemma run_total : forall {P D} (f : P * P * P -> Q) (d0 : D) (bd : @builder P D) op pf r, odd f -> wf_mixed (mixed bd) ->
  run d0 bd op pf = Ok r -> total f (boundary r) == weighted (weight op pf) f (tris (mixed bd)).
Proof.
  intros P D f d0 bd op pf r O W H. destruct (C02_extract_faithful P D d0 (mixed bd) op pf W) as (s & Es & (Ls & _) & Ts & _).
  assert (B : total f (boundary r) == total f s).
  { unfold run in H. rewrite Es in H. cbn [bind] in H. destruct (num_faces s =? 0)%nat eqn:Z; cbn [negb] in H.
    - assert (N : faces s = []) by (apply Nat.eqb_eq in Z; unfold num_faces in Z; destruct (faces s); [ reflexivity | discriminate ]).
      assert (X : total f s = 0) by (unfold total; rewrite N; reflexivity). rewrite X.
      assert (K : boundary r = empty_soup) ; [ | rewrite K; reflexivity ].
      assert (Sp : forall b, boundary (special b : region P D) = empty_soup) by (intros []; reflexivity).
      destruct (region_kind_eqb (first_kind bd) EMPTY || region_kind_eqb (second_kind bd) EMPTY); [ injection H as <-; first [ apply Sp | reflexivity ] | ].
      destruct (region_kind_eqb (first_kind bd) FULL || region_kind_eqb (second_kind bd) FULL); [ injection H as <-; first [ apply Sp | reflexivity ] | ].
      destruct op; try (injection H as <-; reflexivity); try discriminate H;
        (destruct (all_tags (mixed bd) COPLANAR) as [ [] | | ]; cbn [bind] in H; [ injection H as <-; first [ apply Sp | reflexivity ] | | discriminate H | discriminate H ];
         destruct (all_tags (mixed bd) OPPOSITE) as [ [] | | ]; cbn [bind] in H; [ injection H as <-; first [ apply Sp | reflexivity ] | discriminate H | discriminate H | discriminate H ]).
    - unfold region_of_soup in H. destruct (num_faces s =? 0)%nat; [ discriminate H | ]. injection H as <-. reflexivity. }
  rewrite B, (total_tris f s Ls), Ts. apply required_total, O.
Qed.

Lemma weights_combine : forall {P D} (f : P * P * P -> Q) op pf (l : list (option (P * P * P) * mixed_data D)),
  weighted (weight op pf) f l ==
    (takes op true false - takes op false false) * weighted (weight opI pf) f l +
    (takes op false true - takes op false false) * weighted (weight opH pf) f l +
    (takes op true true - takes op true false - takes op false true + takes op false false) * weighted (weight op_INTERSECTION pf) f l.
Proof.
  intros P D f op pf l.
  unfold weighted. induction l as [ | [t md] l IH]; cbn [map qsum fst snd]; [ ring | ]. rewrite IH.
  assert (E : weight op pf md == (takes op true false - takes op false false) * weight opI pf md + (takes op false true - takes op false false) * weight opH pf md +
    (takes op true true - takes op true false - takes op false true + takes op false false) * weight op_INTERSECTION pf md).
  { unfold weight, takes. destruct md as [ [] [] d]; destruct op, pf; vm_compute; reflexivity. }
  rewrite E. ring.
Qed.

(** Every operation is a combination of the first operand, the second operand and the
    intersection, as the number of times a point is counted says.  For every sum of an odd
    function over the faces, such as the volume. *)
Theorem C64_every_operation : forall {P D} (f : P * P * P -> Q) (d0 : D) (bd : @builder P D) op prefer_first r first second common,
  odd f -> wf_mixed (mixed bd) ->
  run d0 bd op prefer_first = Ok r -> run d0 bd opI prefer_first = Ok first -> run d0 bd opH prefer_first = Ok second ->
  run d0 bd op_INTERSECTION prefer_first = Ok common ->
  total f (boundary r) ==
    (takes op true false - takes op false false) * total f (boundary first) +
    (takes op false true - takes op false false) * total f (boundary second) +
    (takes op true true - takes op true false - takes op false true + takes op false false) * total f (boundary common).
Proof.
  intros P D f d0 bd op pf r ra rb rc O W H HA HB HC.
  rewrite (run_total f d0 bd _ _ _ O W H), (run_total f d0 bd _ _ _ O W HA), (run_total f d0 bd _ _ _ O W HB), (run_total f d0 bd _ _ _ O W HC).
  apply weights_combine.
Qed.
Print Assumptions C64_every_operation.

Lemma cone_odd : forall {P} (coords : P -> vec3), odd (cone coords).
Proof. intros P coords [ [a b] c]. unfold cone, flip, vdot, vcross. cbn [vx vy vz fst snd]. ring. Qed.

(** So the volumes add up: [first] and [second] are the operands as the builder gives them
    back, cut along each other. *)
Theorem C64_volumes : forall {P D} (coords : P -> vec3) (d0 : D) (bd : @builder P D) prefer_first first second common,
  wf_mixed (mixed bd) ->
  run d0 bd opI prefer_first = Ok first -> run d0 bd opH prefer_first = Ok second -> run d0 bd op_INTERSECTION prefer_first = Ok common ->
  let vol r := volume coords (boundary r) in
  (forall r, run d0 bd op_UNION prefer_first = Ok r -> vol r + vol common == vol first + vol second) /\
  (forall r, run d0 bd op_DIFFERENCE prefer_first = Ok r -> vol r + vol common == vol first) /\
  (forall r, run d0 bd opM prefer_first = Ok r -> vol r + vol common == vol second) /\
  (forall r, run d0 bd op_SYMMETRIC_DIFFERENCE prefer_first = Ok r -> vol r + 2 * vol common == vol first + vol second).
Proof.
  intros P D coords d0 bd pf ra rb rc W HA HB HC vol. unfold vol, volume.
  repeat split; intros r H; rewrite (C64_every_operation (cone coords) d0 bd _ pf r ra rb rc (cone_odd coords) W H HA HB HC);
    cbv [takes op_UNION op_DIFFERENCE op_SYMMETRIC_DIFFERENCE member denotes s_union s_inter s_minus s_symdiff s_compl s_all s_none fst snd andb orb negb xorb]; ring.
Qed.
Print Assumptions C64_volumes.

(** Complements have the opposite sum. *)
Theorem C64_complements : forall {P D} (f : P * P * P -> Q) (d0 : D) (bd : @builder P D) op op' prefer_first r r',
  odd f -> wf_mixed (mixed bd) -> (forall ab, member op' ab = negb (member op ab)) ->
  run d0 bd op prefer_first = Ok r -> run d0 bd op' prefer_first = Ok r' ->
  total f (boundary r') == - total f (boundary r).
Proof.
  intros P D f d0 bd op op' pf r r' O W N H H'. rewrite (run_total f d0 bd _ _ _ O W H), (run_total f d0 bd _ _ _ O W H').
  unfold weighted. induction (tris (mixed bd)) as [ | [t md] l IH]; cbn [map qsum fst snd]; [ ring | ]. rewrite IH.
  assert (E : weight op' pf md == - weight op pf md).
  { unfold weight, required. destruct (side (from_left md) (tag md) true) as [n | ], (side (from_left md) (tag md) false) as [p | ]; try reflexivity.
    rewrite !N. destruct (match tag md with COPLANAR | OPPOSITE => eqb (from_left md) pf | _ => true end), (member op n), (member op p); reflexivity. }
  rewrite E. ring.
Qed.
Print Assumptions C64_complements.

(** A concrete case: a small tetrahedron in a large one, whose volume is 512/6. *)
Definition nested : @builder vec3 unit :=
  mk_builder BOUNDARY_DEFINED BOUNDARY_DEFINED
    (mk_soup [(0, 0, 0); (8, 0, 0); (0, 8, 0); (0, 0, 8); (1, 1, 1); (2, 1, 1); (1, 2, 1); (1, 1, 2)]
       [(0, 2, 1); (0, 1, 3); (0, 3, 2); (1, 2, 3); (4, 6, 5); (4, 5, 7); (4, 7, 6); (5, 6, 7)]%nat
       (repeat (mk_mixed true EXTERIOR tt) 4 ++ repeat (mk_mixed false INTERIOR tt) 4)) 0%N.
Example C64_example : wf_mixed (mixed nested) /\
  exists first second common difference,
    run tt nested opI true = Ok first /\ run tt nested opH true = Ok second /\ run tt nested op_INTERSECTION true = Ok common /\
    run tt nested op_DIFFERENCE true = Ok difference /\
    volume (fun p => p) (boundary first) == 512 # 6 /\ volume (fun p => p) (boundary second) == 1 # 6 /\
    volume (fun p => p) (boundary common) == 1 # 6 /\ volume (fun p => p) (boundary difference) == 511 # 6.
Proof.
  split; [ split; [ reflexivity | repeat constructor; cbn; lia ] | ].
  do 4 eexists. do 4 (split; [ vm_compute; reflexivity | ]). repeat split; vm_compute; reflexivity.
Qed.
