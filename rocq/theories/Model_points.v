(** * Point_list and Intersection_point_inserter

    Models include/kigumi/Point_list.h and
    include/kigumi/Intersection_point_inserter.h. *)
From Coq Require Import List Arith NArith Bool.
From Verif Require Import Model_base Model_region.
Import ListNotations.

(** A hash map as an association list; [emplace] leaves an existing entry alone.
    (boost::unordered_flat_map; equal keys are assumed to have equal hashes,
    Point_list.h:11-22.) *)
Definition assoc_find {K V} (eqb : K -> K -> bool) (k : K) (m : list (K * V)) : option V :=
  option_map snd (find (fun e => eqb (fst e) k) m).

Section Points.
  (** K::Point_3 and its exact equality. *)
  Variable P : Type.
  Variable P_eqb : P -> P -> bool.

  (** Point_list.h:73-75. *)
  Record point_list : Type := mk_pl {
    pl_points : list P;
    pl_map : list (P * nat);
    pl_check : bool
  }.

  Definition pl_empty : point_list := mk_pl [] [] false.

  (** Point_list.h:29. *)
  Definition pl_at (pl : point_list) (i : nat) : res P := vec_at (pl_points pl) i.

  (** Point_list.h:35-50. *)
  Definition pl_insert (pl : point_list) (p : P) : point_list * nat :=
    if negb (pl_check pl) then
      let pts := pl_points pl ++ [p] in
      (mk_pl pts (pl_map pl) (pl_check pl), length pts - 1)
    else
      match assoc_find P_eqb p (pl_map pl) with
      | Some i => (pl, i)
      | None =>
          (mk_pl (pl_points pl ++ [p]) (pl_map pl ++ [(p, length (pl_points pl))]) (pl_check pl),
           length (pl_points pl))
      end.

  (** Point_list.h:65. *)
  Definition pl_start (pl : point_list) : point_list := mk_pl (pl_points pl) (pl_map pl) true.

  (** Point_list.h:67-70. *)
  Definition pl_stop (pl : point_list) : point_list := mk_pl (pl_points pl) [] false.

  (** The calls a user makes.  reserve (Point_list.h:54-61) has no effect here;
      take_points (line 52) ends the life of the list. *)
  Inductive pl_op : Type :=
  | OpInsert (p : P)
  | OpReserve (n : nat)
  | OpStart
  | OpStop.

  Definition pl_do (pl : point_list) (o : pl_op) : point_list * option nat :=
    match o with
    | OpInsert p => let '(pl', i) := pl_insert pl p in (pl', Some i)
    | OpReserve _ => (pl, None)
    | OpStart => (pl_start pl, None)
    | OpStop => (pl_stop pl, None)
    end.

  (** A history of calls (Point_list.h:29-70), with the ids returned. *)
  Fixpoint pl_run (pl : point_list) (ops : list pl_op) : point_list * list nat :=
    match ops with
    | [] => (pl, [])
    | o :: r =>
        let '(pl1, id) := pl_do pl o in
        let '(pl2, ids) := pl_run pl1 r in
        (pl2, match id with Some i => i :: ids | None => ids end)
    end.

  (** K::Construct_line_line_intersection_point_3 and
      K::Construct_plane_line_intersection_point_3. *)
  Variable construct_ll : P -> P -> P -> P -> P.
  Variable construct_pl : P -> P -> P -> P -> P -> P.

  Definition key_eqb (a b : list nat) : bool :=
    if list_eq_dec Nat.eq_dec a b then true else false.

  (** Intersection_point_inserter.h:133-139. *)
  Record inserter : Type := mk_ins {
    in_points : point_list;
    in_ll : list (list nat * nat);
    in_pl : list (list nat * nat)
  }.

  (** Intersection_point_inserter.h:24. *)
  Definition in_new (pl : point_list) : inserter := mk_ins pl [] [].

  (** [if (x > y) swap(x, y)]. *)
  Definition order2 (x y : nat) : nat * nat := if y <? x then (y, x) else (x, y).

  (** Intersection_point_inserter.h:70-81. *)
  Definition ll_key (a b p q : nat) : nat * nat * nat * nat :=
    let '(a, b) := order2 a b in
    let '(p, q) := order2 p q in
    if p <? a then (p, q, a, b) else (a, b, p, q).

  (** Intersection_point_inserter.h:68-97. *)
  Definition insert_ll (st : inserter) (a b p q : nat) : res (inserter * nat) :=
    let '(a, b, p, q) := ll_key a b p q in
    match assoc_find key_eqb [a; b; p; q] (in_ll st) with
    | Some id => Ok (st, id)
    | None =>
        let* pa := pl_at (in_points st) a in
        let* pb := pl_at (in_points st) b in
        let* pp := pl_at (in_points st) p in
        let* pq := pl_at (in_points st) q in
        let '(pts, id) := pl_insert (in_points st) (construct_ll pa pb pp pq) in
        Ok (mk_ins pts (in_ll st ++ [([a; b; p; q], id)]) (in_pl st), id)
    end.

  (** Intersection_point_inserter.h:101-114. *)
  Definition pl_key (a b c p q : nat) : nat * nat * nat * nat * nat :=
    let '(a, b) := order2 a b in
    let '(a, c) := order2 a c in
    let '(b, c) := order2 b c in
    let '(p, q) := order2 p q in
    (a, b, c, p, q).

  (** Intersection_point_inserter.h:99-131. *)
  Definition insert_pl (st : inserter) (a b c p q : nat) : res (inserter * nat) :=
    let '(a, b, c, p, q) := pl_key a b c p q in
    match assoc_find key_eqb [a; b; c; p; q] (in_pl st) with
    | Some id => Ok (st, id)
    | None =>
        let* pa := pl_at (in_points st) a in
        let* pb := pl_at (in_points st) b in
        let* pc := pl_at (in_points st) c in
        let* pp := pl_at (in_points st) p in
        let* pq := pl_at (in_points st) q in
        let '(pts, id) := pl_insert (in_points st) (construct_pl pa pb pc pp pq) in
        Ok (mk_ins pts (in_ll st) (in_pl st ++ [([a; b; c; p; q], id)]), id)
    end.

  (** Intersection_point_inserter.h:26-65. *)
  Definition insert (st : inserter) (lr : region) (a b c : nat) (rr : region) (p q r : nat)
      : res (inserter * nat) :=
    if region_eqb lr LEFT_VERTEX_0 then Ok (st, a)
    else if region_eqb lr LEFT_VERTEX_1 then Ok (st, b)
    else if region_eqb lr LEFT_VERTEX_2 then Ok (st, c)
    else if region_eqb rr RIGHT_VERTEX_0 then Ok (st, p)
    else if region_eqb rr RIGHT_VERTEX_1 then Ok (st, q)
    else if region_eqb rr RIGHT_VERTEX_2 then Ok (st, r)
    else
      let '(a, b, c) :=
        if region_eqb lr LEFT_EDGE_12 then (b, c, a)
        else if region_eqb lr LEFT_EDGE_20 then (c, a, b)
        else (a, b, c) in
      let '(p, q, r) :=
        if region_eqb rr RIGHT_EDGE_12 then (q, r, p)
        else if region_eqb rr RIGHT_EDGE_20 then (r, p, q)
        else (p, q, r) in
      if region_eqb lr LEFT_FACE then insert_pl st a b c p q
      else if region_eqb rr RIGHT_FACE then insert_pl st p q r a b
      else insert_ll st a b p q.

  (** One request and a history of requests (Corefine.h:102-117). *)
  Record request : Type := mk_req {
    rq_lr : region; rq_a : nat; rq_b : nat; rq_c : nat;
    rq_rr : region; rq_p : nat; rq_q : nat; rq_r : nat
  }.

  Definition in_do (st : inserter) (rq : request) : res (inserter * nat) :=
    insert st (rq_lr rq) (rq_a rq) (rq_b rq) (rq_c rq) (rq_rr rq) (rq_p rq) (rq_q rq) (rq_r rq).

  Fixpoint in_run (st : inserter) (rqs : list request) : res (inserter * list nat) :=
    match rqs with
    | [] => Ok (st, [])
    | rq :: r =>
        let* r1 := in_do st rq in
        let* r2 := in_run (fst r1) r in
        Ok (fst r2, snd r1 :: snd r2)
    end.
End Points.
Arguments mk_pl {P}.
Arguments pl_points {P}.
Arguments pl_map {P}.
Arguments pl_check {P}.
Arguments pl_empty {P}.
Arguments pl_at {P}.
Arguments pl_insert {P}.
Arguments pl_start {P}.
Arguments pl_stop {P}.
Arguments OpInsert {P}.
Arguments OpReserve {P}.
Arguments OpStart {P}.
Arguments OpStop {P}.
Arguments pl_do {P}.
Arguments pl_run {P}.
Arguments mk_ins {P}.
Arguments in_points {P}.
Arguments in_ll {P}.
Arguments in_pl {P}.
Arguments in_new {P}.
Arguments insert_ll {P}.
Arguments insert_pl {P}.
Arguments insert {P}.
Arguments in_do {P}.
Arguments in_run {P}.
