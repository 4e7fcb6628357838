(** * Corefine and Triangulation

    Models include/kigumi/Corefine.h and include/kigumi/Triangulation.h.

    CGAL's constrained Delaunay triangulation is represented by its vertices (with the
    mutable [info()]) and the constraints given to it.  Two things about it are left to
    oracles: whether it accepts a constraint, and which finite faces it has. *)
From Coq Require Import List Arith NArith Bool QArith Permutation Sorted.
From Verif Require Import Model_base Model_geometry Model_soup Model_region Model_points Model_ffi Model_aabb
  Model_parallel_do Model_candidates.
Import ListNotations.
Local Open Scope nat_scope.

Section Corefine.
  Context {P D : Type}.
  (** Equality of points, their coordinates and bounding boxes. *)
  Variable P_eqb : P -> P -> bool.
  Variable coords : P -> vec3.
  Variable pbox : P -> box.
  (** See Model_candidates.v. *)
  Variable longest_axis : option box -> nat.
  Variable sort_by : nat -> list (box * nat) -> list (box * nat).
  Variable nth_element_by : nat -> nat -> list (box * nat) -> list (box * nat).
  (** See Model_points.v. *)
  Variable construct_ll : P -> P -> P -> P -> P.
  Variable construct_pl : P -> P -> P -> P -> P -> P.

  (** ** Triangulation *)

  (** A vertex handle is the position of the vertex in the order of insertion.
      Triangulation.h:135-138: [f_], the vertices of [cdt_] with their [info()],
      [id_to_vh_], and the constraints of [cdt_].  The three handles [vhs_] are 0, 1, 2. *)
  Record triangulation : Type := mk_tri {
    t_face : region;
    t_vertices : list (P * nat);
    t_handles : list (nat * nat);
    t_constraints : list (nat * nat)
  }.

  (** CDT::insert_constraint: [false] when it throws Intersection_of_constraints_exception.
      CDT::finite_faces: the handles of the vertices of each face. *)
  Variable cdt_accepts : triangulation -> nat -> nat -> bool.
  Variable cdt_faces : triangulation -> list (nat * nat * nat).

  (** Triangulation.h:30-40.  (Three points on a line violate a precondition of
      insert_outside_affine_hull; the theorems assume that they are not.) *)
  Definition tri_new (f : region) (pa pb pc : P) (a b c : nat) : triangulation :=
    mk_tri f [(pa, a); (pb, b); (pc, c)] [] [].

  (** The position of the first element that satisfies [f]. *)
  Fixpoint find_index {A} (f : A -> bool) (l : list A) : option nat :=
    match l with
    | [] => None
    | x :: r => if f x then Some 0 else option_map S (find_index f r)
    end.

  (** CDT::insert: the vertex that is at the point already, or a new one
      (Triangulation.h:98-105, 116-123: the two ways to insert differ in the search
      only). *)
  Definition cdt_insert (t : triangulation) (p : P) (id : nat) : triangulation * nat :=
    match find_index (fun v => P_eqb (fst v) p) (t_vertices t) with
    | Some vh => (t, vh)
    | None => (mk_tri (t_face t) (t_vertices t ++ [(p, id)]) (t_handles t) (t_constraints t),
               length (t_vertices t))
    end.

  (** [vh->info() = id]. *)
  Definition set_info (vh id : nat) (vs : list (P * nat)) : list (P * nat) :=
    match nth_error vs vh with
    | Some (p, _) => list_set vs vh (p, id)
    | None => vs
    end.

  (** Triangulation.h:95-129: insert_in_edge and insert_in_face. *)
  Definition insert_in (t : triangulation) (p : P) (id : nat) : triangulation * nat :=
    match assoc_find Nat.eqb id (t_handles t) with
    | Some vh => (t, vh)
    | None =>
        let '(t, vh) := cdt_insert t p id in
        (mk_tri (t_face t) (set_info vh id (t_vertices t)) (t_handles t ++ [(id, vh)]) (t_constraints t), vh)
    end.

  (** Triangulation.h:55-88. *)
  Definition tri_insert (t : triangulation) (p : P) (id : nat) (reg : region) : res (triangulation * nat) :=
    let r := intersection reg (t_face t) in
    if region_eqb r LEFT_VERTEX_0 || region_eqb r RIGHT_VERTEX_0 then Ok (t, 0)
    else if region_eqb r LEFT_VERTEX_1 || region_eqb r RIGHT_VERTEX_1 then Ok (t, 1)
    else if region_eqb r LEFT_VERTEX_2 || region_eqb r RIGHT_VERTEX_2 then Ok (t, 2)
    else if region_eqb r LEFT_EDGE_01 || region_eqb r RIGHT_EDGE_01 then Ok (insert_in t p id)
    else if region_eqb r LEFT_EDGE_12 || region_eqb r RIGHT_EDGE_12 then Ok (insert_in t p id)
    else if region_eqb r LEFT_EDGE_20 || region_eqb r RIGHT_EDGE_20 then Ok (insert_in t p id)
    else if region_eqb r LEFT_FACE || region_eqb r RIGHT_FACE then Ok (insert_in t p id)
    else Throw RuntimeError.

  (** Triangulation.h:90-92.  Two equal handles violate a precondition of
      CDT::insert_constraint.  The exception becomes a runtime_error in Corefine.h:161-163
      and 202-204. *)
  Definition insert_constraint (t : triangulation) (i j : nat) : res triangulation :=
    if i =? j then UB
    else if cdt_accepts t i j then
      Ok (mk_tri (t_face t) (t_vertices t) (t_handles t) (t_constraints t ++ [(i, j)]))
    else Throw RuntimeError.

  (** Triangulation.h:42-53. *)
  Definition tri_faces (t : triangulation) : res (list face) :=
    foldM (fun fs h =>
      let '(i, j, k) := h in
      match nth_error (t_vertices t) i, nth_error (t_vertices t) j, nth_error (t_vertices t) k with
      | Some (_, a), Some (_, b), Some (_, c) => Ok (fs ++ [(a, b, c)])
      | _, _, _ => UB
      end) [] (cdt_faces t).

  (** ** Corefine *)

  (** Corefine.h:244-249. *)
  Record info : Type := mk_info {
    i_left : nat;
    i_right : nat;
    i_syms : list region;
    i_ids : list nat
  }.

  (** Corefine.h:45-53: the points of both meshes and their ids. *)
  Definition insert_points (pl : point_list P) (ps : list P) : point_list P * list nat :=
    fold_left (fun st p => let '(pl', id) := pl_insert P_eqb (fst st) p in (pl', snd st ++ [id])) ps (pl, []).

  Definition start_points (left right : soup P D) : point_list P * list nat * list nat :=
    let '(pl1, lids) := insert_points (pl_start pl_empty) (points left) in
    let '(pl2, rids) := insert_points pl1 (points right) in
    (pl_stop pl2, lids, rids).

  (** [point_ids.at(face[k].idx())] for the three vertices of a face (Corefine.h:70-77,
      103-110, 147-150, 188-191, 261-264). *)
  Definition face_ids (m : soup P D) (ids : list nat) (fi : nat) : res face :=
    let* f := soup_face m fi in
    let '(v0, v1, v2) := f in
    let* a := vec_at ids v0 in
    let* b := vec_at ids v1 in
    let* c := vec_at ids v2 in
    Ok (a, b, c).

  (** Corefine.h:66-85: the record of a pair of faces, if they meet.  (The thread_local
      Face_face_intersection is that of this call here; see Model_reuse.v.) *)
  Definition pair_body (points : list P) (left right : soup P D) (lids rids : list nat) (pr : nat * nat)
      : res (list info) :=
    let '(left_fi, right_fi) := pr in
    let* (a, b, c) := face_ids left lids left_fi in
    let* (p, q, r) := face_ids right rids right_fi in
    let* syms := face_face_intersection coords points a b c p q r in
    match syms with
    | [] => Ok []
    | _ => Ok [mk_info left_fi right_fi syms []]
    end.

  (** Corefine.h:111-116: one point of a record. *)
  Definition insert_sym (a b c p q r : nat) (st : inserter P * list nat) (sym : region)
      : res (inserter P * list nat) :=
    let left_region := intersection sym LEFT_FACE in
    let right_region := intersection sym RIGHT_FACE in
    let* (ins, id) := insert P_eqb construct_ll construct_pl (fst st) left_region a b c right_region p q r in
    Ok (ins, snd st ++ [id]).

  (** Corefine.h:102-117: one record. *)
  Definition insert_info (left right : soup P D) (lids rids : list nat) (st : inserter P * list info) (i : info)
      : res (inserter P * list info) :=
    let* (a, b, c) := face_ids left lids (i_left i) in
    let* (p, q, r) := face_ids right rids (i_right i) in
    let* (ins, ids) := foldM (insert_sym a b c p q r) (fst st, i_ids i) (i_syms i) in
    Ok (ins, snd st ++ [mk_info (i_left i) (i_right i) (i_syms i) ids]).

  (** Corefine.h:98-120.  (reserve and the evaluation of lazy numbers, lines 100 and
      119-120, have no effect here.) *)
  Definition insert_infos (pl : point_list P) (left right : soup P D) (lids rids : list nat) (infos : list info)
      : res (point_list P * list info) :=
    let* (ins, infos') := foldM (insert_info left right lids rids) (in_new pl, []) infos in
    Ok (in_points ins, infos').

  (** std::sort (Corefine.h:127, 168): any sorted rearrangement. *)
  Definition sorts (key : info -> nat) (l l' : list info) : Prop :=
    Permutation l l' /\ StronglySorted (fun i j => key i <= key j) l'.

  (** std::upper_bound (Corefine.h:131, 172): the records up to the first one with a
      greater index, and the rest. *)
  Fixpoint upper (key : info -> nat) (k : nat) (l : list info) : list info * list info :=
    match l with
    | [] => ([], [])
    | i :: r => if k <? key i then ([], l) else let '(x, y) := upper key k r in (i :: x, y)
    end.

  (** Corefine.h:129-134, 170-175.  Every round consumes a record. *)
  Fixpoint ranges (fuel : nat) (key : info -> nat) (l : list info) : list (list info) :=
    match fuel, l with
    | S fuel, i :: r => let '(x, y) := upper key (key i) r in (i :: x) :: ranges fuel key y
    | _, _ => []
    end.

  (** Corefine.h:273-284: one point of insert_intersection; the state is the triangulation,
      [first] and [prev]. *)
  Definition insert_one (points : list P) (st : triangulation * option nat * option nat) (e : nat * region)
      : res (triangulation * option nat * option nat) :=
    let '(t, first, prev) := st in
    let '(id, sym) := e in
    let* p := vec_at points id in
    let* (t, cur) := tri_insert t p id sym in
    let* t := match prev with Some v => insert_constraint t v cur | None => Ok t end in
    Ok (t, match first with Some v => Some v | None => Some cur end, Some cur).

  (** Corefine.h:269-288.  (The two vectors have the same length; [.at(i)] on the second
      is in range.) *)
  Definition insert_intersection (points : list P) (t : triangulation) (i : info) : res triangulation :=
    let* (t, first, prev) := foldM (insert_one points) (t, None, None) (combine (i_ids i) (i_syms i)) in
    if 2 <? length (i_ids i) then
      match prev, first with
      | Some v, Some w => insert_constraint t v w
      | _, _ => UB
      end
    else Ok t.

  (** Corefine.h:145-160, 186-201: the triangulation of one range. *)
  Definition triangulate (f : region) (key : info -> nat) (points : list P) (m : soup P D) (ids : list nat)
      (range : list info) : res (nat * triangulation) :=
    match range with
    | [] => UB
    | any :: _ =>
        let fi := key any in
        let* (a, b, c) := face_ids m ids fi in
        let* pa := vec_at points a in
        let* pb := vec_at points b in
        let* pc := vec_at points c in
        let* t := foldM (insert_intersection points) (tri_new f pa pb pc a b c) range in
        Ok (fi, t)
    end.

  (** The parallel loops over the ranges (Corefine.h:136-163, 177-204).  Every element has
      its own entry of the map, so that the result depends on the schedule only when
      something is thrown (C15, C16): then it is what some element throws. *)
  Inductive for_ranges (f : list info -> res (nat * triangulation)) (rs : list (list info)) :
      res (list (nat * triangulation)) -> Prop :=
  | fr_ok : forall ts, Forall2 (fun r t => f r = Ok t) rs ts -> for_ranges f rs (Ok ts)
  | fr_throw : forall r e, In r rs -> f r = Throw e -> for_ranges f rs (Throw e)
  | fr_ub : forall r, In r rs -> f r = UB -> for_ranges f rs UB.

  (** Corefine.h:290-301. *)
  Record corefined : Type := mk_corefined {
    cf_points : list P;
    cf_left_ids : list nat;
    cf_right_ids : list nat;
    cf_left_tags : list face_tag;
    cf_right_tags : list face_tag;
    cf_infos : list info;
    cf_left_tris : list (nat * triangulation);
    cf_right_tris : list (nat * triangulation)
  }.

  (** What a failure becomes. *)
  Definition fails {A B} (r : res A) (r' : res B) : Prop :=
    match r with Ok _ => False | Throw e => r' = Throw e | UB => r' = UB end.
  Definition raised_as {B} (x : option exn) : res B := match x with Some e => Throw e | None => UB end.

  (** Corefine.h:42-205, the constructor, for some schedule, with what it constructs or
      throws.  (The loops that collect the tags, pairs and records are those of
      Model_candidates.v; [num_intersections] serves to reserve memory only.) *)
  Inductive corefine (num_threads : nat) (left right : soup P D) : res corefined -> Prop :=
  | corefine_ok : forall pl lids rids ltags rtags pairs infos0 tr pl' infos1 infos2 infos3 ltris rtris,
      start_points left right = (pl, lids, rids) ->
      find_coplanar_faces left right lids rids ltags rtags ->
      find_pairs pbox longest_axis sort_by nth_element_by num_threads left right ltags rtags pairs None ->
      parallel_do (to_body (pair_body (pl_points pl) left right lids rids)) append_post pairs true num_threads
        [] [] tr infos0 None ->
      insert_infos pl left right lids rids infos0 = Ok (pl', infos1) ->
      sorts i_left infos1 infos2 ->
      for_ranges (triangulate LEFT_FACE i_left (pl_points pl') left lids)
        (ranges (length infos2) i_left infos2) (Ok ltris) ->
      sorts i_right infos2 infos3 ->
      for_ranges (triangulate RIGHT_FACE i_right (pl_points pl') right rids)
        (ranges (length infos3) i_right infos3) (Ok rtris) ->
      corefine num_threads left right
        (Ok (mk_corefined (pl_points pl') lids rids ltags rtags infos3 ltris rtris))
  | corefine_pairs : forall pl lids rids ltags rtags pairs x,
      start_points left right = (pl, lids, rids) ->
      find_coplanar_faces left right lids rids ltags rtags ->
      find_pairs pbox longest_axis sort_by nth_element_by num_threads left right ltags rtags pairs (Some x) ->
      corefine num_threads left right (raised_as x)
  | corefine_records : forall pl lids rids ltags rtags pairs infos0 tr x,
      start_points left right = (pl, lids, rids) ->
      find_coplanar_faces left right lids rids ltags rtags ->
      find_pairs pbox longest_axis sort_by nth_element_by num_threads left right ltags rtags pairs None ->
      parallel_do (to_body (pair_body (pl_points pl) left right lids rids)) append_post pairs true num_threads
        [] [] tr infos0 (Some x) ->
      corefine num_threads left right (raised_as x)
  | corefine_points : forall pl lids rids ltags rtags pairs infos0 tr r,
      start_points left right = (pl, lids, rids) ->
      find_coplanar_faces left right lids rids ltags rtags ->
      find_pairs pbox longest_axis sort_by nth_element_by num_threads left right ltags rtags pairs None ->
      parallel_do (to_body (pair_body (pl_points pl) left right lids rids)) append_post pairs true num_threads
        [] [] tr infos0 None ->
      fails (insert_infos pl left right lids rids infos0) r ->
      corefine num_threads left right r
  | corefine_left : forall pl lids rids ltags rtags pairs infos0 tr pl' infos1 infos2 tris r,
      start_points left right = (pl, lids, rids) ->
      find_coplanar_faces left right lids rids ltags rtags ->
      find_pairs pbox longest_axis sort_by nth_element_by num_threads left right ltags rtags pairs None ->
      parallel_do (to_body (pair_body (pl_points pl) left right lids rids)) append_post pairs true num_threads
        [] [] tr infos0 None ->
      insert_infos pl left right lids rids infos0 = Ok (pl', infos1) ->
      sorts i_left infos1 infos2 ->
      for_ranges (triangulate LEFT_FACE i_left (pl_points pl') left lids)
        (ranges (length infos2) i_left infos2) tris ->
      fails tris r ->
      corefine num_threads left right r
  | corefine_right : forall pl lids rids ltags rtags pairs infos0 tr pl' infos1 infos2 infos3 ltris tris r,
      start_points left right = (pl, lids, rids) ->
      find_coplanar_faces left right lids rids ltags rtags ->
      find_pairs pbox longest_axis sort_by nth_element_by num_threads left right ltags rtags pairs None ->
      parallel_do (to_body (pair_body (pl_points pl) left right lids rids)) append_post pairs true num_threads
        [] [] tr infos0 None ->
      insert_infos pl left right lids rids infos0 = Ok (pl', infos1) ->
      sorts i_left infos1 infos2 ->
      for_ranges (triangulate LEFT_FACE i_left (pl_points pl') left lids)
        (ranges (length infos2) i_left infos2) (Ok ltris) ->
      sorts i_right infos2 infos3 ->
      for_ranges (triangulate RIGHT_FACE i_right (pl_points pl') right rids)
        (ranges (length infos3) i_right infos3) tris ->
      fails tris r ->
      corefine num_threads left right r.

  (** Corefine.h:210-221. *)
  Definition info_edges (i : info) : res (list edge) :=
    let n := length (i_ids i) in
    if n <? 2 then Ok []
    else
      foldM (fun es k =>
        let j := if k <? n - 1 then k + 1 else 0 in
        let* a := vec_at (i_ids i) k in
        let* b := vec_at (i_ids i) j in
        Ok (es ++ [make_edge a b])) [] (seq 0 n).

  (** Corefine.h:207-225: the elements of the set (in some order, with repetitions). *)
  Definition get_intersecting_edges (cf : corefined) : res (list edge) :=
    foldM (fun es i => let* e := info_edges i in Ok (es ++ e)) [] (cf_infos cf).

  (** Corefine.h:251-267. *)
  Definition get_faces (m : soup P D) (fi : nat) (tris : list (nat * triangulation)) (ids : list nat)
      : res (list face) :=
    match assoc_find Nat.eqb fi tris with
    | Some t => tri_faces t
    | None => let* f := face_ids m ids fi in Ok [f]
    end.

  (** Corefine.h:227-239. *)
  Definition get_left_faces (cf : corefined) (left : soup P D) (fi : nat) : res (face_tag * list face) :=
    let* tag := vec_at (cf_left_tags cf) fi in
    let* fs := get_faces left fi (cf_left_tris cf) (cf_left_ids cf) in
    Ok (tag, fs).
  Definition get_right_faces (cf : corefined) (right : soup P D) (fi : nat) : res (face_tag * list face) :=
    let* tag := vec_at (cf_right_tags cf) fi in
    let* fs := get_faces right fi (cf_right_tris cf) (cf_right_ids cf) in
    Ok (tag, fs).
End Corefine.
Arguments triangulation : clear implicits.
Arguments corefined : clear implicits.
