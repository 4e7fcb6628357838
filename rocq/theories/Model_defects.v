(** * Find_defects

    Models include/kigumi/Find_defects.h.  The hash maps and sets become association
    lists; the order in which a hash map is traversed is a parameter (any permutation of
    its entries).  Counts of half-edges (std::size_t) are [nat]. *)
From Coq Require Import List Arith Bool NArith QArith.
From Verif Require Import Model_base Model_soup Model_points Model_parallel_do Model_aabb.
From Verif Require Import Model_candidates Model_graph Model_geometry.
Import ListNotations.
Local Open Scope nat_scope.

(** The test [f[0] == f[1] || f[1] == f[2] || f[2] == f[0]] (lines 121, 190, 250, 265). *)
Definition repeated (f : face) : bool :=
  let '(a, b, c) := f in (a =? b) || (b =? c) || (c =? a).

(** ** merge_duplicate_vertices, Find_defects.h:69-94 *)
Section Merge.
  Context {P D : Type}.
  Variable P_eqb : P -> P -> bool.
  (** The value of a face's data after add_face (Triangle_soup.h:82-86). *)
  Variable d0 : D.

  (** Find_defects.h:77-85: the state is the new mesh, vi_map and points. *)
  Definition merge_vertex (s : soup P D * list nat * point_list P) (p : P)
      : soup P D * list nat * point_list P :=
    let '(new_m, vi_map, pts) := s in
    let next_idx := length (pl_points pts) in
    let '(pts, idx) := pl_insert P_eqb pts p in
    ((if idx =? next_idx then snd (add_vertex new_m p) else new_m), vi_map ++ [idx], pts).

  (** Find_defects.h:87-91. *)
  Definition merge_face (m : soup P D) (vi_map : list nat) (new_m : soup P D) (fi : nat) : res (soup P D) :=
    let* f := soup_face m fi in
    let '(a, b, c) := f in
    let* a := vec_at vi_map a in
    let* b := vec_at vi_map b in
    let* c := vec_at vi_map c in
    Ok (snd (add_face d0 new_m (a, b, c))).

  (** Find_defects.h:69-94. *)
  Definition merge_duplicate_vertices (m : soup P D) : res (soup P D) :=
    let '(new_m, vi_map, _) :=
      fold_left merge_vertex (points m) (empty_soup, [], pl_start pl_empty) in
    foldM (merge_face m vi_map) new_m (seq 0 (num_faces m)).
End Merge.

Section Combinatorial.
  Context {P D : Type}.

  (** ** isolated_vertices, Find_defects.h:96-113 *)
  (** Find_defects.h:96-113. *)
  Definition isolated_vertices (m : soup P D) : res (list nat) :=
    let* used := foldM (fun used fi =>
        let* f := soup_face m fi in
        let '(a, b, c) := f in
        let* used := vec_set used a true in
        let* used := vec_set used b true in
        vec_set used c true) (repeat false (num_vertices m)) (seq 0 (num_faces m)) in
    foldM (fun vis vi =>
        let* u := vec_at used vi in
        if negb u then Ok (vis ++ [vi]) else Ok vis) [] (seq 0 (num_vertices m)).

  (** ** non_manifold_vertices, Find_defects.h:115-180 *)

  (** [v.at(i).push_back(x)] (lines 124-126). *)
  Definition vec_push {A} (v : list (list A)) (i : nat) (x : A) : res (list (list A)) :=
    let* l := vec_at v i in vec_set v i (l ++ [x]).

  (** Find_defects.h:118-127. *)
  Definition vf_map (m : soup P D) : res (list (list nat)) :=
    foldM (fun vf fi =>
        let* f := soup_face m fi in
        if repeated f then Ok vf
        else
          let '(a, b, c) := f in
          let* vf := vec_push vf a fi in
          let* vf := vec_push vf b fi in
          vec_push vf c fi) (repeat [] (num_vertices m)) (seq 0 (num_faces m)).

  (** Find_defects.h:129-149. *)
  Definition next_vertex (m : soup P D) (fi vi : nat) : res nat :=
    let* f := soup_face m fi in
    let '(a, b, c) := f in
    if a =? vi then Ok b else if b =? vi then Ok c else Ok a.
  Definition prev_vertex (m : soup P D) (fi vi : nat) : res nat :=
    let* f := soup_face m fi in
    let '(a, b, c) := f in
    if a =? vi then Ok c else if b =? vi then Ok a else Ok b.

  (** Find_defects.h:158-163: [local_vis]. *)
  Definition local_vertices (m : soup P D) (vi : nat) (fis : list nat) : res (list (nat * nat)) :=
    foldM (fun loc fi =>
        let* n := next_vertex m fi vi in
        let loc := emplace Nat.eqb loc n (length loc) in
        let* p := prev_vertex m fi vi in
        Ok (emplace Nat.eqb loc p (length loc))) [] fis.

  (** [local_vis.at(k)] (lines 169-170). *)
  Definition map_at (loc : list (nat * nat)) (k : nat) : res nat :=
    match assoc_find Nat.eqb k loc with Some i => Ok i | None => Throw OutOfRange end.

  (** Find_defects.h:165-172. *)
  Definition local_graph (m : soup P D) (vi : nat) (fis : list nat) (loc : list (nat * nat)) : res graph :=
    foldM (fun g fi =>
        let* n := next_vertex m fi vi in
        let* i := map_at loc n in
        let* p := prev_vertex m fi vi in
        let* j := map_at loc p in
        add_edge g i j) (new_graph (length loc)) fis.

  (** The loop body, Find_defects.h:152-176: whether the vertex is reported. *)
  Definition non_manifold_vertex (m : soup P D) (vf : list (list nat)) (vi : nat) : res bool :=
    let* fis := vec_at vf vi in
    match fis with
    | [] => Ok false
    | _ =>
        let* loc := local_vertices m vi fis in
        let* g := local_graph m vi fis loc in
        let* s := is_simple g in
        if negb s then Ok true
        else
          let* c := is_connected g in
          if negb c then Ok true
          else let* d := max_degree g in Ok (2 <? d)%N
    end.

  (** Find_defects.h:115-180. *)
  Definition non_manifold_vertices (m : soup P D) : res (list nat) :=
    let* vf := vf_map m in
    foldM (fun vis vi =>
        let* b := non_manifold_vertex m vf vi in
        if b then Ok (vis ++ [vi]) else Ok vis) [] (seq 0 (num_vertices m)).

  (** ** Edges *)

  (** Mesh_entities.h:12. *)
  Definition halfedge : Type := nat * nat.
  Definition halfedge_eqb (a b : halfedge) : bool := (fst a =? fst b) && (snd a =? snd b).

  (** Find_defects.h:182-184. *)
  Definition to_edge (he : halfedge) : edge := make_edge (fst he) (snd he).
  Definition opposite_he (he : halfedge) : halfedge := (snd he, fst he).

  (** [++hes[he]] (line 195). *)
  Fixpoint bump (hes : list (halfedge * nat)) (he : halfedge) : list (halfedge * nat) :=
    match hes with
    | [] => [(he, 1)]
    | (k, c) :: r => if halfedge_eqb k he then (k, c + 1) :: r else (k, c) :: bump r he
    end.

  (** Find_defects.h:186-199. *)
  Definition collect_halfedges (m : soup P D) : res (list (halfedge * nat)) :=
    foldM (fun hes fi =>
        let* f := soup_face m fi in
        if repeated f then Ok hes
        else let '(a, b, c) := f in Ok (bump (bump (bump hes (a, b)) (b, c)) (c, a)))
      [] (seq 0 (num_faces m)).

  (** [hes.contains(he)] (lines 205, 217). *)
  Definition contains (hes : list (halfedge * nat)) (he : halfedge) : bool :=
    match assoc_find halfedge_eqb he hes with Some _ => true | None => false end.

  (** Find_defects.h:201-211; [order] is the order of traversal of [hes]. *)
  Definition boundary_edges (hes order : list (halfedge * nat)) : list edge :=
    flat_map (fun e =>
      if (snd e =? 1) && negb (contains hes (opposite_he (fst e))) then [to_edge (fst e)] else []) order.

  (** Find_defects.h:213-223. *)
  Definition inconsistent_edges (hes order : list (halfedge * nat)) : list edge :=
    flat_map (fun e =>
      if (snd e =? 2) && negb (contains hes (opposite_he (fst e))) then [to_edge (fst e)] else []) order.

  (** Find_defects.h:225-243. *)
  Definition non_manifold_edges (hes order : list (halfedge * nat)) : list edge :=
    flat_map (fun e =>
      let he := fst e in
      let opp_count := match assoc_find halfedge_eqb (opposite_he he) hes with Some c => c | None => 0 end in
      if (snd he <? fst he) && (0 <? opp_count) then []
      else if 2 <? snd e + opp_count then [to_edge he] else []) order.

  (** ** Degenerate faces *)

  (** Find_defects.h:245-256. *)
  Definition trivial_degenerate_faces (m : soup P D) : res (list nat) :=
    foldM (fun fis fi =>
        let* f := soup_face m fi in
        if repeated f then Ok (fis ++ [fi]) else Ok fis) [] (seq 0 (num_faces m)).

  (** The exact coordinates of a point. *)
  Variable coords : P -> vec3.

  (** CGAL::Triangle_3::is_degenerate, i.e. collinear: the cross product of two sides
      is zero. *)
  Definition is_degenerate (t : P * P * P) : bool :=
    let '(p, q, r) := t in
    let n := vcross (vsub (coords q) (coords p)) (vsub (coords r) (coords p)) in
    Qeq_bool (vx n) 0 && Qeq_bool (vy n) 0 && Qeq_bool (vz n) 0.

  (** The body of the parallel loop, Find_defects.h:263-272: the faces it adds. *)
  Definition degenerate_body (m : soup P D) (fi : nat) : res (list nat) :=
    let* f := soup_face m fi in
    if repeated f then Ok []
    else
      let* t := soup_triangle m fi in
      if is_degenerate t then Ok [fi] else Ok [].

  (** Find_defects.h:258-282, for some schedule (lines 273-279 are [append_post]). *)
  Definition non_trivial_degenerate_faces (num_threads : nat) (m : soup P D)
      (fis : list nat) (x : option (option exn)) : Prop :=
    exists tr, parallel_do (to_body (degenerate_body m)) append_post
      (seq 0 (num_faces m)) true num_threads [] [] tr fis x.
End Combinatorial.
