(** * Face_face_intersection

    Models include/kigumi/Face_face_intersection.h.  The object holds a reference to the
    points; here the points are a parameter.  The two mutable members are threaded
    explicitly. *)
From Coq Require Import List Arith Bool NArith QArith.
From Verif Require Import Model_base Model_geometry Model_region Model_points.
Import ListNotations.
Local Open Scope nat_scope.

(** ** Signs and the predicates of CGAL *)

(** The product of two CGAL::Sign. *)
Definition smul (a b : comparison) : comparison :=
  match a with Eq => Eq | Gt => b | Lt => CompOpp b end.
(** [s > 0], [s < 0], [s == 0]. *)
Definition is_pos (s : comparison) : bool := match s with Gt => true | _ => false end.
Definition is_neg (s : comparison) : bool := match s with Lt => true | _ => false end.
Definition is_zero (s : comparison) : bool := match s with Eq => true | _ => false end.

(** CGAL::orientation of four points: the sign of a determinant (the value agrees with
    [Model_side.orientation]). *)
Definition det3 (p q r s : vec3) : Q := vdot (vcross (vsub q p) (vsub r p)) (vsub s p).
Definition orientation_3 (p q r s : vec3) : comparison := sign (det3 p q r s).

(** CGAL::coplanar_orientation of three points: the first of the orientations of the
    projections to the xy, yz and xz planes that is not collinear. *)
Definition det_xy (p q r : vec3) : Q := det2 (vx q - vx p, vy q - vy p)%Q (vx r - vx p, vy r - vy p)%Q.
Definition det_yz (p q r : vec3) : Q := det2 (vy q - vy p, vz q - vz p)%Q (vy r - vy p, vz r - vz p)%Q.
Definition det_xz (p q r : vec3) : Q := det2 (vx q - vx p, vz q - vz p)%Q (vx r - vx p, vz r - vz p)%Q.
Definition coplanar_orientation (p q r : vec3) : comparison :=
  match sign (det_xy p q r) with
  | Eq => match sign (det_yz p q r) with Eq => sign (det_xz p q r) | s => s end
  | s => s
  end.

(** CGAL::compare_lexicographically. *)
Definition compare_lexicographically (p q : vec3) : comparison :=
  match (vx p ?= vx q)%Q with
  | Eq => match (vy p ?= vy q)%Q with Eq => (vz p ?= vz q)%Q | s => s end
  | s => s
  end.

(** ** sort, Face_face_intersection.h:291-303 *)

(** [std::swap(ids.at(j), ids.at(j - 1))]. *)
Definition swap_at (ids : list nat) (j : nat) : list nat :=
  list_set (list_set ids j (nth (j - 1) ids 0)) (j - 1) (nth j ids 0).
(** The inner loop, Face_face_intersection.h:295-300. *)
Fixpoint sink (j : nat) (ids : list nat) (parity : comparison) : list nat * comparison :=
  match j with
  | 0 => (ids, parity)
  | S j' =>
      if nth j' ids 0 <? nth j ids 0 then sink j' (swap_at ids j) (CompOpp parity)
      else (ids, parity)
  end.
(** Face_face_intersection.h:291-303. *)
Definition sort_ids (ids : list nat) : list nat * comparison :=
  fold_left (fun s i => sink i (fst s) (snd s)) (seq 1 (length ids - 1)) (ids, Gt).

Section Ffi.
  Context {P : Type}.
  (** The exact coordinates of a point. *)
  Variable coords : P -> vec3.
  (** The points of the Point_list, Face_face_intersection.h:344. *)
  Variable points : list P.

  (** intersections_ and orientation_3_cache_, Face_face_intersection.h:345-346. *)
  Record ffi_state : Type := mk_ffi {
    ffi_inters : list (region * region);
    ffi_cache : list (list nat * comparison)
  }.

  (** Face_face_intersection.h:305-309. *)
  Definition orientation2 (a b : nat) : res comparison :=
    let* pa := vec_at points a in
    let* pb := vec_at points b in
    Ok (compare_lexicographically (coords pa) (coords pb)).

  (** Face_face_intersection.h:311-316. *)
  Definition orientation3 (a b c : nat) : res comparison :=
    let* pa := vec_at points a in
    let* pb := vec_at points b in
    let* pc := vec_at points c in
    Ok (coplanar_orientation (coords pa) (coords pb) (coords pc)).

  (** Face_face_intersection.h:318-334.  (An entry left at zero by a throwing
      [points_.at] is not modelled: the exception leaves operator().) *)
  Definition orientation4 (st : ffi_state) (a b c d : nat) : res (ffi_state * comparison) :=
    let '(key, parity) := sort_ids [a; b; c; d] in
    match assoc_find key_eqb key (ffi_cache st) with
    | Some o => Ok (st, smul parity o)
    | None =>
        let* pa := vec_at points (nth 0 key 0) in
        let* pb := vec_at points (nth 1 key 0) in
        let* pc := vec_at points (nth 2 key 0) in
        let* pd := vec_at points (nth 3 key 0) in
        let o := orientation_3 (coords pa) (coords pb) (coords pc) (coords pd) in
        Ok (mk_ffi (ffi_inters st) (ffi_cache st ++ [(key, o)]), smul parity o)
    end.

  (** Face_face_intersection.h:336-342. *)
  Definition insert_inter (st : ffi_state) (first second : region) : ffi_state :=
    let '(first, second) := if negb (is_left_region first) then (second, first) else (first, second) in
    mk_ffi (ffi_inters st ++ [(first, second)]) (ffi_cache st).

  (** Face_face_intersection.h:268-289. *)
  Definition edge_edge_1d (st : ffi_state) (eab : region) (a : nat) (epq : region) (p q : nat)
      : res ffi_state :=
    let* vab := edge_vertices eab in
    let* vpq := edge_vertices epq in
    let va := fst vab in
    let vp := fst vpq in
    let* ap := orientation2 a p in
    let* aq := orientation2 a q in
    if is_pos (smul ap aq) then Ok st
    else if is_neg (smul ap aq) then Ok (insert_inter st va epq)
    else if is_zero ap && is_left_region va then Ok (insert_inter st va vp)
    else Ok st.

  (** Face_face_intersection.h:217-261. *)
  Definition edge_edge_2d (st : ffi_state) (eab : region) (a b : nat) (epq : region) (p q : nat)
      (abp abq apq bpq : comparison) : res ffi_state :=
    if is_pos (smul abp abq) || is_pos (smul apq bpq) then Ok st
    else if is_zero abp && is_zero abq then edge_edge_1d st eab a epq p q
    else
      let* vab := edge_vertices eab in
      let* vpq := edge_vertices epq in
      if negb (is_zero apq) && is_zero bpq then Ok st
      else
        let first := if is_zero apq then fst vab else eab in
        if negb (is_zero abp) && is_zero abq then Ok st
        else
          let second := if is_zero abp then fst vpq else epq in
          let* d1 := dimension first in
          let* d2 := dimension second in
          if (d1 =? 1) && (d2 =? 0) then Ok st
          else if (d1 =? d2) && negb (is_left_region first) then Ok st
          else Ok (insert_inter st first second).

  (** Three signs that are all positive or all negative (lines 189, 193). *)
  Definition same_side (s t u : comparison) : bool :=
    is_pos (smul s t) && is_pos (smul t u) && is_pos (smul u s).

  (** Face_face_intersection.h:176-210. *)
  Definition edge_face_2d (st : ffi_state) (eab : region) (a b : nat) (fpqr : region) (p q r : nat)
      : res ffi_state :=
    let* vab := edge_vertices eab in
    let va := fst vab in
    let* apq := orientation3 a p q in
    let* aqr := orientation3 a q r in
    let* arp := orientation3 a r p in
    let* bpq := orientation3 b p q in
    let* bqr := orientation3 b q r in
    let* brp := orientation3 b r p in
    let in_a := same_side apq aqr arp in
    let in_b := same_side bpq bqr brp in
    let st := if in_a then insert_inter st va fpqr else st in
    if in_a && in_b then Ok st
    else
      let* es := face_edges fpqr in
      let '(epq, eqr, erp) := es in
      let* abp := orientation3 a b p in
      let* abq := orientation3 a b q in
      let* abr := orientation3 a b r in
      let* st := edge_edge_2d st eab a b epq p q abp abq apq bpq in
      let* st := edge_edge_2d st eab a b eqr q r abq abr aqr bqr in
      edge_edge_2d st eab a b erp r p abr abp arp brp.

  (** Face_face_intersection.h:109-169. *)
  Definition edge_face (st : ffi_state) (eab : region) (a b : nat) (fpqr : region) (p q r : nat)
      (apqr bpqr : comparison) : res ffi_state :=
    if is_pos (smul apqr bpqr) then Ok st
    else if is_zero apqr && is_zero bpqr then edge_face_2d st eab a b fpqr p q r
    else
      let* r1 := orientation4 st a b p q in
      let '(st, abpq) := r1 in
      let* r2 := orientation4 st a b q r in
      let '(st, abqr) := r2 in
      let* r3 := orientation4 st a b r p in
      let '(st, abrp) := r3 in
      if is_neg (smul abpq abqr) || is_neg (smul abqr abrp) || is_neg (smul abrp abpq) then Ok st
      else
        let* vab := edge_vertices eab in
        let* es := face_edges fpqr in
        let '(epq, eqr, erp) := es in
        let* vs := face_vertices fpqr in
        let '(vp, vq, vr) := vs in
        if negb (is_zero apqr) && is_zero bpqr then Ok st
        else
          let first := if is_zero apqr then fst vab else eab in
          let second :=
            if is_zero abpq && is_zero abqr then vq
            else if is_zero abqr && is_zero abrp then vr
            else if is_zero abrp && is_zero abpq then vp
            else if is_zero abpq then epq
            else if is_zero abqr then eqr
            else if is_zero abrp then erp
            else fpqr in
          let* d1 := dimension first in
          let* d2 := dimension second in
          if (d1 =? 1) && (d2 =? 0) then Ok st
          else if (d1 =? d2) && negb (is_left_region first) then Ok st
          else Ok (insert_inter st first second).

  (** The six tests, Face_face_intersection.h:33-54. *)
  Definition all_edges_faces (a b c p q r : nat) : res ffi_state :=
    let st := mk_ffi [] [] in
    let fabc := LEFT_FACE in
    let fpqr := RIGHT_FACE in
    let* es := face_edges fabc in
    let '(eab, ebc, eca) := es in
    let* fs := face_edges fpqr in
    let '(epq, eqr, erp) := fs in
    let* o := orientation4 st a p q r in let '(st, apqr) := o in
    let* o := orientation4 st b p q r in let '(st, bpqr) := o in
    let* o := orientation4 st c p q r in let '(st, cpqr) := o in
    let* o := orientation4 st p a b c in let '(st, pabc) := o in
    let* o := orientation4 st q a b c in let '(st, qabc) := o in
    let* o := orientation4 st r a b c in let '(st, rabc) := o in
    let* st := edge_face st eab a b fpqr p q r apqr bpqr in
    let* st := edge_face st ebc b c fpqr p q r bpqr cpqr in
    let* st := edge_face st eca c a fpqr p q r cpqr apqr in
    let* st := edge_face st epq p q fabc a b c pabc qabc in
    let* st := edge_face st eqr q r fabc a b c qabc rabc in
    edge_face st erp r p fabc a b c rabc pabc.
End Ffi.

(** ** The order of the result, Face_face_intersection.h:56-100 *)

(** push_back on a boost::container::static_vector of capacity 6. *)
Definition push6 {A} (l : list A) (x : A) : res (list A) :=
  if length l <? 6 then Ok (l ++ [x]) else Throw BadAlloc.

(** Whether two intersections lie on a common edge, Face_face_intersection.h:69-70. *)
Definition on_common_edge (ri rj : region * region) : res bool :=
  let* d1 := dimension (convex_hull (fst ri) (fst rj)) in
  if d1 =? 1 then Ok true
  else
    let* d2 := dimension (convex_hull (snd ri) (snd rj)) in
    Ok (d2 =? 1).

(** Face_face_intersection.h:63-74. *)
Definition inter_edges (inters : list (region * region)) : res (list (nat * nat)) :=
  let size := length inters in
  foldM (fun edges i =>
    let* ri := vec_at inters i in
    foldM (fun edges j =>
      let* rj := vec_at inters j in
      let* b := on_common_edge ri rj in
      if b then push6 edges (i, j) else Ok edges) edges (seq (i + 1) (size - (i + 1))))
    [] (seq 0 (size - 1)).

(** The next intersection, Face_face_intersection.h:87-96. *)
Fixpoint next_inter (visited : list bool) (edges : list (nat * nat)) (i : nat) : res nat :=
  match edges with
  | [] => Ok i
  | (j, k) :: r =>
      let* vk := (if j =? i then vec_at visited k else Ok true) in
      if (j =? i) && negb vk then Ok k
      else
        let* vj := (if k =? i then vec_at visited j else Ok true) in
        if (k =? i) && negb vj then Ok j
        else next_inter visited r i
  end.

(** The loop, Face_face_intersection.h:76-97.  Every round adds to [result], which has
    capacity 6, so seven rounds of fuel are more than the loop can use. *)
Fixpoint walk (fuel : nat) (inters : list (region * region)) (edges : list (nat * nat))
    (visited : list bool) (i : nat) (result : list region) : res (list region) :=
  match fuel with
  | 0 => Throw Diverges
  | S fuel =>
      let* inter := vec_at inters i in
      let* result := push6 result (convex_hull (fst inter) (snd inter)) in
      let* visited := vec_set visited i true in
      if length result =? length inters then Ok result
      else
        let* i := next_inter visited edges i in
        walk fuel inters edges visited i result
  end.

(** Face_face_intersection.h:56-100. *)
Definition ordered_result (inters : list (region * region)) : res (list region) :=
  if length inters <=? 2 then
    foldM (fun result inter => push6 result (convex_hull (fst inter) (snd inter))) [] inters
  else
    let* edges := inter_edges inters in
    if 6 <? length inters then Throw BadAlloc
    else walk 7 inters edges (repeat false (length inters)) 0 [].

(** operator(), Face_face_intersection.h:29-101. *)
Definition face_face_intersection {P} (coords : P -> vec3) (points : list P) (a b c p q r : nat)
    : res (list region) :=
  let* st := all_edges_faces coords points a b c p q r in
  ordered_result (ffi_inters st).
