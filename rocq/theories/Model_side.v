(** * The side of a point

    Models include/kigumi/Side_of_triangle_soup.h, face_centroid and
    oriented_side_of_face_supporting_plane of include/kigumi/mesh_utility.h, and
    Region::bounded_side of include/kigumi/Region.h. *)
From Coq Require Import List Arith Bool QArith.
From Verif Require Import Model_base Model_soup Model_geometry Model_aabb Model_classify.
Import ListNotations.

(** The variant CGAL::intersection(Triangle_3, Ray_3) returns
    (Side_of_triangle_soup.h:53-71). *)
Inductive hit : Type := HNone | HPoint (q : vec3) | HSegment (s t : vec3).

(** [operator==(Point_3, Point_3)] *)
Definition point_eqb (a b : vec3) : bool :=
  Qeq_bool (vx a) (vx b) && Qeq_bool (vy a) (vy b) && Qeq_bool (vz a) (vz b).

(** CGAL::centroid of three points (mesh_utility.h:27-31). *)
Definition centroid (a b c : vec3) : vec3 :=
  ((vx a + vx b + vx c) / 3, (vy a + vy b + vy c) / 3, (vz a + vz b + vz c) / 3)%Q.

(** CGAL::squared_distance *)
Definition squared_distance (a b : vec3) : Q := let d := vsub b a in vdot d d.

(** CGAL::orientation of four points: the sign of a determinant
    (mesh_utility.h:39-45). *)
Definition orientation (p0 p1 p2 p : vec3) : oriented_side :=
  match sign (vdot (vcross (vsub p1 p0) (vsub p2 p0)) (vsub p p0)) with
  | Lt => NEGATIVE_SIDE
  | Eq => ON_BOUNDARY
  | Gt => POSITIVE_SIDE
  end.

Section Side.
  Context {D : Type}.
  (** CGAL::intersection(triangle, ray); the ray starts at the second argument and
      goes through the third. *)
  Variable ray_triangle : vec3 * vec3 * vec3 -> vec3 -> vec3 -> hit.
  (** CGAL::do_intersect(box, ray), used by get_intersecting_leaves (line 46). *)
  Variable ray_meets_box : vec3 -> vec3 -> box -> bool.
  (** std::partial_sort of the two smallest (lines 81-82). *)
  Variable partial_sort2 : list (Q * nat) -> list (Q * nat).

  (** mesh_utility.h:27-31. *)
  Definition face_centroid (m : soup vec3 D) (fi : nat) : res vec3 :=
    let* t := soup_triangle m fi in
    let '(a, b, c) := t in Ok (centroid a b c).

  (** mesh_utility.h:39-45. *)
  Definition oriented_side_of_face_supporting_plane (m : soup vec3 D) (fi : nat) (p : vec3)
      : res oriented_side :=
    let* t := soup_triangle m fi in
    let '(a, b, c) := t in Ok (orientation a b c p).

  (** The loop over the leaves, lines 48-72: [None] when it returns
      ON_ORIENTED_BOUNDARY, otherwise intersections_. *)
  Fixpoint scan (m : soup vec3 D) (t : tree (box * nat)) (p trg : vec3) (leaves : list nat)
      (intersections : list (Q * nat)) : res (option (list (Q * nat))) :=
    match leaves with
    | [] => Ok (Some intersections)
    | i :: r =>
        match nth_error (t_leaves t) i with
        | None => UB
        | Some leaf =>
            let fi := snd leaf in
            let* tri := soup_triangle m fi in
            match ray_triangle tri p trg with
            | HNone => scan m t p trg r intersections
            | HPoint q =>
                if point_eqb q p then Ok None
                else scan m t p trg r (intersections ++ [(squared_distance p q, fi)])
            | HSegment s e =>
                if point_eqb s p || point_eqb e p then Ok None
                else scan m t p trg r intersections
            end
        end
    end.

  (** The body of the loop over the targets, lines 35-91: [None] for [continue]. *)
  Definition probe (m : soup vec3 D) (t : tree (box * nat)) (p : vec3) (fi_trg : nat)
      : res (option oriented_side) :=
    let* p_trg := face_centroid m fi_trg in
    if point_eqb p p_trg then Ok (Some ON_BOUNDARY)
    else
      let* leaves := get_intersecting_leaves (@fst box nat) (ray_meets_box p p_trg) t in
      let* found := scan m t p p_trg leaves [] in
      match found with
      | None => Ok (Some ON_BOUNDARY)
      | Some [] => Throw RuntimeError
      | Some [x] =>
          let* s := oriented_side_of_face_supporting_plane m (snd x) p in Ok (Some s)
      | Some (x :: y :: r) =>
          match partial_sort2 (x :: y :: r) with
          | x' :: y' :: _ =>
              if Qeq_bool (fst x') (fst y') then Ok None
              else let* s := oriented_side_of_face_supporting_plane m (snd x') p in Ok (Some s)
          | _ => Throw OutOfRange
          end
      end.

  (** Lines 35-96. *)
  Fixpoint side_loop (m : soup vec3 D) (t : tree (box * nat)) (p : vec3) (targets : list nat)
      : res oriented_side :=
    match targets with
    | [] => Throw RuntimeError
    | fi :: r =>
        let* o := probe m t p fi in
        match o with
        | Some s => Ok s
        | None => side_loop m t p r
        end
    end.

  (** Lines 28-97; [t] is the tree of the soup (line 33). *)
  Definition side_of_triangle_soup (m : soup vec3 D) (t : tree (box * nat)) (p : vec3)
      : res oriented_side :=
    if num_faces m =? 0 then Throw RuntimeError
    else side_loop m t p (seq 0 (num_faces m)).

  (** CGAL::Bounded_side *)
  Inductive bounded_side_value : Type := ON_UNBOUNDED_SIDE | ON_BOUNDARY_SIDE | ON_BOUNDED_SIDE.

  (** Region.h:61-77. *)
  Definition bounded_side (r : region vec3 D) (t : tree (box * nat)) (p : vec3) : res bounded_side_value :=
    if is_empty r then Ok ON_UNBOUNDED_SIDE
    else if is_full r then Ok ON_BOUNDED_SIDE
    else
      let* s := side_of_triangle_soup (boundary r) t p in
      Ok (match s with
          | NEGATIVE_SIDE => ON_BOUNDED_SIDE
          | POSITIVE_SIDE => ON_UNBOUNDED_SIDE
          | ON_BOUNDARY => ON_BOUNDARY_SIDE
          end).
End Side.
