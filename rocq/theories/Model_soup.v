(** * Triangle soups and regions (combinatorial part)

    Models include/kigumi/Triangle_soup.h (points_, faces_, face_data_ and the
    functions that do not involve the box tree), Mesh_entities.h, Face_tag.h,
    Mixed.h and Region.h.

    Simplifications: the point type [P] and the face data type [D] are
    arbitrary; indices are [nat] (64-bit wrap-around of sizes is out of reach
    of memory and is not modelled); the lazily built box tree of
    Triangle_soup.h:126-139 is modelled separately (Model_cache.v). *)
From Coq Require Import List Arith Bool.
From Verif Require Import Model_base.
Import ListNotations.

(** Mesh_entities.h:14  [using Face = std::array<Vertex_index, 3>]. *)
Definition face : Type := nat * nat * nat.

(** Mesh_entities.h:13 and 16-22: [Edge], [make_edge]. *)
Definition edge : Type := nat * nat.

Definition make_edge (first second : nat) : edge :=
  if second <? first then (second, first) else (first, second).

(** Triangle_soup.h:141-146: the three parallel vectors. *)
Record soup (P D : Type) : Type := mk_soup {
  points : list P;
  faces : list face;
  face_data : list D
}.
Arguments mk_soup {P D}.
Arguments points {P D}.
Arguments faces {P D}.
Arguments face_data {P D}.

Definition empty_soup {P D} : soup P D := mk_soup [] [] [].

Definition num_vertices {P D} (s : soup P D) : nat := length (points s).
Definition num_faces {P D} (s : soup P D) : nat := length (faces s).

(** Triangle_soup.h:77-80. *)
Definition add_vertex {P D} (s : soup P D) (p : P) : nat * soup P D :=
  let s' := mk_soup (points s ++ [p]) (faces s) (face_data s) in
  (num_vertices s' - 1, s').

(** Triangle_soup.h:82-86; [d0] is the value-initialised [FaceData{}]. *)
Definition add_face {P D} (d0 : D) (s : soup P D) (f : face) : nat * soup P D :=
  let s' := mk_soup (points s) (faces s ++ [f]) (face_data s ++ [d0]) in
  (num_faces s' - 1, s').

(** Triangle_soup.h:104-110: [data], [face], [point]. *)
Definition soup_data {P D} (s : soup P D) (fi : nat) : res D := vec_at (face_data s) fi.
Definition soup_face {P D} (s : soup P D) (fi : nat) : res face := vec_at (faces s) fi.
Definition soup_point {P D} (s : soup P D) (vi : nat) : res P := vec_at (points s) vi.

(** [soup.data(fi) = d]. *)
Definition set_data {P D} (s : soup P D) (fi : nat) (d : D) : res (soup P D) :=
  let* fd := vec_set (face_data s) fi d in
  Ok (mk_soup (points s) (faces s) fd).

(** Triangle_soup.h:112-115: [triangle]. *)
Definition soup_triangle {P D} (s : soup P D) (fi : nat) : res (P * P * P) :=
  let* f := soup_face s fi in
  let '(a, b, c) := f in
  let* pa := soup_point s a in
  let* pb := soup_point s b in
  let* pc := soup_point s c in
  Ok (pa, pb, pc).

(** Face_tag.h:5-11. *)
Inductive face_tag : Type := UNKNOWN | EXTERIOR | INTERIOR | COPLANAR | OPPOSITE.

Definition face_tag_eqb (a b : face_tag) : bool :=
  match a, b with
  | UNKNOWN, UNKNOWN | EXTERIOR, EXTERIOR | INTERIOR, INTERIOR
  | COPLANAR, COPLANAR | OPPOSITE, OPPOSITE => true
  | _, _ => false
  end.

(** Mixed.h:10-14: [Mixed_face_data]. *)
Record mixed_data (D : Type) : Type := mk_mixed {
  from_left : bool;
  tag : face_tag;
  data : D
}.
Arguments mk_mixed {D}.
Arguments from_left {D}.
Arguments tag {D}.
Arguments data {D}.

(** Region.h:14-18. *)
Inductive region_kind : Type := EMPTY | FULL | BOUNDARY_DEFINED.

Definition region_kind_eqb (a b : region_kind) : bool :=
  match a, b with
  | EMPTY, EMPTY | FULL, FULL | BOUNDARY_DEFINED, BOUNDARY_DEFINED => true
  | _, _ => false
  end.

(** Region.h:95-98: the members of [Region]. *)
Record region (P D : Type) : Type := mk_region {
  kind : region_kind;
  boundary : soup P D
}.
Arguments mk_region {P D}.
Arguments kind {P D}.
Arguments boundary {P D}.

(** Region.h:50-55: constructor from a soup ("region boundary must not be
    empty"). *)
Definition region_of_soup {P D} (s : soup P D) : res (region P D) :=
  if num_faces s =? 0 then Throw InvalidArgument
  else Ok (mk_region BOUNDARY_DEFINED s).

(** Region.h:78-80: [empty()], [full()]. *)
Definition region_empty {P D} : region P D := mk_region EMPTY empty_soup.
Definition region_full {P D} : region P D := mk_region FULL empty_soup.

(** Region.h:82-86. *)
Definition is_empty {P D} (r : region P D) : bool := region_kind_eqb (kind r) EMPTY.
Definition is_full {P D} (r : region P D) : bool := region_kind_eqb (kind r) FULL.
Definition is_empty_or_full {P D} (r : region P D) : bool := is_empty r || is_full r.
