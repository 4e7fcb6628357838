(** * Triangle_region

    Models include/kigumi/Triangle_region.h. *)
From Coq Require Import List NArith Bool.
From Verif Require Import Model_base.
Import ListNotations.

(** enum class Triangle_region : std::uint8_t, Triangle_region.h:9-24. *)
Definition region : Type := N.

Definition LEFT_VERTEX_0 : region := 1%N.
Definition LEFT_VERTEX_1 : region := 2%N.
Definition LEFT_VERTEX_2 : region := 4%N.
Definition LEFT_EDGE_01 : region := N.lor LEFT_VERTEX_0 LEFT_VERTEX_1.
Definition LEFT_EDGE_12 : region := N.lor LEFT_VERTEX_1 LEFT_VERTEX_2.
Definition LEFT_EDGE_20 : region := N.lor LEFT_VERTEX_2 LEFT_VERTEX_0.
Definition LEFT_FACE : region := N.lor (N.lor LEFT_VERTEX_0 LEFT_VERTEX_1) LEFT_VERTEX_2.
Definition RIGHT_VERTEX_0 : region := 8%N.
Definition RIGHT_VERTEX_1 : region := 16%N.
Definition RIGHT_VERTEX_2 : region := 32%N.
Definition RIGHT_EDGE_01 : region := N.lor RIGHT_VERTEX_0 RIGHT_VERTEX_1.
Definition RIGHT_EDGE_12 : region := N.lor RIGHT_VERTEX_1 RIGHT_VERTEX_2.
Definition RIGHT_EDGE_20 : region := N.lor RIGHT_VERTEX_2 RIGHT_VERTEX_0.
Definition RIGHT_FACE : region := N.lor (N.lor RIGHT_VERTEX_0 RIGHT_VERTEX_1) RIGHT_VERTEX_2.

(** Triangle_region.h:26-29 (bits beyond the sixth never occur). *)
Definition convex_hull (r1 r2 : region) : region := N.lor r1 r2.

(** Triangle_region.h:31-34. *)
Definition intersection (r1 r2 : region) : region := N.land r1 r2.

Definition region_eqb : region -> region -> bool := N.eqb.

(** Triangle_region.h:36-53. *)
Definition edge_vertices (e : region) : res (region * region) :=
  if region_eqb e LEFT_EDGE_01 then Ok (LEFT_VERTEX_0, LEFT_VERTEX_1)
  else if region_eqb e LEFT_EDGE_12 then Ok (LEFT_VERTEX_1, LEFT_VERTEX_2)
  else if region_eqb e LEFT_EDGE_20 then Ok (LEFT_VERTEX_2, LEFT_VERTEX_0)
  else if region_eqb e RIGHT_EDGE_01 then Ok (RIGHT_VERTEX_0, RIGHT_VERTEX_1)
  else if region_eqb e RIGHT_EDGE_12 then Ok (RIGHT_VERTEX_1, RIGHT_VERTEX_2)
  else if region_eqb e RIGHT_EDGE_20 then Ok (RIGHT_VERTEX_2, RIGHT_VERTEX_0)
  else Throw InvalidArgument.

(** Triangle_region.h:55-67. *)
Definition face_edges (f : region) : res (region * region * region) :=
  if region_eqb f LEFT_FACE then Ok (LEFT_EDGE_01, LEFT_EDGE_12, LEFT_EDGE_20)
  else if region_eqb f RIGHT_FACE then Ok (RIGHT_EDGE_01, RIGHT_EDGE_12, RIGHT_EDGE_20)
  else Throw InvalidArgument.

(** Triangle_region.h:69-81. *)
Definition face_vertices (f : region) : res (region * region * region) :=
  if region_eqb f LEFT_FACE then Ok (LEFT_VERTEX_0, LEFT_VERTEX_1, LEFT_VERTEX_2)
  else if region_eqb f RIGHT_FACE then Ok (RIGHT_VERTEX_0, RIGHT_VERTEX_1, RIGHT_VERTEX_2)
  else Throw InvalidArgument.

(** Triangle_region.h:83-105. *)
Definition dimension (r : region) : res nat :=
  if existsb (region_eqb r)
       [LEFT_VERTEX_0; LEFT_VERTEX_1; LEFT_VERTEX_2; RIGHT_VERTEX_0; RIGHT_VERTEX_1; RIGHT_VERTEX_2]
  then Ok 0
  else if existsb (region_eqb r)
       [LEFT_EDGE_01; LEFT_EDGE_12; LEFT_EDGE_20; RIGHT_EDGE_01; RIGHT_EDGE_12; RIGHT_EDGE_20]
  then Ok 1
  else if existsb (region_eqb r) [LEFT_FACE; RIGHT_FACE] then Ok 2
  else Throw InvalidArgument.

(** Triangle_region.h:107-109. *)
Definition is_left_region (r : region) : bool := region_eqb (convex_hull r LEFT_FACE) LEFT_FACE.
