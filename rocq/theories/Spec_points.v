(** * Features of two triangles and when two requests mean the same point *)
From Coq Require Import List Arith NArith Permutation.
From Verif Require Import Model_region Model_points.
Import ListNotations.

(** The vertices of the feature of the left triangle (a, b, c): bit [k] of the
    region selects vertex [k]. *)
Definition left_vertices (rq : request) : list nat :=
  (if N.testbit (rq_lr rq) 0 then [rq_a rq] else []) ++
  (if N.testbit (rq_lr rq) 1 then [rq_b rq] else []) ++
  (if N.testbit (rq_lr rq) 2 then [rq_c rq] else []).
Definition right_vertices (rq : request) : list nat :=
  (if N.testbit (rq_rr rq) 3 then [rq_p rq] else []) ++
  (if N.testbit (rq_rr rq) 4 then [rq_q rq] else []) ++
  (if N.testbit (rq_rr rq) 5 then [rq_r rq] else []).

Definition left_regions : list region :=
  [LEFT_VERTEX_0; LEFT_VERTEX_1; LEFT_VERTEX_2; LEFT_EDGE_01; LEFT_EDGE_12; LEFT_EDGE_20; LEFT_FACE].
Definition right_regions : list region :=
  [RIGHT_VERTEX_0; RIGHT_VERTEX_1; RIGHT_VERTEX_2; RIGHT_EDGE_01; RIGHT_EDGE_12; RIGHT_EDGE_20; RIGHT_FACE].

(** Non-degenerate triangles with ids below [n]; a vertex, or two edges without
    a common end, or an edge and a face. *)
Record valid_request (n : nat) (rq : request) : Prop := {
  vr_lr : In (rq_lr rq) left_regions;
  vr_rr : In (rq_rr rq) right_regions;
  vr_left : NoDup [rq_a rq; rq_b rq; rq_c rq];
  vr_right : NoDup [rq_p rq; rq_q rq; rq_r rq];
  vr_ids : Forall (fun i => i < n) [rq_a rq; rq_b rq; rq_c rq; rq_p rq; rq_q rq; rq_r rq];
  vr_not_faces : length (left_vertices rq) + length (right_vertices rq) <= 5;
  vr_edges : length (left_vertices rq) = 2 -> length (right_vertices rq) = 2 ->
    forall i, In i (left_vertices rq) -> ~ In i (right_vertices rq)
}.

(** A vertex is involved. *)
Definition at_vertex (rq : request) : Prop :=
  length (left_vertices rq) = 1 \/ length (right_vertices rq) = 1.

(** The same two features, whatever the order of their vertices and of the two
    triangles. *)
Definition same_feature (r1 r2 : request) : Prop :=
  (Permutation (left_vertices r1) (left_vertices r2) /\
   Permutation (right_vertices r1) (right_vertices r2)) \/
  (Permutation (left_vertices r1) (right_vertices r2) /\
   Permutation (right_vertices r1) (left_vertices r2)).

(** The points inserted by a history of calls. *)
Definition inserted {P} (ops : list (pl_op P)) : list P :=
  flat_map (fun o => match o with OpInsert p => [p] | _ => [] end) ops.

(** The points with the given ids. *)
Definition points_of {P} (l : list P) (ids : list nat) (ps : list P) : Prop :=
  Forall2 (fun i p => nth_error l i = Some p) ids ps.
