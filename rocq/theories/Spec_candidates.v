(** * Coinciding faces and candidate pairs *)
From Coq Require Import List Arith QArith.
From Verif Require Import Model_base Model_soup Model_geometry Model_aabb Spec_aabb.
Import ListNotations.
Local Open Scope nat_scope.

(** Three points in a cyclic order. *)
Definition same_cycle (t u : nat * nat * nat) : Prop :=
  let '(x, y, z) := t in u = (x, y, z) \/ u = (y, z, x) \/ u = (z, x, y).
Definition opposite_cycle (t u : nat * nat * nat) : Prop :=
  let '(x, y, z) := t in same_cycle (z, y, x) u.

(** The ids of the points of a face. *)
Definition face_points {P D} (m : soup P D) (pts : list nat) (fi : nat) (t : nat * nat * nat) : Prop :=
  exists v0 v1 v2 p0 p1 p2,
    nth_error (faces m) fi = Some (v0, v1, v2) /\
    nth_error pts v0 = Some p0 /\ nth_error pts v1 = Some p1 /\ nth_error pts v2 = Some p2 /\
    t = (p0, p1, p2).

Definition distinct3 (t : nat * nat * nat) : Prop :=
  let '(x, y, z) := t in x <> y /\ y <> z /\ z <> x.

(** Every face has three different points, and no two faces have the same three
    points (in either order). *)
Record clean {P D} (m : soup P D) (pts : list nat) : Prop := {
  cl_points : forall fi, fi < num_faces m -> exists t, face_points m pts fi t /\ distinct3 t;
  cl_nodup : forall i j t u, face_points m pts i t -> face_points m pts j u ->
    same_cycle t u \/ opposite_cycle t u -> i = j
}.

(** The expected tag of face [i] of one mesh with respect to the other. *)
Definition expected_tag {P D} (m : soup P D) (mp : list nat) (o : soup P D) (op : list nat) (i : nat)
    (tag : face_tag) : Prop :=
  exists t, face_points m mp i t /\
    match tag with
    | COPLANAR => exists j u, face_points o op j u /\ same_cycle t u
    | OPPOSITE => (exists j u, face_points o op j u /\ opposite_cycle t u) /\
                  (forall j u, face_points o op j u -> ~ same_cycle t u)
    | UNKNOWN => forall j u, face_points o op j u -> ~ same_cycle t u /\ ~ opposite_cycle t u
    | _ => False
    end.

(** ** Candidate pairs *)

(** The points and the box of a face: the least box of the boxes of its points. *)
Definition corner {P D} (m : soup P D) (fi : nat) (p : P) : Prop :=
  exists v0 v1 v2, nth_error (faces m) fi = Some (v0, v1, v2) /\
    (nth_error (points m) v0 = Some p \/ nth_error (points m) v1 = Some p \/
     nth_error (points m) v2 = Some p).
Definition valid_faces {P D} (m : soup P D) : Prop :=
  Forall (fun f : face => let '(a, b, c) := f in
    a < length (points m) /\ b < length (points m) /\ c < length (points m)) (faces m).

Definition is_face_box {P D} (pbox : P -> box) (m : soup P D) (fi : nat) (b : box) : Prop :=
  (forall p, corner m fi p -> box_in (pbox p) b) /\
  (forall c, (forall p, corner m fi p -> box_in (pbox p) c) -> box_in b c).

(** Points of space. *)
Definition in_box (x : vec3) (b : box) : Prop :=
  (xmin b <= vx x <= xmax b)%Q /\ (ymin b <= vy x <= ymax b)%Q /\ (zmin b <= vz x <= zmax b)%Q.

(** A point of a triangle. *)
Definition in_triangle (x a b c : vec3) : Prop :=
  exists u v w : Q, (0 <= u)%Q /\ (0 <= v)%Q /\ (0 <= w)%Q /\ (u + v + w == 1)%Q /\
    (vx x == u * vx a + v * vx b + w * vx c)%Q /\
    (vy x == u * vy a + v * vy b + w * vy c)%Q /\
    (vz x == u * vz a + v * vz b + w * vz c)%Q.
