(** * Meshes that conform to the arrangement of two solids *)
From Coq Require Import List Arith QArith Relation_Operators.
From Verif Require Import Model_base Model_soup Model_mesh Model_geometry Model_boolean Model_classify.
From Verif Require Import Spec_candidates Spec_side Spec_solid Spec_mesh.
Import ListNotations.
Local Open Scope Q_scope.

(** A point of the segment other than its ends. *)
Definition in_open_segment (x a b : vec3) : Prop :=
  exists t, 0 < t /\ t < 1 /\ same x (along a t (vsub b a)).

(** The faces of the mixed mesh [m] are pieces of the faces of [L] and [R] (the solids [A]
    and [B]) that do not intersect one another properly; [border] are the edges along which
    the two boundaries meet.  Nothing is said about the tags. *)
Section Conforming.
  Context {D : Type}.
  Variables (L R : soup vec3 D) (A B : vec3 -> Prop) (m : soup vec3 (mixed_data D)) (border : list edge).

  (** Face [i] of [m] is the triangle [T] and comes from the given operand. *)
  Definition part (i : nat) (left : bool) (T : tri3) : Prop :=
    soup_triangle m i = Ok T /\
    exists md, nth_error (face_data m) i = Some md /\ from_left md = left.

  (** Faces [i] and [j] have the same three vertices. *)
  Definition same_corners (i j : nat) : Prop :=
    exists f g, nth_error (faces m) i = Some f /\ nth_error (faces m) j = Some g /\
      forall v, has_vertex f v <-> has_vertex g v.

  Record conforming : Prop := {
    cf_valid : valid_faces m /\ length (face_data m) = length (faces m);
    cf_nondegenerate : forall i left T, part i left T -> ~ flat T;
    (* pieces of the faces of the operands, which cover them and do not overlap *)
    cf_part : forall i left T, part i left T ->
      exists fi U, soup_triangle (operand L R left) fi = Ok U /\ aligned T U /\
        forall x, (on_tri x T -> on_tri x U) /\ (in_tri x T -> in_tri x U);
    cf_cover : forall left x, on_boundary (operand L R left) x -> exists i T, part i left T /\ on_tri x T;
    cf_apart : forall i j left T U x, part i left T -> part j left U -> in_tri x T -> on_tri x U -> j = i;
    (* a piece of one operand meets the pieces of the other at its sides only, unless one
       of them has the same vertices *)
    cf_open : forall i j left T U x, part i left T -> part j (negb left) U ->
      in_tri x T -> on_tri x U -> same_corners i j;
    (* the pieces meet edge to edge *)
    cf_edge : forall i j a b pa pb x left T, a <> b -> incident (faces m) i a -> incident (faces m) i b ->
      nth_error (points m) a = Some pa -> nth_error (points m) b = Some pb ->
      in_open_segment x pa pb -> part j left T -> on_tri x T ->
      incident (faces m) j a /\ incident (faces m) j b;
    (* the sides that meet the other operand are border edges, unless the piece coincides
       with one of the other operand *)
    cf_side : forall i left T a b pa pb x, part i left T -> side_of (faces m) i a b ->
      nth_error (points m) a = Some pa -> nth_error (points m) b = Some pb ->
      in_open_segment x pa pb -> on_boundary (operand L R (negb left)) x ->
      In (make_edge a b) border \/ exists j U, part j (negb left) U /\ same_corners i j;
    (* border edges are sides of pieces *)
    cf_border : forall a b, In (a, b) border ->
      a <> b /\ exists i, incident (faces m) i a /\ incident (faces m) i b
  }.

  (** What a tag says about the triangle [T] of the given operand. *)
  Definition says (left : bool) (t : face_tag) (T : tri3) : Prop :=
    match t with
    | UNKNOWN => False
    | EXTERIOR => forall x, in_tri x T ->
        ~ on_boundary (operand L R (negb left)) x /\ ~ member_of A B (negb left) x
    | INTERIOR => forall x, in_tri x T ->
        ~ on_boundary (operand L R (negb left)) x /\ member_of A B (negb left) x
    | COPLANAR => exists j U, part j (negb left) U /\ same_triangle T U /\ aligned T U
    | OPPOSITE => exists j U, part j (negb left) U /\ same_triangle T U /\ against T U
    end.

  Definition untagged (i : nat) : Prop := exists md, nth_error (face_data m) i = Some md /\ tag md = UNKNOWN.

  (** The tags before classification: no piece is EXTERIOR or INTERIOR, the other tags are
      right, only border edges separate tagged from untagged pieces, and an untagged piece
      that coincides with one of the other operand is connected to a border edge. *)
  Record starting : Prop := {
    st_right : forall i left T md, part i left T -> nth_error (face_data m) i = Some md ->
      tag md = UNKNOWN \/ says left (tag md) T;
    st_sides : forall md, In md (face_data m) -> tag md <> EXTERIOR /\ tag md <> INTERIOR;
    st_apart : forall i j, neighbour (faces m) border i j -> untagged i -> untagged j;
    st_reach : forall i j left T U, part i left T -> untagged i -> part j (negb left) U -> same_corners i j ->
      exists k a b, clos_refl_trans nat (neighbour (faces m) border) i k /\
        incident (faces m) k a /\ incident (faces m) k b /\ In (a, b) border
  }.
End Conforming.

(** CGAL::centroid of a triangle is one of its inner points. *)
Definition inner_centroid {P} (coords : P -> vec3) (centroid : P -> P -> P -> P) : Prop :=
  forall p q r, in_open_triangle (coords (centroid p q r)) (coords p) (coords q) (coords r).

(** Off the boundary [m] of the solid [A], [side] tells on which side a point is, or it
    gives up (Side_of_triangle_soup.h:88-89). *)
Definition tells_side {P D} (coords : P -> vec3) (m : soup vec3 D) (A : vec3 -> Prop) (side : P -> res oriented_side) : Prop :=
  forall x, ~ on_boundary m (coords x) ->
    side x = Throw RuntimeError \/
    ((A (coords x) -> side x = Ok NEGATIVE_SIDE) /\ (~ A (coords x) -> side x = Ok POSITIVE_SIDE)).

(** It gives up for some point off the boundary. *)
Definition gives_up {P D} (coords : P -> vec3) (m : soup vec3 D) (side : P -> res oriented_side) : Prop :=
  exists x, ~ on_boundary m (coords x) /\ side x = Throw RuntimeError.
