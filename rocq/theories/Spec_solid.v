(** * Solids, and the arrangement of two of them *)
From Coq Require Import List Arith QArith Bool.
From Verif Require Import Model_base Model_soup Model_geometry Model_boolean Model_side.
From Verif Require Import Spec_aabb Spec_candidates Spec_side.
Import ListNotations.
Local Open Scope Q_scope.

(** ** Sets of points *)

(** README.md, "Table of Boolean operators". *)
Definition set_of (op : boolean_operator) (A B : vec3 -> Prop) (x : vec3) : Prop :=
  match op with
  | opV => True
  | opA => A x \/ B x
  | opB => ~ (B x /\ ~ A x)
  | opC => ~ (A x /\ ~ B x)
  | opD => ~ (A x /\ B x)
  | opE => ~ (A x /\ ~ B x \/ B x /\ ~ A x)
  | opF => ~ A x
  | opG => ~ B x
  | opH => B x
  | opI => A x
  | opJ => A x /\ ~ B x \/ B x /\ ~ A x
  | opK => A x /\ B x
  | opL => A x /\ ~ B x
  | opM => B x /\ ~ A x
  | opX => ~ (A x \/ B x)
  | opO => False
  end.

(** A set of points with a boundary of triangles that meet at their sides only (see
    [bounds]).  A set is determined off the boundary only. *)
Definition solid {D} (m : soup vec3 D) (A : vec3 -> Prop) : Prop :=
  proper_faces m /\ bounds m A /\ forall x, A x \/ ~ A x.

(** The soup with the coordinates of its points. *)
Definition located {P D} (coords : P -> vec3) (m : soup P D) : soup vec3 D :=
  mk_soup (map coords (points m)) (faces m) (face_data m).

(** ** Triangles *)
Definition tri3 : Type := vec3 * vec3 * vec3.
Definition on_tri (x : vec3) (T : tri3) : Prop := let '(a, b, c) := T in in_triangle x a b c.
Definition in_tri (x : vec3) (T : tri3) : Prop := let '(a, b, c) := T in in_open_triangle x a b c.
Definition tri_normal (T : tri3) : vec3 := let '(a, b, c) := T in normal a b c.
Definition flat (T : tri3) : Prop := let '(a, b, c) := T in degenerate a b c.

(** Both normals point the same way, or opposite ways. *)
Definition scaled (k : Q) (v : vec3) : vec3 := (k * vx v, k * vy v, k * vz v).
Definition aligned (T U : tri3) : Prop := exists k, 0 < k /\ same (tri_normal T) (scaled k (tri_normal U)).
Definition against (T U : tri3) : Prop := exists k, k < 0 /\ same (tri_normal T) (scaled k (tri_normal U)).

(** The same points. *)
Definition same_triangle (T U : tri3) : Prop :=
  forall x, (on_tri x T <-> on_tri x U) /\ (in_tri x T <-> in_tri x U).

(** ** The arrangement of two boundaries

    The faces of the mixed mesh [m] are pieces of the faces of [L] and [R] (the solids [A]
    and [B]), and the tags tell where they lie. *)
Section Arranged.
  Context {D : Type}.
  Variables (L R : soup vec3 D) (A B : vec3 -> Prop) (m : soup vec3 (mixed_data D)).

  Definition operand (left : bool) : soup vec3 D := if left then L else R.
  Definition member_of (left : bool) : vec3 -> Prop := if left then A else B.

  Definition piece (i : nat) (left : bool) (t : face_tag) (T : tri3) : Prop :=
    soup_triangle m i = Ok T /\
    exists md, nth_error (face_data m) i = Some md /\ from_left md = left /\ tag md = t.

  (** Where the points of the piece lie with respect to the other operand. *)
  Definition tag_true (left : bool) (t : face_tag) (T : tri3) : Prop :=
    match t with
    | UNKNOWN => False
    | EXTERIOR => forall x, in_tri x T ->
        ~ on_boundary (operand (negb left)) x /\ ~ member_of (negb left) x
    | INTERIOR => forall x, in_tri x T ->
        ~ on_boundary (operand (negb left)) x /\ member_of (negb left) x
    | COPLANAR => exists j U, piece j (negb left) COPLANAR U /\ same_triangle T U /\ aligned T U
    | OPPOSITE => exists j U, piece j (negb left) OPPOSITE U /\ same_triangle T U /\ against T U
    end.

  Record arranged : Prop := {
    ar_valid : valid_faces m /\ length (face_data m) = length (faces m);
    ar_nondegenerate : forall i left t T, piece i left t T -> ~ flat T;
    ar_part : forall i left t T, piece i left t T ->
      exists fi U, soup_triangle (operand left) fi = Ok U /\ aligned T U /\
        forall x, (on_tri x T -> on_tri x U) /\ (in_tri x T -> in_tri x U);
    ar_cover : forall left x, on_boundary (operand left) x ->
      exists i t T, piece i left t T /\ on_tri x T;
    ar_apart : forall i j left t u T U x, piece i left t T -> piece j left u U ->
      in_tri x T -> on_tri x U -> j = i;
    ar_tags : forall i left t T, piece i left t T -> tag_true left t T
  }.
End Arranged.
