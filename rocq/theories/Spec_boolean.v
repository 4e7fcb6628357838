(** * Specification of Boolean operators on regions

    Independent of the tables in the code: the meaning of the operators is the
    set notation of README.md ("Table of Boolean operators"), and what has to
    be output for a face is derived from the membership in the two operands on
    its two sides. *)
From Coq Require Import List Bool Arith.
From Verif Require Import Model_base Model_soup Model_boolean.
Import ListNotations.

(** ** Sets and the set notation of the README *)
Section Sets.
  Context {U : Type}.
  Definition uset := U -> bool.
  Definition s_all : uset := fun _ => true.
  Definition s_none : uset := fun _ => false.
  Definition s_union (A B : uset) : uset := fun x => A x || B x.
  Definition s_inter (A B : uset) : uset := fun x => A x && B x.
  Definition s_minus (A B : uset) : uset := fun x => A x && negb (B x).
  Definition s_symdiff (A B : uset) : uset := s_union (s_minus A B) (s_minus B A).
  Definition s_compl (A : uset) : uset := fun x => negb (A x).

  (** README.md, "Table of Boolean operators". *)
  Definition denotes (op : boolean_operator) (A B : uset) : uset :=
    match op with
    | opV => s_all
    | opA => s_union A B
    | opB => s_compl (s_minus B A)
    | opC => s_compl (s_minus A B)
    | opD => s_compl (s_inter A B)
    | opE => s_compl (s_symdiff A B)
    | opF => s_compl A
    | opG => s_compl B
    | opH => B
    | opI => A
    | opJ => s_symdiff A B
    | opK => s_inter A B
    | opL => s_minus A B
    | opM => s_minus B A
    | opX => s_compl (s_union A B)
    | opO => s_none
    end.
End Sets.

(** Membership of a point in the result, given its membership in A and B. *)
Definition member (op : boolean_operator) (ab : bool * bool) : bool :=
  denotes op (fun _ : unit => fst ab) (fun _ : unit => snd ab) tt.

(** ** What a face separates

    A face of operand X is oriented so that its negative side is inside X and
    its positive side is outside.  Its tag says where it lies with respect to
    the other operand. [neg = true] is the negative side. *)
Definition in_own (neg : bool) : bool := neg.
Definition in_other (t : face_tag) (neg : bool) : option bool :=
  match t with
  | UNKNOWN => None
  | EXTERIOR => Some false
  | INTERIOR => Some true
  | COPLANAR => Some neg          (* the two operands lie on the same side *)
  | OPPOSITE => Some (negb neg)   (* the two operands lie on opposite sides *)
  end.

(** Membership (in A, in B) on one side of a face; [left] means that the face
    belongs to A. *)
Definition side (left : bool) (t : face_tag) (neg : bool) : option (bool * bool) :=
  match in_other t neg with
  | None => None
  | Some o => Some (if left then (in_own neg, o) else (o, in_own neg))
  end.

Inductive output := Drop | Keep | Reverse.

(** The face is needed iff membership in the result changes across it, and it
    must be oriented so that its negative side is inside the result.  Of two
    overlapping faces only the preferred operand's is used. *)
Definition required (op : boolean_operator) (prefer_first : bool)
    (t : face_tag) (left : bool) : output :=
  match side left t true, side left t false with
  | Some n, Some p =>
      let used :=
        match t with
        | COPLANAR | OPPOSITE => eqb left prefer_first
        | _ => true
        end in
      if used then
        match member op n, member op p with
        | true, false => Keep
        | false, true => Reverse
        | _, _ => Drop
        end
      else Drop
  | _, _ => Drop
  end.

(** ** Geometry of a soup *)
Section Geometry.
  Context {P D : Type}.

  (** The three points of a face, when its indices are in range. *)
  Definition tri_of (pts : list P) (f : face) : option (P * P * P) :=
    let '(a, b, c) := f in
    match nth_error pts a, nth_error pts b, nth_error pts c with
    | Some x, Some y, Some z => Some (x, y, z)
    | _, _, _ => None
    end.

  Definition flip (t : P * P * P) : P * P * P := let '(a, b, c) := t in (a, c, b).

  (** All triangles of a soup with their data, in order. *)
  Definition tris (s : soup P D) : list (option (P * P * P) * D) :=
    combine (map (tri_of (points s)) (faces s)) (face_data s).

  Definition face_in_range (n : nat) (f : face) : Prop :=
    let '(a, b, c) := f in a < n /\ b < n /\ c < n.

  (** A soup whose face indices are in range and whose data vector is parallel
      to its face vector. *)
  Definition wf_soup (s : soup P D) : Prop :=
    length (face_data s) = length (faces s) /\
    Forall (face_in_range (length (points s))) (faces s).

  Definition uses (f : face) (v : nat) : Prop :=
    let '(a, b, c) := f in v = a \/ v = b \/ v = c.

  (** Orientation reversed, data kept. *)
  Definition flip_td (x : option (P * P * P) * D) : option (P * P * P) * D :=
    (option_map flip (fst x), snd x).

  (** Well-formed region values: what [empty()], [full()] and
      [Region{soup}] produce from a well-formed soup. *)
  Definition wf_region (r : region P D) : Prop :=
    match kind r with
    | BOUNDARY_DEFINED => wf_soup (boundary r) /\ faces (boundary r) <> []
    | _ => boundary r = empty_soup
    end.
End Geometry.

Definition wf_mixed {P D} (m : soup P (mixed_data D)) : Prop := wf_soup m.

(** The triangles required in the result, in the order of the mixed mesh. *)
Definition required_tris {P D} (op : boolean_operator) (prefer_first : bool)
    (m : soup P (mixed_data D)) : list (option (P * P * P) * D) :=
  flat_map (fun x : option (P * P * P) * mixed_data D =>
              let '(t, md) := x in
              match required op prefer_first (tag md) (from_left md) with
              | Drop => []
              | Keep => [(t, data md)]
              | Reverse => [(option_map flip t, data md)]
              end) (tris m).

(** ** Correctly classified arrangements (for C03)

    [C] is the set of cells into which the faces of both operands divide
    space; [inA], [inB] say which cells belong to the operands; face [i] of the
    mixed mesh separates cell [neg i] (on its negative side) from cell
    [pos i]. *)
Section Arrangement.
  Context {P D C : Type}.
  Variables (m : soup P (mixed_data D)) (inA inB : C -> bool) (neg pos : nat -> C).

  Definition own (md : mixed_data D) : C -> bool := if from_left md then inA else inB.
  Definition other (md : mixed_data D) : C -> bool := if from_left md then inB else inA.

  (** Crossing the face from the positive to the negative side enters the
      operand it belongs to, and the tag describes the other operand. *)
  Definition face_separates (i : nat) (md : mixed_data D) : Prop :=
    own md (neg i) = true /\ own md (pos i) = false /\
    match tag md with
    | UNKNOWN => False
    | EXTERIOR => other md (neg i) = false /\ other md (pos i) = false
    | INTERIOR => other md (neg i) = true /\ other md (pos i) = true
    | COPLANAR => other md (neg i) = true /\ other md (pos i) = false
    | OPPOSITE => other md (neg i) = false /\ other md (pos i) = true
    end.

  (** [j] is the face of the other operand that coincides with face [i]. *)
  Definition overlaps (i j : nat) : Prop :=
    exists mi mj, nth_error (face_data m) i = Some mi /\ nth_error (face_data m) j = Some mj /\
      from_left mj = negb (from_left mi) /\ tag mj = tag mi /\
      ((tag mi = COPLANAR /\ neg j = neg i /\ pos j = pos i) \/
       (tag mi = OPPOSITE /\ neg j = pos i /\ pos j = neg i)).

  Inductive reachable : C -> C -> Prop :=
  | reach_refl : forall c, reachable c c
  | reach_in : forall i c, i < length (faces m) -> reachable (neg i) c -> reachable (pos i) c
  | reach_out : forall i c, i < length (faces m) -> reachable (pos i) c -> reachable (neg i) c.

  Record arrangement : Prop := {
    arr_wf : wf_mixed m;
    arr_faces : forall i md, nth_error (face_data m) i = Some md -> face_separates i md;
    arr_overlap : forall i md, nth_error (face_data m) i = Some md ->
      tag md = COPLANAR \/ tag md = OPPOSITE -> exists j, overlaps i j;
    arr_left : exists i md, nth_error (face_data m) i = Some md /\ from_left md = true;
    arr_right : exists i md, nth_error (face_data m) i = Some md /\ from_left md = false;
    arr_connected : forall c c', reachable c c'
  }.

  (** Membership of a cell in the result of an operator. *)
  Definition inR (op : boolean_operator) (c : C) : bool := denotes op inA inB c.

  (** The soup consists of the triangles of the listed faces of [m], in that
      order, reversed where the flag says so, with their data. *)
  Definition consists_of (s : soup P D) (sel : list (nat * bool)) : Prop :=
    Forall2 (fun (ir : nat * bool) td =>
               exists t md, nth_error (tris m) (fst ir) = Some (t, md) /\
                 td = (if snd ir then option_map flip t else t, data md)) sel (tris s).
End Arrangement.

(** ** Special operands (for C04) *)

(** The set represented by a special region, if it is special. *)
Definition constant_of {P D} (r : region P D) : option bool :=
  match kind r with
  | EMPTY => Some false
  | FULL => Some true
  | BOUNDARY_DEFINED => None
  end.

(** The region [r'] is the set "member of [r] implies [f true], else
    [f false]" . *)
Definition is_image {P D} (f : bool -> bool) (r r' : region P D) : Prop :=
  match f false, f true with
  | false, false => r' = region_empty
  | true, true => r' = region_full
  | false, true => kind r' = BOUNDARY_DEFINED /\ wf_region r' /\
                   tris (boundary r') = tris (boundary r)
  | true, false => kind r' = BOUNDARY_DEFINED /\ wf_region r' /\
                   tris (boundary r') = map flip_td (tris (boundary r))
  end.

(** ** Laws (for C05) *)
Definition complementary (op op' : boolean_operator) : Prop :=
  forall ab, member op' ab = negb (member op ab).

Definition mirrored (op op' : boolean_operator) : Prop :=
  forall a b, member op' (a, b) = member op (b, a).

Definition opposite_region {P D} (r r' : region P D) : Prop :=
  match kind r with
  | EMPTY => r' = region_full
  | FULL => r' = region_empty
  | BOUNDARY_DEFINED => kind r' = BOUNDARY_DEFINED /\
                        tris (boundary r') = map flip_td (tris (boundary r))
  end.

(** Same region up to vertex numbering. *)
Definition same_region {P D} (r r' : region P D) : Prop :=
  kind r' = kind r /\ tris (boundary r') = tris (boundary r).

Definition swap_data {D} (md : mixed_data D) : mixed_data D :=
  mk_mixed (negb (from_left md)) (tag md) (data md).

Definition swap_operands {P D} (bd : @builder P D) : @builder P D :=
  mk_builder (second_kind bd) (first_kind bd)
    (mk_soup (points (mixed bd)) (faces (mixed bd)) (map swap_data (face_data (mixed bd))))
    (warnings bd).
