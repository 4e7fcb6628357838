(** * Specification of local classification around an edge *)
From Coq Require Import List Arith Bool QArith Permutation.
From Verif Require Import Model_base Model_soup Model_mesh Model_classify Model_geometry Model_local Spec_radial Spec_mesh Spec_classify.
Import ListNotations.
Open Scope nat_scope.

(** Positions around the edge are cyclic. *)
Definition next_pos (n i : nat) : nat := (i + 1) mod n.
Definition prev_pos (n i : nat) : nat := (i + (n - 1)) mod n.

(** No face comes before a face that is smaller in the radial order. *)
Definition radially_sorted (fs : list around) : Prop :=
  forall i j f g, i < j -> nth_error fs i = Some f -> nth_error fs j = Some g -> radial_less g f = false.

Definition ccw (o : orientation) : bool := match o with COUNTERCLOCKWISE => true | CLOCKWISE => false end.

(** The faces of the operands bound solid wedges: [inside b i] says whether the
    sector after face [i] belongs to the first ([b = true]) or second operand.
    A face pqr (counter-clockwise) of an operand has the operand before it and
    its outside after it, a face qpr the other way around; nothing changes for
    the other operand.  Coinciding faces have an empty sector between them. *)
Definition solid_wedges (left : nat -> bool) (fs : list around) (inside : bool -> nat -> bool) : Prop :=
  forall i f, nth_error fs i = Some f ->
    inside (left (fi f)) (prev_pos (length fs) i) = ccw (orient f) /\
    inside (left (fi f)) i = negb (ccw (orient f)) /\
    inside (negb (left (fi f))) i = inside (negb (left (fi f))) (prev_pos (length fs) i).

(** Coinciding faces belong to different operands. *)
Definition no_duplicates (left : nat -> bool) (fs : list around) : Prop :=
  forall i j f g, i <> j -> nth_error fs i = Some f -> nth_error fs j = Some g ->
    vi_r f = vi_r g -> left (fi f) <> left (fi g).

(** Faces pointing in the same direction have the same third vertex (faces of
    the mixed mesh do not overlap partially). *)
Definition no_partial_overlap (fs : list around) : Prop :=
  forall f g, In f fs -> In g fs -> same_direction f g -> vi_r f = vi_r g.

Definition overlapping (fs : list around) (i : nat) : Prop :=
  exists f j g, nth_error fs i = Some f /\ j <> i /\ nth_error fs j = Some g /\ vi_r g = vi_r f.

(** The tag face [i] should have. *)
Definition true_tag (left : nat -> bool) (fs : list around) (inside : bool -> nat -> bool)
    (i : nat) (t : face_tag) : Prop :=
  (exists f j g, nth_error fs i = Some f /\ j <> i /\ nth_error fs j = Some g /\ vi_r g = vi_r f /\
     (orient g = orient f -> t = COPLANAR) /\ (orient g <> orient f -> t = OPPOSITE)) \/
  (exists f, nth_error fs i = Some f /\ ~ overlapping fs i /\
     (inside (negb (left (fi f))) i = true -> t = INTERIOR) /\
     (inside (negb (left (fi f))) i = false -> t = EXTERIOR)).

(** Face [f] of the mesh carries tag [t]. *)
Definition has_tag {D} (ds : list (mixed_data D)) (f : nat) (t : face_tag) : Prop :=
  exists d, nth_error ds f = Some d /\ tag d = t.

(** Only tags of the listed faces may differ. *)
Definition only_tags_of {D} (l : list nat) (ds ds' : list (mixed_data D)) : Prop :=
  length ds' = length ds /\
  forall g d, nth_error ds g = Some d ->
    exists d', nth_error ds' g = Some d' /\ from_left d' = from_left d /\ data d' = data d /\
      (~ In g l -> d' = d).

(** *** Arbitrary arrangements *)

(** Face [i] and its successor coincide. *)
Definition coincide (fs : list around) (i : nat) : Prop :=
  exists f g, nth_error fs i = Some f /\ nth_error fs (next_pos (length fs) i) = Some g /\ vi_r f = vi_r g.

(** Face [i] and its successor have equal orientation. *)
Definition equally_oriented (fs : list around) (i : nat) : Prop :=
  exists f g, nth_error fs i = Some f /\ nth_error fs (next_pos (length fs) i) = Some g /\ orient f = orient g.

(** [R] holds for the pair starting at [i] or the pair ending at [i]. *)
Definition in_pair (R : nat -> Prop) (n i : nat) : Prop :=
  R i \/ exists j, j < n /\ next_pos n j = i /\ R j.

(** EXTERIOR or INTERIOR. *)
Definition side_tag (t : face_tag) : Prop := t = EXTERIOR \/ t = INTERIOR.

Definition other_side (t : face_tag) : face_tag :=
  match t with EXTERIOR => INTERIOR | INTERIOR => EXTERIOR | t => t end.

(** [carried fs i m t t']: a tag [t] at position [i] implies [t'] at [m]
    positions further: it changes at every equally oriented pair. *)
Inductive carried (fs : list around) (i : nat) (t : face_tag) : nat -> face_tag -> Prop :=
| carried_0 : carried fs i t 0 t
| carried_flip : forall m t', carried fs i t m t' ->
    equally_oriented fs ((i + m) mod length fs) -> carried fs i t (S m) (other_side t')
| carried_same : forall m t', carried fs i t m t' ->
    ~ equally_oriented fs ((i + m) mod length fs) -> carried fs i t (S m) t'.

(** Going around the edge contradicts some EXTERIOR/INTERIOR tag. *)
Definition contradiction {D} (fs : list around) (ds : list (mixed_data D)) : Prop :=
  exists i f m g t t' t'',
    nth_error fs i = Some f /\ nth_error fs ((i + m) mod length fs) = Some g /\ m <= length fs /\
    has_tag ds (fi f) t /\ side_tag t /\ has_tag ds (fi g) t' /\ side_tag t' /\
    carried fs i t m t'' /\ t' <> t''.

(** *** The faces of a mesh around an edge *)

(** [t] is [(a, b, c)] up to rotation. *)
Definition rotation (t : face) (a b c : nat) : Prop := t = (a, b, c) \/ t = (b, c, a) \/ t = (c, a, b).

(** [f] describes a face around the edge [(a, b)], seen in the plane spanned
    by [u] and [v]: it is abr (counter-clockwise) or bar (clockwise). *)
Definition describes {D} (m : mesh vec3 D) (a b : nat) (u v : vec3) (f : around) : Prop :=
  exists t pa pr, nth_error (m_faces m) (fi f) = Some t /\
    (orient f = COUNTERCLOCKWISE /\ rotation t a b (vi_r f) \/
     orient f = CLOCKWISE /\ rotation t b a (vi_r f)) /\
    nth_error (m_points m) a = Some pa /\ nth_error (m_points m) (vi_r f) = Some pr /\
    r_uv f = (vdot (vsub pr pa) u, vdot (vsub pr pa) v) /\
    radial_bin_of (r_uv f) = Ok (radial_bin f).

(** [fs] lists exactly the faces around the edge, each once, in radial order. *)
Definition arrangement {D} (m : mesh vec3 D) (a b : nat) (u v : vec3) (fs : list around) : Prop :=
  NoDup (map fi fs) /\
  (forall g, In g (map fi fs) <-> incident (m_faces m) g a /\ incident (m_faces m) g b) /\
  (forall f, In f fs -> describes m a b u v f) /\
  radially_sorted fs.

(** The arrangement consists of solid wedges, and [truth] is what is true of
    the faces. *)
Definition solid_edge (left : nat -> bool) (truth : nat -> face_tag) (fs : list around)
    (inside : bool -> nat -> bool) : Prop :=
  solid_wedges left fs inside /\ no_duplicates left fs /\ no_partial_overlap fs /\
  forall i f t, nth_error fs i = Some f -> true_tag left fs inside i t -> t = truth (fi f).

(** All tags are UNKNOWN or true. *)
Definition sound {P D} (truth : nat -> face_tag) (m : mesh P (mixed_data D)) : Prop :=
  forall g t, tagged m g t -> t = UNKNOWN \/ t = truth g.

(** [std::sort]: a sorted permutation, for elements on which the comparison is
    a strict weak order. *)
Definition sorts (sort : list around -> list around) : Prop :=
  forall l, same_edge (fun f => In f l) ->
    Permutation l (sort l) /\ radially_sorted (sort l).

(** The direction of the edge and the axes of the plane: [Plane_3::base1] and
    [base2] are orthogonal to the normal [n], and [base2] is [n x base1]. *)
Definition plane_bases (base1 base2 : vec3 -> vec3) : Prop :=
  forall nv, ~ (vx nv == 0 /\ vy nv == 0 /\ vz nv == 0)%Q ->
    (vdot (base1 nv) nv == 0)%Q /\ (0 < vdot (base1 nv) (base1 nv))%Q /\
    base2 nv = vcross nv (base1 nv).

(** The points are not on one line. *)
Definition not_collinear (p q r : vec3) : Prop :=
  let w := vcross (vsub q p) (vsub r p) in ~ (vx w == 0 /\ vy w == 0 /\ vz w == 0)%Q.

(** The operand face [g] comes from. *)
Definition operand_of {P D} (m : mesh P (mixed_data D)) (g : nat) : bool :=
  match nth_error (m_data m) g with Some d => from_left d | None => false end.
