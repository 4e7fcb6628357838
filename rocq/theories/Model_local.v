(** * Local classification around an edge

    Models include/kigumi/Classify_faces_locally.h. *)
From Coq Require Import List Arith Bool QArith.
From Verif Require Import Model_base Model_soup Model_mesh Model_classify Model_geometry.
Import ListNotations.
Open Scope nat_scope.

(** CGAL::CLOCKWISE / CGAL::COUNTERCLOCKWISE. *)
Inductive orientation : Type := CLOCKWISE | COUNTERCLOCKWISE.

Definition orientation_eqb (a b : orientation) : bool :=
  match a, b with
  | CLOCKWISE, CLOCKWISE | COUNTERCLOCKWISE, COUNTERCLOCKWISE => true
  | _, _ => false
  end.

(** Classify_faces_locally.h:197-229: [classify_radial_bin]; the exception is
    "degenerate face". *)
Definition radial_bin_of (r : vec2) : res nat :=
  match sign (fst r), sign (snd r) with
  | Gt, Gt => Ok 1
  | Gt, Lt => Ok 7
  | Gt, Eq => Ok 0
  | Lt, Gt => Ok 3
  | Lt, Lt => Ok 5
  | Lt, Eq => Ok 4
  | Eq, Gt => Ok 2
  | Eq, Lt => Ok 6
  | Eq, Eq => Throw RuntimeError
  end.

(** Classify_faces_locally.h:182-195: [Face_around_edge]. *)
Record around : Type := mk_around {
  fi : nat;
  vi_r : nat;
  r_uv : vec2;
  radial_bin : nat;
  orient : orientation
}.

(** Classify_faces_locally.h:189-194: the constructor. *)
Definition make_around (f v : nat) (r : vec2) (o : orientation) : res around :=
  let* b := radial_bin_of r in
  Ok (mk_around f v r b o).

(** Classify_faces_locally.h:232-242: [Radial_ordering]. *)
Definition radial_less (f g : around) : bool :=
  if vi_r f =? vi_r g then false
  else if negb (radial_bin f =? radial_bin g) then radial_bin f <? radial_bin g
  else match sign (det2 (r_uv f) (r_uv g)) with Gt => true | _ => false end.

(** [std::array<Vertex_index, 3>::at] *)
Definition face_at (f : face) (i : nat) : res nat :=
  let '(a, b, c) := f in
  match i with 0 => Ok a | 1 => Ok b | 2 => Ok c | _ => Throw OutOfRange end.

(** Classify_faces_locally.h:50-57: [while (f.at(i) != v) ++i]. *)
Definition find_vertex (f : face) (v : nat) : res nat :=
  let '(a, b, c) := f in
  if a =? v then Ok 0 else if b =? v then Ok 1 else if c =? v then Ok 2 else Throw OutOfRange.

(** Classify_faces_locally.h:46-67: one face of the edge.  [i + j > 3] would
    wrap around in [std::size_t] and be rejected by [at]. *)
Definition face_around {D} (m : mesh vec3 D) (e : edge) (p u v : vec3) (f : nat) : res around :=
  let* t := vec_at (m_faces m) f in
  let* i := find_vertex t (fst e) in
  let* j := find_vertex t (snd e) in
  let* vr := if 3 <? i + j then Throw OutOfRange else face_at t (3 - (i + j)) in
  let* r := vec_at (m_points m) vr in
  let w := vsub r p in
  make_around f vr (vdot w u, vdot w v)
    (if j =? (i + 1) mod 3 then COUNTERCLOCKWISE else CLOCKWISE).

Definition set_tag {D} (ds : list (mixed_data D)) (f : nat) (t : face_tag) : res (list (mixed_data D)) :=
  let* d := vec_at ds f in
  vec_set ds f (retag t d).

Definition get_tag {D} (ds : list (mixed_data D)) (f : nat) : res face_tag :=
  let* d := vec_at ds f in Ok (tag d).

(** Classify_faces_locally.h:73-87: tag coplanar/opposite faces. *)
Definition overlap_step {D} (fs : list around) (ds : list (mixed_data D)) (i : nat)
  : res (list (mixed_data D)) :=
  let j := (i + 1) mod (length fs) in
  let* f := vec_at fs i in
  let* g := vec_at fs j in
  if vi_r f =? vi_r g then
    let t := if orientation_eqb (orient f) (orient g) then COPLANAR else OPPOSITE in
    let* ds := set_tag ds (fi f) t in
    set_tag ds (fi g) t
  else Ok ds.

Definition tag_overlaps {D} (fs : list around) (ds : list (mixed_data D)) : res (list (mixed_data D)) :=
  foldM (overlap_step fs) ds (seq 0 (length fs)).

Definition is_overlap_tag (t : face_tag) : bool :=
  match t with COPLANAR | OPPOSITE => true | _ => false end.

(** Classify_faces_locally.h:89-119: tag adjacent pairs with equal
    orientation.  [None] is [is_undefined_configuration == true]; otherwise
    the [k] of the code. *)
Definition pair_step {D} (fs : list around) (st : list (mixed_data D) * option nat) (i : nat)
  : res (list (mixed_data D) * option nat) :=
  let '(ds, k) := st in
  let j := (i + 1) mod (length fs) in
  let* f := vec_at fs i in
  let* g := vec_at fs j in
  let* tf := get_tag ds (fi f) in
  let* tg := get_tag ds (fi g) in
  if is_overlap_tag tf || is_overlap_tag tg then Ok st
  else if orientation_eqb (orient f) (orient g) then
    let '(t1, t2) :=
      match orient f with
      | COUNTERCLOCKWISE => (INTERIOR, EXTERIOR)
      | CLOCKWISE => (EXTERIOR, INTERIOR)
      end in
    let* ds := set_tag ds (fi f) t1 in
    let* ds := set_tag ds (fi g) t2 in
    Ok (ds, Some j)
  else Ok st.

Definition tag_pairs {D} (fs : list around) (ds : list (mixed_data D))
  : res (list (mixed_data D) * option nat) :=
  foldM (pair_step fs) (ds, None) (seq 0 (length fs)).

Definition flip_tag (t : face_tag) : face_tag :=
  match t with EXTERIOR => INTERIOR | _ => EXTERIOR end.

(** Classify_faces_locally.h:140-158: one step of the walk.  The state is the
    face data, the variables [tag] and [orientation], and [consistent]; after
    the [break] nothing changes any more. *)
Definition walk_step {D} (fs : list around) (dry_run : bool)
    (st : list (mixed_data D) * face_tag * orientation * bool) (i : nat)
  : res (list (mixed_data D) * face_tag * orientation * bool) :=
  let '(ds, t, o, consistent) := st in
  if negb consistent then Ok st
  else
    let* f := vec_at fs (i mod length fs) in
    let t' := if orientation_eqb (orient f) o then flip_tag t else t in
    let* tf := get_tag ds (fi f) in
    if face_tag_eqb tf UNKNOWN then
      if dry_run then Ok (ds, t', orient f, true)
      else let* ds := set_tag ds (fi f) t' in Ok (ds, t', orient f, true)
    else if (face_tag_eqb tf EXTERIOR || face_tag_eqb tf INTERIOR) && negb (face_tag_eqb tf t') then
      Ok (ds, t', orient f, false)
    else Ok (ds, t', orient f, true).

(** Classify_faces_locally.h:137-158: one pass around the edge. *)
Definition walk {D} (fs : list around) (k : nat) (dry_run : bool) (ds : list (mixed_data D))
  : res (list (mixed_data D) * bool) :=
  let* f := vec_at fs k in
  let* t := get_tag ds (fi f) in
  let* (ds, _, _, consistent) := foldM (walk_step fs dry_run) (ds, t, orient f, true) (seq (k + 1) (length fs)) in
  Ok (ds, consistent).

(** Classify_faces_locally.h:121-165: check consistency and tag the rest. *)
Definition tag_rest {D} (fs : list around) (ds : list (mixed_data D)) (k : option nat)
  : res (list (mixed_data D)) :=
  match k with
  | None => Ok ds
  | Some k =>
      let* (ds, consistent) := walk fs k true ds in
      if (consistent : bool) then
        let* (ds, _) := walk fs k false ds in Ok ds
      else Ok ds
  end.

(** Classify_faces_locally.h:73-165: everything between sorting and
    propagation. *)
Definition tag_around {D} (fs : list around) (ds : list (mixed_data D)) : res (list (mixed_data D)) :=
  let* ds := tag_overlaps fs ds in
  let* (ds, k) := tag_pairs fs ds in
  tag_rest fs ds k.

(** Classify_faces_locally.h:167-176: propagate from the tagged faces. *)
Definition propagate_step {P D} (border : list edge) (st : mesh P (mixed_data D) * warnings) (f : around)
  : res (mesh P (mixed_data D) * warnings) :=
  let '(m, w) := st in
  let* t := get_tag (m_data m) (fi f) in
  if face_tag_eqb t UNKNOWN then Ok st
  else
    let* (m', lw) := propagate m border (fi f) in
    Ok (m', warn_or w lw).

(** Classify_faces_locally.h:28-37: is there an untagged face? *)
Definition has_untagged {D} (ds : list (mixed_data D)) (l : list nat) : res bool :=
  foldM (fun acc f => if (acc : bool) then Ok true
                      else let* t := get_tag ds f in Ok (face_tag_eqb t UNKNOWN)) false l.

(** [foldM] with the results collected. *)
Fixpoint mapM {A B} (f : A -> res B) (l : list A) : res (list B) :=
  match l with
  | [] => Ok []
  | x :: r => let* y := f x in let* ys := mapM f r in Ok (y :: ys)
  end.

(** Classify_faces_locally.h:26-179.  [base1]/[base2] are
    [Plane_3::base1/base2] of the plane through [p] orthogonal to [q - p];
    [sort] is [std::sort]. *)
Definition classify_locally {D} (base1 base2 : vec3 -> vec3) (sort : list around -> list around)
    (m : mesh vec3 (mixed_data D)) (e : edge) (border : list edge)
  : res (mesh vec3 (mixed_data D) * warnings) :=
  let* l := faces_around_edge m e in
  let* untagged := has_untagged (m_data m) l in
  if negb untagged then Ok (m, no_warnings)
  else
    let* p := vec_at (m_points m) (fst e) in
    let* q := vec_at (m_points m) (snd e) in
    let n := vsub q p in
    let* fs := mapM (face_around m e p (base1 n) (base2 n)) l in
    let fs := sort fs in
    let* ds := tag_around fs (m_data m) in
    foldM (propagate_step border) (with_data m ds, no_warnings) fs.
