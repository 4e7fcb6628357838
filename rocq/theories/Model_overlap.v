(** * Find_defects::overlapping_faces

    Models include/kigumi/Find_defects.h:284-364.  The [thread_local]
    Face_face_intersection of line 305 is taken to refer to the points of this call (its
    constructor runs once per thread, so this is an assumption about the history of the
    thread: see C41). *)
From Coq Require Import List Arith Bool NArith QArith.
From Verif Require Import Model_base Model_soup Model_points Model_parallel_do Model_aabb Model_candidates.
From Verif Require Import Model_geometry Model_region Model_ffi.
Import ListNotations.
Local Open Scope nat_scope.

(** [std::sort(f.begin(), f.end())] of a face (lines 317, 326). *)
Definition sort3 (f : face) : face :=
  let '(a, b, c) := f in
  let '(a, b) := if b <? a then (b, a) else (a, b) in
  let '(b, c) := if c <? b then (c, b) else (b, c) in
  let '(a, b) := if b <? a then (b, a) else (a, b) in
  (a, b, c).

(** [std::set_intersection] of sorted ranges (lines 335-336). *)
Fixpoint set_inter (l : list nat) : list nat -> list nat :=
  match l with
  | [] => fun _ => []
  | x :: l1 =>
      fix go (l' : list nat) : list nat :=
        match l' with
        | [] => []
        | y :: l2 =>
            if x <? y then set_inter l1 l'
            else if y <? x then go l2
            else x :: set_inter l1 l2
        end
  end.

Section Overlap.
  Context {P D : Type}.
  Variable P_eqb : P -> P -> bool.
  Variable coords : P -> vec3.
  Variable pbox : P -> box.
  Variable longest_axis : option box -> nat.
  Variable sort_by : nat -> list (box * nat) -> list (box * nat).
  Variable nth_element_by : nat -> nat -> list (box * nat) -> list (box * nat).

  (** Lines 295-298. *)
  Definition overlap_points (m : soup P D) : list P :=
    pl_points (fold_left (fun pl p => fst (pl_insert P_eqb pl p)) (points m) pl_empty).

  (** Lines 325-352, for two faces: whether the face is reported. *)
  Definition overlap_test (pts : list P) (f f2 : face) : res bool :=
    let '(a, b, c) := sort3 f in
    let '(p, q, r) := sort3 f2 in
    let* inter := face_face_intersection coords pts a b c p q r in
    match inter with
    | [] => Ok false
    | _ =>
        let num_shared := length (set_inter [a; b; c] [p; q; r]) in
        if length inter =? 1 then Ok (num_shared <? 1)
        else if length inter =? 2 then Ok (num_shared <? 2)
        else Ok true
    end.

  (** [degenerate_faces.contains(fi)] (lines 289-293, 309, 321). *)
  Definition is_in (l : list nat) (fi : nat) : bool := existsb (Nat.eqb fi) l.

  (** The loop over the leaves, lines 319-353: it returns at the first overlap. *)
  Fixpoint overlap_loop (m : soup P D) (degenerate : list nat) (pts : list P) (t : tree (box * nat))
      (fi : nat) (f : face) (leaves : list nat) : res bool :=
    match leaves with
    | [] => Ok false
    | i :: leaves =>
        match nth_error (t_leaves t) i with
        | None => UB
        | Some l =>
            let fi2 := snd l in
            if (fi2 <=? fi) || is_in degenerate fi2 then overlap_loop m degenerate pts t fi f leaves
            else
              let* f2 := soup_face m fi2 in
              let* b := overlap_test pts f f2 in
              if b then Ok true else overlap_loop m degenerate pts t fi f leaves
        end
    end.

  (** The body of the parallel loop, lines 304-354: the faces it adds. *)
  Definition overlap_body (m : soup P D) (degenerate : list nat) (pts : list P) (t : tree (box * nat)) (fi : nat)
      : res (list nat) :=
    if is_in degenerate fi then Ok []
    else
      let* q := face_bbox pbox m fi in
      let* leaves := get_intersecting_leaves (@fst box nat) (fun x => boxes_intersect x q) t in
      let* f := soup_face m fi in
      let* b := overlap_loop m degenerate pts t fi f leaves in
      Ok (if b then [fi] else []).

  (** Lines 284-364, for some schedule (lines 355-361 are [append_post]). *)
  Inductive overlapping_faces (num_threads : nat) (m : soup P D) (trivial non_trivial : list nat) :
      list nat -> option (option exn) -> Prop :=
  | of_intro : forall t tr fis x,
      aabb_tree pbox longest_axis sort_by nth_element_by m t ->
      parallel_do (to_body (overlap_body m (trivial ++ non_trivial) (overlap_points m) t)) append_post
        (seq 0 (num_faces m)) true num_threads [] [] tr fis x ->
      overlapping_faces num_threads m trivial non_trivial fis x.
End Overlap.
