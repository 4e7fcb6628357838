(** * Find_coplanar_faces and Find_possibly_intersecting_faces

    Models include/kigumi/Find_coplanar_faces.h,
    include/kigumi/Find_possibly_intersecting_faces.h, face_bbox of
    include/kigumi/mesh_utility.h and the construction of the box tree in
    include/kigumi/Triangle_soup.h. *)
From Coq Require Import List Arith Bool.
From Verif Require Import Model_base Model_soup Model_points Model_parallel_do Model_forkjoin Model_aabb.
From Verif Require Import Model_interleave.
Import ListNotations.

(** ** Find_coplanar_faces *)

Definition triple : Type := nat * nat * nat.
Definition triple_eqb (a b : triple) : bool :=
  let '(a1, a2, a3) := a in let '(b1, b2, b3) := b in
  (a1 =? b1) && (a2 =? b2) && (a3 =? b3).

(** [rotate(begin, min_element, end)] on three elements; min_element is the first
    smallest one (Find_coplanar_faces.h:80-81). *)
Definition rotate_min (t : triple) : triple :=
  let '(x, y, z) := t in
  if y <? x then (if z <? y then (z, x, y) else (y, z, x))
  else (if z <? x then (z, x, y) else (x, y, z)).

(** Find_coplanar_faces.h:71-83. *)
Definition triangle_key {P D} (m : soup P D) (fi : nat) (pts : list nat) : res triple :=
  let* f := soup_face m fi in
  let '(v0, v1, v2) := f in
  let* p0 := vec_at pts v0 in
  let* p1 := vec_at pts v1 in
  let* p2 := vec_at pts v2 in
  Ok (rotate_min (p0, p1, p2)).

(** Find_coplanar_faces.h:85-87. *)
Definition opposite (t : triple) : triple := let '(x, y, z) := t in (x, z, y).

(** Find_coplanar_faces.h:39-45: emplace keeps the first face of a key. *)
Definition emplace {K V} (eqb : K -> K -> bool) (m : list (K * V)) (k : K) (v : V) : list (K * V) :=
  match assoc_find eqb k m with Some _ => m | None => m ++ [(k, v)] end.
Definition key_table {P D} (m : soup P D) (pts : list nat) : res (list (triple * nat)) :=
  foldM (fun tab fi => let* t := triangle_key m fi pts in Ok (emplace triple_eqb tab t fi))
    [] (seq 0 (num_faces m)).

(** A write of a tag: to the tags of a ([true]) or of b ([false]). *)
Record tag_write : Type := mk_tw { tw_a : bool; tw_idx : nat; tw_tag : face_tag }.

(** The loop body, Find_coplanar_faces.h:47-63: the writes it performs.  The table
    is not changed during the loop. *)
Definition coplanar_body {P D} (tab : list (triple * nat)) (b : soup P D) (b_pts : list nat) (fi : nat)
    : res (list tag_write) :=
  let* tri := triangle_key b fi b_pts in
  match assoc_find triple_eqb tri tab with
  | Some a_fi => Ok [mk_tw true a_fi COPLANAR; mk_tw false fi COPLANAR]
  | None =>
      match assoc_find triple_eqb (opposite tri) tab with
      | Some a_fi => Ok [mk_tw true a_fi OPPOSITE; mk_tw false fi OPPOSITE]
      | None => Ok []
      end
  end.

(** Performing a write (lines 53-54, 60-61; [.at] in range, as the indices are
    those of faces). *)
Definition do_write (s : list face_tag * list face_tag) (w : tag_write) : list face_tag * list face_tag :=
  if tw_a w then (list_set (fst s) (tw_idx w) (tw_tag w), snd s)
  else (fst s, list_set (snd s) (tw_idx w) (tw_tag w)).

(** With a and b chosen: Find_coplanar_faces.h:39-63. *)
Inductive coplanar_ab {P D} (a b : soup P D) (a_pts b_pts : list nat) :
    list face_tag * list face_tag -> Prop :=
| cab : forall tab bodies tr,
    key_table a a_pts = Ok tab ->
    Forall2 (fun fi ws => coplanar_body tab b b_pts fi = Ok ws) (seq 0 (num_faces b)) bodies ->
    interleave bodies tr ->
    coplanar_ab a b a_pts b_pts
      (fold_left do_write tr (repeat UNKNOWN (num_faces a), repeat UNKNOWN (num_faces b))).

(** Find_coplanar_faces.h:23-68: the tags of left and right, for some schedule. *)
Inductive find_coplanar_faces {P D} (left right : soup P D) (lp rp : list nat) :
    list face_tag -> list face_tag -> Prop :=
| fcf_left : forall ta tb, num_faces left < num_faces right ->
    coplanar_ab left right lp rp (ta, tb) -> find_coplanar_faces left right lp rp ta tb
| fcf_right : forall ta tb, ~ num_faces left < num_faces right ->
    coplanar_ab right left rp lp (ta, tb) -> find_coplanar_faces left right lp rp tb ta.

(** ** Find_possibly_intersecting_faces *)
Section Pairs.
  Context {P D : Type}.
  (** [p.approx().bbox()], mesh_utility.h:21. *)
  Variable pbox : P -> box.
  Variable longest_axis : option box -> nat.
  Variable sort_by : nat -> list (box * nat) -> list (box * nat).
  Variable nth_element_by : nat -> nat -> list (box * nat) -> list (box * nat).

  (** mesh_utility.h:19-25. *)
  Definition face_bbox (m : soup P D) (fi : nat) : res box :=
    let* t := soup_triangle m fi in
    let '(p0, p1, p2) := t in
    Ok (box_join (box_join (pbox p0) (pbox p1)) (pbox p2)).

  (** Triangle_soup.h:32-43, 133-137. *)
  Definition soup_leaves (m : soup P D) : res (list (box * nat)) :=
    foldM (fun ls fi => let* b := face_bbox m fi in Ok (ls ++ [(b, fi)])) [] (seq 0 (num_faces m)).

  (** Triangle_soup.h:129-142, when the tree is not there yet: the tree built by
      some schedule. *)
  Inductive aabb_tree (m : soup P D) : tree (box * nat) -> Prop :=
  | aabb_tree_intro : forall limit ls t,
      soup_leaves m = Ok ls ->
      Model_forkjoin.steps (act (@fst box nat) longest_axis sort_by nth_element_by)
        (tree_program limit ls, tree_init ls) (CSkip, t) ->
      aabb_tree m t.

  (** Find_possibly_intersecting_faces.h:47-58. *)
  Definition pairs_of_leaves (left_is_a : bool) (a_tags : list face_tag) (t : tree (box * nat)) (b_fi : nat)
      (leaves : list nat) : res (list (nat * nat)) :=
    foldM (fun ps i =>
        match nth_error (t_leaves t) i with
        | None => UB
        | Some l =>
            let a_fi := snd l in
            let* tag := vec_at a_tags a_fi in
            if negb (face_tag_eqb tag UNKNOWN) then Ok ps
            else Ok (ps ++ [if left_is_a then (a_fi, b_fi) else (b_fi, a_fi)])
        end) [] leaves.

  (** The loop body, Find_possibly_intersecting_faces.h:37-59: the pairs it adds. *)
  Definition pairs_body (left_is_a : bool) (b : soup P D) (a_tags b_tags : list face_tag)
      (t : tree (box * nat)) (b_fi : nat) : res (list (nat * nat)) :=
    let* tag := vec_at b_tags b_fi in
    if negb (face_tag_eqb tag UNKNOWN) then Ok []
    else
      let* q := face_bbox b b_fi in
      let* leaves := get_intersecting_leaves (@fst box nat) (fun x => boxes_intersect x q) t in
      pairs_of_leaves left_is_a a_tags t b_fi leaves.

  (** As a body of parallel_do: [local_pairs] and a possible exception ([None] stands
      for undefined behaviour). *)
  Definition to_body {A T} (f : A -> res (list T)) (x : A) (s : list T) : list T * option (option exn) :=
    match f x with
    | Ok l => (s ++ l, None)
    | Throw e => (s, Some (Some e))
    | UB => (s, Some None)
    end.

  (** Find_possibly_intersecting_faces.h:60-66. *)
  Definition append_post {T} (s : list T) (g : list T) : list T * option (option exn) :=
    (match g with [] => s | _ => g ++ s end, None).

  (** Find_possibly_intersecting_faces.h:22-69, for some schedule: the pairs, or the
      exception. *)
  Inductive find_pairs (num_threads : nat) (left right : soup P D) (l_tags r_tags : list face_tag) :
      list (nat * nat) -> option (option exn) -> Prop :=
  | fp_intro : forall t tr pairs x,
      let left_is_a := num_faces left <? num_faces right in
      let a := if left_is_a then left else right in
      let b := if left_is_a then right else left in
      let a_tags := if left_is_a then l_tags else r_tags in
      let b_tags := if left_is_a then r_tags else l_tags in
      aabb_tree a t ->
      parallel_do (to_body (pairs_body left_is_a b a_tags b_tags t)) append_post
        (seq 0 (num_faces b)) true num_threads [] [] tr pairs x ->
      find_pairs num_threads left right l_tags r_tags pairs x.
End Pairs.
