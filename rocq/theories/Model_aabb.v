(** * AABB_tree

    Models include/kigumi/AABB_tree/AABB_tree.h, AABB_node.h and AABB_leaf.h. *)
From Coq Require Import List Arith Bool QArith Qminmax.
From Verif Require Import Model_base Model_parallel_sort Model_forkjoin.
Import ListNotations.

(** CGAL::Bbox_3: finite bounds (rationals instead of doubles). *)
Record box : Type := mk_box {
  xmin : Q; ymin : Q; zmin : Q;
  xmax : Q; ymax : Q; zmax : Q
}.

(** CGAL::Bbox_3::operator+= on boxes. *)
Definition box_join (a b : box) : box :=
  mk_box (Qmin (xmin a) (xmin b)) (Qmin (ymin a) (ymin b)) (Qmin (zmin a) (zmin b))
         (Qmax (xmax a) (xmax b)) (Qmax (ymax a) (ymax b)) (Qmax (zmax a) (zmax b)).

(** The default-constructed box, which is empty, is [None]
    (AABB_tree.h:171, AABB_node.h:30). *)
Definition bbox_add (a : option box) (b : box) : option box :=
  match a with
  | None => Some b
  | Some a => Some (box_join a b)
  end.

Definition Qltb (x y : Q) : bool := negb (Qle_bool y x).

(** CGAL::do_intersect(Bbox_3, Bbox_3), i.e. do_overlap. *)
Definition boxes_intersect (a b : box) : bool :=
  negb (Qltb (xmax a) (xmin b) || Qltb (xmax b) (xmin a) ||
        Qltb (ymax a) (ymin b) || Qltb (ymax b) (ymin a) ||
        Qltb (zmax a) (zmin b) || Qltb (zmax b) (zmin a)).

Local Open Scope nat_scope.

(** The untyped pointers left_ and right_ of a node (AABB_node.h:31-32): to an
    element of nodes_ or of leaves_. *)
Inductive ptr : Type :=
| PNull
| PNode (i : nat)
| PLeaf (i : nat).

(** AABB_node.h:29-32. *)
Record node : Type := mk_node { n_bbox : option box; n_left : ptr; n_right : ptr }.

Definition node_default : node := mk_node None PNull PNull.

Section Tree.
  (** Leaf, its bbox() (AABB_leaf.h:14). *)
  Variable leaf : Type.
  Variable leaf_bbox : leaf -> box.
  (** bbox_longest_axis (AABB_tree.h:178-183). *)
  Variable longest_axis : option box -> nat.
  (** std::sort and std::nth_element by the centers' coordinate along an axis
      (AABB_tree.h:80-82, 98-100). *)
  Variable sort_by : nat -> list leaf -> list leaf.
  Variable nth_element_by : nat -> nat -> list leaf -> list leaf.

  (** leaves_ and nodes_, AABB_tree.h:187-188. *)
  Record tree : Type := mk_tree { t_leaves : list leaf; t_nodes : list node }.

  (** AABB_tree.h:169-176. *)
  Definition bbox_from_leaves (ls : list leaf) : option box :=
    fold_left (fun b l => bbox_add b (leaf_bbox l)) ls None.

  (** The memory operations of [build], each on one node; positions in leaves_ and
      nodes_ instead of iterators. *)
  Inductive action : Type :=
  | ABbox (nd f l : nat)              (* AABB_tree.h:67 *)
  | ALeft (nd : nat) (p : ptr)        (* AABB_tree.h:73, 84, 102 *)
  | ARight (nd : nat) (p : ptr)       (* AABB_tree.h:74, 85, 103 *)
  | ASort (nd f l : nat)              (* AABB_tree.h:79-82 *)
  | ANth (nd f m l : nat).            (* AABB_tree.h:97-100 *)

  Definition set_node (ns : list node) (i : nat) (g : node -> node) : list node :=
    match nth_error ns i with
    | Some n => list_set ns i (g n)
    | None => ns  (* out of bounds: excluded by C23_in_bounds *)
    end.

  Definition set_leaves (ls : list leaf) (f l : nat) (g : list leaf -> list leaf) : list leaf :=
    if (f <=? l) && (l <=? length ls) then splice ls f l (g (slice ls f l))
    else ls (* out of bounds: excluded by C23_in_bounds *).

  Definition node_bbox (ns : list node) (i : nat) : option box :=
    match nth_error ns i with Some n => n_bbox n | None => None end.

  (** AABB_tree.h:67, 73-74, 79-85, 97-103. *)
  Definition act (a : action) (t : tree) : tree :=
    match a with
    | ABbox nd f l =>
        mk_tree (t_leaves t)
          (set_node (t_nodes t) nd
             (fun n => mk_node (bbox_from_leaves (slice (t_leaves t) f l)) (n_left n) (n_right n)))
    | ALeft nd p =>
        mk_tree (t_leaves t) (set_node (t_nodes t) nd (fun n => mk_node (n_bbox n) p (n_right n)))
    | ARight nd p =>
        mk_tree (t_leaves t) (set_node (t_nodes t) nd (fun n => mk_node (n_bbox n) (n_left n) p))
    | ASort nd f l =>
        mk_tree (set_leaves (t_leaves t) f l (sort_by (longest_axis (node_bbox (t_nodes t) nd))))
          (t_nodes t)
    | ANth nd f m l =>
        mk_tree (set_leaves (t_leaves t) f l
                   (nth_element_by (longest_axis (node_bbox (t_nodes t) nd)) (m - f)))
          (t_nodes t)
    end.

  (** build, AABB_tree.h:63-119, on the [n] leaves from position [f] on, with the node
      at position [nd].  The [fuel] bounds the depth of recursion; [n] suffices. *)
  Fixpoint build (fuel : nat) (limit : nat) (nd f n depth : nat) : cmd action :=
    CSeq (CAct (ABbox nd f (f + n)))
    match fuel with
    | 0 => CSkip
    | S fuel =>
        match n with
        | 2 => CSeq (CAct (ALeft nd (PLeaf f))) (CAct (ARight nd (PLeaf (f + 1))))
        | 3 =>
            let right_node := nd + 1 in
            CSeq (CAct (ASort nd f (f + n)))
           (CSeq (CAct (ALeft nd (PLeaf f)))
           (CSeq (CAct (ARight nd (PNode right_node)))
                 (build fuel limit right_node (f + 1) 2 (depth + 1))))
        | _ =>
            let num_left := n / 2 in
            let middle := f + num_left in
            let left_node := nd + 1 in
            let right_node := nd + num_left in
            CSeq (CAct (ANth nd f middle (f + n)))
           (CSeq (CAct (ALeft nd (PNode left_node)))
           (CSeq (CAct (ARight nd (PNode right_node)))
             (if depth <? limit then
                CPar (build fuel limit left_node f num_left (depth + 1))
                     (build fuel limit right_node middle (n - num_left) (depth + 1))
              else
                CSeq (build fuel limit left_node f num_left (depth + 1))
                     (build fuel limit right_node middle (n - num_left) (depth + 1)))))
        end
    end.

  (** The constructor, AABB_tree.h:25-41: the state before [build] and the program.
      [limit] is concurrency_depth_limit_ (lines 185-186). *)
  Definition tree_init (ls : list leaf) : tree :=
    mk_tree ls (repeat node_default (length ls - 1)).
  Definition tree_program (limit : nat) (ls : list leaf) : cmd action :=
    if length ls <? 2 then CSkip else build (length ls) limit 0 0 (length ls) 0.

  (** CGAL::do_intersect(bbox, query); an empty box meets nothing. *)
  Variable meets : box -> bool.
  Definition meets_opt (b : option box) : bool :=
    match b with Some b => meets b | None => false end.

  (** left_leaf() etc., AABB_node.h:13-19: a pointer of the wrong kind is
      undefined behaviour. *)
  Definition get_leaf (t : tree) (p : ptr) : res (nat * leaf) :=
    match p with
    | PLeaf i => match nth_error (t_leaves t) i with Some l => Ok (i, l) | None => UB end
    | _ => UB
    end.
  Definition get_node (t : tree) (p : ptr) : res node :=
    match p with
    | PNode i => match nth_error (t_nodes t) i with Some n => Ok n | None => UB end
    | _ => UB
    end.

  Definition visit_leaf (t : tree) (p : ptr) : res (list nat) :=
    let* l := get_leaf t p in
    Ok (if meets (leaf_bbox (snd l)) then [fst l] else []).

  (** traverse, AABB_tree.h:121-161.  The leaves found, as positions. *)
  Fixpoint traverse (fuel : nat) (t : tree) (n : nat) (nd : node) : res (list nat) :=
    match fuel with
    | 0 => Throw Diverges
    | S fuel =>
        match n with
        | 2 =>
            let* a := visit_leaf t (n_left nd) in
            let* b := visit_leaf t (n_right nd) in
            Ok (a ++ b)
        | 3 =>
            let* a := visit_leaf t (n_left nd) in
            let* r := get_node t (n_right nd) in
            if meets_opt (n_bbox r) then
              let* b := traverse fuel t 2 r in Ok (a ++ b)
            else Ok a
        | _ =>
            let num_left := n / 2 in
            let* l := get_node t (n_left nd) in
            let* a := if meets_opt (n_bbox l) then traverse fuel t num_left l else Ok [] in
            let* r := get_node t (n_right nd) in
            let* b := if meets_opt (n_bbox r) then traverse fuel t (n - num_left) r else Ok [] in
            Ok (a ++ b)
        end
    end.

  (** get_intersecting_leaves, AABB_tree.h:43-61. *)
  Definition get_intersecting_leaves (t : tree) : res (list nat) :=
    match length (t_leaves t) with
    | 0 => Ok []
    | 1 => visit_leaf t (PLeaf 0)
    | n => let* root := get_node t (PNode 0) in traverse n t n root
    end.
End Tree.
Arguments mk_tree {leaf}.
Arguments t_leaves {leaf}.
Arguments t_nodes {leaf}.
Arguments bbox_from_leaves {leaf}.
Arguments act {leaf}.
Arguments tree_init {leaf}.
Arguments tree_program {leaf}.
Arguments traverse {leaf}.
Arguments get_intersecting_leaves {leaf}.
Arguments set_leaves {leaf}.
