(** * What a box tree promises *)
From Coq Require Import List Arith QArith Permutation.
From Verif Require Import Model_aabb.
Import ListNotations.

(** A box inside another. *)
Definition box_in (a b : box) : Prop :=
  (xmin b <= xmin a)%Q /\ (ymin b <= ymin a)%Q /\ (zmin b <= zmin a)%Q /\
  (xmax a <= xmax b)%Q /\ (ymax a <= ymax b)%Q /\ (zmax a <= zmax b)%Q.

(** A query that meets a box meets every larger box. *)
Definition monotone (meets : box -> bool) : Prop :=
  forall a b, box_in a b -> meets a = true -> meets b = true.

(** Two boxes have a common point. *)
Definition boxes_share_point (a b : box) : Prop :=
  exists x y z : Q,
    (xmin a <= x <= xmax a)%Q /\ (ymin a <= y <= ymax a)%Q /\ (zmin a <= z <= zmax a)%Q /\
    (xmin b <= x <= xmax b)%Q /\ (ymin b <= y <= ymax b)%Q /\ (zmin b <= z <= zmax b)%Q.
Definition proper (a : box) : Prop :=
  (xmin a <= xmax a)%Q /\ (ymin a <= ymax a)%Q /\ (zmin a <= zmax a)%Q.

(** std::sort and std::nth_element only rearrange their range. *)
Definition rearranges {leaf} (sort_by : nat -> list leaf -> list leaf)
    (nth_element_by : nat -> nat -> list leaf -> list leaf) : Prop :=
  (forall ax l, Permutation l (sort_by ax l)) /\
  (forall ax k l, Permutation l (nth_element_by ax k l)).

(** Memory: elements of leaves_ and of nodes_. *)
Inductive cell : Type := LeafCell (i : nat) | NodeCell (i : nat).
Definition in_range (f l : nat) (c : cell) : Prop :=
  match c with LeafCell i => (f <= i < l)%nat | NodeCell _ => False end.

Definition writes (a : action) (c : cell) : Prop :=
  match a with
  | ABbox nd _ _ | ALeft nd _ | ARight nd _ => c = NodeCell nd
  | ASort _ f l | ANth _ f _ l => in_range f l c
  end.
Definition reads (a : action) (c : cell) : Prop :=
  match a with
  | ABbox _ f l => in_range f l c
  | ALeft _ _ | ARight _ _ => False
  | ASort nd f l | ANth nd f _ l => c = NodeCell nd \/ in_range f l c
  end.

(** Two actions that must not happen at the same time. *)
Definition conflict (a b : action) : Prop :=
  exists c, (writes a c /\ (writes b c \/ reads b c)) \/ (reads a c /\ writes b c).

(** An action stays inside leaves_ and nodes_; a pointer it stores points into
    them. *)
Definition ptr_in_bounds (num_leaves num_nodes : nat) (p : ptr) : Prop :=
  match p with
  | PNull => False
  | PNode i => (i < num_nodes)%nat
  | PLeaf i => (i < num_leaves)%nat
  end.
Definition action_in_bounds (num_leaves num_nodes : nat) (a : action) : Prop :=
  match a with
  | ABbox nd f l => (nd < num_nodes /\ f < l /\ l <= num_leaves)%nat
  | ALeft nd p | ARight nd p => (nd < num_nodes)%nat /\ ptr_in_bounds num_leaves num_nodes p
  | ASort nd f l => (nd < num_nodes /\ f < l /\ l <= num_leaves)%nat
  | ANth nd f m l => (nd < num_nodes /\ f < m /\ m < l /\ l <= num_leaves)%nat
  end.
