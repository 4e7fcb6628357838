(** * The constructor of Find_defects

    Models include/kigumi/Find_defects.h:33-45: the lists that a Find_defects object holds. *)
From Coq Require Import List Arith Bool NArith QArith Permutation.
From Verif Require Import Model_base Model_soup Model_points Model_geometry Model_aabb Model_candidates Model_corefine.
From Verif Require Import Model_defects Model_overlap.
Import ListNotations.

(** Find_defects.h:366-376, the members. *)
Record defects (P D : Type) : Type := mk_defects {
  d_mesh : soup P D;
  d_isolated : list nat;
  d_vertices : list nat;
  d_boundary : list edge;
  d_inconsistent : list edge;
  d_edges : list edge;
  d_trivial : list nat;
  d_flat : list nat;
  d_overlapping : list nat
}.
Arguments mk_defects {P D}.
Arguments d_mesh {P D}.
Arguments d_isolated {P D}.
Arguments d_vertices {P D}.
Arguments d_boundary {P D}.
Arguments d_inconsistent {P D}.
Arguments d_edges {P D}.
Arguments d_trivial {P D}.
Arguments d_flat {P D}.
Arguments d_overlapping {P D}.

Section Find.
  Context {P D : Type}.
  Variable P_eqb : P -> P -> bool.
  Variable d0 : D.
  Variable coords : P -> vec3.
  Variable pbox : P -> box.
  Variable longest_axis : option box -> nat.
  Variable sort_by : nat -> list (box * nat) -> list (box * nat).
  Variable nth_element_by : nat -> nat -> list (box * nat) -> list (box * nat).

  (** The members up to the trivially degenerate faces, which are found on the calling
      thread (Find_defects.h:34-41, except that the three lists of edges, which cannot
      fail, come later). *)
  Definition find_first (m : soup P D) : res (soup P D * list nat * list nat * list (halfedge * nat) * list nat) :=
    let* m' := merge_duplicate_vertices P_eqb d0 m in
    let* iso := isolated_vertices m' in
    let* vis := non_manifold_vertices m' in
    let* hes := collect_halfedges m' in
    let* trivial := trivial_degenerate_faces m' in
    Ok (m', iso, vis, hes, trivial).

  (** Find_defects.h:33-45, for some schedule; [o1], [o2] and [o3] are the orders in which
      the table of half-edges is traversed. *)
  Inductive find_defects (num_threads : nat) (m : soup P D) : res (defects P D) -> Prop :=
  | find_ok : forall m' iso vis hes trivial non_trivial overlapping o1 o2 o3,
      find_first m = Ok (m', iso, vis, hes, trivial) ->
      Permutation o1 hes -> Permutation o2 hes -> Permutation o3 hes ->
      non_trivial_degenerate_faces coords num_threads m' non_trivial None ->
      overlapping_faces P_eqb coords pbox longest_axis sort_by nth_element_by num_threads m' trivial non_trivial overlapping None ->
      find_defects num_threads m
        (Ok (mk_defects m' iso vis (boundary_edges hes o1) (inconsistent_edges hes o2) (non_manifold_edges hes o3)
               trivial non_trivial overlapping))
  | find_first_fails : forall r, fails (find_first m) r -> find_defects num_threads m r
  | find_flat_fails : forall m' iso vis hes trivial non_trivial x,
      find_first m = Ok (m', iso, vis, hes, trivial) ->
      non_trivial_degenerate_faces coords num_threads m' non_trivial (Some x) ->
      find_defects num_threads m (raised_as x)
  | find_overlap_fails : forall m' iso vis hes trivial non_trivial overlapping x,
      find_first m = Ok (m', iso, vis, hes, trivial) ->
      non_trivial_degenerate_faces coords num_threads m' non_trivial None ->
      overlapping_faces P_eqb coords pbox longest_axis sort_by nth_element_by num_threads m' trivial non_trivial overlapping (Some x) ->
      find_defects num_threads m (raised_as x).
End Find.
