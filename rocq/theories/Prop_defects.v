(** * C32, C33, C34, C42: Find_defects

    The constructor merges equal points (C42); every query works on the merged mesh.
    The theorems about queries hold for every mesh with indices in range, hence for the
    merged one; C33 is also stated in terms of the points of the mesh that was given. *)
From Coq Require Import List Arith Bool NArith QArith Lia Permutation.
From Verif Require Import Model_base Proof_base Model_soup Model_points Model_candidates Spec_candidates.
From Verif Require Import Model_geometry Model_graph Spec_graph Proof_paths Proof_pairs.
From Verif Require Import Model_defects Spec_defects Proof_defects Proof_defect_edges Proof_defect_vertices.
Import ListNotations.
Local Open Scope nat_scope.

(** ** C42 *)
Theorem C42_merge :
  forall (P D : Type) (P_eqb : P -> P -> bool) (d0 : D) (m : soup P D),
    (forall p q, P_eqb p q = true <-> p = q) -> valid_faces m ->
    exists m', merge_duplicate_vertices P_eqb d0 m = Ok m' /\
      NoDup (points m') /\
      (forall p, In p (points m') <-> In p (points m)) /\
      num_faces m' = num_faces m /\ face_data m' = repeat d0 (num_faces m) /\
      valid_faces m' /\
      forall fi t, face_corners m' fi t <-> face_corners m fi t.
Proof. intros P D P_eqb d0 m He V. exact (merge_ok P_eqb He d0 m V). Qed.
Print Assumptions C42_merge.

(** ** C32 *)

(** Whatever the order in which the table of half-edges is traversed. *)
Theorem C32_edges :
  forall (P D : Type) (m : soup P D),
    exists hes, collect_halfedges m = Ok hes /\
      forall order, Permutation order hes ->
        (NoDup (boundary_edges hes order) /\
         forall i j, In (i, j) (boundary_edges hes order) <-> i < j /\ users m i j = 1) /\
        (NoDup (inconsistent_edges hes order) /\
         forall i j, In (i, j) (inconsistent_edges hes order) <->
           i < j /\ users m i j = 2 /\ (users_along m i j = 2 \/ users_along m j i = 2)) /\
        (NoDup (non_manifold_edges hes order) /\
         forall i j, In (i, j) (non_manifold_edges hes order) <-> i < j /\ 3 <= users m i j).
Proof.
  intros P D m. destruct (collect_ok m) as (hes & E & C). exists hes. split; [ exact E | ]. intros order Hp.
  split; [ | split ].
  - exact (boundary_ok m hes order C Hp).
  - exact (inconsistent_ok m hes order C Hp).
  - exact (non_manifold_ok m hes order C Hp).
Qed.
Print Assumptions C32_edges.

(** A mesh has none of these edges iff every edge of a proper face is used twice, once in
    each direction: a proper face is then matched along each of its edges. *)
Theorem C32_closed :
  forall (P D : Type) (m : soup P D) hes order,
    collect_halfedges m = Ok hes -> Permutation order hes ->
    (boundary_edges hes order = [] /\ inconsistent_edges hes order = [] /\ non_manifold_edges hes order = [] <->
     forall i j, i <> j -> 0 < users m i j -> users_along m i j = 1 /\ users_along m j i = 1).
Proof.
  intros P D m hes order E Hp. destruct (C32_edges P D m) as (hes' & E' & H). assert (hes' = hes) by congruence. subst hes'.
  destruct (H order Hp) as ((_ & B) & (_ & I) & (_ & N)). clear H.
  assert (Nil : forall l : list (nat * nat), (forall i j, ~ In (i, j) l) -> l = []).
  { intros [ | [i j] l] X; [ reflexivity | ]. exfalso. apply (X i j). left. reflexivity. }
  split.
  - intros (B0 & I0 & N0).
    assert (Lt : forall i j, i < j -> 0 < users m i j -> users_along m i j = 1 /\ users_along m j i = 1).
    { intros i j L U. assert (X1 : ~ In (i, j) (boundary_edges hes order)) by (rewrite B0; intros [ ]).
      assert (X2 : ~ In (i, j) (inconsistent_edges hes order)) by (rewrite I0; intros [ ]).
      assert (X3 : ~ In (i, j) (non_manifold_edges hes order)) by (rewrite N0; intros [ ]).
      rewrite B in X1. rewrite I in X2. rewrite N in X3. pose proof (users_split m i j ltac:(lia)) as S. lia. }
    intros i j Nij U. destruct (Nat.lt_total i j) as [L | [L | L] ]; [ apply Lt; assumption | congruence | ].
    destruct (Lt j i L) as [A1 A2]; [ rewrite users_sym; exact U | ]. auto.
  - intro H. assert (K : forall i j, i < j -> 0 < users m i j -> users m i j = 2 /\ users_along m i j = 1 /\ users_along m j i = 1).
    { intros i j L U. destruct (H i j ltac:(lia) U) as [A1 A2]. pose proof (users_split m i j ltac:(lia)). lia. }
    split; [ | split ]; apply Nil; intros i j X; [ apply B in X | apply I in X | apply N in X ];
      destruct X as [L X]; destruct (K i j L ltac:(lia)); lia.
Qed.
Print Assumptions C32_closed.

(** ** C33 *)
Theorem C33_isolated :
  forall (P D : Type) (m : soup P D), valid_faces m ->
    exists vis, isolated_vertices m = Ok vis /\ NoDup vis /\
      forall v, In v vis <-> v < num_vertices m /\ forall f, In f (faces m) -> ~ has_vertex f v.
Proof. intros P D m V. exact (isolated_ok m V). Qed.
Print Assumptions C33_isolated.

Theorem C33_trivial :
  forall (P D : Type) (m : soup P D),
    exists fis, trivial_degenerate_faces m = Ok fis /\ NoDup fis /\
      forall fi, In fi fis <-> exists f, nth_error (faces m) fi = Some f /\ ~ proper f.
Proof. intros P D m. exact (trivial_ok m). Qed.
Print Assumptions C33_trivial.

(** For every number of threads and schedule; no execution fails. *)
Theorem C33_non_trivial :
  forall (P D : Type) (coords : P -> vec3) (m : soup P D) num_threads fis x,
    valid_faces m -> 1 <= num_threads -> non_trivial_degenerate_faces coords num_threads m fis x ->
    x = None /\ NoDup fis /\
    forall fi, In fi fis <-> exists f p q r, nth_error (faces m) fi = Some f /\ proper f /\
      face_corners m fi (p, q, r) /\ collinear (coords p) (coords q) (coords r).
Proof. intros P D coords m nt fis x V Hnt R. exact (non_trivial_ok coords m nt fis x V Hnt R). Qed.
Print Assumptions C33_non_trivial.

(** A face of a mesh without duplicate points is proper iff its points are different. *)
Lemma proper_points : forall {P D} (m : soup P D) fi f p q r, NoDup (points m) ->
  nth_error (faces m) fi = Some f -> face_corners m fi (p, q, r) -> (proper f <-> p <> q /\ q <> r /\ r <> p).
Proof.
  intros P D m fi f p q r Dp Ef (a & b & c & p' & q' & r' & Ef' & Ha & Hb & Hc & E). injection E as <- <- <-.
  rewrite Ef in Ef'. injection Ef' as ->. cbn [proper].
  assert (K : forall i j x y, nth_error (points m) i = Some x -> nth_error (points m) j = Some y -> (i <> j <-> x <> y)).
  { intros i j x y Hi Hj. split; intros N X; apply N.
    - subst y. apply (proj1 (NoDup_nth_error (points m)) Dp); [ apply nth_error_Some; congruence | congruence ].
    - subst j. congruence. }
  rewrite (K _ _ _ _ Ha Hb), (K _ _ _ _ Hb Hc), (K _ _ _ _ Hc Ha). reflexivity.
Qed.

(** The reports about the merged mesh, read in the points of the mesh that was given. *)
Theorem C33_of_input :
  forall (P D : Type) (P_eqb : P -> P -> bool) (d0 : D) (coords : P -> vec3) (m m' : soup P D) num_threads,
    (forall p q, P_eqb p q = true <-> p = q) -> valid_faces m -> 1 <= num_threads ->
    merge_duplicate_vertices P_eqb d0 m = Ok m' ->
    (exists vis, isolated_vertices m' = Ok vis /\
      forall v, In v vis <-> exists p, nth_error (points m') v = Some p /\
        forall fi q r s, face_corners m fi (q, r, s) -> p <> q /\ p <> r /\ p <> s) /\
    (exists fis, trivial_degenerate_faces m' = Ok fis /\
      forall fi, In fi fis <-> exists p q r, face_corners m fi (p, q, r) /\ (p = q \/ q = r \/ r = p)) /\
    (forall fis x, non_trivial_degenerate_faces coords num_threads m' fis x ->
      x = None /\
      forall fi, In fi fis <-> exists p q r, face_corners m fi (p, q, r) /\ p <> q /\ q <> r /\ r <> p /\
        collinear (coords p) (coords q) (coords r)).
Proof.
  intros P D P_eqb d0 coords m m' nt He V Hnt E.
  destruct (C42_merge P D P_eqb d0 m He V) as (m1 & E1 & Dp & Ip & Nf & _ & V' & Fc).
  assert (m1 = m') by congruence. subst m1.
  assert (Inj : forall i j x, nth_error (points m') i = Some x -> nth_error (points m') j = Some x -> i = j).
  { intros i j x Hi Hj. apply (proj1 (NoDup_nth_error (points m')) Dp); [ apply nth_error_Some; congruence | congruence ]. }
  split; [ | split ].
  - destruct (C33_isolated P D m' V') as (vis & Ev & _ & Hv). exists vis. split; [ exact Ev | ]. intro v. rewrite Hv. split.
    + intros [L N]. destruct (nth_error (points m') v) as [p | ] eqn:Ep; [ | apply nth_error_None in Ep; unfold num_vertices in L; lia ].
      exists p. split; [ reflexivity | ]. intros fi q r s F. apply Fc in F.
      destruct F as (a & b & c & p' & q' & r' & Ef & Ha & Hb & Hc & Et). injection Et as -> -> ->.
      specialize (N (a, b, c) (nth_error_In _ _ Ef)). cbn [has_vertex] in N.
      repeat split; intros ->; apply N; [ left | right; left | right; right ]; eapply Inj; eassumption.
    + intros (p & Ep & N). split; [ apply nth_error_Some; congruence | ]. intros f If X.
      apply In_nth_error in If. destruct If as [fi Ef].
      assert (L : fi < num_faces m') by (apply nth_error_Some; congruence).
      destruct (valid_corners m' fi V' L) as (a & b & c & p0 & p1 & p2 & Ef' & H0 & H1 & H2).
      rewrite Ef in Ef'. injection Ef' as ->.
      assert (F : face_corners m fi (p0, p1, p2)) by (apply Fc; exists a, b, c, p0, p1, p2; auto).
      destruct (N _ _ _ _ F) as (N0 & N1 & N2). cbn [has_vertex] in X. destruct X as [-> | [-> | ->] ]; congruence.
  - destruct (C33_trivial P D m') as (fis & Ev & _ & Hf). exists fis. split; [ exact Ev | ]. intro fi. rewrite Hf. split.
    + intros (f & Ef & N). assert (L : fi < num_faces m') by (apply nth_error_Some; congruence).
      destruct (valid_corners m' fi V' L) as (a & b & c & p0 & p1 & p2 & Ef' & H0 & H1 & H2).
      assert (F' : face_corners m' fi (p0, p1, p2)) by (exists a, b, c, p0, p1, p2; auto).
      exists p0, p1, p2. split; [ apply Fc; exact F' | ].
      rewrite Ef in Ef'. injection Ef' as ->. cbn [proper] in N.
      destruct (Nat.eq_dec a b) as [-> | Nab]; [ left; congruence | ].
      destruct (Nat.eq_dec b c) as [-> | Nbc]; [ right; left; congruence | ].
      destruct (Nat.eq_dec c a) as [-> | Nca]; [ right; right; congruence | ]. exfalso. apply N. auto.
    + intros (p & q & r & F & X). apply Fc in F. assert (F' := F). destruct F as (a & b & c & p' & q' & r' & Ef & _).
      exists (a, b, c). split; [ exact Ef | ]. rewrite (proper_points m' fi _ p q r Dp Ef F'). tauto.
  - intros fis x R. destruct (C33_non_trivial P D coords m' nt fis x V' Hnt R) as (-> & _ & Hf). split; [ reflexivity | ].
    intro fi. rewrite Hf. split.
    + intros (f & p & q & r & Ef & Pf & F & C). exists p, q, r. rewrite <- Fc. split; [ exact F | ].
      apply (proper_points m' fi f p q r Dp Ef F) in Pf. tauto.
    + intros (p & q & r & F & N1 & N2 & N3 & C). apply Fc in F. assert (F' := F). destruct F as (a & b & c & p' & q' & r' & Ef & _).
      exists (a, b, c), p, q, r. split; [ exact Ef | ]. split; [ | auto ].
      apply (proper_points m' fi _ p q r Dp Ef F'). auto.
Qed.
Print Assumptions C33_of_input.

(** ** C34 *)

(** Vertices without a proper face are not reported (they have no link). *)
Theorem C34_vertices :
  forall (P D : Type) (m : soup P D), valid_faces m -> (N.of_nat (num_faces m) < 2 ^ 32)%N ->
    exists vis, non_manifold_vertices m = Ok vis /\ NoDup vis /\
      forall v, In v vis <->
        v < num_vertices m /\ link m v <> [] /\ ~ (is_path (link m v) \/ is_cycle (link m v)).
Proof. intros P D m V S. exact (non_manifold_vertices_ok m V S). Qed.
Print Assumptions C34_vertices.

(** ** A concrete mesh

    Points with repetitions: a tetrahedron with vertices 0 1 2 3, whose vertex 3 is also
    given as 4; a second face on the edge 0 1; a collinear face; a degenerate face; an
    unused vertex. *)
Definition pt (x y z : Z) : vec3 := (inject_Z x, inject_Z y, inject_Z z).
Definition ex_points : list nat := [10; 20; 30; 40; 40; 50; 60; 70].
Definition ex_coords (p : nat) : vec3 :=
  match p with
  | 10 => pt 0 0 0 | 20 => pt 1 0 0 | 30 => pt 0 1 0 | 40 => pt 0 0 1 | 50 => pt 2 0 0 | 60 => pt 0 0 (-1) | _ => pt 9 9 9
  end.
Definition ex_mesh : soup nat unit :=
  mk_soup ex_points
    [(0, 2, 1); (0, 1, 3); (1, 2, 4); (2, 0, 3); (0, 1, 6); (0, 1, 5); (3, 4, 5)]
    [tt; tt; tt; tt; tt; tt; tt].
Definition ex_merged : soup nat unit :=
  mk_soup [10; 20; 30; 40; 50; 60; 70]
    [(0, 2, 1); (0, 1, 3); (1, 2, 3); (2, 0, 3); (0, 1, 5); (0, 1, 4); (3, 3, 4)]
    [tt; tt; tt; tt; tt; tt; tt].

Example C42_example_hypotheses : (forall p q, Nat.eqb p q = true <-> p = q) /\ valid_faces ex_mesh.
Proof. split; [ exact Nat.eqb_eq | ]. unfold valid_faces. repeat constructor. Qed.
Example C42_example : merge_duplicate_vertices Nat.eqb tt ex_mesh = Ok ex_merged.
Proof. reflexivity. Qed.

Example C32_example :
  exists hes, collect_halfedges ex_merged = Ok hes /\
    boundary_edges hes (rev hes) = [(0, 4); (1, 4); (0, 5); (1, 5)] /\
    inconsistent_edges hes (rev hes) = [] /\
    non_manifold_edges hes (rev hes) = [(0, 1)].
Proof. eexists. split; [ reflexivity | ]. vm_compute. auto. Qed.
(** Two faces that run along an edge in the same direction. *)
Example C32_example_inconsistent :
  exists hes, collect_halfedges (mk_soup ex_points [(0, 1, 2); (0, 1, 3)] [tt; tt]) = Ok hes /\
    inconsistent_edges hes hes = [(0, 1)] /\ users (mk_soup ex_points [(0, 1, 2); (0, 1, 3)] [tt; tt]) 0 1 = 2.
Proof. eexists. split; [ reflexivity | ]. vm_compute. auto. Qed.
(** A closed tetrahedron. *)
Example C32_example_closed :
  let m := mk_soup ex_points [(0, 2, 1); (0, 1, 3); (1, 2, 3); (2, 0, 3)] [tt; tt; tt; tt] in
  exists hes, collect_halfedges m = Ok hes /\ boundary_edges hes hes = [] /\ inconsistent_edges hes hes = [] /\
    non_manifold_edges hes hes = [] /\ users m 0 1 = 2.
Proof. eexists. split; [ reflexivity | ]. vm_compute. auto. Qed.

Example C33_example :
  isolated_vertices ex_merged = Ok [6] /\ trivial_degenerate_faces ex_merged = Ok [6] /\
  degenerate_body ex_coords ex_merged 5 = Ok [5] /\ degenerate_body ex_coords ex_merged 4 = Ok [].
Proof. vm_compute. auto. Qed.

(** 0 and 1 have links with a vertex of degree 4; the link of 2 is a cycle and that of 4 a
    path. *)
Example C34_example : non_manifold_vertices ex_merged = Ok [0; 1].
Proof. reflexivity. Qed.
Example C34_example_links :
  link ex_merged 2 = [(1, 0); (3, 1); (0, 3)] /\ link ex_merged 4 = [(0, 1)] /\ length (link ex_merged 0) = 5.
Proof. vm_compute. auto. Qed.
Example C34_example_hypotheses : valid_faces ex_merged /\ (N.of_nat (num_faces ex_merged) < 2 ^ 32)%N.
Proof. split; [ unfold valid_faces; repeat constructor | reflexivity ]. Qed.
(** Two cones that touch in a vertex: the link is two separate paths. *)
Example C34_example_touching :
  non_manifold_vertices (mk_soup ex_points [(0, 1, 2); (0, 3, 4)] [tt; tt]) = Ok [0].
Proof. reflexivity. Qed.
