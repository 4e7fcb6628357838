(** * Properties C07-C09: adjacency queries of a finalized mesh *)
From Coq Require Import List Arith Bool Lia Sorted.
From Verif Require Import Model_base Model_soup Model_mesh Spec_mesh Proof_mesh.
Import ListNotations.

Lemma finalized_finalize : forall P D ps fs ds, finalized (finalize (@mesh_of P D ps fs ds)).
Proof.
  intros. exists (mesh_of ps fs ds). repeat split.
  unfold finalize. simpl. now destruct (fold_left _ _ _) as [[[? ?] ?] ?].
Qed.

Lemma faces_finalize : forall P D ps fs ds, m_faces (finalize (@mesh_of P D ps fs ds)) = fs.
Proof.
  intros. unfold finalize. simpl. now destruct (fold_left _ _ _) as [[[? ?] ?] ?].
Qed.

(** C07.  For every mesh and any two of its vertices [u], [v] up to the last
    one used by a face, [faces_around_edge] returns exactly the faces having
    both as vertices, in increasing order; strictly increasing (so without
    repetition) when no face repeats a vertex. *)
Theorem C07_faces_around_edge_exact :
  forall (P D : Type) (ps : list P) (fs : list face) (ds : list D) (u v : nat),
  within_used fs u -> within_used fs v ->
  exists l,
    faces_around_edge (finalize (mesh_of ps fs ds)) (u, v) = Ok l /\
    (forall f, In f l <-> incident fs f u /\ incident fs f v) /\
    StronglySorted le l /\
    (nondegenerate fs -> StronglySorted lt l).
Proof.
  intros. pose proof (faces_around_edge_exact P D (finalize (mesh_of ps fs ds)) u v) as E.
  rewrite faces_finalize in E. apply E; auto. apply finalized_finalize.
Qed.
Print Assumptions C07_faces_around_edge_exact.

(** Two triangles sharing an edge: the hypotheses hold and the result is as
    expected. *)
Example C07_example :
  let fs := [(0, 1, 2); (2, 1, 3); (0, 3, 1)] in
  within_used fs 1 /\ within_used fs 2 /\ nondegenerate fs /\
  faces_around_edge (finalize (mesh_of [tt; tt; tt; tt] fs [tt; tt; tt])) (2, 1) = Ok [0; 1] /\
  faces_around_edge (finalize (mesh_of [tt; tt; tt; tt] fs [tt; tt; tt])) (1, 0) = Ok [0; 2].
Proof.
  simpl. repeat split.
  - exists 1, 3. split; [|lia]. exists (2, 1, 3). simpl. auto.
  - exists 1, 3. split; [|lia]. exists (2, 1, 3). simpl. auto.
  - repeat constructor; lia.
Qed.

(** C08.  Full statement: for all vertices [u], [v] of the mesh,
    [faces_around_edge (u, v)] does not throw.  It is false: a query on a
    vertex after the last one used by a face throws [std::out_of_range],
    whatever the rest of the mesh is. *)
Theorem C08_adjacency_total_refuted :
  forall (P D : Type) (ps : list P) (fs : list face) (ds : list D) (u v : nat),
  v < length ps ->
  ~ within_used fs v ->
  faces_around_edge (finalize (mesh_of ps fs ds)) (u, v) = Throw OutOfRange /\
  faces_around_edge (finalize (mesh_of ps fs ds)) (v, u) = Throw OutOfRange.
Proof.
  intros. pose proof (faces_around_edge_isolated P D (finalize (mesh_of ps fs ds))) as E.
  rewrite faces_finalize in E. split; apply E; auto; apply finalized_finalize.
Qed.
Print Assumptions C08_adjacency_total_refuted.

(** C08, the part that holds: no throw for vertices up to the last used one,
    and the empty range when no face contains both (in particular for
    isolated vertices before it).  Missing: trailing isolated vertices. *)
Theorem C08_adjacency_total_partial :
  forall (P D : Type) (ps : list P) (fs : list face) (ds : list D) (u v : nat),
  within_used fs u -> within_used fs v ->
  (exists l, faces_around_edge (finalize (mesh_of ps fs ds)) (u, v) = Ok l) /\
  ((forall f, ~ (incident fs f u /\ incident fs f v)) ->
   faces_around_edge (finalize (mesh_of ps fs ds)) (u, v) = Ok []).
Proof.
  intros P D ps fs ds u v Hu Hv.
  destruct (C07_faces_around_edge_exact P D ps fs ds u v Hu Hv) as (l & E & HI & _).
  split; eauto. intros HN. rewrite E. f_equal. destruct l as [|x l]; auto.
  exfalso. apply (HN x). apply HI. simpl. auto.
Qed.
Print Assumptions C08_adjacency_total_partial.

(** Vertex 3 is unused and after the last used vertex 2; in the second mesh the
    unused vertex 1 comes before. *)
Example C08_example :
  (3 < length [tt; tt; tt; tt] /\ ~ within_used [(0, 1, 2)] 3 /\
   faces_around_edge (finalize (mesh_of [tt; tt; tt; tt] [(0, 1, 2)] [tt])) (0, 3) = Throw OutOfRange) /\
  (within_used [(0, 2, 3)] 1 /\ within_used [(0, 2, 3)] 0 /\
   faces_around_edge (finalize (mesh_of [tt; tt; tt; tt] [(0, 2, 3)] [tt])) (0, 1) = Ok []).
Proof.
  repeat split; simpl; auto.
  - intros (f & w & (t & Hn & Ht) & Hle). destruct f; simpl in Hn.
    + injection Hn as <-. simpl in Ht. lia.
    + destruct f; discriminate.
  - exists 0, 3. split; [|lia]. exists (0, 2, 3). simpl. auto.
  - exists 0, 3. split; [|lia]. exists (0, 2, 3). simpl. auto.
Qed.

(** C09.  For every mesh and border set, [faces_around_face] returns, apart
    from the face itself, exactly the faces across the non-border sides. *)
Theorem C09_faces_around_face_exact :
  forall (P D : Type) (ps : list P) (fs : list face) (ds : list D) (f : nat) (border : list edge),
  f < length fs ->
  exists l,
    faces_around_face (finalize (mesh_of ps fs ds)) f border = Ok l /\
    (forall g, g <> f -> (In g l <-> neighbour fs border f g)) /\
    (forall g, In g l -> g < length fs).
Proof.
  intros. pose proof (faces_around_face_exact P D (finalize (mesh_of ps fs ds)) f border) as E.
  rewrite faces_finalize in E. apply E; auto. apply finalized_finalize.
Qed.
Print Assumptions C09_faces_around_face_exact.

(** A tetrahedron: with an empty border all other faces are neighbours (and
    face 0 itself is visited first); with edge (0,1) in the border, face 2
    across it is not. *)
Example C09_example :
  let fs := [(0, 1, 2); (1, 3, 2); (0, 3, 1); (0, 2, 3)] in
  faces_around_face (finalize (mesh_of [tt; tt; tt; tt] fs [tt; tt; tt; tt])) 0 [] = Ok [0; 2; 1; 3] /\
  faces_around_face (finalize (mesh_of [tt; tt; tt; tt] fs [tt; tt; tt; tt])) 0 [(0, 1)] = Ok [0; 1; 3].
Proof. split; reflexivity. Qed.
