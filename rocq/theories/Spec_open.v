(** * Solids cut off by a convex region *)
From Coq Require Import List Arith QArith.
From Verif Require Import Model_base Model_soup Model_geometry Model_boolean Model_classify Model_side.
From Verif Require Import Spec_boolean Spec_mesh Spec_candidates Spec_side Spec_solid Spec_conform Spec_whole.
Import ListNotations.
Local Open Scope Q_scope.

(** An open convex set. *)
Record open_convex (K : vec3 -> Prop) : Prop := {
  oc_same : forall x y, same x y -> K x -> K y;
  oc_convex : forall x y z, K x -> K y -> in_segment z x y -> K z;
  oc_open : forall x v, K x -> exists bound, 0 < bound /\ forall e, 0 < e < bound -> K (along x e v)
}.

(** Space. *)
Definition all_space (x : vec3) : Prop := True.

(** Inside [K] the soup is the boundary of the set of points [inside] (see [bounds]). *)
Record bounds_in {D} (K : vec3 -> Prop) (m : soup vec3 D) (inside : vec3 -> Prop) : Prop := {
  bi_walk : forall x y, K x -> K y -> (forall z, in_segment z x y -> ~ on_boundary m z) -> (inside x <-> inside y);
  bi_face : forall fi a b c q v, soup_triangle m fi = Ok (a, b, c) -> in_open_triangle q a b c ->
    exists bound, 0 < bound /\ forall e, 0 < e < bound ->
      (vdot (normal a b c) v < 0 -> inside (along q e v)) /\
      (0 < vdot (normal a b c) v -> ~ inside (along q e v))
}.

(** A set of points whose boundary inside [K] consists of triangles that meet at their
    sides only (see [solid]).  The sides of the triangles may lie on the boundary of [K]:
    an open mesh that was clipped with [K]. *)
Definition solid_in {D} (K : vec3 -> Prop) (m : soup vec3 D) (A : vec3 -> Prop) : Prop :=
  proper_faces m /\ bounds_in K m A /\ (forall x, K x -> A x \/ ~ A x) /\
  forall fi a b c q, soup_triangle m fi = Ok (a, b, c) -> in_open_triangle q a b c -> K q.

(** The middle of an edge that is in a border or that two faces share is in [K]. *)
Definition shared_in {D} (K : vec3 -> Prop) (m : soup vec3 D) (border : list edge) : Prop :=
  forall a b pa pb, nth_error (points m) a = Some pa -> nth_error (points m) b = Some pb ->
    In (a, b) border \/ (a <> b /\ exists i j, i <> j /\
      incident (faces m) i a /\ incident (faces m) i b /\ incident (faces m) j a /\ incident (faces m) j b) ->
    K (along pa (1 # 2) (vsub pb pa)).

(** Two faces that have more than a point in common have it in [K]: at the boundary of [K]
    faces touch one another in single points only. *)
Definition meet_inside {D} (K : vec3 -> Prop) (L R : soup vec3 D) : Prop :=
  forall s t fi fj T U x y, (s, fi) <> (t, fj) ->
    soup_triangle (operand L R s) fi = Ok T -> soup_triangle (operand L R t) fj = Ok U -> ~ same x y ->
    on_tri x T -> on_tri y T -> on_tri x U -> on_tri y U -> K (along x (1 # 2) (vsub y x)).

(** [side] tells on which side a point of [K] is (see [tells_side]), or it gives up. *)
Definition tells_side_in {P D} (K : vec3 -> Prop) (coords : P -> vec3) (m : soup vec3 D) (A : vec3 -> Prop)
    (side : P -> res oriented_side) : Prop :=
  forall x, K (coords x) -> ~ on_boundary m (coords x) ->
    side x = Throw RuntimeError \/
    ((A (coords x) -> side x = Ok NEGATIVE_SIDE) /\ (~ A (coords x) -> side x = Ok POSITIVE_SIDE)).
Definition gives_up_in {P D} (K : vec3 -> Prop) (coords : P -> vec3) (m : soup vec3 D) (side : P -> res oriented_side) : Prop :=
  exists x, K (coords x) /\ ~ on_boundary m (coords x) /\ side x = Throw RuntimeError.

(** The region stands for the set [S] inside [K] (see [represents]). *)
Definition represents_in {P D} (K : vec3 -> Prop) (coords : P -> vec3) (r : region P D) (S : vec3 -> Prop) : Prop :=
  wf_region r /\
  match kind r with
  | EMPTY => forall x, K x -> ~ S x
  | FULL => forall x, K x -> S x
  | BOUNDARY_DEFINED => solid_in K (located coords (boundary r)) S
  end.

(** [r] is the result of the operation inside [K] (see [is_result]). *)
Definition is_result_in {P D} (K : vec3 -> Prop) (coords : P -> vec3) (op : boolean_operator) (a b : region P D) (A B : vec3 -> Prop)
    (r : region P D) : Prop :=
  (forall x, on_surface coords r x -> on_surface coords a x \/ on_surface coords b x) /\
  exists S, represents_in K coords r S /\
    forall x, K x -> ~ on_surface coords a x -> ~ on_surface coords b x -> (S x <-> set_of op A B x).
