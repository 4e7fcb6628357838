(** * Properties C12-C14: the radial order and local classification *)
From Coq Require Import List Arith Bool Lia QArith Lqa Reals Qreals Permutation.
From Verif Require Import Model_base Model_soup Model_mesh Model_boolean Prop_mesh Prop_classify Proof_mesh.
From Verif Require Import Model_classify Model_geometry Model_local
  Spec_mesh Spec_classify Spec_radial Spec_local Proof_radial Proof_angle Proof_local Proof_around Proof_edge.
Import ListNotations.
Open Scope nat_scope.

(** C12, first half: on the faces around an edge the comparison is irreflexive,
    transitive, and incomparability is transitive. *)
Theorem C12_strict_weak_order :
  forall S : around -> Prop, same_edge S ->
  (forall f, S f -> radial_less f f = false) /\
  (forall f g h, S f -> S g -> S h ->
     radial_less f g = true -> radial_less g h = true -> radial_less f h = true) /\
  (forall f g h, S f -> S g -> S h ->
     (radial_less f g = false /\ radial_less g f = false) ->
     (radial_less g h = false /\ radial_less h g = false) ->
     (radial_less f h = false /\ radial_less h f = false)).
Proof.
  intros S HS. split; [|split].
  - now apply (radial_irrefl S).
  - now apply (radial_trans S HS).
  - now apply (incomparable_trans S HS).
Qed.
Print Assumptions C12_strict_weak_order.

(** C12, second half: it orders faces by their angle, for any positive scaling
    of the two axes (the bases of a CGAL plane are orthogonal but not
    normalised). *)
Theorem C12_ordered_by_angle :
  forall (S : around -> Prop) (alpha beta : R) (f g : around) (thf thg : R),
  same_edge S -> (0 < alpha)%R -> (0 < beta)%R -> S f -> S g ->
  at_angle alpha beta f thf -> at_angle alpha beta g thg ->
  (radial_less f g = true <-> (thf < thg)%R).
Proof. exact radial_less_angle. Qed.
Print Assumptions C12_ordered_by_angle.

(** Every face the constructor accepts has an angle. *)
Theorem C12_angle_exists :
  forall f, radial_bin_of (r_uv f) = Ok (radial_bin f) ->
  forall alpha beta : R, (0 < alpha)%R -> (0 < beta)%R -> exists th, at_angle alpha beta f th.
Proof. exact angle_exists. Qed.
Print Assumptions C12_angle_exists.

(** C12: two faces are incomparable exactly when they point in the same
    direction. *)
Theorem C12_incomparable_same_direction :
  forall (S : around -> Prop) (f g : around), same_edge S -> S f -> S g ->
  (radial_less f g = false /\ radial_less g f = false <-> same_direction f g).
Proof.
  intros S f g HS Hf Hg. split.
  - now apply (incomparable_direction S HS).
  - now apply (direction_incomparable S HS).
Qed.
Print Assumptions C12_incomparable_same_direction.

(** The constructor accepts every direction but zero. *)
Theorem C12_bin_total :
  forall r : vec2, (exists b, radial_bin_of r = Ok b) <-> ~ (fst r == 0 /\ snd r == 0)%Q.
Proof.
  intros r. split.
  - intros (b & E). apply radial_bin_region in E. now apply (in_bin_axis b r).
  - intros H. destruct (bin_total r) as [(b & E & _)|(_ & E)]; [eauto|contradiction].
Qed.
Print Assumptions C12_bin_total.

(** Seven faces, two of them coinciding, one on each axis ray and others. *)
Definition ex_around (i v : nat) (x y : Z) (b : nat) (o : orientation) : around :=
  mk_around i v (inject_Z x, inject_Z y) b o.
Definition ex_arounds : list around :=
  [ex_around 0 10 1 0 0 CLOCKWISE; ex_around 1 11 2 1 1 COUNTERCLOCKWISE; ex_around 2 12 1 2 1 CLOCKWISE;
   ex_around 3 12 1 2 1 COUNTERCLOCKWISE; ex_around 4 13 (-3) 1 3 CLOCKWISE; ex_around 5 14 (-1) 0 4 CLOCKWISE;
   ex_around 6 15 0 (-1) 6 CLOCKWISE].

Example C12_example :
  same_edge (fun f => In f ex_arounds) /\
  radial_less (ex_around 1 11 2 1 1 COUNTERCLOCKWISE) (ex_around 2 12 1 2 1 CLOCKWISE) = true /\
  radial_less (ex_around 2 12 1 2 1 CLOCKWISE) (ex_around 1 11 2 1 1 COUNTERCLOCKWISE) = false /\
  radial_less (ex_around 5 14 (-1) 0 4 CLOCKWISE) (ex_around 6 15 0 (-1) 6 CLOCKWISE) = true.
Proof.
  split; [|repeat split].
  split.
  - intros f Hf. simpl in Hf. repeat (destruct Hf as [<-|Hf]; [reflexivity|]). contradiction.
  - intros f g Hf Hg. simpl in Hf, Hg.
    repeat (destruct Hf as [<-|Hf]; [repeat (destruct Hg as [<-|Hg]; [intros E; (reflexivity || discriminate E)|]); contradiction|]).
    contradiction.
Qed.

(** Around an edge with direction [nv], with [u] orthogonal to [nv] and
    [v = nv x u]: a point [y] comes after face pqr (within half a turn) iff it
    is on the positive side of its plane.  This is why [solid_wedges] puts the
    inside of a counter-clockwise face before it. *)
Theorem C13_outside_is_after :
  forall p q r y u : vec3, let nv := vsub q p in
  (vdot u nv == 0)%Q -> (0 < vdot u u)%Q ->
  let v := vcross nv u in
  let proj x := (vdot (vsub x p) u, vdot (vsub x p) v) in
  ((0 < det2 (proj r) (proj y))%Q <-> (0 < vdot (vcross (vsub q p) (vsub r p)) (vsub y p))%Q).
Proof.
  intros p q r y u nv H Hu v proj. unfold proj, v. rewrite (side_identity nv (vsub r p) (vsub y p) u H).
  fold nv. set (X := vdot (vcross nv (vsub r p)) (vsub y p)). split; intros K.
  - destruct (Qlt_le_dec 0 X); auto. exfalso.
    assert (vdot u u * X <= 0)%Q by nra. lra.
  - now apply Qmult_lt_0_compat.
Qed.
Print Assumptions C13_outside_is_after.

(** C13 for the faces around one edge: any number of faces in radial order, in
    any order among coinciding faces, any previous tags that are true.  All
    tags are true afterwards, coinciding faces are tagged, no tag is lost, and
    if two adjacent non-overlapping faces have equal orientation all faces are
    tagged. *)
Theorem C13_tags_are_true :
  forall (D : Type) (fs : list around) (left : nat -> bool) (inside : bool -> nat -> bool)
         (ds : list (mixed_data D)),
  NoDup (map fi fs) ->
  same_edge (fun f => In f fs) -> radially_sorted fs ->
  solid_wedges left fs inside -> no_duplicates left fs -> no_partial_overlap fs ->
  (forall f, In f fs -> fi f < length ds) ->
  (forall i f t, nth_error fs i = Some f -> has_tag ds (fi f) t -> t = UNKNOWN \/ true_tag left fs inside i t) ->
  exists ds', tag_around fs ds = Ok ds' /\ only_tags_of (map fi fs) ds ds' /\
    (forall i f t, nth_error fs i = Some f -> has_tag ds' (fi f) t -> t = UNKNOWN \/ true_tag left fs inside i t) /\
    (forall i f, nth_error fs i = Some f -> has_tag ds' (fi f) UNKNOWN -> has_tag ds (fi f) UNKNOWN) /\
    (forall i f, nth_error fs i = Some f -> overlapping fs i -> ~ has_tag ds' (fi f) UNKNOWN) /\
    (forall i, i < length fs -> ~ overlapping fs i -> ~ overlapping fs (next_pos (length fs) i) -> equally_oriented fs i ->
       forall j f, nth_error fs j = Some f -> ~ has_tag ds' (fi f) UNKNOWN).
Proof.
  intros D fs left inside ds H1 H2 H3 H4 H5 H6 H7 H8.
  exact (wedges_correct D fs H1 left inside H2 H3 H4 H5 H6 ds H7 H8).
Qed.
Print Assumptions C13_tags_are_true.

(** C13 for the whole operator on a finalized mesh: [truth] is any assignment
    of tags that is the same on both sides of every non-border edge and agrees
    with the wedges around the edge [ab].  If all tags are UNKNOWN or true
    before, they are after; nothing else changes; there is no warning and no
    exception. *)
Theorem C13_local_classification_sound :
  forall (D : Type) (ps : list vec3) (faces : list face) (ds : list (mixed_data D)) (a b : nat) (pa pb : vec3)
         (base1 base2 : vec3 -> vec3) (sort : list around -> list around) (border : list edge)
         (truth : nat -> face_tag),
  let m := finalize (mesh_of ps faces ds) in
  let u := base1 (vsub pb pa) in
  let v := base2 (vsub pb pa) in
  wf_mixed_mesh m -> a <> b ->
  plane_bases base1 base2 -> sorts sort ->
  nth_error ps a = Some pa -> nth_error ps b = Some pb ->
  within_used faces a -> within_used faces b ->
  (forall g t r pr, nth_error faces g = Some t -> rotation t a b r \/ rotation t b a r ->
     nth_error ps r = Some pr -> not_collinear pa pb pr) ->
  (forall f g, neighbour faces border f g -> truth f = truth g) ->
  sound truth m ->
  (forall fs, arrangement m a b u v fs -> exists inside, solid_edge (operand_of m) truth fs inside) ->
  exists m',
    classify_locally base1 base2 sort m (a, b) border = Ok (m', mk_warnings false false) /\
    m_points m' = m_points m /\ m_faces m' = m_faces m /\ length (m_data m') = length (m_data m) /\
    (forall g d, nth_error (m_data m) g = Some d -> exists d', nth_error (m_data m') g = Some d' /\
       from_left d' = from_left d /\ data d' = data d /\ (tag d <> UNKNOWN -> d' = d)) /\
    sound truth m' /\
    (forall fs, arrangement m a b u v fs ->
       (forall f i, nth_error fs i = Some f -> overlapping fs i -> ~ tagged m' (fi f) UNKNOWN)) /\
    (exists fs, arrangement m a b u v fs /\
       ((exists i, i < length fs /\ ~ overlapping fs i /\ ~ overlapping fs (next_pos (length fs) i) /\ equally_oriented fs i) ->
        forall g, incident (m_faces m) g a -> incident (m_faces m) g b -> ~ tagged m' g UNKNOWN)).
Proof.
  intros D ps faces ds a b pa pb base1 base2 sort border truth m u v HW Hab HB HS Hpa Hpb Hua Hub Hcol Hc Hso Hsol.
  assert (Em : m_points m = ps /\ m_faces m = faces).
  { unfold m, finalize. cbn [m_points m_faces mesh_of]. now destruct (fold_left _ _ _) as [[[? ?] ?] ?]. }
  destruct Em as (Ep & Ef).
  apply (classify_edge D m a b base1 base2 sort) with (pa := pa) (pb := pb) (left := operand_of m);
    rewrite ?Ep, ?Ef; auto.
  apply finalized_finalize.
Qed.
Print Assumptions C13_local_classification_sound.

(** C14.  For every arrangement and every assignment of tags (consistent with
    solids or not): the operator succeeds and changes tags only;
    - outside the coinciding and equally oriented pairs, determined tags stay;
    - if the final tags contradict each other when carried around the edge,
      UNKNOWN tags outside those pairs stay too;
    - coinciding faces get COPLANAR/OPPOSITE by one of their pairs;
    - no other face gets COPLANAR/OPPOSITE;
    - an equally oriented pair without those tags has EXTERIOR/INTERIOR tags,
      and if there is one and no contradiction, nothing stays UNKNOWN. *)
Theorem C14_no_guess_on_contradiction :
  forall (D : Type) (fs : list around) (ds : list (mixed_data D)),
  NoDup (map fi fs) -> (forall f, In f fs -> fi f < length ds) ->
  let n := length fs in
  exists ds', tag_around fs ds = Ok ds' /\ only_tags_of (map fi fs) ds ds' /\
    (forall i f t, nth_error fs i = Some f -> has_tag ds (fi f) t -> t <> UNKNOWN ->
       ~ in_pair (coincide fs) n i -> ~ in_pair (equally_oriented fs) n i -> has_tag ds' (fi f) t) /\
    (contradiction fs ds' ->
       forall i f t, nth_error fs i = Some f -> has_tag ds (fi f) t ->
         ~ in_pair (coincide fs) n i -> ~ in_pair (equally_oriented fs) n i -> has_tag ds' (fi f) t) /\
    (forall i f, nth_error fs i = Some f -> in_pair (coincide fs) n i ->
       exists j, coincide fs j /\ (i = j \/ i = next_pos n j) /\
         (equally_oriented fs j -> has_tag ds' (fi f) COPLANAR) /\
         (~ equally_oriented fs j -> has_tag ds' (fi f) OPPOSITE)) /\
    (forall i f, nth_error fs i = Some f -> in_pair (coincide fs) n i \/
       exists t, has_tag ds (fi f) t /\
         (t <> COPLANAR -> t <> OPPOSITE -> exists t', has_tag ds' (fi f) t' /\ (t' = UNKNOWN \/ side_tag t'))) /\
    (forall i f g t t', nth_error fs i = Some f -> nth_error fs (next_pos n i) = Some g -> orient f = orient g ->
       has_tag ds' (fi f) t -> has_tag ds' (fi g) t' ->
       t <> COPLANAR -> t <> OPPOSITE -> t' <> COPLANAR -> t' <> OPPOSITE ->
       side_tag t /\ side_tag t' /\
       (~ contradiction fs ds' -> forall j h, nth_error fs j = Some h -> ~ has_tag ds' (fi h) UNKNOWN)).
Proof.
  intros D fs ds H1 H2 n. exact (arbitrary_arrangement D fs H1 ds H2).
Qed.
Print Assumptions C14_no_guess_on_contradiction.

(** Two equally oriented faces and a third one: going around changes the side
    an odd number of times, so the third face is left alone. *)
Definition odd_edge : list around :=
  [ex_around 0 10 1 0 0 COUNTERCLOCKWISE; ex_around 1 11 0 1 2 COUNTERCLOCKWISE; ex_around 2 12 (-1) 0 4 CLOCKWISE].

Example C14_example :
  NoDup (map fi odd_edge) /\
  tag_around odd_edge [mk_mixed true UNKNOWN 0; mk_mixed true UNKNOWN 1; mk_mixed false UNKNOWN 2]
    = Ok [mk_mixed true INTERIOR 0; mk_mixed true EXTERIOR 1; mk_mixed false UNKNOWN 2].
Proof. split; [repeat constructor; simpl; intuition discriminate|reflexivity]. Qed.

(** *** Two half spaces crossing at an edge
    The first operand occupies the angles from 0 to 180 degrees, the second
    those from 90 to 270 degrees. *)
Definition qv (x y z : Z) : vec3 := (inject_Z x, inject_Z y, inject_Z z).
Definition cross_points : list vec3 :=
  [qv 0 0 0; qv 0 0 1; qv 2 0 0; qv 0 3 0; qv (-1) 0 0; qv 0 (-1) 1].
Definition cross_faces : list face := [(0, 1, 4); (1, 0, 2); (3, 1, 0); (1, 5, 0)].
Definition cross_data : list (mixed_data nat) :=
  [mk_mixed true UNKNOWN 7; mk_mixed true UNKNOWN 8; mk_mixed false UNKNOWN 9; mk_mixed false EXTERIOR 10].
Definition cross_mesh : mesh vec3 (mixed_data nat) := finalize (mesh_of cross_points cross_faces cross_data).
Definition cross_truth (g : nat) : face_tag :=
  match g with 0 => INTERIOR | 1 => EXTERIOR | 2 => INTERIOR | _ => EXTERIOR end.

Definition ex_base1 (n : vec3) : vec3 :=
  if Qeq_bool (vx n) 0 && Qeq_bool (vy n) 0 then qv 1 0 0 else (vy n, Qopp (vx n), 0%Q).
Definition ex_base2 (n : vec3) : vec3 := vcross n (ex_base1 n).

Lemma ex_bases : plane_bases ex_base1 ex_base2.
Proof.
  intros [[x y] z] H. split; [|split; [|reflexivity]].
  - unfold ex_base1. cbn [vx vy vz fst snd]. destruct (Qeq_bool x 0 && Qeq_bool y 0) eqn:E.
    + apply andb_true_iff in E. destruct E as (E1 & E2). apply Qeq_bool_iff in E1, E2.
      unfold vdot, qv, vx, vy, vz. cbn [fst snd]. rewrite E1, E2. cbn [inject_Z]. ring.
    + unfold vdot, vx, vy, vz. cbn [fst snd]. ring.
  - unfold ex_base1. cbn [vx vy vz fst snd]. destruct (Qeq_bool x 0 && Qeq_bool y 0) eqn:E.
    + reflexivity.
    + unfold vdot, vx, vy, vz. cbn [fst snd].
      assert (Hn : ~ (x == 0)%Q \/ ~ (y == 0)%Q).
      { apply andb_false_iff in E. destruct E as [E|E]; apply Qeq_bool_neq in E; auto. }
      assert (S1 : forall t : Q, (0 <= t * t)%Q) by (intros; nra).
      assert (S2 : forall t : Q, ~ (t == 0)%Q -> (0 < t * t)%Q).
      { intros t Ht. destruct (Q_dec t 0) as [[K|K]|K]; [nra|nra|contradiction]. }
      pose proof (S1 x). pose proof (S1 y). destruct Hn as [Hn|Hn]; pose proof (S2 _ Hn); nra.
Qed.

Fixpoint ex_insert (f : around) (l : list around) : list around :=
  match l with
  | [] => [f]
  | g :: r => if radial_less g f then g :: ex_insert f r else f :: l
  end.
Definition ex_sort (l : list around) : list around := fold_right ex_insert [] l.

Lemma ex_insert_perm : forall f l, Permutation (f :: l) (ex_insert f l).
Proof.
  induction l as [|g r IH]; simpl; auto. destruct (radial_less g f); auto.
  rewrite perm_swap. now constructor.
Qed.
Lemma ex_sort_perm : forall l, Permutation l (ex_sort l).
Proof. induction l; simpl; auto. rewrite <- ex_insert_perm. now constructor. Qed.

Lemma sorted_cons : forall f l, (forall g, In g l -> radial_less g f = false) -> radially_sorted l -> radially_sorted (f :: l).
Proof.
  intros f l H Hl i j x y Hij Hx Hy. destruct j as [|j]; [lia|]. destruct i as [|i].
  - simpl in Hx, Hy. injection Hx as <-. apply H. now apply nth_error_In with j.
  - simpl in Hx, Hy. apply (Hl i j); auto. lia.
Qed.
Lemma sorted_inv : forall f l, radially_sorted (f :: l) -> (forall g, In g l -> radial_less g f = false) /\ radially_sorted l.
Proof.
  intros f l H. split.
  - intros g Hg. apply In_nth_error in Hg. destruct Hg as (j & Hj). apply (H 0 (S j)); simpl; auto. lia.
  - intros i j x y Hij Hx Hy. apply (H (S i) (S j)); auto. lia.
Qed.

Lemma less_total : forall S, same_edge S -> forall f g h, S f -> S g -> S h ->
  radial_less g f = false -> radial_less h g = false -> radial_less h f = false.
Proof.
  intros S HS f g h Hf Hg Hh H1 H2.
  destruct (radial_less h f) eqn:E; auto. exfalso.
  destruct (radial_less f g) eqn:E1.
  - rewrite (radial_trans S HS h f g) in H2; auto. discriminate.
  - destruct (radial_less g h) eqn:E2.
    + rewrite (radial_trans S HS g h f) in H1; auto. discriminate.
    + destruct (incomparable_trans S HS f g h) as (_ & Q); auto; try (split; auto). congruence.
Qed.

Lemma ex_sorts : sorts ex_sort.
Proof.
  intros l HS. split; [apply ex_sort_perm|].
  assert (G : forall l', (forall x, In x l' -> In x l) -> radially_sorted (ex_sort l')).
  { induction l' as [|f r IH]; intros Hin.
    - intros i j x y _ Hx. destruct i; discriminate.
    - simpl. specialize (IH (fun x Hx => Hin x (or_intror Hx))).
      assert (Hr : forall x, In x (ex_sort r) -> In x l).
      { intros x Hx. apply Hin. right. now apply (Permutation_in _ (Permutation_sym (ex_sort_perm r))). }
      assert (Hf : In f l) by (apply Hin; now left).
      clear Hin. induction (ex_sort r) as [|g s IHs]; simpl.
      + apply sorted_cons; [intros g []|]. intros i j x y _ Hx. destruct i; discriminate.
      + apply sorted_inv in IH. destruct IH as (I1 & I2).
        destruct (radial_less g f) eqn:E.
        * apply sorted_cons.
          -- intros h Hh. apply (Permutation_in _ (Permutation_sym (ex_insert_perm f s))) in Hh.
             destruct Hh as [<-|Hh]; auto.
             destruct (radial_less f g) eqn:E'; auto.
             assert (K : radial_less g g = true) by (apply (radial_trans _ HS g f g); auto; apply Hr; now left).
             rewrite (radial_irrefl (fun f => In f l)) in K; [discriminate|]. apply Hr. now left.
          -- apply IHs; auto. intros x Hx. apply Hr. now right.
        * apply sorted_cons; [|now apply sorted_cons]. intros h [<-|Hh]; auto.
          apply (less_total _ HS f g h); auto; apply Hr; [now left|now right]. }
  apply G. auto.
Qed.

(** A sorted list of pairwise different directions is determined by its
    elements. *)
Lemma sorted_unique : forall l l', Permutation l l' ->
  (forall f g, In f l -> In g l -> radial_less f g = false -> radial_less g f = false -> f = g) ->
  radially_sorted l -> radially_sorted l' -> l = l'.
Proof.
  induction l as [|f l IH]; intros l' HP Hd H1 H2.
  - apply Permutation_nil in HP. auto.
  - destruct l' as [|g l']; [apply Permutation_sym, Permutation_nil in HP; discriminate|].
    apply sorted_inv in H1, H2. destruct H1 as (A1 & B1), H2 as (A2 & B2).
    assert (E : f = g).
    { assert (If : In f (g :: l')) by (apply (Permutation_in _ HP); now left).
      assert (Ig : In g (f :: l)) by (apply (Permutation_in _ (Permutation_sym HP)); now left).
      destruct If as [->|If]; auto. destruct Ig as [->|Ig]; auto.
      apply Hd; [now left|now right|auto|auto]. }
    subst g. f_equal. apply IH; auto.
    + now apply Permutation_cons_inv in HP.
    + intros x y Hx Hy. apply Hd; now right.
Qed.

Definition cross_list : list around :=
  [ex_around 1 2 2 0 0 CLOCKWISE; ex_around 2 3 0 3 2 CLOCKWISE;
   ex_around 0 4 (-1) 0 4 COUNTERCLOCKWISE; ex_around 3 5 0 (-1) 6 COUNTERCLOCKWISE].

Lemma cross_arrangement : forall fs,
  arrangement cross_mesh 0 1 (ex_base1 (vsub (qv 0 0 1) (qv 0 0 0))) (ex_base2 (vsub (qv 0 0 1) (qv 0 0 0))) fs ->
  fs = cross_list.
Proof.
  intros fs (A1 & A2 & A3 & A4).
  set (u := ex_base1 _) in *. set (v := ex_base2 _) in *. vm_compute in u, v.
  assert (Hel : forall f, In f fs -> In f cross_list).
  { intros f Hf. destruct (A3 f Hf) as (t & p & r & C1 & C2 & C3 & C4 & C5 & C6).
    unfold cross_mesh in C1, C3, C4. unfold rotation in C2.
    destruct f as [fi0 vr ruv bin o]. cbn [fi vi_r r_uv radial_bin orient] in *.
    change (nth_error cross_faces fi0 = Some t) in C1.
    change (nth_error cross_points 0 = Some p) in C3. injection C3 as <-.
    change (nth_error cross_points vr = Some r) in C4.
    destruct fi0 as [|[|[|[|k]]]]; [| | | |destruct k; discriminate C1];
      injection C1 as <-;
      destruct C2 as [(-> & [C2|[C2|C2]])|(-> & [C2|[C2|C2]])]; try discriminate C2; injection C2 as <-;
      injection C4 as <-; vm_compute in C5; subst ruv; vm_compute in C6; injection C6 as <-; simpl; tauto. }
  assert (Hnd : NoDup fs) by (now apply NoDup_map_inv in A1).
  assert (Hlen : forall f, In f cross_list -> In f fs).
  { assert (Hfi : forall g, g < 4 -> In g (map fi fs)).
    { intros g Hg. apply A2.
      change (incident cross_faces g 0 /\ incident cross_faces g 1).
      destruct g as [|[|[|[|k]]]]; try lia; (split; [eexists; split; [reflexivity|simpl; tauto]|eexists; split; [reflexivity|simpl; tauto]]). }
    intros f Hf. assert (Hg : fi f < 4). { simpl in Hf. repeat (destruct Hf as [<-|Hf]; [simpl; lia|]). contradiction. }
    specialize (Hfi _ Hg). apply in_map_iff in Hfi. destruct Hfi as (f' & E & Hf').
    specialize (Hel f' Hf') as Hel'. replace f with f'; auto.
    simpl in Hf, Hel'.
    repeat (destruct Hf as [<-|Hf]; [repeat (destruct Hel' as [<-|Hel']; [try reflexivity; discriminate E|]); contradiction|]).
    contradiction. }
  symmetry. apply sorted_unique; auto.
  - apply NoDup_Permutation; auto. repeat constructor; simpl; intuition discriminate.
    intros x. split; auto.
  - intros f g Hf Hg. simpl in Hf, Hg.
    repeat (destruct Hf as [<-|Hf]; [repeat (destruct Hg as [<-|Hg]; [vm_compute; intros; (reflexivity || discriminate)|]); contradiction|]).
    contradiction.
  - unfold cross_list. repeat (apply sorted_cons; [intros g Hg; simpl in Hg; repeat (destruct Hg as [<-|Hg]; [reflexivity|]); contradiction|]).
    intros i j x y _ Hx. destruct i; discriminate.
Qed.

(** The sectors: after angle 0, 90, 180 and 270 degrees. *)
Definition cross_inside (first : bool) (i : nat) : bool :=
  if first then match i with 0 | 1 => true | _ => false end
  else match i with 1 | 2 => true | _ => false end.

Lemma cross_no_overlap : forall i, ~ overlapping cross_list i.
Proof.
  intros i (f & j & g & A & B & C & E).
  assert (Hi : i < 4) by (change 4 with (length cross_list); apply nth_error_Some; congruence).
  assert (Hj : j < 4) by (change 4 with (length cross_list); apply nth_error_Some; congruence).
  destruct i as [|[|[|[|i]]]]; try lia; destruct j as [|[|[|[|j]]]]; try lia;
    simpl in A, C; injection A as <-; injection C as <-; simpl in E; try discriminate E; congruence.
Qed.

Lemma cross_solid : solid_edge (operand_of cross_mesh) cross_truth cross_list cross_inside.
Proof.
  split; [|split; [|split]].
  - intros i f Hf. destruct i as [|[|[|[|i]]]]; simpl in Hf; [| | | |destruct i; discriminate];
      injection Hf as <-; vm_compute; auto.
  - intros i j f g Hij Hf Hg E. exfalso. apply (cross_no_overlap i). exists f, j, g. auto.
  - intros f g Hf Hg Hsd. destruct Hsd as (l & H1 & H2 & H3). simpl in Hf, Hg.
    repeat (destruct Hf as [<-|Hf]; [repeat (destruct Hg as [<-|Hg];
      [try reflexivity; exfalso; unfold ex_around, inject_Z in *; simpl in H2, H3; lra|]); contradiction|]).
    contradiction.
  - intros i f t Hf [(f1 & j & g & B1 & B2 & B3 & B4 & _)|(f1 & B1 & _ & B2 & B3)].
    + exfalso. apply (cross_no_overlap i). exists f1, j, g. auto.
    + assert (f1 = f) by congruence. subst f1.
      destruct i as [|[|[|[|i]]]]; simpl in Hf; [| | | |destruct i; discriminate]; injection Hf as <-;
        vm_compute in B2, B3; (apply B2; reflexivity) || (apply B3; reflexivity).
Qed.

Example C13_example :
  wf_mixed_mesh cross_mesh /\ plane_bases ex_base1 ex_base2 /\ sorts ex_sort /\
  (forall f g, neighbour cross_faces [(0, 1)] f g -> cross_truth f = cross_truth g) /\
  sound cross_truth cross_mesh /\
  (forall fs, arrangement cross_mesh 0 1 (ex_base1 (vsub (qv 0 0 1) (qv 0 0 0))) (ex_base2 (vsub (qv 0 0 1) (qv 0 0 0))) fs ->
     exists inside, solid_edge (operand_of cross_mesh) cross_truth fs inside) /\
  exists m', classify_locally ex_base1 ex_base2 ex_sort cross_mesh (0, 1) [(0, 1)] = Ok (m', no_warnings) /\
    m_data m' = [mk_mixed true INTERIOR 7; mk_mixed true EXTERIOR 8; mk_mixed false INTERIOR 9; mk_mixed false EXTERIOR 10].
Proof.
  split; [|split; [|split; [|split; [|split; [|split]]]]].
  - unfold wf_mixed_mesh. split; [vm_compute; reflexivity|]. split; vm_compute; repeat constructor; discriminate.
  - exact ex_bases.
  - exact ex_sorts.
  - intros f g (x & y & (t & Ht & Hs) & (t1 & Ht1 & H1) & (t2 & Ht2 & H2) & Hb).
    assert (t2 = t1) by congruence. subst t2.
    destruct f as [|[|[|[|k]]]]; [| | | |destruct k; discriminate Ht]; injection Ht as <-;
    (destruct g as [|[|[|[|k]]]]; [| | | |destruct k; discriminate Ht1]; injection Ht1 as <-); try reflexivity;
    simpl in Hs, H1, H2; exfalso; apply Hb;
    destruct Hs as [(-> & ->)|[(-> & ->)|(-> & ->)]]; simpl; try (left; reflexivity); exfalso; lia.
  - intros g t (d & Hd & <-). destruct g as [|[|[|[|k]]]]; try (vm_compute in Hd; injection Hd as <-; simpl; auto; fail).
    exfalso. assert (K : S (S (S (S k))) < length (m_data cross_mesh)) by (apply nth_error_Some; congruence).
    vm_compute in K. lia.
  - intros fs Hfs. exists cross_inside. rewrite (cross_arrangement fs Hfs). exact cross_solid.
  - eexists. split; vm_compute; reflexivity.
Qed.
