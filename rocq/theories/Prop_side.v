(** * C24: the side of a point *)
From Coq Require Import List Arith Bool QArith Qminmax Lqa Lia Permutation.
From Verif Require Import Model_base Proof_base Model_soup Model_geometry Model_aabb Model_forkjoin Model_classify.
From Verif Require Import Model_candidates Spec_aabb Spec_candidates Proof_aabb Proof_forkjoin Prop_aabb.
From Verif Require Import Proof_pairs Model_side Spec_side Spec_open Proof_affine Proof_side Proof_probe Proof_side_in Proof_clip.
Import ListNotations.
Local Open Scope Q_scope.

(** Whatever the tree looks like and whichever ray decides, the answer is the
    membership of the point. *)
Theorem C24_side_is_membership : forall D (m : soup vec3 D) inside pbox longest_axis sort_by nth_element_by
    ray_triangle ray_meets_box partial_sort2 t p s,
  rearranges sort_by nth_element_by -> (forall x, in_box x (pbox x)) ->
  exact_intersection ray_triangle -> sound_box_test ray_meets_box -> sorts_two partial_sort2 ->
  proper_faces m -> bounds m inside ->
  aabb_tree pbox longest_axis sort_by nth_element_by m t ->
  side_of_triangle_soup ray_triangle ray_meets_box partial_sort2 m t p = Ok s ->
  (s = ON_BOUNDARY <-> on_boundary m p) /\
  (s = NEGATIVE_SIDE <-> ~ on_boundary m p /\ inside p) /\
  (s = POSITIVE_SIDE <-> ~ on_boundary m p /\ ~ inside p).
Proof.
  intros D m inside pbox la sb ne rt rm ps t p s Hre Hpb Hrt Hrm Hps Hp Hb Ht Hs.
  exact (side_in all_space m inside pbox la sb ne rt rm ps Hre Hpb Hrt Hrm Hps all_convex Hp (bounds_all m inside Hb)
    (fun _ _ _ _ _ _ _ => I) t p Ht I s Hs).
Qed.
Print Assumptions C24_side_is_membership.

(** It fails only if there is no face, or if the ray to the centroid of every face
    first meets two faces at the same point; there is no other exception. *)
Theorem C24_gives_up_only_if_ambiguous : forall D (m : soup vec3 D) inside pbox longest_axis sort_by
    nth_element_by ray_triangle ray_meets_box partial_sort2 t p,
  rearranges sort_by nth_element_by -> (forall x, in_box x (pbox x)) ->
  exact_intersection ray_triangle -> sound_box_test ray_meets_box -> sorts_two partial_sort2 ->
  proper_faces m -> bounds m inside ->
  aabb_tree pbox longest_axis sort_by nth_element_by m t ->
  (exists s, side_of_triangle_soup ray_triangle ray_meets_box partial_sort2 m t p = Ok s) \/
  (side_of_triangle_soup ray_triangle ray_meets_box partial_sort2 m t p = Throw RuntimeError /\
   forall fi, (fi < num_faces m)%nat -> ambiguous m p fi).
Proof.
  intros D m inside pbox la sb ne rt rm ps t p Hre Hpb Hrt Hrm Hps Hp Hb Ht.
  exact (gives_up_ambiguous all_space m inside pbox la sb ne rt rm ps Hre Hpb Hrt Hrm Hps all_convex Hp (bounds_all m inside Hb)
    (fun _ _ _ _ _ _ _ => I) t p Ht I).
Qed.
Print Assumptions C24_gives_up_only_if_ambiguous.

(** Region::bounded_side, for a region with a boundary. *)
Theorem C24_bounded_side : forall D (r : region vec3 D) inside pbox longest_axis sort_by nth_element_by
    ray_triangle ray_meets_box partial_sort2 t p v,
  rearranges sort_by nth_element_by -> (forall x, in_box x (pbox x)) ->
  exact_intersection ray_triangle -> sound_box_test ray_meets_box -> sorts_two partial_sort2 ->
  kind r = BOUNDARY_DEFINED -> proper_faces (boundary r) -> bounds (boundary r) inside ->
  aabb_tree pbox longest_axis sort_by nth_element_by (boundary r) t ->
  bounded_side ray_triangle ray_meets_box partial_sort2 r t p = Ok v ->
  (v = ON_BOUNDARY_SIDE <-> on_boundary (boundary r) p) /\
  (v = ON_BOUNDED_SIDE <-> ~ on_boundary (boundary r) p /\ inside p) /\
  (v = ON_UNBOUNDED_SIDE <-> ~ on_boundary (boundary r) p /\ ~ inside p).
Proof.
  intros D r inside pbox la sb ne rt rm ps t p v Hre Hpb Hrt Hrm Hps Hk Hp Hb Ht Hv.
  unfold bounded_side, is_empty, is_full in Hv. rewrite Hk in Hv. cbn [region_kind_eqb] in Hv.
  destruct (side_of_triangle_soup rt rm ps (boundary r) t p) as [s | e | ] eqn:Es; cbn [bind] in Hv;
    [ | discriminate | discriminate ].
  injection Hv as <-.
  destruct (C24_side_is_membership _ _ _ _ _ _ _ _ _ _ _ _ _ Hre Hpb Hrt Hrm Hps Hp Hb Ht Es) as (A & B & C).
  destruct s; intuition congruence.
Qed.
Print Assumptions C24_bounded_side.

(** The empty region contains no point, the full region every point, whatever is
    stored as their boundary. *)
Theorem C24_empty_full : forall D (r : region vec3 D) ray_triangle ray_meets_box partial_sort2 t p,
  (kind r = EMPTY -> bounded_side ray_triangle ray_meets_box partial_sort2 r t p = Ok ON_UNBOUNDED_SIDE) /\
  (kind r = FULL -> bounded_side ray_triangle ray_meets_box partial_sort2 r t p = Ok ON_BOUNDED_SIDE).
Proof.
  intros D r rt rm ps t p. unfold bounded_side, is_empty, is_full.
  split; intro E; rewrite E; reflexivity.
Qed.
Print Assumptions C24_empty_full.

(** ** A tetrahedron *)

Definition tetra : soup vec3 unit :=
  mk_soup [(0, 0, 0); (1, 0, 0); (0, 1, 0); (0, 0, 1)]
    [(0, 2, 1); (0, 1, 3); (0, 3, 2); (1, 2, 3)]%nat [tt; tt; tt; tt].
Definition in_tetra (x : vec3) : Prop := 0 < vx x /\ 0 < vy x /\ 0 < vz x /\ vx x + vy x + vz x < 1.

Lemma tetra_faces : forall fi a b c, soup_triangle tetra fi = Ok (a, b, c) ->
  (fi = 0%nat /\ (a, b, c) = ((0, 0, 0), (0, 1, 0), (1, 0, 0))) \/
  (fi = 1%nat /\ (a, b, c) = ((0, 0, 0), (1, 0, 0), (0, 0, 1))) \/
  (fi = 2%nat /\ (a, b, c) = ((0, 0, 0), (0, 0, 1), (0, 1, 0))) \/
  (fi = 3%nat /\ (a, b, c) = ((1, 0, 0), (0, 1, 0), (0, 0, 1))).
Proof.
  intros fi a b c H. do 4 (destruct fi as [ | fi]; [ injection H as <- <- <-; intuition congruence | ]).
  exfalso. unfold soup_triangle, soup_face, vec_at in H. cbn in H.
  destruct fi; discriminate.
Qed.

Lemma tetra_on : forall fi x, on_face tetra fi x <->
  (0 <= vx x /\ 0 <= vy x /\ 0 <= vz x /\ vx x + vy x + vz x <= 1) /\
  ((fi = 0%nat /\ vz x == 0) \/ (fi = 1%nat /\ vy x == 0) \/ (fi = 2%nat /\ vx x == 0) \/
   (fi = 3%nat /\ vx x + vy x + vz x == 1)).
Proof.
  intros fi x. split.
  - intros (a & b & c & E & (u & v & w & Hu & Hv & Hw & Hs & Hx & Hy & Hz)).
    apply tetra_faces in E.
    destruct E as [ [-> E] | [ [-> E] | [ [-> E] | [-> E] ] ] ]; injection E as -> -> ->;
      cbn [vx vy vz fst snd] in Hx, Hy, Hz; (split; [ repeat split; lra | ]).
    + left. split; [ reflexivity | lra ].
    + right; left. split; [ reflexivity | lra ].
    + right; right; left. split; [ reflexivity | lra ].
    + right; right; right. split; [ reflexivity | lra ].
  - intros [ (Hx & Hy & Hz & Hs) [ [-> E] | [ [-> E] | [ [-> E] | [-> E] ] ] ] ]; do 3 eexists;
      (split; [ reflexivity | ]).
    + exists (1 - vx x - vy x), (vy x), (vx x). cbn [vx vy vz fst snd] in *. repeat split; lra.
    + exists (1 - vx x - vz x), (vx x), (vz x). cbn [vx vy vz fst snd] in *. repeat split; lra.
    + exists (1 - vz x - vy x), (vz x), (vy x). cbn [vx vy vz fst snd] in *. repeat split; lra.
    + exists (vx x), (vy x), (vz x). cbn [vx vy vz fst snd] in *. repeat split; lra.
Qed.

Lemma tetra_open : forall fi x a b c, soup_triangle tetra fi = Ok (a, b, c) -> in_open_triangle x a b c ->
  (fi = 0%nat /\ vz x == 0 /\ 0 < vx x /\ 0 < vy x /\ vx x + vy x + vz x < 1) \/
  (fi = 1%nat /\ vy x == 0 /\ 0 < vx x /\ 0 < vz x /\ vx x + vy x + vz x < 1) \/
  (fi = 2%nat /\ vx x == 0 /\ 0 < vy x /\ 0 < vz x /\ vx x + vy x + vz x < 1) \/
  (fi = 3%nat /\ vx x + vy x + vz x == 1 /\ 0 < vx x /\ 0 < vy x /\ 0 < vz x).
Proof.
  intros fi x a b c E (u & v & w & Hu & Hv & Hw & Hs & Hx & Hy & Hz). apply tetra_faces in E.
  destruct E as [ [-> E] | [ [-> E] | [ [-> E] | [-> E] ] ] ]; injection E as -> -> ->;
      cbn [vx vy vz fst snd] in Hx, Hy, Hz.
  - left. repeat split; lra.
  - right; left. repeat split; lra.
  - right; right; left. repeat split; lra.
  - right; right; right. repeat split; lra.
Qed.

Example C24_tetra_proper : proper_faces tetra.
Proof.
  constructor.
  - repeat (apply Forall_cons; [ cbn; lia | ]); apply Forall_nil.
  - intros fi a b c E. apply tetra_faces in E.
    destruct E as [ [_ E] | [ [_ E] | [ [_ E] | [_ E] ] ] ]; injection E as -> -> ->;
      intros (X & Y & Z); vm_compute in X, Y, Z; congruence.
  - intros fi fj a b c x E Ho Hf. apply (tetra_open _ _ _ _ _ E) in Ho. apply tetra_on in Hf.
    destruct Hf as [ (Hx & Hy & Hz & Hs) Hf].
    destruct Ho as [ (-> & ? & ? & ? & ?) | [ (-> & ? & ? & ? & ?) | [ (-> & ? & ? & ? & ?) | (-> & ? & ? & ? & ?) ] ] ];
    destruct Hf as [ [-> Hf] | [ [-> Hf] | [ [-> Hf] | [-> Hf] ] ] ]; try reflexivity; exfalso; lra.
Qed.

(** Leaving the tetrahedron one meets a face. *)
Lemma leave : forall gs x y, Forall (fun g => 0 < aev g x) gs -> ~ Forall (fun g => 0 < aev g y) gs ->
  exists t, 0 <= t <= 1 /\ Forall (fun g => 0 <= aev g (along x t (vsub y x))) gs /\
    Exists (fun g => aev g (along x t (vsub y x)) == 0) gs.
Proof.
  intros gs x y Hx.
  assert (K : forall g t, aev g (along x t (vsub y x)) == (1 - t) * aev g x + t * aev g y).
  { intros g t. rewrite aev_along. unfold aev. rewrite vdot_vsub. ring. }
  induction gs as [ | g gs IH]; intro Hy; [ exfalso; apply Hy; constructor | ].
  inversion Hx as [ | ? ? Hg Hgs]; subst.
  assert (Hcase : {Forall (fun g => 0 < aev g y) gs} + {~ Forall (fun g => 0 < aev g y) gs}).
  { apply Forall_dec. intro h. destruct (Qlt_le_dec 0 (aev h y)); [ left | right ]; lra. }
  assert (Hex : aev g y <= 0 -> exists t, 0 <= t <= 1 /\ aev g (along x t (vsub y x)) == 0).
  { intro L. exists (aev g x / (aev g x - aev g y)). split.
    - split; [ apply Qle_shift_div_l; lra | apply Qle_shift_div_r; lra ].
    - rewrite K. field. lra. }
  destruct Hcase as [F | F].
  - assert (L : aev g y <= 0).
    { destruct (Qlt_le_dec 0 (aev g y)); [ | assumption ]. exfalso. apply Hy. constructor; assumption. }
    destruct (Hex L) as [t [Ht E] ]. exists t. split; [ exact Ht | ]. split; [ | left; exact E ].
    constructor; [ lra | ]. rewrite Forall_forall in *. intros h Hh.
    pose proof (Hgs h Hh) as H1. pose proof (F h Hh) as H2. cbv beta in H1, H2. rewrite K.
    assert (0 <= (1 - t) * aev h x) by (apply Qmult_le_0_compat; lra).
    assert (0 <= t * aev h y) by (apply Qmult_le_0_compat; lra). lra.
  - destruct (IH Hgs F) as (t & Ht & Hall & Hone).
    destruct (Qlt_le_dec (aev g (along x t (vsub y x))) 0) as [L | L].
    + assert (Ly : aev g y <= 0).
      { destruct (Qlt_le_dec 0 (aev g y)); [ | assumption ]. exfalso. rewrite K in L.
        assert (0 <= (1 - t) * aev g x) by (apply Qmult_le_0_compat; lra).
        assert (0 <= t * aev g y) by (apply Qmult_le_0_compat; lra). lra. }
      destruct (Hex Ly) as [s [Hs E] ]. exists s. split; [ exact Hs | ]. split; [ | left; exact E ].
      constructor; [ lra | ].
      assert (Hst : s <= t).
      { destruct (Qlt_le_dec t s) as [L' | L']; [ | exact L' ]. exfalso. rewrite K in L, E.
        assert (Z : 0 <= (s - t) * (aev g x - aev g y)) by (apply Qmult_le_0_compat; lra).
        assert (Y : (s - t) * (aev g x - aev g y) ==
          ((1 - t) * aev g x + t * aev g y) - ((1 - s) * aev g x + s * aev g y)) by ring. lra. }
      rewrite Forall_forall in *. intros h Hh. pose proof (Hgs h Hh) as H1. pose proof (Hall h Hh) as H2.
      cbv beta in H1, H2. rewrite K in *.
      destruct (Qlt_le_dec 0 (aev h y)) as [Q1 | Q1].
      * assert (0 <= (1 - s) * aev h x) by (apply Qmult_le_0_compat; lra).
        assert (0 <= s * aev h y) by (apply Qmult_le_0_compat; lra). lra.
      * assert (Z : 0 <= (t - s) * (aev h x - aev h y)) by (apply Qmult_le_0_compat; lra).
        assert (Y : (t - s) * (aev h x - aev h y) ==
          ((1 - s) * aev h x + s * aev h y) - ((1 - t) * aev h x + t * aev h y)) by ring. lra.
    + exists t. split; [ exact Ht | ]. split; [ constructor; assumption | right; exact Hone ].
Qed.

Definition tetra_cons : list aff :=
  [mk_aff (0, 0, 1) 0; mk_aff (0, 1, 0) 0; mk_aff (1, 0, 0) 0; mk_aff (-1, -1, -1) 1].

Lemma in_tetra_cons : forall x, in_tetra x <-> Forall (fun g => 0 < aev g x) tetra_cons.
Proof.
  intro x. unfold tetra_cons. rewrite !Forall_cons_iff. unfold in_tetra, aev, vdot. cbn [ak ac vx vy vz fst snd].
  split.
  - intros (A & B & C & E). repeat split; try lra. constructor.
  - intros (A & B & C & E & _). repeat split; lra.
Qed.

Lemma tetra_leave : forall x y, in_tetra x -> ~ in_tetra y -> exists z, in_segment z x y /\ on_boundary tetra z.
Proof.
  intros x y Hx Hy. rewrite in_tetra_cons in Hx, Hy.
  destruct (leave tetra_cons x y Hx Hy) as (t & Ht & Hall & Hone).
  exists (along x t (vsub y x)). split; [ exists t; split; [ exact Ht | apply same_refl ] | ].
  destruct (along x t (vsub y x)) as [ [zx zy] zz]. unfold tetra_cons in *.
  rewrite !Forall_cons_iff in Hall. rewrite !Exists_cons in Hone.
  unfold aev, vdot in Hall, Hone. cbn [ak ac vx vy vz fst snd] in Hall, Hone.
  destruct Hall as (A & B & C & E & _).
  assert (G : 0 <= zx /\ 0 <= zy /\ 0 <= zz /\ zx + zy + zz <= 1) by (repeat split; lra).
  destruct Hone as [H | [H | [H | [H | H] ] ] ]; [ exists 0%nat | exists 1%nat | exists 2%nat | exists 3%nat | inversion H ];
    apply tetra_on; (split; [ exact G | ]); cbn [vx vy vz fst snd].
  - left. split; [ reflexivity | lra ].
  - right; left. split; [ reflexivity | lra ].
  - right; right; left. split; [ reflexivity | lra ].
  - right; right; right. split; [ reflexivity | lra ].
Qed.

Lemma in_tetra_dec : forall x, {in_tetra x} + {~ in_tetra x}.
Proof.
  intro x. unfold in_tetra.
  destruct (Qlt_le_dec 0 (vx x)); [ | right; intros (? & ? & ? & ?); lra ].
  destruct (Qlt_le_dec 0 (vy x)); [ | right; intros (? & ? & ? & ?); lra ].
  destruct (Qlt_le_dec 0 (vz x)); [ | right; intros (? & ? & ? & ?); lra ].
  destruct (Qlt_le_dec (vx x + vy x + vz x) 1); [ left; tauto | right; intros (? & ? & ? & ?); lra ].
Qed.

Lemma stays_positive : forall x k : Q, 0 < x -> exists e, 0 < e /\ forall t, 0 < t -> t <= e -> 0 < x + t * k.
Proof.
  intros x k H. destruct (stays_negative (- x) (- k) ltac:(lra)) as (e & He & Hs).
  exists e. split; [ exact He | ]. intros t H1 H2. pose proof (Hs t H1 H2).
  assert (E : - x + t * - k == - (x + t * k)) by ring. lra.
Qed.

Example C24_tetra_bounds : bounds tetra in_tetra.
Proof.
  constructor.
  - assert (W : forall x y, (forall z, in_segment z x y -> ~ on_boundary tetra z) -> in_tetra x -> in_tetra y).
    { intros x y H Hx. destruct (in_tetra_dec y) as [Hy | Hy]; auto. exfalso.
      destruct (tetra_leave x y Hx Hy) as (z & Hz & Hb). exact (H z Hz Hb). }
    intros x y H. split; [ apply W; exact H | apply W ].
    intros z [t [Ht Hz] ]. apply H. exists (1 - t). split; [ lra | ].
    eapply same_trans; [ exact Hz | ]. unfold along, vsub. repeat split; cbn [vx vy vz fst snd]; ring.
  - intros fi a b c q v E Ho. assert (Ho' := Ho). apply (tetra_open _ _ _ _ _ E) in Ho'. apply tetra_faces in E.
    assert (G : forall g1 g2 g3 : Q, forall k1 k2 k3 : Q, 0 < g1 -> 0 < g2 -> 0 < g3 ->
      exists e, 0 < e /\ forall t, 0 < t < e -> 0 < g1 + t * k1 /\ 0 < g2 + t * k2 /\ 0 < g3 + t * k3).
    { intros g1 g2 g3 k1 k2 k3 H1 H2 H3. destruct (stays_positive g1 k1 H1) as (e1 & P1 & S1).
      destruct (stays_positive g2 k2 H2) as (e2 & P2 & S2). destruct (stays_positive g3 k3 H3) as (e3 & P3 & S3).
      exists (Qmin e1 (Qmin e2 e3)). split; [ repeat apply Q.min_glb_lt; assumption | ]. intros t [Ht Hl].
      pose proof (Q.le_min_l e1 (Qmin e2 e3)). pose proof (Q.le_min_r e1 (Qmin e2 e3)).
      pose proof (Q.le_min_l e2 e3). pose proof (Q.le_min_r e2 e3).
      repeat split; [ apply S1 | apply S2 | apply S3 ]; lra. }
    clear Ho. destruct q as [ [qx qy] qz], v as [ [wx wy] wz]. cbn [vx vy vz fst snd] in Ho'.
    assert (P : forall e k : Q, 0 < e -> 0 < k -> 0 < e * k) by (intros; apply Qmult_lt_0_compat; assumption).
    destruct E as [ [-> E] | [ [-> E] | [ [-> E] | [-> E] ] ] ]; injection E as -> -> ->;
      destruct Ho' as [ (F & ? & ? & ? & ?) | [ (F & ? & ? & ? & ?) | [ (F & ? & ? & ? & ?) | (F & ? & ? & ? & ?) ] ] ];
      try discriminate F; clear F.
    + destruct (G qx qy (1 - qx - qy - qz) wx wy (- wx - wy - wz)) as (e & He & Hg); try lra.
      exists e. split; [ exact He | ]. intros t Ht. destruct (Hg t Ht) as (A & B & C).
      unfold in_tetra, along, normal, vdot, vcross, vsub. cbn [vx vy vz fst snd].
      split; intro Hn.
      * pose proof (P t wz ltac:(lra) ltac:(lra)). repeat split; lra.
      * intros (_ & _ & Z & _). pose proof (P t (- wz) ltac:(lra) ltac:(lra)). lra.
    + destruct (G qx qz (1 - qx - qy - qz) wx wz (- wx - wy - wz)) as (e & He & Hg); try lra.
      exists e. split; [ exact He | ]. intros t Ht. destruct (Hg t Ht) as (A & B & C).
      unfold in_tetra, along, normal, vdot, vcross, vsub. cbn [vx vy vz fst snd].
      split; intro Hn.
      * pose proof (P t wy ltac:(lra) ltac:(lra)). repeat split; lra.
      * intros (_ & Z & _ & _). pose proof (P t (- wy) ltac:(lra) ltac:(lra)). lra.
    + destruct (G qy qz (1 - qx - qy - qz) wy wz (- wx - wy - wz)) as (e & He & Hg); try lra.
      exists e. split; [ exact He | ]. intros t Ht. destruct (Hg t Ht) as (A & B & C).
      unfold in_tetra, along, normal, vdot, vcross, vsub. cbn [vx vy vz fst snd].
      split; intro Hn.
      * pose proof (P t wx ltac:(lra) ltac:(lra)). repeat split; lra.
      * intros (Z & _ & _ & _). pose proof (P t (- wx) ltac:(lra) ltac:(lra)). lra.
    + destruct (G qx qy qz wx wy wz) as (e & He & Hg); try lra.
      exists e. split; [ exact He | ]. intros t Ht. destruct (Hg t Ht) as (A & B & C).
      unfold in_tetra, along, normal, vdot, vcross, vsub. cbn [vx vy vz fst snd].
      split; intro Hn.
      * pose proof (P t (- wx - wy - wz) ltac:(lra) ltac:(lra)). repeat split; lra.
      * intros (_ & _ & _ & Z). pose proof (P t (wx + wy + wz) ltac:(lra) ltac:(lra)). lra.
Qed.

(** The other hypotheses. *)
Fixpoint insert_q (x : Q * nat) (l : list (Q * nat)) : list (Q * nat) :=
  match l with
  | [] => [x]
  | y :: r => if Qle_bool (fst x) (fst y) then x :: y :: r else y :: insert_q x r
  end.
Definition sort_q (l : list (Q * nat)) : list (Q * nat) := fold_right insert_q [] l.

Lemma insert_q_perm : forall x l, Permutation (x :: l) (insert_q x l).
Proof.
  intros x l. induction l as [ | y l IH]; cbn [insert_q]; [ apply Permutation_refl | ].
  destruct (Qle_bool (fst x) (fst y)); [ apply Permutation_refl | ].
  eapply perm_trans; [ apply perm_swap | ]. apply perm_skip. exact IH.
Qed.

Inductive sorted_q : list (Q * nat) -> Prop :=
| sorted_nil : sorted_q []
| sorted_cons : forall x l, sorted_q l -> (forall y, In y l -> fst x <= fst y) -> sorted_q (x :: l).

Lemma insert_q_sorted : forall x l, sorted_q l -> sorted_q (insert_q x l).
Proof.
  intros x l H. induction H as [ | y l H IH Hy]; cbn [insert_q].
  - repeat constructor. intros y [].
  - destruct (Qle_bool (fst x) (fst y)) eqn:E.
    + apply Qle_bool_iff in E. constructor; [ constructor; assumption | ].
      intros z [<- | Hz]; [ exact E | ]. pose proof (Hy z Hz). lra.
    + assert (L : fst y < fst x).
      { apply Qnot_le_lt. intro L. apply Qle_bool_iff in L. congruence. }
      constructor; [ exact IH | ]. intros z Hz.
      apply (Permutation_in _ (Permutation_sym (insert_q_perm x l))) in Hz.
      destruct Hz as [<- | Hz]; [ lra | exact (Hy z Hz) ].
Qed.

Example C24_example_sorts : sorts_two sort_q.
Proof.
  intro l. split.
  - induction l as [ | x l IH]; [ constructor | ]. cbn [sort_q fold_right].
    eapply perm_trans; [ apply perm_skip; exact IH | apply insert_q_perm ].
  - assert (Hs : sorted_q (sort_q l)).
    { induction l as [ | x l IH]; [ constructor | ]. apply insert_q_sorted. exact IH. }
    intros x y r E. rewrite E in Hs. inversion Hs as [ | ? ? Hs' Hx]; subst.
    inversion Hs' as [ | ? ? _ Hy]; subst. split; [ apply Hx; left; reflexivity | exact Hy ].
Qed.

Example C24_example_box_test : sound_box_test (fun _ _ _ => true).
Proof. split; repeat intro; reflexivity. Qed.

Definition pt_box (p : vec3) : box := mk_box (vx p) (vy p) (vz p) (vx p) (vy p) (vz p).

(** Everything together: the tree of the tetrahedron, and what is answered for a
    point inside, one outside, one on a face and one at a corner. *)
Example C24_example :
  rearranges (fun _ (l : list (box * nat)) => l) (fun _ _ l => l) /\
  (forall x, in_box x (pt_box x)) /\ exact_intersection clip_ray /\
  exists t, aabb_tree pt_box (fun _ => 0%nat) (fun _ l => l) (fun _ _ l => l) tetra t /\
    map (side_of_triangle_soup clip_ray (fun _ _ _ => true) sort_q tetra t)
      [(1 # 10, 1 # 10, 1 # 5); (2, 3, 4); (1 # 4, 1 # 2, 0); (0, 0, 1)] =
    [Ok NEGATIVE_SIDE; Ok POSITIVE_SIDE; Ok ON_BOUNDARY; Ok ON_BOUNDARY].
Proof.
  assert (Hre : rearranges (fun _ (l : list (box * nat)) => l) (fun _ _ l => l)).
  { split; intros; apply Permutation_refl. }
  split; [ exact Hre | ]. split; [ intro x; repeat split; cbn; lra | ]. split; [ exact clip_ray_exact | ].
  pose (ls := map (fun fi => (the_box pt_box tetra fi, fi)) (seq 0 (num_faces tetra))).
  destruct (C23_can_be_built _ (@fst box nat) (fun _ => 0%nat) (fun _ l => l) (fun _ _ l => l) 1 ls) as [t Ht].
  exists t. split.
  - apply aabb_tree_intro with (limit := 1%nat) (ls := ls); [ | exact Ht ].
    apply leaves_ok. exact (pf_valid _ C24_tetra_proper).
  - destruct (steps_run _ _ _ apart (act_comm _ (@fst box nat) (fun _ => 0%nat) (fun _ l => l) (fun _ _ l => l) Hre) _ _ Ht
      (tree_program_separate 1 ls)) as [Er _]. cbn [fst snd run] in Er. rewrite Er.
    vm_compute. reflexivity.
Qed.

