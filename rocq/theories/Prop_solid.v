(** * C47: the result of a Boolean operation on two solids bounds the right set *)
From Coq Require Import List Arith QArith Lqa Lia Bool.
From Verif Require Import Model_base Model_soup Model_geometry Model_boolean Model_side.
From Verif Require Import Spec_aabb Spec_candidates Spec_side Spec_boolean Spec_solid Spec_open.
From Verif Require Import Proof_walk Proof_open Proof_solid Proof_unique Prop_side.
Import ListNotations.
Local Open Scope Q_scope.

(** [L] and [R] are the boundaries of the solids [A] and [B], and [m] is their mixed mesh:
    its faces are pieces of theirs, correctly tagged.  Then the operator never fails, and
    what it returns is the set that the operator denotes: the empty region if no point
    off the boundaries is in that set, the full region if every such point is, and
    otherwise a mesh that is again the boundary of a solid, which agrees with that set at
    every point off the boundaries of [A] and [B]. *)
Theorem C47_result_is_the_set : forall P D (d0 : D) (coords : P -> vec3) (L R : soup P D) A B (m : soup P (mixed_data D)) w op prefer_first,
  solid (located coords L) A -> solid (located coords R) B ->
  faces L <> [] -> faces R <> [] ->
  arranged (located coords L) (located coords R) A B (located coords m) ->
  exists r, run d0 (mk_builder BOUNDARY_DEFINED BOUNDARY_DEFINED m w) op prefer_first = Ok r /\
    match kind r with
    | EMPTY => forall x, ~ on_boundary (located coords L) x -> ~ on_boundary (located coords R) x -> ~ set_of op A B x
    | FULL => forall x, ~ on_boundary (located coords L) x -> ~ on_boundary (located coords R) x -> set_of op A B x
    | BOUNDARY_DEFINED => faces (boundary r) <> [] /\
        (forall x, on_boundary (located coords (boundary r)) x ->
           on_boundary (located coords L) x \/ on_boundary (located coords R) x) /\
        exists S, solid (located coords (boundary r)) S /\
          forall x, ~ on_boundary (located coords L) x -> ~ on_boundary (located coords R) x -> (S x <-> set_of op A B x)
    end.
Proof.
  intros P D d0 coords L R A B m w op pf SA SB NL NR AR.
  destruct (solid_result d0 coords L R A B m all_space all_space_open_convex (solid_all _ _ SA) (solid_all _ _ SB) NL NR AR op pf w) as (r & E & H).
  exists r. split; [ exact E | ]. destruct (kind r).
  - intros x. apply H. exact I.
  - intros x. apply H. exact I.
  - destruct H as (H1 & H2 & S & H3 & H4). split; [ exact H1 | ]. split; [ exact H2 | ]. exists S. split; [ apply all_solid, H3 | ]. intros x. apply H4. exact I.
Qed.
Print Assumptions C47_result_is_the_set.

(** A mesh with faces is the boundary of one solid only, up to points on the boundary: there
    is no choice in the set that a result represents. *)
Theorem C47_boundary_determines_the_set : forall P D (coords : P -> vec3) (m : soup P D) A B,
  wf_soup m -> faces m <> [] -> solid (located coords m) A -> solid (located coords m) B ->
  forall x, ~ on_boundary (located coords m) x -> (A x <-> B x).
Proof. intros P D coords m A B (Le & _) Ne SA SB. intro x. apply (boundary_determines coords m A B all_space all_space_open_convex (solid_all _ _ SA) (solid_all _ _ SB) Le Ne x I). Qed.
Print Assumptions C47_boundary_determines_the_set.

(** ** Two tetrahedra that share a face: one above the plane z = 0, its mirror image below *)
Definition mir (x : vec3) : vec3 := (vx x, vy x, - vz x).
Definition below : soup vec3 unit :=
  mk_soup [(0, 0, 0); (1, 0, 0); (0, 1, 0); (0, 0, -1)]
    [(0, 1, 2); (0, 3, 1); (0, 2, 3); (1, 3, 2)]%nat [tt; tt; tt; tt].
Definition in_below (x : vec3) : Prop := in_tetra (mir x).

Lemma below_faces : forall fi a b c, soup_triangle below fi = Ok (a, b, c) ->
  (fi = 0%nat /\ (a, b, c) = ((0, 0, 0), (1, 0, 0), (0, 1, 0))) \/
  (fi = 1%nat /\ (a, b, c) = ((0, 0, 0), (0, 0, -1), (1, 0, 0))) \/
  (fi = 2%nat /\ (a, b, c) = ((0, 0, 0), (0, 1, 0), (0, 0, -1))) \/
  (fi = 3%nat /\ (a, b, c) = ((1, 0, 0), (0, 0, -1), (0, 1, 0))).
Proof.
  intros fi a b c H. do 4 (destruct fi as [ | fi]; [ injection H as <- <- <-; intuition congruence | ]).
  exfalso. unfold soup_triangle, soup_face, vec_at in H. cbn in H.
  destruct fi; discriminate.
Qed.

(** The mirror image of a face. *)
Lemma below_mirror : forall fi a b c, soup_triangle below fi = Ok (a, b, c) ->
  exists a' b' c', soup_triangle tetra fi = Ok (a', b', c') /\ same a (mir a') /\ same b (mir c') /\ same c (mir b').
Proof.
  intros fi a b c H. apply below_faces in H.
  destruct H as [ [-> E] | [ [-> E] | [ [-> E] | [-> E] ] ] ]; injection E as -> -> ->; do 3 eexists;
    (split; [ reflexivity | ]); repeat split; reflexivity.
Qed.

Lemma tetra_mirror : forall fi a' b' c', soup_triangle tetra fi = Ok (a', b', c') ->
  exists a b c, soup_triangle below fi = Ok (a, b, c) /\ same a (mir a') /\ same b (mir c') /\ same c (mir b').
Proof.
  intros fi a b c H. apply tetra_faces in H.
  destruct H as [ [-> E] | [ [-> E] | [ [-> E] | [-> E] ] ] ]; injection E as -> -> ->; do 3 eexists;
    (split; [ reflexivity | ]); repeat split; reflexivity.
Qed.

Lemma mirror_on : forall a b c a' b' c' x, same a (mir a') -> same b (mir c') -> same c (mir b') ->
  (in_triangle x a b c <-> in_triangle (mir x) a' b' c') /\ (in_open_triangle x a b c <-> in_open_triangle (mir x) a' b' c').
Proof.
  intros a b c a' b' c' x (A1 & A2 & A3) (B1 & B2 & B3) (C1 & C2 & C3). unfold mir in *. cbn [vx vy vz fst snd] in *.
  split; split; intros (u & v & w & Hu & Hv & Hw & Hs & Hx & Hy & Hz); exists u, w, v; unfold mir in *; cbn [vx vy vz fst snd] in *;
    rewrite ?A1, ?A2, ?A3, ?B1, ?B2, ?B3, ?C1, ?C2, ?C3 in *; (repeat split; try assumption); lra.
Qed.

Lemma below_on : forall fi x, on_face below fi x <-> on_face tetra fi (mir x).
Proof.
  intros fi x. split.
  - intros (a & b & c & H & Ho). destruct (below_mirror fi a b c H) as (a' & b' & c' & H' & E1 & E2 & E3).
    exists a', b', c'. split; [ exact H' | ]. apply (mirror_on a b c a' b' c' x E1 E2 E3). exact Ho.
  - intros (a' & b' & c' & H & Ho). destruct (tetra_mirror fi a' b' c' H) as (a & b & c & H' & E1 & E2 & E3).
    exists a, b, c. split; [ exact H' | ]. apply (mirror_on a b c a' b' c' x E1 E2 E3). exact Ho.
Qed.

Lemma same_tetra : forall x y, same x y -> in_tetra x -> in_tetra y.
Proof. intros x y (E1 & E2 & E3). unfold in_tetra. rewrite E1, E2, E3. auto. Qed.

Lemma below_solid : solid below in_below.
Proof.
  split; [ constructor | split; [ constructor | ] ].
  - repeat (apply Forall_cons; [ cbn; lia | ]); apply Forall_nil.
  - intros fi a b c E. apply below_faces in E.
    destruct E as [ [_ E] | [ [_ E] | [ [_ E] | [_ E] ] ] ]; injection E as -> -> ->;
      intros (X & Y & Z); vm_compute in X, Y, Z; congruence.
  - intros fi fj a b c x H Hi Ho. destruct (below_mirror fi a b c H) as (a' & b' & c' & H' & E1 & E2 & E3).
    apply (pf_apart _ C24_tetra_proper fi fj a' b' c' (mir x) H').
    + apply (mirror_on a b c a' b' c' x E1 E2 E3). exact Hi.
    + apply below_on. exact Ho.
  - intros x y H. apply (bd_walk _ _ C24_tetra_bounds). intros z (t & Ht & Hz) (fi & Ho).
    assert (Hm : same (mir z) (along x t (vsub y x))).
    { destruct Hz as (Z1 & Z2 & Z3). unfold mir, along, vsub in *. cbn [vx vy vz fst snd] in *.
      repeat split; cbn [vx vy vz fst snd]; rewrite ?Z1, ?Z2, ?Z3; ring. }
    apply (H (mir z)); [ exists t; auto | ]. exists fi. apply below_on.
    destruct Ho as (a & b & c & HT & Hin). exists a, b, c. split; [ exact HT | ].
    destruct Hin as (u & v & w & Hu & Hv & Hw & Hs & H1 & H2 & H3). exists u, v, w. unfold mir. cbn [vx vy vz fst snd].
    repeat split; try assumption. rewrite <- H3. ring.
  - intros fi a b c q v H Hi. destruct (below_mirror fi a b c H) as (a' & b' & c' & H' & E1 & E2 & E3).
    destruct (bd_face _ _ C24_tetra_bounds fi a' b' c' (mir q) (mir v) H') as (bound & Hb & G).
    { apply (mirror_on a b c a' b' c' q E1 E2 E3). exact Hi. }
    exists bound. split; [ exact Hb | ]. intros e He. destruct (G e He) as (G1 & G2).
    assert (EN : vdot (normal a b c) v == vdot (normal a' b' c') (mir v)).
    { destruct E1 as (A1 & A2 & A3), E2 as (B1 & B2 & B3), E3 as (C1 & C2 & C3).
      unfold normal, vdot, vcross, vsub, mir in *. cbn [vx vy vz fst snd] in *.
      rewrite A1, A2, A3, B1, B2, B3, C1, C2, C3. ring. }
    assert (ES : same (mir (along q e v)) (along (mir q) e (mir v))).
    { unfold mir, along. repeat split; cbn [vx vy vz fst snd]; ring. }
    assert (ES' : same (along (mir q) e (mir v)) (mir (along q e v))) by (destruct ES as (S1 & S2 & S3); repeat split; symmetry; assumption).
    rewrite EN. split; intro K.
    + apply (same_tetra _ _ ES'). exact (G1 K).
    + intro I. apply (G2 K). apply (same_tetra _ _ ES). exact I.
  - intro x. destruct (in_tetra_dec (mir x)); [ left | right ]; assumption.
Qed.

Lemma tetra_solid : solid tetra in_tetra.
Proof.
  split; [ exact C24_tetra_proper | ]. split; [ exact C24_tetra_bounds | ].
  intro x. destruct (in_tetra_dec x); [ left | right ]; assumption.
Qed.

(** The faces of both; the common one twice. *)
Definition two_mixed : soup vec3 (mixed_data unit) :=
  mk_soup [(0, 0, 0); (1, 0, 0); (0, 1, 0); (0, 0, 1); (0, 0, -1)]
    [(0, 2, 1); (0, 1, 3); (0, 3, 2); (1, 2, 3); (0, 1, 2); (0, 4, 1); (0, 2, 4); (1, 4, 2)]%nat
    [mk_mixed true OPPOSITE tt; mk_mixed true EXTERIOR tt; mk_mixed true EXTERIOR tt; mk_mixed true EXTERIOR tt;
     mk_mixed false OPPOSITE tt; mk_mixed false EXTERIOR tt; mk_mixed false EXTERIOR tt; mk_mixed false EXTERIOR tt].

(** Faces 0-3 are those of [tetra], faces 4-7 those of [below]. *)
Lemma two_pieces : forall i left t T, piece two_mixed i left t T ->
  soup_triangle (operand tetra below left) (if left then i else i - 4)%nat = Ok T /\
  (i < 4 \/ 4 <= i < 8)%nat /\ left = (i <? 4)%nat /\ t = (if (Nat.eqb i 0 || Nat.eqb i 4)%bool then OPPOSITE else EXTERIOR).
Proof.
  intros i left t T (HT & md & Hd & Hl & Ht).
  do 8 (destruct i as [ | i]; [ injection Hd as <-; cbn [from_left tag] in *; subst left t; split; [ exact HT | repeat split; lia ] | ]).
  exfalso. assert (K : nth_error (face_data two_mixed) (8 + i) = None) by (apply nth_error_None; cbn; lia).
  change (S (S (S (S (S (S (S (S i)))))))) with (8 + i)%nat in Hd. congruence.
Qed.

Lemma aligned_refl : forall T, aligned T T.
Proof.
  intro T. exists 1. split; [ lra | ]. unfold scaled. repeat split; cbn [vx vy vz fst snd]; ring.
Qed.

Example C47_two_arranged : arranged tetra below in_tetra in_below two_mixed.
Proof.
  constructor.
  - split; [ | reflexivity ]. repeat (apply Forall_cons; [ cbn; lia | ]); apply Forall_nil.
  - intros i left t T H. apply two_pieces in H. destruct H as (H & _). destruct T as [ [a b] c]. destruct left.
    + exact (pf_nondegenerate _ C24_tetra_proper _ a b c H).
    + exact (pf_nondegenerate _ (proj1 below_solid) _ a b c H).
  - intros i left t T H. apply two_pieces in H. destruct H as (H & _). eexists. exists T. split; [ exact H | ].
    split; [ apply aligned_refl | auto ].
  - intros left x (fi & a & b & c & H & Ho).
    assert (Hf : (fi = 0 \/ fi = 1 \/ fi = 2 \/ fi = 3)%nat).
    { destruct left; [ apply tetra_faces in H | apply below_faces in H ]; tauto. }
    exists (if left then fi else 4 + fi)%nat, (if Nat.eqb fi 0 then OPPOSITE else EXTERIOR), (a, b, c). split; [ | exact Ho ].
    destruct left, Hf as [-> | [-> | [-> | ->] ] ]; cbn [operand] in H;
      (split; [ exact H | eexists; split; [ reflexivity | auto ] ]).
  - intros i j left t u T U x HT HU Hi Ho. apply two_pieces in HT, HU.
    destruct HT as (HT & RT & LT & _), HU as (HU & RU & LU & _). destruct T as [ [a b] c], U as [ [a' b'] c'].
    destruct left.
    + apply (pf_apart _ C24_tetra_proper i j a b c x HT Hi). exists a', b', c'. auto.
    + assert (K : (j - 4 = i - 4)%nat).
      { apply (pf_apart _ (proj1 below_solid) _ _ a b c x HT Hi). exists a', b', c'. auto. }
      symmetry in LT, LU. apply Nat.ltb_ge in LT, LU. lia.
  - intros i left t T H. assert (H' := H). apply two_pieces in H'. destruct H' as (HT & RI & LI & ->).
    assert (Ext : forall (left : bool) fi a b c x, (fi <> 0)%nat -> soup_triangle (operand tetra below left) fi = Ok (a, b, c) ->
      in_open_triangle x a b c -> ~ on_boundary (operand tetra below (negb left)) x /\ ~ member_of in_tetra in_below (negb left) x).
    { clear. intros [] fi a b c x Hfi H Hx; cbn [operand negb member_of] in *.
      - assert (Hz : 0 < vz x) by (apply (tetra_open fi x a b c H) in Hx; clear - Hfi Hx; intuition lra).
        split.
        + intros (fj & Ho). apply below_on in Ho. apply tetra_on in Ho. unfold mir in Ho. cbn [vx vy vz fst snd] in Ho. clear - Ho Hz. intuition lra.
        + intros (_ & _ & K & _). unfold mir in K. cbn [vx vy vz fst snd] in K. lra.
      - destruct (below_mirror fi a b c H) as (a' & b' & c' & H' & E1 & E2 & E3).
        assert (Hx' : in_open_triangle (mir x) a' b' c') by (apply (mirror_on a b c a' b' c' x E1 E2 E3); exact Hx).
        assert (Hz : vz x < 0).
        { apply (tetra_open fi (mir x) a' b' c' H') in Hx'. unfold mir in Hx'. cbn [vx vy vz fst snd] in Hx'. clear - Hfi Hx'. intuition lra. }
        split.
        + intros (fj & Ho). apply tetra_on in Ho. clear - Ho Hz. intuition lra.
        + intros (_ & _ & K & _). lra. }
    destruct T as [ [a b] c].
    assert (K : forall (left : bool) fi, (fi <> 0)%nat -> soup_triangle (operand tetra below left) fi = Ok (a, b, c) ->
       tag_true tetra below in_tetra in_below two_mixed left EXTERIOR (a, b, c)).
    { intros l fi Hfi Hl x Hx. exact (Ext l fi a b c x Hfi Hl Hx). }
    assert (Op : forall (left : bool), piece two_mixed (if left then 0 else 4)%nat left OPPOSITE (a, b, c) ->
       tag_true tetra below in_tetra in_below two_mixed left OPPOSITE (a, b, c)).
    { clear. intros [] (HT & _).
      - injection HT as <- <- <-. exists 4%nat, ((0, 0, 0), (1, 0, 0), (0, 1, 0)). split; [ split; [ reflexivity | eexists; split; [ reflexivity | auto ] ] | ].
        split; [ | exists (-1); split; [ lra | repeat split; reflexivity ] ].
        intro x. split; split; intros (u & v & w & Hu & Hv & Hw & Hs & H1 & H2 & H3); exists u, w, v; repeat split; try assumption; lra.
      - injection HT as <- <- <-. exists 0%nat, ((0, 0, 0), (0, 1, 0), (1, 0, 0)). split; [ split; [ reflexivity | eexists; split; [ reflexivity | auto ] ] | ].
        split; [ | exists (-1); split; [ lra | repeat split; reflexivity ] ].
        intro x. split; split; intros (u & v & w & Hu & Hv & Hw & Hs & H1 & H2 & H3); exists u, w, v; repeat split; try assumption; lra. }
    do 8 (destruct i as [ | i];
      [ cbn [Nat.eqb orb] in *; subst left; cbn [Nat.ltb Nat.leb] in *;
        first [ exact (Op true H) | exact (Op false H) | (refine (K true _ _ HT); discriminate) | (refine (K false _ _ HT); discriminate) ] | ]).
    lia.
Qed.

(** Their union is the solid bounded by the six outer faces. *)
Example C47_two_union : exists r,
  run tt (mk_builder BOUNDARY_DEFINED BOUNDARY_DEFINED two_mixed 0) opA true = Ok r /\
  kind r = BOUNDARY_DEFINED /\ num_faces (boundary r) = 6%nat /\
  (exists S, solid (boundary r) S /\
    forall x, ~ on_boundary tetra x -> ~ on_boundary below x -> (S x <-> in_tetra x \/ in_below x)).
Proof.
  destruct (C47_result_is_the_set vec3 unit tt (fun x => x) tetra below in_tetra in_below two_mixed 0 opA true
    tetra_solid below_solid ltac:(discriminate) ltac:(discriminate) C47_two_arranged) as (r & Er & Hr).
  exists r. split; [ exact Er | ].
  assert (E : match run tt (mk_builder BOUNDARY_DEFINED BOUNDARY_DEFINED two_mixed 0) opA true with
              | Ok r => kind r = BOUNDARY_DEFINED /\ num_faces (boundary r) = 6%nat | _ => False end) by (vm_compute; auto).
  rewrite Er in E. destruct E as (Ek & En). rewrite Ek in Hr. split; [ exact Ek | ]. split; [ exact En | ].
  destruct Hr as (_ & _ & S & HS & HX).
  exists S. split; [ | exact HX ].
  assert (EL : located (fun x : vec3 => x) (boundary r) = boundary r).
  { unfold located. rewrite map_id. destruct (boundary r); reflexivity. }
  rewrite <- EL. exact HS.
Qed.
