(** * Ambiguous rays are skipped

    The converse of C24_gives_up_only_if_ambiguous, for points that are in the plane of no face. *)
From Coq Require Import List Arith Bool QArith Qminmax Lqa Lia Permutation.
From Verif Require Import Model_base Proof_base Model_soup Model_geometry Model_aabb Model_forkjoin Model_classify.
From Verif Require Import Model_candidates Spec_aabb Spec_candidates Proof_aabb Proof_forkjoin Prop_aabb.
From Verif Require Import Proof_pairs Model_side Spec_side Spec_open Proof_affine Proof_side Proof_probe Proof_visible.
From Verif Require Import Spec_side Spec_visible.
Import ListNotations.
Local Open Scope Q_scope.

Section G.
  Context {D : Type} (m : soup vec3 D).
  Variables (pbox : vec3 -> box) (longest_axis : option box -> nat)
    (sort_by : nat -> list (box * nat) -> list (box * nat))
    (nth_element_by : nat -> nat -> list (box * nat) -> list (box * nat)).
  Variables (ray_triangle : vec3 * vec3 * vec3 -> vec3 -> vec3 -> hit)
    (ray_meets_box : vec3 -> vec3 -> box -> bool) (partial_sort2 : list (Q * nat) -> list (Q * nat)).
  Hypothesis Hre : rearranges sort_by nth_element_by.
  Hypothesis Hpb : forall x, in_box x (pbox x).
  Hypothesis Hrt : exact_intersection ray_triangle.
  Hypothesis Hrm : sound_box_test ray_meets_box.
  Hypothesis Hps : sorts_two partial_sort2.
  Hypothesis Hp : proper_faces m.
  Variables (t : tree (box * nat)) (p : vec3).
  Hypothesis Ht : aabb_tree pbox longest_axis sort_by nth_element_by m t.
  Hypothesis Hoff : ~ on_boundary m p.
  Hypothesis Hpl : forall fi a b c, soup_triangle m fi = Ok (a, b, c) -> ~ height a b c p == 0.

  Lemma point_hit : forall r F x, ~ same p r -> 0 <= x -> on_face m F (along p x (vsub r p)) -> exists q, kind_of m ray_triangle p r F = HPoint q.
  Proof.
    intros r F x Npr Hx Ho. destruct (kind_of m ray_triangle p r F) as [ | q | u v] eqn:K.
    - destruct (kind_none m ray_triangle Hrt Hp p r Npr F K x Hx Ho).
    - exists q. reflexivity.
    - exfalso. destruct Ho as (a & b & c & E & I). apply (Hpl F a b c E).
      pose proof (segment_in_plane m ray_triangle Hrt Hp p r Npr F u v a b c K E) as Z.
      apply Proof_affine.in_plane in I. rewrite aev_along in I. cbn [ak through] in I. unfold aev in I. cbn [ak ac through] in I.
      unfold height. rewrite vdot_vsub. rewrite Z in I. lra.
  Qed.

  Lemma probe_none : forall fi, ambiguous m p fi -> probe ray_triangle ray_meets_box partial_sort2 m t p fi = Ok None.
  Proof.
    intros fi (a & b & c & q & f1 & f2 & E & Ne & (l & Hl & Sq) & O1 & O2 & Nb).
    unfold probe, face_centroid. rewrite E. cbn [bind]. set (r := centroid a b c) in *.
    assert (Npr : ~ same p r).
    { intro S. apply Hoff. exists fi. apply (on_face_same m Hp fi r); [ apply same_sym; exact S | ]. exists a, b, c. split; [ exact E | apply open_on, centroid_open ]. }
    destruct (point_eqb p r) eqn:Epr; [ apply point_eqb_same in Epr; contradiction | ]. clear Epr.
    destruct (leaves_found m pbox longest_axis sort_by nth_element_by ray_meets_box Hre Hpb Hrm Hp t Ht p r) as (found & leaves & Hq & Hf2 & Hnd & Hlt & Hall). rewrite Hq. cbn [bind].
    rewrite (scan_ok m ray_triangle Hp t p r found leaves [] Hf2 Hlt). cbn [bind app]. set (fs := map snd leaves) in *.
    destruct (existsb (bad m ray_triangle p r) fs) eqn:Ebad.
    { apply existsb_exists in Ebad. destruct Ebad as (F & _ & HF). destruct Hoff. exists F. exact (bad_on m ray_triangle Hrt Hp p r Npr F HF). }
    set (d := vsub r p) in *. assert (Hk := vsub_nonzero p r Npr). fold d in Hk.
    apply (on_face_same m Hp _ _ _ Sq) in O1, O2.
    assert (Hmin : forall F s, 0 <= s -> on_face m F (along p s d) -> l <= s).
    { intros F s Hs Ho. destruct (Qlt_le_dec s l) as [L | L]; [ | exact L ].
      assert (S : same (along p s d) q).
      { apply Nb; [ | exists F; exact Ho ]. exists (s / l). split; [ split; [ apply Qle_shift_div_l; lra | apply Qle_shift_div_r; lra ] | ].
        destruct Sq as (X & Y & Z). unfold same, along, vsub. cbn [vx vy vz fst snd]. rewrite X, Y, Z. unfold along. cbn [vx vy vz fst snd]. repeat split; field; lra. }
      assert (s == l) by (apply (along_inj p r s l Npr); exact (same_trans _ _ _ S Sq)). lra. }
    assert (Entry : forall F, on_face m F (along p l d) -> exists x, In x (flat_map (pts m ray_triangle p r) fs) /\ snd x = F /\ fst x == l * l * vdot d d).
    { intros F HF. destruct (point_hit r F l Npr (proj1 Hl) HF) as (q' & K).
      destruct (kind_point m ray_triangle Hrt Hp p r Npr F q' K) as (s & Hs & Hqs & Hon). fold d in Hqs, Hon.
      exists (squared_distance p q', F). split; [ | split; [ reflexivity | ] ].
      - apply in_pts. exists q'. split; [ | split; [ exact K | reflexivity ] ]. apply (Hall F _ HF). exists l. split; [ exact (proj1 Hl) | apply same_refl ].
      - cbn [fst]. apply Hon in HF; [ | exact (proj1 Hl) ]. rewrite HF. apply sqd_along. exact Hqs. }
    assert (Least : forall x, In x (flat_map (pts m ray_triangle p r) fs) -> l * l * vdot d d <= fst x).
    { intros x Hx. apply in_pts in Hx. destruct Hx as (q' & _ & K & Ex).
      destruct (kind_point m ray_triangle Hrt Hp p r Npr (snd x) q' K) as (s & Hs & Hqs & Hon). fold d in Hqs, Hon.
      rewrite Ex, (sqd_along p q' s d Hqs). apply sq_le'; [ exact (proj1 Hl) | exact Hs | exact Hk | ]. apply (Hmin (snd x)); [ exact Hs | ]. apply Hon; [ exact Hs | reflexivity ]. }
    destruct (Entry f1 O1) as (x1 & J1 & E1 & D1). destruct (Entry f2 O2) as (x2 & J2 & E2 & D2).
    assert (N12 : x1 <> x2) by (intro X; subst x2; congruence).
    generalize dependent (flat_map (pts m ray_triangle p r) fs). intros L Entry Least J1 J2.
    destruct L as [ | x [ | y rest] ] eqn:EL.
    - destruct J1.
    - destruct J1 as [J1 | [] ], J2 as [J2 | [] ]. congruence.
    - rewrite <- EL in *. destruct (Hps L) as [Hperm Hs2].
      destruct (partial_sort2 L) as [ | x' [ | y' rest'] ] eqn:Es.
      { apply Permutation_length in Hperm. rewrite EL in Hperm. discriminate. }
      { apply Permutation_length in Hperm. rewrite EL in Hperm. discriminate. }
      destruct (Hs2 x' y' rest' eq_refl) as [Hxy Hyr].
      assert (Hx' : In x' L) by (apply (Permutation_in _ (Permutation_sym Hperm)); left; reflexivity).
      apply (Permutation_in _ Hperm) in J1, J2. pose proof (Least x' Hx') as Lx.
      assert (Ly : fst y' <= l * l * vdot d d).
      { destruct J1 as [<- | [<- | J1] ].
        - destruct J2 as [<- | [<- | J2] ]; [ congruence | lra | ]. specialize (Hyr _ J2). lra.
        - lra.
        - specialize (Hyr _ J1). lra. }
      assert (Eq : Qeq_bool (fst x') (fst y') = true) by (apply Qeq_bool_iff; lra). rewrite Eq. reflexivity.
  Qed.

  Lemma all_ambiguous_gives_up : (forall fi, (fi < num_faces m)%nat -> ambiguous m p fi) ->
    side_of_triangle_soup ray_triangle ray_meets_box partial_sort2 m t p = Throw RuntimeError.
  Proof.
    intro A. unfold side_of_triangle_soup. destruct (num_faces m =? 0)%nat; [ reflexivity | ].
    assert (G : forall l, (forall fi, In fi l -> (fi < num_faces m)%nat) -> side_loop ray_triangle ray_meets_box partial_sort2 m t p l = Throw RuntimeError).
    { induction l as [ | fi l IH]; intro Hl; [ reflexivity | ]. cbn [side_loop]. rewrite (probe_none fi (A fi (Hl fi (or_introl eq_refl)))). cbn [bind]. apply IH. intros f J. apply Hl. right. exact J. }
    apply G. intros fi J. apply in_seq in J. lia.
  Qed.
End G.
