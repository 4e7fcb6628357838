(** * Boolean operations in a convex region, once the mesh is arranged *)
From Coq Require Import List Arith NArith Bool QArith Lqa Lia.
From Verif Require Import Model_base Model_geometry Model_soup Model_boolean Model_classify Model_side Model_mix.
From Verif Require Import Spec_boolean Spec_candidates Spec_side Spec_solid Spec_whole Spec_open.
From Verif Require Import Proof_represents Proof_solid Proof_represents Proof_open.
Import ListNotations.
Local Open Scope nat_scope.

Lemma boolean_in : forall {P D} K coords (d0 : D) mix (a b : region P D) A B (G : Prop), open_convex K ->
  represents_in K coords a A -> represents_in K coords b B ->
  (kind a = BOUNDARY_DEFINED -> kind b = BOUNDARY_DEFINED ->
   exists r, mix (boundary a) (boundary b) = (let* (m, w) := r in Ok (m, warning_bits w)) /\
     ((exists m, r = Ok (m, no_warnings) /\ arranged (located coords (boundary a)) (located coords (boundary b)) A B (located coords m)) \/
      (r = Throw RuntimeError /\ G))) ->
  (exists bd, build mix a b = Ok bd /\ Model_boolean.warnings bd = 0%N /\
     forall op prefer_first, exists r, run d0 bd op prefer_first = Ok r /\ is_result_in K coords op a b A B r) \/
  (build mix a b = Throw RuntimeError /\ G).
Proof.
  intros P D K coords d0 mix a b A B G HK (Wa & HA) (Wb & HB) Hmix.
  unfold wf_region in Wa, Wb. unfold build, is_empty_or_full, is_empty, is_full.
  destruct a as [ka ma], b as [kb mb]. cbn [kind boundary] in *.
  assert (SA : solid_in K (located coords ma) A).
  { destruct ka; [ | | exact HA ]; rewrite Wa; apply empty_solid; [ intros x y Kx Ky; split; intro Z; [ destruct (HA _ Kx Z) | destruct (HA _ Ky Z) ] | intros x Kx; right; now apply HA | intros x y Kx Ky; split; intro Z; now apply HA | intros x Kx; left; now apply HA ]. }
  assert (SB : solid_in K (located coords mb) B).
  { destruct kb; [ | | exact HB ]; rewrite Wb; apply empty_solid; [ intros x y Kx Ky; split; intro Z; [ destruct (HB _ Kx Z) | destruct (HB _ Ky Z) ] | intros x Kx; right; now apply HB | intros x y Kx Ky; split; intro Z; now apply HB | intros x Kx; left; now apply HB ]. }
  assert (One : forall s k : bool, (if s then ka else kb) = BOUNDARY_DEFINED -> (if s then kb else ka) = (if k then FULL else EMPTY) ->
    forall op pf, exists r, run d0 (mk_builder ka kb (one_mesh ma mb s k) 0%N) op pf = Ok r /\ is_result_in K coords op (mk_region ka ma) (mk_region kb mb) A B r).
  { intros s k K1 K2 op pf. unfold is_result_in. apply (one_result d0 coords ma mb A B K HK SA SB s k); try assumption.
    - destruct s; [ rewrite K1 in Wa; exact Wa | rewrite K1 in Wb; exact Wb ].
    - destruct s; [ rewrite K2 in Wb; destruct k; exact Wb | rewrite K2 in Wa; destruct k; exact Wa ].
    - intros x Kx. destruct s; [ rewrite K2 in HB; destruct k | rewrite K2 in HA; destruct k ]; split; intro Z; try reflexivity; try discriminate; auto; [ destruct (HB x Kx Z) | destruct (HA x Kx Z) ]. }
  assert (None_ : forall op pf, match ka with BOUNDARY_DEFINED => False | _ => True end -> match kb with BOUNDARY_DEFINED => False | _ => True end ->
    exists r, run d0 (mk_builder ka kb empty_soup 0%N) op pf = Ok r /\ is_result_in K coords op (mk_region ka ma) (mk_region kb mb) A B r).
  { intros op pf Na Nb. destruct (none_result (P := P) d0 coords op pf 0%N ka kb A B K) as (r & E & N & S & Rp & HS); [ destruct ka; auto; exact HA | destruct kb; auto; exact HB | ].
    exists r. split; [ exact E | ]. split; [ intros x Z; destruct (N x Z) | ]. exists S. split; [ exact Rp | ]. intros x Kx _ _. now apply HS. }
  destruct ka, kb; cbn [region_kind_eqb orb andb].
  all: try (left; eexists; split; [ reflexivity | ]; split; [ reflexivity | ]; intros op pf; apply None_; exact I).
  - left. eexists. split; [ reflexivity | ]. split; [ reflexivity | ]. intros op pf. specialize (One false false eq_refl eq_refl op pf). subst ma. exact One.
  - left. eexists. split; [ reflexivity | ]. split; [ reflexivity | ]. intros op pf. specialize (One false true eq_refl eq_refl op pf). subst ma. exact One.
  - left. eexists. split; [ reflexivity | ]. split; [ reflexivity | ]. intros op pf. specialize (One true false eq_refl eq_refl op pf). subst mb.
    unfold one_mesh in One. cbn [points faces face_data empty_soup map]. rewrite !app_nil_r. exact One.
  - left. eexists. split; [ reflexivity | ]. split; [ reflexivity | ]. intros op pf. specialize (One true true eq_refl eq_refl op pf). subst mb.
    unfold one_mesh in One. cbn [points faces face_data empty_soup map]. rewrite !app_nil_r. exact One.
  - destruct (Hmix eq_refl eq_refl) as (r & -> & [ (m & -> & Ar) | (-> & X) ]); [ left | right; auto ].
    cbn [bind]. eexists. split; [ reflexivity | ]. split; [ reflexivity | ]. intros op pf.
    destruct (solid_result d0 coords ma mb A B m K HK SA SB (proj2 Wa) (proj2 Wb) Ar op pf 0%N) as (r & Er & Hk). exists r. split; [ exact Er | ].
    assert (Wm : wf_mixed m).
    { destruct (ar_valid _ _ _ _ _ Ar) as (V & Le). split; [ exact Le | ]. unfold valid_faces in V. cbn [located faces points] in V. rewrite map_length in V. exact V. }
    pose proof (run_wf d0 (mk_builder BOUNDARY_DEFINED BOUNDARY_DEFINED m 0%N) op pf r Wm Er) as Wr. unfold is_result_in, represents_in, on_surface. cbn [boundary].
    unfold wf_region in Wr |- *. destruct (kind r) eqn:Ek.
    + split; [ intros x Z; rewrite Wr in Z; destruct (no_boundary coords x Z) | ]. exists (fun _ => False). split; [ auto | ]. intros x X0 X1 X2. split; [ contradiction | apply Hk; assumption ].
    + split; [ intros x Z; rewrite Wr in Z; destruct (no_boundary coords x Z) | ]. exists (fun _ => True). split; [ auto | ]. intros x X0 X1 X2. split; [ intros _; apply Hk; assumption | auto ].
    + destruct Hk as (_ & On & S & SS & HS). split; [ exact On | ]. exists S. auto.
Qed.
