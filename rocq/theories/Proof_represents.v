(** * Boolean operations with an empty or a full operand *)
From Coq Require Import List Arith QArith Lqa Lia Bool.
From Verif Require Import Model_base Model_soup Model_geometry Model_boolean Model_side.
From Verif Require Import Spec_candidates Spec_side Spec_solid Spec_boolean Spec_whole Spec_open.
From Verif Require Import Proof_base Proof_extract Proof_builder Proof_solid Proof_open.
Import ListNotations.
Local Open Scope nat_scope.

Lemma no_boundary : forall {P D} (coords : P -> vec3) x, ~ on_boundary (located coords (@empty_soup P D)) x.
Proof. intros P D coords x (fi & a & b & c & H & _). apply triangle_range in H. cbn in H. lia. Qed.
Lemma empty_solid : forall {P D} (coords : P -> vec3) (S : vec3 -> Prop) (K : vec3 -> Prop), (forall x y, K x -> K y -> S x <-> S y) -> (forall x, K x -> S x \/ ~ S x) -> solid_in K (located coords (@empty_soup P D)) S.
Proof.
  intros P D coords S K H Dc. assert (N : forall i T, soup_triangle (located coords (@empty_soup P D)) i <> Ok T) by (intros i T E; apply triangle_range in E; cbn in E; lia).
  split; [ | split; [ | split; [ exact Dc | intros fi a b c q E; destruct (N _ _ E) ] ] ].
  - split; [ constructor | intros fi a b c E; destruct (N _ _ E) | intros fi fj a b c x E; destruct (N _ _ E) ].
  - split; [ intros x y Kx Ky _; apply (H x y Kx Ky) | intros fi a b c q v E; destruct (N _ _ E) ].
Qed.

Section One.
  Context {P D : Type}.
  Variables (d0 : D) (coords : P -> vec3) (L R : soup P D) (A B : vec3 -> Prop).
  Variable Dom : vec3 -> Prop.
  Hypothesis HK : open_convex Dom.
  Hypothesis SA : solid_in Dom (located coords L) A.
  Hypothesis SB : solid_in Dom (located coords R) B.
  Variables (s k : bool).
  Let O := if s then L else R.
  Hypothesis HO : wf_soup O /\ faces O <> [].
  Hypothesis Hother : (if s then R else L) = empty_soup.
  Hypothesis Hk : forall x, Dom x -> (if s then B else A) x <-> k = true.
  Definition one_mesh : soup P (mixed_data D) := mk_soup (points O) (faces O) (map (mk_mixed s (if k then INTERIOR else EXTERIOR)) (face_data O)).

  Lemma one_piece : forall i s' t T, piece (located coords one_mesh) i s' t T <->
    s' = s /\ t = (if k then INTERIOR else EXTERIOR) /\ soup_triangle (located coords O) i = Ok T.
  Proof.
    intros i s' t T. unfold piece. change (soup_triangle (located coords one_mesh) i) with (soup_triangle (located coords O) i). cbn [located face_data one_mesh]. split.
    - intros (H & md & E & <- & <-). rewrite nth_error_map in E. destruct (nth_error (face_data O) i); [ | discriminate ]. injection E as <-. auto.
    - intros (-> & -> & H). split; [ exact H | ]. apply triangle_range in H. destruct HO as ((Le & _) & _). cbn [located faces] in H.
      destruct (nth_error (face_data O) i) as [d | ] eqn:E; [ | apply nth_error_None in E; unfold num_faces in Le; lia ].
      exists (mk_mixed s (if k then INTERIOR else EXTERIOR) d). rewrite nth_error_map, E. auto.
  Qed.
  Lemma O_operand : operand (located coords L) (located coords R) s = located coords O.
  Proof. unfold operand, O. case s; reflexivity. Qed.
  Lemma other_operand : operand (located coords L) (located coords R) (negb s) = located coords empty_soup.
  Proof. unfold operand. revert Hother. case s; cbn [negb]; intros ->; reflexivity. Qed.
  Lemma O_proper : proper_faces (located coords O).
  Proof. unfold O. case s; [ apply SA | apply SB ]. Qed.

  Lemma O_in : forall i T q, soup_triangle (located coords O) i = Ok T -> in_tri q T -> Dom q.
  Proof.
    intros i [ [a b] c] q H Hq. assert (G : solid_in Dom (located coords O) (if s then A else B)) by (unfold O; case s; assumption).
    exact (proj2 (proj2 (proj2 G)) i a b c q H Hq).
  Qed.

  Lemma one_arranged : arranged (located coords L) (located coords R) A B (located coords one_mesh).
  Proof.
    split.
    - split; [ exact (pf_valid _ O_proper) | ]. cbn [located face_data faces one_mesh]. rewrite map_length. apply HO.
    - intros i s' t T H. apply one_piece in H. destruct H as (_ & _ & H). destruct T as [ [a b] c]. exact (pf_nondegenerate _ O_proper i a b c H).
    - intros i s' t T H. apply one_piece in H. destruct H as (-> & _ & H). exists i, T. rewrite O_operand. split; [ exact H | ]. split; [ | auto ].
      exists 1%Q. split; [ lra | ]. destruct T as [ [a b] c]. unfold same, scaled. cbn [vx vy vz fst snd]. repeat split; ring.
    - intros s' x Hx. destruct (Bool.bool_dec s' s) as [-> | N].
      + rewrite O_operand in Hx. destruct Hx as (fi & a & b & c & H & I). exists fi, (if k then INTERIOR else EXTERIOR), (a, b, c). split; [ apply one_piece; auto | exact I ].
      + assert (G : forall a b : bool, a <> b -> a = negb b) by (intros [ | ] [ | ] Z; cbn; congruence). rewrite (G _ _ N), other_operand in Hx. destruct (no_boundary coords x Hx).
    - intros i j s' t u T U x H1 H2 I J. apply one_piece in H1, H2. destruct H1 as (_ & _ & H1), H2 as (_ & _ & H2). destruct T as [ [a b] c], U as [ [a' b'] c'].
      apply (pf_apart _ O_proper i j a b c x H1 I). exists a', b', c'. auto.
    - intros i s' t T H. apply one_piece in H. destruct H as (-> & -> & H).
      assert (Hm : forall x, in_tri x T -> member_of A B (negb s) x <-> k = true) by (intros x Hx; pose proof (Hk x (O_in i T x H Hx)) as Q; revert Q; unfold member_of; case s; cbn [negb]; auto).
      revert Hm. case k; intro Hm; unfold tag_true; intros x Hx; specialize (Hm x Hx); rewrite other_operand; (split; [ apply no_boundary | ]).
      + apply Hm. reflexivity.
      + intro X. apply Hm in X. discriminate.
  Qed.

  (** The kinds are those of the operands. *)
  Lemma one_result : forall op pf w ka kb, (if s then ka else kb) = BOUNDARY_DEFINED -> (if s then kb else ka) = (if k then FULL else EMPTY) ->
    exists r, run d0 (mk_builder ka kb one_mesh w) op pf = Ok r /\
    (forall x, on_surface coords r x -> on_boundary (located coords L) x \/ on_boundary (located coords R) x) /\
    exists S, represents_in Dom coords r S /\
      forall x, Dom x -> ~ on_boundary (located coords L) x -> ~ on_boundary (located coords R) x -> (S x <-> set_of op A B x).
  Proof.
    intros op pf w ka kb K1 K2. destruct (picked one_mesh op pf) as [ | p ps] eqn:Ep.
    - assert (Wm : wf_mixed one_mesh) by (destruct HO as ((Le & W) & _); split; [ cbn; rewrite map_length; exact Le | exact W ]).
      destruct (extract_correct d0 one_mesh op pf Wm) as (r & E & Hwf & HT & _).
      pose proof (consists_picked one_mesh op pf r HT) as HC. assert (Hz : num_faces r = 0) by (rewrite <- length_tris by auto; rewrite Ep in HC; inversion HC; reflexivity).
      assert (Hl : 0 < length (faces O)) by (pose proof (proj2 HO) as X; revert X; generalize (faces O); intros [ | ] X; [ congruence | cbn; lia ]).
      destruct (triangle_exists _ _ (located coords O) 0) as (T & H0); [ exact (pf_valid _ O_proper) | exact Hl | ].
      assert (Pi : piece (located coords one_mesh) 0 s (if k then INTERIOR else EXTERIOR) T) by (apply one_piece; auto).
      set (res := apply op (if s then negb k else k) (if s then k else negb k)).
      assert (M : forall x, Dom x -> ~ on_boundary (located coords L) x -> ~ on_boundary (located coords R) x -> (set_of op A B x <-> res = true)).
      { intros x Kx H1 H2. destruct (none_sides coords L R A B one_mesh Dom HK SA SB one_arranged op pf Ep 0 s _ T Pi (negb k)) as (ab & Hab & Hm). rewrite (Hm x Kx H1 H2).
        replace (member op ab) with res; [ reflexivity | ]. unfold res. clear - Hab. revert Hab. case s; case k; intro Hab; injection Hab as <-; destruct op; reflexivity. }
      exists (special res). split; [ | split ].
      + unfold run. cbn [mixed]. rewrite E. cbn [bind first_kind second_kind]. rewrite Hz. cbn [Nat.eqb negb].
        unfold res. clear - K1 K2. revert K1 K2. case s; case k; cbn; intros -> ->; reflexivity.
      + intros x H. exfalso. unfold on_surface in H. destruct res; exact (no_boundary coords x H).
      + exists (fun _ => res = true). split; [ | intros x Kx H1 H2; symmetry; apply M; assumption ].
        unfold represents_in. destruct res; cbn; split; auto; discriminate.
    - assert (N : picked one_mesh op pf <> []) by (rewrite Ep; discriminate).
      destruct (some_result d0 coords L R A B one_mesh Dom HK SA SB one_arranged op pf N ka kb w) as (r & E & Kr & W & F & On & S & SS & HS).
      exists r. split; [ exact E | ]. split; [ exact On | ]. exists S. split; [ | exact HS ]. unfold represents_in, wf_region. rewrite Kr. auto.
  Qed.
End One.

(** Two operands without faces. *)
Lemma none_result : forall {P D} (d0 : D) (coords : P -> vec3) op pf w ka kb A B,
  forall Dom : vec3 -> Prop,
  match ka with EMPTY => forall x, Dom x -> ~ A x | FULL => forall x, Dom x -> A x | BOUNDARY_DEFINED => False end ->
  match kb with EMPTY => forall x, Dom x -> ~ B x | FULL => forall x, Dom x -> B x | BOUNDARY_DEFINED => False end ->
  exists r : region P D, run d0 (mk_builder ka kb empty_soup w) op pf = Ok r /\
    (forall x, ~ on_surface coords r x) /\ exists S, represents_in Dom coords r S /\ forall x, Dom x -> (S x <-> set_of op A B x).
Proof.
  intros P D d0 coords op pf w ka kb A B Dom HA HB.
  exists (special (apply op (region_kind_eqb ka FULL) (region_kind_eqb kb FULL))). split; [ | split ].
  - destruct ka, kb; try contradiction; reflexivity.
  - intros x H. unfold on_surface in H. destruct (apply op _ _); exact (no_boundary coords x H).
  - exists (fun _ => apply op (region_kind_eqb ka FULL) (region_kind_eqb kb FULL) = true). split.
    + unfold represents_in. destruct (apply op _ _); cbn; split; auto; discriminate.
    + intros x Kx. destruct ka, kb; try contradiction; specialize (HA x Kx); specialize (HB x Kx); destruct op; cbn; intuition discriminate.
Qed.

Lemma run_wf : forall {P D} (d0 : D) (bd : builder) op pf (r : region P D), wf_mixed (mixed bd) -> run d0 bd op pf = Ok r -> wf_region r.
Proof.
  intros P D d0 bd op pf r W Hr. destruct (extract_correct d0 (mixed bd) op pf W) as (s & Es & Hwf & _).
  unfold run in Hr. rewrite Es in Hr. cbn [bind] in Hr.
  assert (Sp : forall x, wf_region (@special P D x)) by (intros [ | ]; reflexivity).
  unfold region_of_soup in Hr. destruct (num_faces s =? 0) eqn:En; cbn [negb] in Hr.
  - destruct (_ || _) in Hr; [ injection Hr as <-; first [ apply Sp | reflexivity ] | ]. destruct (_ || _) in Hr; [ injection Hr as <-; first [ apply Sp | reflexivity ] | ].
    destruct op; try discriminate Hr; try (injection Hr as <-; reflexivity).
    all: apply bind_ok in Hr; destruct Hr as (c1 & _ & Hr); destruct c1; [ injection Hr as <-; first [ apply Sp | reflexivity ] | ];
      apply bind_ok in Hr; destruct Hr as (c2 & _ & Hr); destruct c2; [ injection Hr as <-; first [ apply Sp | reflexivity ] | discriminate ].
  - injection Hr as <-. split; [ exact Hwf | ]. cbn [boundary]. intro Z. unfold num_faces in En. rewrite Z in En. discriminate.
Qed.
