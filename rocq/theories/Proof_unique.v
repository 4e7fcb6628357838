(** * The boundary determines the solid *)
From Coq Require Import List Arith QArith Lqa Lia Bool.
From Verif Require Import Model_base Model_soup Model_geometry Model_boolean.
From Verif Require Import Spec_boolean Spec_candidates Spec_side Spec_solid Spec_open.
From Verif Require Import Proof_base Proof_builder Proof_solid.
Import ListNotations.
Local Open Scope nat_scope.

(** Every face twice, once as a face of each operand. *)
Definition doubled {P D} (m : soup P D) : soup P (mixed_data D) :=
  mk_soup (points m) (faces m ++ faces m) (map (mk_mixed true COPLANAR) (face_data m) ++ map (mk_mixed false COPLANAR) (face_data m)).

Section Doubled.
  Context {P D : Type}.
  Variables (coords : P -> vec3) (m : soup P D) (A B : vec3 -> Prop).
  Variable Dom : vec3 -> Prop.
  Hypothesis HK : open_convex Dom.
  Hypothesis SA : solid_in Dom (located coords m) A.
  Hypothesis SB : solid_in Dom (located coords m) B.
  Hypothesis Le : length (face_data m) = length (faces m).
  Let n := length (faces m).

  Lemma doubled_piece : forall i s t T, piece (located coords (doubled m)) i s t T <->
    t = COPLANAR /\ exists k, soup_triangle (located coords m) k = Ok T /\ i = (if s then k else n + k).
  Proof.
    intros i s t T.
    assert (Tr : forall k, k < n -> soup_triangle (located coords (doubled m)) k = soup_triangle (located coords m) k /\
      soup_triangle (located coords (doubled m)) (n + k) = soup_triangle (located coords m) k).
    { intros k Hk. unfold soup_triangle, soup_face, vec_at. cbn [located doubled faces points]. rewrite nth_error_app1 by (unfold n in Hk; lia).
      rewrite nth_error_app2 by (unfold n; lia). replace (n + k - length (faces m)) with k by (unfold n; lia). auto. }
    assert (Da : forall k, k < n -> exists d, nth_error (face_data (located coords (doubled m))) k = Some (mk_mixed true COPLANAR d) /\
      nth_error (face_data (located coords (doubled m))) (n + k) = Some (mk_mixed false COPLANAR d)).
    { intros k Hk. destruct (nth_error (face_data m) k) as [ d | ] eqn:E; [ | apply nth_error_None in E; unfold n in Hk; lia ]. exists d.
      cbn [located doubled face_data]. rewrite nth_error_app1 by (rewrite map_length, Le; exact Hk). rewrite nth_error_app2 by (rewrite map_length, Le; unfold n; lia).
      rewrite map_length, Le. replace (n + k - length (faces m)) with k by (unfold n; lia). rewrite !nth_error_map, E. auto. }
    split.
    - intros (H & md & E & Hs & Ht). pose proof (triangle_range _ _ _ _ _ H) as Hi. cbn [located doubled faces] in Hi. rewrite app_length in Hi.
      destruct (Nat.lt_ge_cases i n) as [ L | G ].
      + destruct (Tr i L) as (T1 & _), (Da i L) as (d & D1 & _). rewrite D1 in E. injection E as <-. cbn in Hs, Ht. subst s t. split; [ reflexivity | ]. exists i. rewrite <- T1. auto.
      + destruct (Tr (i - n)) as (_ & T1); [ unfold n in *; lia | ]. destruct (Da (i - n)) as (d & _ & D1); [ unfold n in *; lia | ].
        replace (n + (i - n)) with i in * by lia. rewrite D1 in E. injection E as <-. cbn in Hs, Ht. subst s t. split; [ reflexivity | ]. exists (i - n). rewrite <- T1. split; [ exact H | lia ].
    - intros (-> & k & H & ->). pose proof (triangle_range _ _ _ _ _ H) as Hk. cbn [located faces] in Hk. destruct (Tr k Hk) as (T1 & T2), (Da k Hk) as (d & D1 & D2).
      destruct s; split; try congruence; eauto.
  Qed.

  Lemma doubled_arranged : arranged (located coords m) (located coords m) A B (located coords (doubled m)).
  Proof.
    assert (Pf : proper_faces (located coords m)) by apply SA.
    assert (Op : forall s, operand (located coords m) (located coords m) s = located coords m) by (intros [ | ]; reflexivity).
    assert (Al : forall T, aligned T T).
    { intro T. exists 1%Q. split; [ lra | ]. unfold same, scaled. cbn [vx vy vz fst snd]. repeat split; ring. }
    split.
    - split.
      + pose proof (pf_valid _ Pf) as V. unfold valid_faces in *. cbn [located doubled faces points] in *. apply Forall_app. auto.
      + cbn [located doubled face_data faces]. rewrite !app_length, !map_length. lia.
    - intros i s t T H. apply doubled_piece in H. destruct H as (_ & k & H & _). destruct T as [ [a b] c]. exact (pf_nondegenerate _ Pf k a b c H).
    - intros i s t T H. apply doubled_piece in H. destruct H as (_ & k & H & _). exists k, T. rewrite Op. split; [ exact H | ]. split; [ apply Al | auto ].
    - intros s x Hx. rewrite Op in Hx. destruct Hx as (fi & a & b & c & H & I). exists (if s then fi else n + fi), COPLANAR, (a, b, c). split; [ apply doubled_piece; eauto | exact I ].
    - intros i j s t u T U x H1 H2 I J. apply doubled_piece in H1, H2. destruct H1 as (_ & k & H1 & ->), H2 as (_ & l & H2 & ->).
      destruct T as [ [a b] c], U as [ [a' b'] c']. enough (l = k) as -> by reflexivity. apply (pf_apart _ Pf k l a b c x H1 I). exists a', b', c'. auto.
    - intros i s t T H. apply doubled_piece in H. destruct H as (-> & k & H & ->). exists (if negb s then k else n + k), T. split; [ | split ].
      + apply doubled_piece. eauto.
      + intro x. tauto.
      + apply Al.
  Qed.

  Theorem boundary_determines : faces m <> [] -> forall x, Dom x -> ~ on_boundary (located coords m) x -> (A x <-> B x).
  Proof.
    intros Ne x Kx Off.
    destruct (triangle_exists _ _ (located coords m) 0) as (T & HT); [ apply SA | cbn [located faces]; destruct (faces m); [ congruence | cbn; lia ] | ].
    assert (Ep : picked (doubled m) opJ true = []).
    { destruct (picked (doubled m) opJ true) as [ | [j rv] l ] eqn:E; [ reflexivity | exfalso ].
      assert (Wd : wf_mixed (doubled m)).
      { pose proof (pf_valid _ (proj1 SA)) as V. split; [ cbn [doubled face_data faces]; rewrite !app_length, !map_length; unfold n in Le; lia | ].
        unfold valid_faces in V. cbn [located doubled faces points] in *. rewrite map_length in V. apply Forall_app. auto. }
      assert (I : In (j, rv) (picked (doubled m) opJ true)) by (rewrite E; left; reflexivity).
      apply in_picked in I; [ | exact Wd ]. destruct I as (md & Hd & R). apply nth_error_In in Hd. cbn [doubled face_data] in Hd. apply in_app_or in Hd.
      destruct Hd as [ Hd | Hd ]; apply in_map_iff in Hd; destruct Hd as (d & <- & _); destruct rv; discriminate. }
    destruct (none_sides coords m m A B (doubled m) Dom HK SA SB doubled_arranged opJ true Ep 0 true COPLANAR T) with (b := true) as (ab & E & H).
    { apply doubled_piece. split; [ reflexivity | ]. exists 0. auto. }
    specialize (H x Kx Off Off). injection E as <-. cbn in H. destruct SA as (_ & _ & dA & _), SB as (_ & _ & dB & _). destruct (dA x Kx), (dB x Kx); try tauto.
    - exfalso. assert (false = true) by (apply H; tauto). discriminate.
    - exfalso. assert (false = true) by (apply H; tauto). discriminate.
  Qed.
End Doubled.
