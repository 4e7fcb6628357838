(** * Edges that pieces share are inside the convex region *)
From Coq Require Import List Arith Bool Lia QArith Lqa.
From Verif Require Import Model_base Model_soup Model_mesh Model_geometry Model_boolean Model_classify Model_side Model_mix.
From Verif Require Import Spec_boolean Spec_candidates Spec_side Spec_solid Spec_mesh Spec_conform Spec_open.
From Verif Require Import Proof_conform Proof_border_edge Proof_inner_edge.
Import ListNotations.
Local Open Scope nat_scope.

(** Every border edge is one of two faces. *)
Definition border_shared {D} (m : soup vec3 (mixed_data D)) (border : list edge) : Prop :=
  forall a b, In (a, b) border -> exists i j, i <> j /\
    incident (faces m) i a /\ incident (faces m) i b /\ incident (faces m) j a /\ incident (faces m) j b.

Section Shared.
  Context {D : Type}.
  Variables (L R : soup vec3 D) (A B : vec3 -> Prop) (m : soup vec3 (mixed_data D)) (border : list edge).
  Variable Dom : vec3 -> Prop.
  Hypothesis HA : solid_in Dom L A.
  Hypothesis HB : solid_in Dom R B.
  Hypothesis C : conforming L R m border.
  Hypothesis Hmeet : meet_inside Dom L R.
  Hypothesis Hborder : border_shared m border.
  Notation part := (part m).

  Lemma part_shape : forall i s T a b pa pb, part i s T -> a <> b -> incident (faces m) i a -> incident (faces m) i b ->
    nth_error (points m) a = Some pa -> nth_error (points m) b = Some pb ->
    exists r, (forall x, on_tri x T <-> in_triangle x pa pb r) /\ (forall x, in_tri x T <-> in_open_triangle x pa pb r) /\ ~ degenerate pa pb r.
  Proof.
    intros i s T a b pa pb HT Nab Ia Ib Ha Hb. destruct (part_face m i s T HT) as (x & y & z & px & py & pz & Ef & Ex & Ey & Ez & ET).
    destruct Ia as (t & Et & Va). destruct Ib as (t' & Et' & Vb). rewrite Ef in Et, Et'. injection Et as <-. injection Et' as <-.
    assert (G : exists r (c : bool), if c then rot3 T pa pb r else rot3 T pb pa r).
    { unfold rot3. subst T. cbn in Va, Vb. destruct Va as [ -> | [ -> | -> ] ], Vb as [ -> | [ -> | -> ] ]; try congruence;
        rewrite Ha in *; rewrite Hb in *;
        repeat match goal with H : Some _ = Some _ |- _ => injection H as <- end.
      - exists pz, true. auto.
      - exists py, false. auto.
      - exists pz, false. auto.
      - exists px, true. auto.
      - exists py, true. auto.
      - exists px, false. auto. }
    destruct G as (r & c & G). exists r. split; [ intro w; exact (ccw_on pa pb c T r w G) | ]. split; [ intro w; exact (ccw_in pa pb c T r w G) | ].
    intro Z. exact (cf_nondegenerate _ _ _ _ C i s T HT (flat_ccw pa pb c T r G Z)).
  Qed.

  Lemma degenerate_same : forall p q r, same p q -> degenerate p q r.
  Proof.
    intros [ [p1 p2] p3] [ [q1 q2] q3] [ [r1 r2] r3] (E1 & E2 & E3). unfold degenerate, normal, same, vcross, vsub, vx, vy, vz in *. cbn [fst snd] in *.
    rewrite E1, E2, E3. repeat split; ring.
  Qed.

  Theorem shared_inside : shared_in Dom m border.
  Proof.
    assert (Main : forall a b pa pb i j, nth_error (points m) a = Some pa -> nth_error (points m) b = Some pb -> a <> b -> i <> j ->
      incident (faces m) i a -> incident (faces m) i b -> incident (faces m) j a -> incident (faces m) j b -> Dom (along pa (1 # 2) (vsub pb pa))).
    { intros a b pa pb i j Ha Hb Nab Nij Ia Ib Ja Jb.
      assert (Li : i < length (faces m)) by (destruct Ia as (t & E & _); apply nth_error_Some; congruence).
      assert (Lj : j < length (faces m)) by (destruct Ja as (t & E & _); apply nth_error_Some; congruence).
      destruct (face_part _ _ m border C i Li) as (s & T & HT). destruct (face_part _ _ m border C j Lj) as (t & U & HU).
      destruct (part_shape i s T a b pa pb HT Nab Ia Ib Ha Hb) as (r1 & On1 & In1 & N1). destruct (part_shape j t U a b pa pb HU Nab Ja Jb Ha Hb) as (r2 & On2 & In2 & N2).
      destruct (cf_part _ _ _ _ C i s T HT) as (F & TF & HF & _ & PF). destruct (cf_part _ _ _ _ C j t U HU) as (G & TG & HG & _ & PG).
      assert (Cp : forall r, in_triangle pa pa pb r) by (intro r; exists 1%Q, 0%Q, 0%Q; repeat split; try lra; ring).
      assert (Cq : forall r, in_triangle pb pa pb r) by (intro r; exists 0%Q, 1%Q, 0%Q; repeat split; try lra; ring).
      destruct (bool_dec s t) as [ <- | Nst ].
      - destruct (Nat.eq_dec F G) as [ <- | NFG ].
        + rewrite HF in HG. injection HG as <-.
          assert (K : in_tri (along pa (1 # 2) (vsub pb pa)) TF).
          { apply (inner_side TF pa pb r1 r2).
            - destruct TF as [ [f0 f1] f2]. destruct s; [ exact (pf_nondegenerate _ (proj1 HA) F f0 f1 f2 HF) | exact (pf_nondegenerate _ (proj1 HB) F f0 f1 f2 HF) ].
            - exact N1.
            - intros x X. apply (PF x), On1, X.
            - intros x X. apply (PF x), In1, X.
            - intros x X. apply (PG x), On2, X.
            - intros x X. apply (PG x), In2, X.
            - intros x X1 X2. apply Nij. symmetry. apply (cf_apart _ _ _ _ C i j s T U x HT HU); [ now apply In1 | apply On2 ].
              destruct X2 as (u & v & w & U0 & V0 & W0 & X2). exists u, v, w. repeat split; try apply X2; lra. }
          destruct TF as [ [f0 f1] f2]. destruct s; [ exact (proj2 (proj2 (proj2 HA)) F f0 f1 f2 _ HF K) | exact (proj2 (proj2 (proj2 HB)) F f0 f1 f2 _ HF K) ].
        + apply (Hmeet s s F G TF TG); auto; [ congruence | intro Z; exact (N1 (degenerate_same _ _ r1 Z)) | | | | ].
          * apply (PF pa), On1, Cp.
          * apply (PF pb), On1, Cq.
          * apply (PG pa), On2, Cp.
          * apply (PG pb), On2, Cq.
      - apply (Hmeet s t F G TF TG); auto; [ congruence | intro Z; exact (N1 (degenerate_same _ _ r1 Z)) | | | | ].
        + apply (PF pa), On1, Cp.
        + apply (PF pb), On1, Cq.
        + apply (PG pa), On2, Cp.
        + apply (PG pb), On2, Cq. }
    intros a b pa pb Ha Hb [ He | (Nab & i & j & Nij & X) ].
    - destruct (cf_border _ _ _ _ C a b He) as (Nab & _). destruct (Hborder a b He) as (i & j & Nij & X1 & X2 & X3 & X4).
      exact (Main a b pa pb i j Ha Hb Nab Nij X1 X2 X3 X4).
    - destruct X as (X1 & X2 & X3 & X4). exact (Main a b pa pb i j Ha Hb Nab Nij X1 X2 X3 X4).
  Qed.
End Shared.
