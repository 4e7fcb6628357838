(** * C57: a mesh in which Find_defects finds nothing can be an operand *)
From Coq Require Import List Arith Bool NArith ZArith QArith Lqa Lia Permutation.
From Verif Require Import Model_base Proof_base Model_soup Model_geometry Spec_candidates Model_aabb Spec_aabb Model_parallel_do Model_candidates Model_corefine.
From Verif Require Import Model_defects Spec_defects Prop_defects Model_overlap Spec_ffi Spec_overlap Prop_overlap.
From Verif Require Import Model_find Spec_corefine Spec_again Spec_find Spec_cut Proof_find.
Import ListNotations.
Local Open Scope nat_scope.

(** Find_defects decides the conditions of README.md ("Technical details"): nothing is ever
    thrown; no face is reported as degenerate or overlapping iff the mesh meets conditions 1
    and 2; and if no face is degenerate, no edge is reported iff the mesh is closed.  For all
    meshes, numbers of threads and schedules. *)
Theorem C57_find_defects_decides : forall {P D} (P_eqb : P -> P -> bool) (d0 : D) coords pbox longest_axis sort_by nth_element_by num_threads (m : soup P D) r,
  (forall p q, P_eqb p q = true <-> p = q) -> (forall p, in_box (coords p) (pbox p)) -> rearranges sort_by nth_element_by ->
  valid_faces m -> (N.of_nat (num_faces m) < 2 ^ 32)%N -> 1 <= num_threads ->
  find_defects P_eqb d0 coords pbox longest_axis sort_by nth_element_by num_threads m r ->
  exists d, r = Ok d /\
    (d_trivial d = [] /\ d_flat d = [] /\ d_overlapping d = [] <-> meets_conditions coords m) /\
    (d_trivial d = [] -> (d_boundary d = [] /\ d_inconsistent d = [] /\ d_edges d = [] <-> closed_mesh m)).
Proof.
  intros P D P_eqb d0 coords pbox la sb ne nt m r He Hb Hre V Hn Hnt R.
  destruct (C42_merge P D P_eqb d0 m He V) as (m' & E1 & Dp & Ip & Nf & _ & V' & Fc).
  destruct (C33_isolated P D m' V') as (iso & Ei & _). destruct (C34_vertices P D m' V' ltac:(rewrite Nf; exact Hn)) as (vis & Ev & _).
  destruct (C32_edges P D m') as (hes & Eh & He3). destruct (C33_trivial P D m') as (triv & Et & _ & Ht).
  assert (Ef : find_first P_eqb d0 m = Ok (m', iso, vis, hes, triv)).
  { unfold find_first. rewrite E1. cbn [bind]. rewrite Ei. cbn [bind]. rewrite Ev. cbn [bind]. rewrite Eh. cbn [bind]. rewrite Et. reflexivity. }
  assert (Rg : forall i t, face_corners m i t -> i < num_faces m) by (intros i t (? & ? & ? & ? & ? & ? & X & _); apply nth_error_Some; congruence).
  inversion R as [ m1 iso1 vis1 hes1 triv1 flat ov o1 o2 o3 Ef1 Pm1 Pm2 Pm3 Rf Ro | r' Fl | m1 iso1 vis1 hes1 triv1 flat x Ef1 Rf | m1 iso1 vis1 hes1 triv1 flat ov x Ef1 Rf Ro ]; subst;
    [ | rewrite Ef in Fl; destruct Fl | | ]; rewrite Ef in Ef1; injection Ef1 as <- <- <- <- <-.
  - exists (mk_defects m' iso vis (boundary_edges hes o1) (inconsistent_edges hes o2) (non_manifold_edges hes o3) triv flat ov).
    split; [ reflexivity | ]. cbn [d_trivial d_flat d_overlapping d_boundary d_inconsistent d_edges].
    assert (Dg : forall i, i < num_faces m -> (In i (triv ++ flat) <-> degenerate_face coords m i)).
    { intros i Hi. rewrite (degenerate_iff coords m' nt triv flat V' Hnt Et Rf i) by (rewrite Nf; exact Hi).
      unfold degenerate_face. split; intros (p & q & s & F & C); exists p, q, s; (split; [ apply Fc; exact F | exact C ]). }
    assert (Lt : forall i, In i (triv ++ flat) -> i < num_faces m).
    { intros i Hi. apply in_app_iff in Hi. rewrite <- Nf. destruct Hi as [Hi | Hi].
      - apply Ht in Hi. destruct Hi as (f & X & _). apply nth_error_Some. congruence.
      - destruct (C33_non_trivial P D coords m' nt flat None V' Hnt Rf) as (_ & _ & Hf). apply Hf in Hi. destruct Hi as (f & ? & ? & ? & X & _). apply nth_error_Some. congruence. }
    assert (Ow : overlap_report P_eqb d0 coords pbox la sb ne nt m ov None) by (exists m', triv, flat; auto).
    assert (Fl := C43_flag P D P_eqb d0 coords pbox la sb ne nt m ov None He Hb Hre V Hnt Ow).
    assert (Vx : forall i, i < num_faces m -> exists t, face_corners m i t).
    { intros i Hi. destruct (nth_error (faces m) i) as [f | ] eqn:Efi; [ | apply nth_error_None in Efi; unfold num_faces in Hi; lia ].
      destruct (corners_exist m i f V Efi) as (p & q & s & F). exists (p, q, s). exact F. }
    split.
    + rewrite <- (clean_iff P_eqb He coords m Vx), Fl. split.
      * intros (-> & -> & O). split; [ exact Vx | ]. assert (N : forall i, i < num_faces m -> ~ degenerate_face coords m i) by (intros i Hi X; apply (Dg i Hi) in X; destruct X).
        split; [ exact N | ]. intros i j Hi Hj Nij. apply O; auto.
      * intros (_ & N & O). assert (E : triv ++ flat = []).
        { destruct (triv ++ flat) as [ | i l]; [ reflexivity | exfalso ]. assert (Hi : i < num_faces m) by (apply Lt; left; reflexivity). apply (N i Hi), (Dg i Hi). left. reflexivity. }
        apply app_eq_nil in E. destruct E as (-> & ->). split; [ reflexivity | ]. split; [ reflexivity | ]. intros i j Hi Hj Nij _ _. apply O; assumption.
    + intros ->. assert (Pf : forall f, In f (faces m') -> Spec_defects.proper f).
      { intros f If. destruct (properb f) eqn:Pb.
        - destruct f as [ [a b] c]. cbn [Spec_defects.proper properb] in *. rewrite !andb_true_iff, !negb_true_iff, !Nat.eqb_neq in Pb. tauto.
        - exfalso. apply In_nth_error in If. destruct If as (i & Hi). apply (proj2 (Ht i)). exists f. split; [ exact Hi | ]. destruct f as [ [a b] c].
          intros (N1 & N2 & N3). apply Nat.eqb_neq in N1, N2, N3. cbn [properb] in Pb. rewrite N1, N2, N3 in Pb. discriminate. }
      assert (Cl : closed_mesh m' <-> closed_mesh m).
      { unfold closed_mesh. split; intros (C1 & C2); split.
        - intros i j t u p q Fi Fj. apply Fc in Fi, Fj. eapply C1; eassumption.
        - intros i t p q Fi Dt. apply Fc in Fi. destruct (C2 _ _ _ _ Fi Dt) as (j & u & Fj & Du). exists j, u. apply Fc in Fj. auto.
        - intros i j t u p q Fi Fj. apply Fc in Fi, Fj. eapply C1; eassumption.
        - intros i t p q Fi Dt. apply Fc in Fi. destruct (C2 _ _ _ _ Fi Dt) as (j & u & Fj & Du). exists j, u. apply Fc in Fj. auto. }
      rewrite <- Cl, <- (closed_iff m' Dp V' Pf), <- (C32_closed P D m' hes o1 Eh Pm1).
      (* the orders do not matter *)
      assert (Nil : forall l : list (nat * nat), l = [] <-> forall i j, ~ In (i, j) l).
      { intro l. split; [ intros -> i j [] | ]. destruct l as [ | [i j] l]; [ reflexivity | ]. intro X. exfalso. apply (X i j). left. reflexivity. }
      destruct (He3 o1 Pm1) as ((_ & B1) & (_ & I1) & (_ & M1)). destruct (He3 o2 Pm2) as (_ & (_ & I2) & _). destruct (He3 o3 Pm3) as (_ & _ & (_ & M3)).
      assert (EI : inconsistent_edges hes o2 = [] <-> inconsistent_edges hes o1 = []) by (rewrite !Nil; split; intros X i j Y; apply (X i j); [ apply I2, I1, Y | apply I1, I2, Y ]).
      assert (EM : non_manifold_edges hes o3 = [] <-> non_manifold_edges hes o1 = []) by (rewrite !Nil; split; intros X i j Y; apply (X i j); [ apply M3, M1, Y | apply M1, M3, Y ]).
      rewrite EI, EM. reflexivity.
  - exfalso. destruct (C33_non_trivial P D coords m' nt flat (Some x) V' Hnt Rf) as (X & _). discriminate.
  - exfalso. destruct (C43_exact P D P_eqb d0 coords pbox la sb ne nt m ov (Some x) He Hb Hre V Hnt) as (X & _); [ exists m', triv, flat; auto | discriminate ].
Qed.
Print Assumptions C57_find_defects_decides.

(** Every mesh with a face is reported on (with one thread). *)
Example C57_can_run : forall (P D : Type) (P_eqb : P -> P -> bool) (d0 : D) (coords : P -> vec3) (pbox : P -> box) longest_axis sort_by nth_element_by (m : soup P D),
  (forall p q, P_eqb p q = true <-> p = q) -> valid_faces m -> (N.of_nat (num_faces m) < 2 ^ 32)%N -> 1 <= num_faces m ->
  exists r, find_defects P_eqb d0 coords pbox longest_axis sort_by nth_element_by 1 m r.
Proof.
  intros P D P_eqb d0 coords pbox la sb ne m He V Hn N.
  destruct (C42_merge P D P_eqb d0 m He V) as (m' & E1 & Dp & Ip & Nf & _ & V' & Fc).
  destruct (C33_isolated P D m' V') as (iso & Ei & _). destruct (C34_vertices P D m' V' ltac:(rewrite Nf; exact Hn)) as (vis & Ev & _).
  destruct (C32_edges P D m') as (hes & Eh & _).
  destruct (C43_can_run P D P_eqb d0 coords pbox la sb ne m He V N) as (fis & x & m1 & triv & flat & E1' & Et & Rf & Ro).
  rewrite E1 in E1'. injection E1' as <-.
  assert (Ef : find_first P_eqb d0 m = Ok (m', iso, vis, hes, triv)).
  { unfold find_first. rewrite E1. cbn [bind]. rewrite Ei. cbn [bind]. rewrite Ev. cbn [bind]. rewrite Eh. cbn [bind]. rewrite Et. reflexivity. }
  destruct x as [x | ].
  - exists (raised_as x). eapply find_overlap_fails; eassumption.
  - eexists. eapply find_ok; try eassumption; apply Permutation_refl.
Qed.
