(** * Sets that agree nearly everywhere have the same boundary *)
From Coq Require Import List Arith ZArith QArith Qabs Qminmax Lqa Lia Bool.
From Verif Require Import Model_base Proof_base Model_soup Model_geometry Model_side Spec_aabb Spec_candidates Spec_side Spec_solid Spec_visible.
From Verif Require Import Proof_affine Proof_clip Proof_small Proof_walk Proof_link Proof_visible Proof_meet.
From Verif Require Import Spec_side Spec_solid.
Import ListNotations.
Local Open Scope Q_scope.

Definition no_flat {D} (m : soup vec3 D) : Prop := forall fi a b c, soup_triangle m fi = Ok (a, b, c) -> ~ degenerate a b c.

Lemma ev_off : forall D (m : soup vec3 D) x w, no_flat m -> ~ on_boundary m x ->
  eventually (fun e => forall z, in_segment z x (along x e w) -> ~ on_boundary m z).
Proof.
  intros D m x w F Off. destruct (all_triangles D m) as (l & Hl).
  assert (EV : eventually (fun e => forall T, In T l -> forall z, in_segment z x (along x e w) -> ~ on_tri z T)).
  { apply ev_list. intros [ [a b] c] I. apply Hl in I. destruct I as (fi & J). pose proof (F fi a b c J) as N.
    assert (NT : ~ sat (tri_cons a b c) x) by (intro K; apply Off; exists fi, a, b, c; split; [ exact J | apply (on_tri_iff (a, b, c) x N); exact K ]).
    generalize (ev_point _ x w NT). apply ev_mono. intros e _ H z Hz Ho. apply (H z Hz). apply (on_tri_iff (a, b, c) z N). exact Ho. }
  revert EV. apply ev_mono. intros e _ H z Hz (fi & a & b & c & J & O). apply (H (a, b, c)) with (z := z); [ apply Hl; exists fi; exact J | exact Hz | exact O ].
Qed.
Lemma boundary_dec : forall D (m : soup vec3 D) x, no_flat m -> on_boundary m x \/ ~ on_boundary m x.
Proof.
  intros D m x F. destruct (all_triangles D m) as (l & Hl).
  assert (X : (exists T, In T l /\ on_tri x T) \/ forall T, In T l -> ~ on_tri x T).
  { assert (G : forall T, In T l -> on_tri x T \/ ~ on_tri x T) by (intros [ [a b] c] I; apply Hl in I; destruct I as (fi & J); apply on_tri_dec; exact (F fi a b c J)).
    clear Hl. induction l as [ | T l IH]; [ right; intros T [] | ]. destruct (G T (or_introl eq_refl)) as [O | O]; [ left; exists T; split; [ left; reflexivity | exact O ] | ].
    destruct IH as [ (U & I & OU) | N]; [ intros U I; apply G; right; exact I | left; exists U; split; [ right; exact I | exact OU ] | right; intros U [<- | I]; auto ]. }
  destruct X as [ ([ [a b] c] & I & O) | N].
  - left. apply Hl in I. destruct I as (fi & J). exists fi, a, b, c. auto.
  - right. intros (fi & a & b & c & J & O). apply (N (a, b, c)); [ apply Hl; exists fi; exact J | exact O ].
Qed.
Lemma ev_generic : forall (l : list tri3) q v, (forall U, In U l -> ~ vdot (tri_normal U) v == 0) ->
  eventually (fun e => forall U, In U l -> ~ on_tri (along q e v) U).
Proof.
  intros l q v H. destruct (small_off l q v H) as (b & B0 & Hb). exists ((1 # 2) * b). split; [ lra | ].
  intros e E0 E1 [ [a0 b0] c0] I O. apply (Hb e ltac:(lra) (a0, b0, c0) I). apply hgt_on. exact O.
Qed.

Section Same.
  Context {D : Type}.
  Variables (l : list tri3) (S S' : vec3 -> Prop).
  Hypothesis Fl : forall U, In U l -> ~ flat U.
  Hypothesis Eq : forall x, (forall U, In U l -> ~ on_tri x U) -> (S x <-> S' x).

  Lemma surface_within : forall (m m' : soup vec3 D) x, no_flat m -> no_flat m' -> bounds m S -> bounds m' S' -> on_boundary m x -> on_boundary m' x.
  Proof.
    intros m m' x F F' Bd Bd'.
    assert (Open : forall fi a b c q, soup_triangle m fi = Ok (a, b, c) -> in_open_triangle q a b c -> on_boundary m' q).
    { intros fi a b c q J O. destruct (boundary_dec _ m' q F') as [Y | Off]; [ exact Y | exfalso ].
      destruct (generic_behind ((a, b, c) :: l) (a, b, c)) as (v & Vn & Hv).
      { intros U [<- | I]; [ exact (F fi a b c J) | exact (Fl U I) ]. }
      { left. reflexivity. }
      set (u := scaled (-(1)) v). assert (Eu : forall n, vdot n u == - vdot n v) by (intro n; unfold u, vdot, scaled; cbn [vx vy vz fst snd]; ring).
      assert (Hu : forall U, In U l -> ~ vdot (tri_normal U) u == 0) by (intros U I Z; rewrite Eu in Z; apply (Hv U (or_intror I)); lra).
      assert (EF : forall w, eventually (fun e => (vdot (normal a b c) w < 0 -> S (along q e w)) /\ (0 < vdot (normal a b c) w -> ~ S (along q e w)))).
      { intro w. destruct (bd_face _ _ Bd fi a b c q w J O) as (bb & B0 & HB). exists ((1 # 2) * bb). split; [ lra | ]. intros e E0 E1. apply HB. lra. }
      destruct (ev_witness _ (ev_and _ _ (ev_and _ _ (ev_and _ _ (EF v) (EF u)) (ev_and _ _ (ev_generic l q v (fun U I => Hv U (or_intror I))) (ev_generic l q u Hu)))
        (ev_and _ _ (ev_off _ m' q v F' Off) (ev_off _ m' q u F' Off)))) as (e & E0 & (((Sv & _) & (_ & Su)) & Gv & Gu) & Wv & Wu).
      apply Su; [ rewrite Eu; change (normal a b c) with (tri_normal (a, b, c)); lra | ].
      apply (Eq _ Gu). apply (bd_walk _ _ Bd' q _ Wu). apply (bd_walk _ _ Bd' q _ Wv). apply (Eq _ Gv). apply Sv. exact Vn. }
    intros (fi & a & b & c & J & O). destruct (boundary_dec _ m' x F') as [Y | Off]; [ exact Y | exfalso ].
    destruct (ev_witness _ (ev_below _ 1 ltac:(lra) (ev_off _ m' x (vsub (centroid a b c) x) F' Off))) as (e & E0 & E1 & W).
    apply (W (along x e (vsub (centroid a b c) x))).
    - exists 1. split; [ lra | ]. unfold same, along, vsub. cbn [vx vy vz fst snd]. repeat split; ring.
    - apply (Open fi a b c _ J). destruct O as (u & v & w & U & V & W' & Su & X & Y & Z).
      exists ((1 - e) * u + e * (1 # 3)), ((1 - e) * v + e * (1 # 3)), ((1 - e) * w + e * (1 # 3)).
      unfold along, vsub, centroid, Qdiv. cbn [vx vy vz fst snd]. change (/ 3) with (1 # 3). rewrite X, Y, Z.
      split; [ nra | ]. split; [ nra | ]. split; [ nra | ]. split; [ | repeat split; ring ].
      transitivity ((1 - e) * (u + v + w) + e); [ ring | rewrite Su; ring ].
  Qed.

  Lemma sides_same : forall (m m' : soup vec3 D) x, no_flat m -> no_flat m' -> bounds m S -> bounds m' S' -> ~ on_boundary m x -> ~ on_boundary m' x -> (S x <-> S' x).
  Proof.
    intros m m' x F F' Bd Bd' Off Off'.
    destruct (generic (map tri_normal l)) as (v & Hv0).
    { intros n I. apply in_map_iff in I. destruct I as (U & <- & I). specialize (Fl U I). destruct U as [ [p q] r]. exact Fl. }
    assert (Hv : forall U, In U l -> ~ vdot (tri_normal U) v == 0) by (intros U I; apply Hv0, in_map, I).
    destruct (ev_witness _ (ev_and _ _ (ev_generic l x v Hv) (ev_and _ _ (ev_off _ m x v F Off) (ev_off _ m' x v F' Off')))) as (e & E0 & G & W & W').
    rewrite (bd_walk _ _ Bd x _ W), (bd_walk _ _ Bd' x _ W'). exact (Eq _ G).
  Qed.

  Lemma agree_somewhere : exists x, S x <-> S' x.
  Proof.
    destruct (generic (map tri_normal l)) as (v & Hv0).
    { intros n I. apply in_map_iff in I. destruct I as (U & <- & I). specialize (Fl U I). destruct U as [ [p q] r]. exact Fl. }
    destruct (ev_witness _ (ev_generic l (0, 0, 0) v (fun U I => Hv0 _ (in_map _ _ _ I)))) as (e & _ & G). exists (along (0, 0, 0) e v). exact (Eq _ G).
  Qed.
End Same.
