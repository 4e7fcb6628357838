(** * The outlines that cut a face are compatible constraints *)
From Coq Require Import List Arith Bool QArith Lqa Lia.
From Verif Require Import Model_base Model_geometry Model_soup Model_corefine Spec_candidates Spec_defects Spec_ffi Spec_corefine Spec_mix Spec_cut.
From Verif Require Import Proof_fan Proof_extreme Proof_hull Proof_ffi_result Proof_cells Proof_outline Proof_cut Proof_cut_faces.
Import ListNotations.
Local Open Scope nat_scope.

Lemma between_strictly : forall p q x, between p q x <-> strictly_between p q x.
Proof.
  intros p q x. split; intros (k & K0 & K1 & E); exists k; (split; [ exact K0 | split; [ exact K1 | ] ]); (eapply same_trans; [ exact E | ]);
    unfold mix, comb, same_point; cbn [vx vy vz fst snd]; unfold vx, vy, vz; cbn [fst snd]; repeat split; ring.
Qed.
Lemma neighbours_in : forall {A} (l : list A) x y, neighbours l x y -> In x l /\ In y l.
Proof. intros A l x y (k & _ & X & Y). split; [ exact (nth_error_In _ _ X) | exact (nth_error_In _ _ Y) ]. Qed.
Lemma neighbours_ne : forall {A} (l : list A) x y, NoDup l -> neighbours l x y -> x <> y.
Proof.
  intros A l x y Nd (k & L & X & Y) <-. assert (k = (k + 1) mod length l).
  { apply (proj1 (NoDup_nth_error l) Nd); [ apply nth_error_Some; congruence | congruence ]. }
  assert (k < length l) by (apply nth_error_Some; congruence).
  destruct (Nat.eq_dec (k + 1) (length l)) as [E | E]; [ rewrite E, Nat.mod_same in H; lia | rewrite Nat.mod_small in H; lia ].
Qed.

Section Pre.
  Variable pos : nat -> vec3.
  Variable fc : bool -> nat -> nat * nat * nat -> Prop.
  Variable unk : bool -> nat -> Prop.
  Variable outl : bool -> nat -> nat -> list nat.
  Notation tri := (triangle_of pos).
  Notation vert := (vert fc outl).
  Hypothesis nd : forall s F t, fc s F t -> nondegenerate (tri t).
  Hypothesis fun_ : forall s F t u, fc s F t -> fc s F u -> t = u.
  Hypothesis simp : forall s F G t u m k x, fc s F t -> fc s G u -> in_feature (tri t) m x -> in_feature (tri u) k x ->
      forall v, In v (pick m t) <-> In v (pick k u).
  Hypothesis some : forall s F G, outl s F G <> [] -> exists t u, fc s F t /\ unk s F /\ fc (negb s) G u /\ unk (negb s) G.
  Hypothesis nodup : forall s F G, NoDup (outl s F G).
  Hypothesis vertex : forall s F G t u v, fc s F t -> fc (negb s) G u -> In v (outl s F G) -> is_vertex (tri t) (tri u) (pos v).
  Hypothesis side : forall s F G t u i j, fc s F t -> fc (negb s) G u -> neighbours (outl s F G) i j -> is_side (tri t) (tri u) (pos i) (pos j).
  Hypothesis inj : forall s F v s' F' v', vert s F v -> vert s' F' v' -> same_point (pos v) (pos v') -> v = v'.

  (** A vertex of an outline of a face is one of another if it lies in that, too. *)
  Lemma move_vertex : forall s F t G u G' u' v, fc s F t -> fc (negb s) G u -> fc (negb s) G' u' -> In v (outl s F G') -> inside (tri u) (pos v) ->
    is_vertex (tri t) (tri u) (pos v).
  Proof.
    intros s F t G u G' u' v H K K' J I. pose proof (vertex s F G' t u' v H K' J) as V. apply inside_feature in I. destruct I as (n & Fn).
    pose proof (proj2 (proj1 V)) as I'. apply inside_feature in I'. destruct I' as (m & Fm).
    apply vertex_sym. apply (vertex_transfer pos u' u (tri t) m n (pos v) (nd _ _ _ K) Fm Fn); [ | apply vertex_sym, V ].
    exact (simp (negb s) G' G u' u m n (pos v) K' K Fm Fn).
  Qed.

  Lemma outline_ne : forall s F G i j, neighbours (outl s F G) i j -> i <> j /\ ~ same_point (pos i) (pos j).
  Proof.
    intros s F G i j N. pose proof (neighbours_ne _ _ _ (nodup s F G) N) as D. split; [ exact D | ]. intro S. apply D. destruct (neighbours_in _ _ _ N) as [Ji Jj].
    apply (inj s F i s F j); [ right; eauto | right; eauto | exact S ].
  Qed.

  Lemma no_vertex : forall s F G i j v, neighbours (outl s F G) i j -> vert s F v -> ~ strictly_between (pos i) (pos j) (pos v).
  Proof.
    intros s F G i j v N V B. destruct (neighbours_in _ _ _ N) as [Ji Jj]. destruct (outline_ne s F G i j N) as [_ D].
    destruct (some s F G) as (t & u & H & _ & K & _); [ intro E; rewrite E in Ji; destruct Ji | ].
    pose proof (vertex s F G t u i H K Ji) as Vi. pose proof (vertex s F G t u j H K Jj) as Vj.
    assert (Bv : both (tri t) (tri u) (pos v)).
    { destruct B as (k & K0 & K1 & E). apply (both_same _ _ (mix (pos i) (pos j) k)); [ apply same_sym, E | ]. apply both_mix; [ lra | apply Vi | apply Vj ]. }
    assert (Vv : is_vertex (tri t) (tri u) (pos v)).
    { destruct V as [(t' & H' & Hv) | (G' & J)].
      - rewrite (fun_ _ _ _ _ H' H) in Hv. destruct (corner_feature pos t v Hv) as (m & Fm & Bm & _). exact (corner_vertex _ _ m _ (nd _ _ _ H) Fm Bm (proj2 Bv)).
      - destruct (some s F G') as (t' & u' & _ & _ & K' & _); [ intro E; rewrite E in J; destruct J | ].
        exact (move_vertex s F t G u G' u' v H K K' J (proj2 Bv)). }
    destruct (vertex_between _ _ _ _ _ Vv (proj1 Vi) (proj1 Vj) B) as [X Y]. apply D. eapply same_trans; [ apply same_sym, X | exact Y ].
  Qed.

  (** A vertex on a side is one of its ends. *)
  Lemma side_end : forall T U y z x, is_vertex T U y -> is_vertex T U z -> is_vertex T U x -> on_segment y z x -> same_point x y \/ same_point x z.
  Proof.
    intros T U y z x Vy Vz Vx O. rewrite on_segment_mix in O. destruct O as (k & [K0 K1] & E).
    destruct (Qlt_le_dec 0 k) as [P0 | P0]; [ destruct (Qlt_le_dec k 1) as [P1 | P1] | ].
    - left. apply (vertex_mix T U x y z k Vx (proj1 Vy) (proj1 Vz) P0 P1 E).
    - right. eapply same_trans; [ exact E | ]. assert (Ek : (k == 1)%Q) by lra. unfold mix, same_point. cbn [vx vy vz fst snd]. unfold vx, vy, vz. cbn [fst snd]. rewrite Ek. repeat split; ring.
    - left. eapply same_trans; [ exact E | ]. assert (Ek : (k == 0)%Q) by lra. unfold mix, same_point. cbn [vx vy vz fst snd]. unfold vx, vy, vz. cbn [fst snd]. rewrite Ek. repeat split; ring.
  Qed.

  Lemma no_cross : forall s F G G' i j i' j' x, neighbours (outl s F G) i j -> neighbours (outl s F G') i' j' ->
    strictly_between (pos i) (pos j) x -> strictly_between (pos i') (pos j') x -> (i = i' /\ j = j') \/ (i = j' /\ j = i').
  Proof.
    intros s F G G' i j i' j' x N N' B B'. destruct (neighbours_in _ _ _ N) as [Ji Jj]. destruct (neighbours_in _ _ _ N') as [Ji' Jj'].
    destruct (outline_ne _ _ _ _ _ N) as [Dij D]. destruct (outline_ne _ _ _ _ _ N') as [Dij' D'].
    destruct (some s F G) as (t & u & H & _ & K & _); [ intro E; rewrite E in Ji; destruct Ji | ].
    destruct (some s F G') as (t' & u' & H' & _ & K' & _); [ intro E; rewrite E in Ji'; destruct Ji' | ]. pose proof (fun_ _ _ _ _ H' H) as X. subst t'. clear H'.
    pose proof (vertex s F G t u i H K Ji) as Vi. pose proof (vertex s F G t u j H K Jj) as Vj.
    pose proof (vertex s F G' t u' i' H K' Ji') as Vi'. pose proof (vertex s F G' t u' j' H K' Jj') as Vj'.
    assert (Bx : both (tri t) (tri u) x).
    { destruct B as (k & K0 & K1 & E). apply (both_same _ _ (mix (pos i) (pos j) k)); [ apply same_sym, E | ]. apply both_mix; [ lra | apply Vi | apply Vj ]. }
    assert (Bx' : both (tri t) (tri u') x).
    { destruct B' as (k & K0 & K1 & E). apply (both_same _ _ (mix (pos i') (pos j') k)); [ apply same_sym, E | ]. apply both_mix; [ lra | apply Vi' | apply Vj' ]. }
    (* the ends of the second are in the first face, too *)
    assert (I : inside (tri u) (pos i') /\ inside (tri u) (pos j')).
    { pose proof (proj2 Bx) as I1. apply inside_feature in I1. destruct I1 as (n & Fn). pose proof (proj2 Bx') as I2. apply inside_feature in I2. destruct I2 as (m & Fm).
      destruct B' as (k & K0 & K1 & E). destruct (closed_extreme _ m x (pos i') (pos j') k (nd _ _ _ K') (feature_closed _ _ _ Fm) (proj2 (proj1 Vi')) (proj2 (proj1 Vj')) K0 K1 E) as [C1 C2].
      pose proof (simp (negb s) G' G u' u m n x K' K Fm Fn) as Em.
      split; apply (closed_inside _ n); apply (closed_pick pos u' m u n); try assumption; intros p J; apply Em, J. }
    pose proof (move_vertex s F t G u G' u' i' H K K' Ji' (proj1 I)) as Wi. pose proof (move_vertex s F t G u G' u' j' H K K' Jj' (proj2 I)) as Wj.
    destruct (side_between _ _ (pos i) (pos j) (pos i') (pos j') x Vi Vj D (side s F G t u i j H K N) (proj1 Wi) (proj1 Wj) (between_on _ _ _ B) B') as [O1 O2].
    assert (Id : forall a b, In a (outl s F G) -> In b (outl s F G') -> same_point (pos b) (pos a) -> a = b).
    { intros a b A B0 S. symmetry. apply (inj s F b s F a); [ right; eauto | right; eauto | exact S ]. }
    destruct (side_end _ _ _ _ _ Vi Vj Wi O1) as [E1 | E1]; destruct (side_end _ _ _ _ _ Vi Vj Wj O2) as [E2 | E2]; apply Id in E1; try assumption; apply Id in E2; try assumption; subst; try congruence; auto.
  Qed.
End Pre.
