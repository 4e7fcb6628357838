(** * parallel_do with bodies that collect lists *)
From Coq Require Import List Arith Bool Lia Permutation.
From Verif Require Import Model_base Proof_base Model_parallel_do Spec_parallel_do Proof_parallel_do.
From Verif Require Import Proof_parallel_run Prop_parallel_do Model_candidates.
Import ListNotations.
Local Open Scope nat_scope.

Section NoThrow.
  Context {A S X G : Type}.
  Variable body : A -> S -> S * option X.
  Variable post : S -> G -> G * option X.
  Variable l : list A.
  Variable has_post : bool.
  Hypothesis body_ok : forall a s, In a l -> snd (body a s) = None.
  Hypothesis post_ok : forall s g, snd (post s g) = None.

  Lemma step_no_throw : forall st tid lb st',
    step body post l has_post st tid = Some (lb, st') -> raised_by (tid, lb) = [].
  Proof.
    intros st tid lb st' H. unfold step in H.
    destruct (nth_error (fst st) tid) as [p | ]; [ | discriminate ].
    destruct (tstep body post l has_post tid p (snd st)) as [ [ [lb' p'] sh'] | ] eqn:E; [ | discriminate ].
    injection H as -> _. unfold raised_by. cbn [snd]. destruct p; cbn [tstep] in E.
    - destruct (next (snd st) <? length l); injection E as <- <- <-; reflexivity.
    - destruct (nth_error l i) as [a | ] eqn:Ea; [ | discriminate ].
      pose proof (body_ok a s (nth_error_In _ _ Ea)) as Hb. destruct (body a s) as [s' t]. cbn in Hb.
      subst t. injection E as <- <- <-. reflexivity.
    - destruct (exc (snd st)); injection E as <- <- <-; reflexivity.
    - destruct (owner (snd st)); [ discriminate | ]. injection E as <- <- <-; reflexivity.
    - pose proof (post_ok s (glob (snd st))) as Hb. destruct (post s (glob (snd st))) as [g' t].
      cbn in Hb. subst t. injection E as <- <- <-. reflexivity.
    - destruct (owner (snd st)); [ discriminate | ]. injection E as <- <- <-; reflexivity.
    - injection E as <- <- <-; reflexivity.
    - discriminate.
  Qed.

  Lemma no_throw : forall nt s0 g0 tr g x,
    parallel_do body post l has_post nt s0 g0 tr g x -> raised tr = [].
  Proof.
    intros nt s0 g0 tr g x H. destruct H as [E | tr g x _ _ E | tr st x _ _ R].
    - reflexivity.
    - unfold seq_do in E.
      assert (G1 : forall as_ i s, (forall a, In a as_ -> In a l) ->
        raised (fst (seq_bodies body i as_ s)) = [] /\
        exists s', snd (seq_bodies body i as_ s) = inl s').
      { induction as_ as [ | a r IH]; intros i s Hin; cbn [seq_bodies].
        - split; [ reflexivity | eexists; reflexivity ].
        - pose proof (body_ok a s (Hin a (or_introl eq_refl))) as Hb. destruct (body a s) as [s' t].
          cbn in Hb. subst t.
          destruct (IH (i + 1) s' (fun y Hy => Hin y (or_intror Hy))) as [H1 [s2 H2] ].
          destruct (seq_bodies body (i + 1) r s') as [tr1 o]. cbn [fst snd] in *.
          split; [ cbn; exact H1 | eauto ]. }
      destruct (G1 l 0 s0 (fun a H => H)) as [H1 [s' H2] ].
      destruct (seq_bodies body 0 l s0) as [tr1 o]. cbn [fst snd] in *. subst o.
      destruct has_post.
      + pose proof (post_ok s' g0) as Hb. destruct (post s' g0) as [g' t]. cbn in Hb. subst t.
        injection E as <- <- <-. unfold raised in *. rewrite flat_map_app, H1. reflexivity.
      + injection E as <- <- <-. exact H1.
    - induction R as [ | tr st m tid lb st' R IH Hst | | ]; auto.
      unfold raised in *. rewrite flat_map_app, IH. cbn [flat_map app].
      rewrite (step_no_throw _ _ _ _ Hst). reflexivity.
  Qed.
End NoThrow.

Lemma fold_plus : forall l a, fold_left Nat.add l a = a + fold_left Nat.add l 0.
Proof.
  induction l as [ | x l IH]; intro a; cbn [fold_left]; [ lia | ].
  rewrite IH, (IH (0 + x)). lia.
Qed.

(** Bodies that append a list to the state, and a [post] that appends the state to
    the result. *)
Lemma collect : forall {A T} (eq_dec : forall x y : T, {x = y} + {x <> y}) (f : A -> res (list T))
    (h : A -> list T) (l : list A) nt tr g x,
  (forall a, In a l -> f a = Ok (h a)) -> 1 <= nt ->
  parallel_do (to_body f) append_post l true nt [] [] tr g x ->
  x = None /\ Permutation g (flat_map h l).
Proof.
  intros A T eq_dec f h l nt tr g x Hf Hnt H.
  assert (R : raised tr = []).
  { apply (no_throw (to_body f) append_post l true) with (2 := fun s g => eq_refl) (3 := H).
    intros a s Ha. unfold to_body. rewrite (Hf a Ha). reflexivity. }
  split; [ exact (proj2 (C15_each_element_once _ _ _ _ _ _ _ _ _ _ _ _ _ _ Hnt H R)) | ].
  apply (Permutation_count_occ eq_dec). intro y.
  set (val := fun a => match f a with Ok r => count_occ eq_dec r y | _ => 0 end).
  assert (E := C15_reduction A (list T) (option exn) (list T) (to_body f) append_post l nt [] [] tr g x
    nat Nat.add 0 val (fun s => count_occ eq_dec s y) (fun s => count_occ eq_dec s y)
    Nat.add_assoc Nat.add_comm Nat.add_0_r eq_refl).
  rewrite E; auto.
  - clear - Hf. cbn [count_occ]. induction l as [ | a l IH]; [ reflexivity | ].
    cbn [map fold_left flat_map]. rewrite fold_plus, IH by (intros; apply Hf; right; assumption).
    rewrite count_occ_app. unfold val. rewrite (Hf a (or_introl eq_refl)). lia.
  - intros a s. unfold to_body, val. destruct (f a); cbn [fst]; rewrite ?count_occ_app; lia.
  - intros s m. unfold append_post. cbn [fst]. destruct m; [ cbn [count_occ]; lia | ].
    rewrite count_occ_app. lia.
Qed.
