(** * An edge around which every face coincides with one of the other operand *)
From Coq Require Import List Arith Bool Lia QArith.
From Verif Require Import Model_base Model_soup Model_mesh Model_classify Model_geometry Model_local
  Spec_radial Spec_local Proof_base Proof_radial Proof_local Proof_around.
Import ListNotations.
Open Scope nat_scope.

Section Twins.
  Variable fs : list around.
  Notation n := (length fs).
  Notation F := (F fs).
  Variable left : nat -> bool.
  Variable inside : bool -> nat -> bool.
  Variable truth : nat -> face_tag.
  Hypothesis HS : same_edge (fun f => In f fs).
  Hypothesis HSort : radially_sorted fs.
  Hypothesis HE : solid_edge left truth fs inside.
  Hypothesis Hall : forall i, i < n -> overlapping fs i.

  Let adjacent := coincide_adjacent fs left HS HSort (proj1 (proj2 HE)) (proj1 (proj2 (proj2 HE))).
  Let WW := W fs left inside (proj1 HE).
  Notation x := (x inside).

  Lemma pairs_even : forall k, 2 * k < n -> S (2 * k) < n /\ vi_r (F (2 * k)) = vi_r (F (S (2 * k))).
  Proof.
    induction k as [k IH] using lt_wf_ind. intros Hk.
    destruct (Hall _ Hk) as (f & j & g & Hf & Nj & Hg & E).
    destruct (F_eq fs _ _ Hf) as (_ & ->). destruct (F_eq fs _ _ Hg) as (Hj & ->).
    destruct (lt_dec (2 * k) j) as [L | L].
    - assert (j = S (2 * k)) by (apply adjacent; auto). subst j. auto.
    - exfalso. assert (Ej : 2 * k = S j) by (apply adjacent; auto; lia).
      destruct k as [ | k]; [ lia | ]. destruct (IH k ltac:(lia) ltac:(lia)) as (H1 & H2).
      assert (j = S (2 * k)) by lia. subst j.
      assert (Z : 2 * S k = S (2 * k)); [ | lia ]. apply adjacent; [ lia | lia | congruence ].
  Qed.

  Lemma even_n : 0 < n -> exists h, n = 2 * S h.
  Proof.
    intro H. destruct (Nat.Even_or_Odd n) as [ (h & E) | (h & E) ].
    - destruct h as [ | h]; [ lia | ]. exists h. exact E.
    - exfalso. destruct (pairs_even h ltac:(lia)). lia.
  Qed.

  Lemma prev_S : forall i, S i < n -> prev_pos n (S i) = i.
  Proof.
    intros i Hi. unfold prev_pos. replace (S i + (n - 1)) with (i + 1 * n) by lia. rewrite Nat.mod_add by lia. apply Nat.mod_small. lia.
  Qed.
  Lemma prev_0 : 0 < n -> prev_pos n 0 = n - 1.
  Proof. intros H. unfold prev_pos. apply Nat.mod_small. lia. Qed.

  Lemma odd_x : forall k, S (2 * k) < n -> x (S (2 * k)) = x 1.
  Proof.
    induction k as [ | k IH]; intro H; [ reflexivity | ]. rewrite <- IH by lia.
    rewrite (x_flip fs left inside (proj1 HE) (S (2 * S k)) H), prev_S by lia.
    replace (2 * S k) with (S (S (2 * k))) in * by lia.
    rewrite (x_flip fs left inside (proj1 HE) (S (S (2 * k)))) by lia. rewrite prev_S by lia. apply negb_involutive.
  Qed.

  Lemma before_pair : forall k, 2 * k < n -> x (prev_pos n (2 * k)) = x 1.
  Proof.
    intros [ | k] H.
    - destruct (even_n ltac:(lia)) as (h & E). change (2 * 0) with 0. rewrite prev_0 by lia.
      replace (n - 1) with (S (2 * h)) by lia. apply odd_x. lia.
    - replace (2 * S k) with (S (S (2 * k))) in * by lia. rewrite prev_S by lia. apply odd_x. lia.
  Qed.

  Lemma pair_orientation : forall k, 2 * k < n -> xorb (ccw (orient (F (2 * k)))) (ccw (orient (F (S (2 * k))))) = x 1.
  Proof.
    intros k H. destruct (pairs_even k H) as (H1 & E). rewrite <- (before_pair k H).
    destruct (WW _ H) as (A1 & A2 & A3). destruct (WW _ H1) as (B1 & B2 & B3). rewrite prev_S in B1 by lia.
    pose proof (proj1 (proj2 HE) (2 * k) (S (2 * k)) _ _ ltac:(lia) (F_nth fs _ H) (F_nth fs _ H1) E) as N.
    unfold Proof_around.x. destruct (left (fi (F (2 * k)))), (left (fi (F (S (2 * k))))); cbn [negb] in *; try congruence.
    rewrite <- A1, <- B1, A3. apply xorb_comm.
  Qed.

  Theorem same_truth : forall f g, In f fs -> In g fs -> truth (fi f) = truth (fi g).
  Proof.
    assert (G : forall f, In f fs -> truth (fi f) = if x 1 then OPPOSITE else COPLANAR).
    { intros f Hf. apply In_nth_error in Hf. destruct Hf as (i & Hf). destruct (F_eq fs _ _ Hf) as (Hi & ->).
      symmetry. apply (proj2 (proj2 (proj2 HE)) i _ _ (F_nth fs i Hi)). left.
      assert (P : exists j, j <> i /\ j < n /\ vi_r (F j) = vi_r (F i) /\ xorb (ccw (orient (F j))) (ccw (orient (F i))) = x 1).
      { destruct (Nat.Even_or_Odd i) as [ (k & ->) | (k & E) ].
        - destruct (pairs_even k Hi) as (H1 & E). exists (S (2 * k)). split; [ lia | ]. split; [ exact H1 | ]. split; [ congruence | ].
          rewrite xorb_comm. now apply pair_orientation.
        - replace (2 * k + 1) with (S (2 * k)) in E by lia. subst i. destruct (pairs_even k ltac:(lia)) as (H1 & E). exists (2 * k).
          split; [ lia | ]. split; [ lia | ]. split; [ exact E | ]. apply pair_orientation. lia. }
      destruct P as (j & Nj & Hj & Ev & Ex). exists (F i), j, (F j). split; [ now apply F_nth | ]. split; [ exact Nj | ].
      split; [ now apply F_nth | ]. split; [ exact Ev | ]. rewrite <- Ex.
      destruct (orient (F j)), (orient (F i)); cbn [ccw xorb]; split; intro Z; try reflexivity; try discriminate; now elim Z. }
    intros f g Hf Hg. now rewrite (G f Hf), (G g Hg).
  Qed.
End Twins.
