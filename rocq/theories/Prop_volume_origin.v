(** * C64: The volume does not depend on the origin *)
From Coq Require Import List Arith Bool NArith ZArith QArith Lqa Lia Permutation.
From Verif Require Import Model_base Model_soup Model_geometry Model_boolean Spec_boolean Spec_candidates Spec_defects Spec_find Spec_balance Spec_side Spec_solid Spec_whole Spec_again Spec_volume Spec_watertight.
From Verif Require Import Proof_find Proof_separate Proof_balance Prop_watertight.
From Verif Require Import Spec_boolean Spec_side Spec_solid Spec_volume Spec_watertight.
Import ListNotations.
Local Open Scope Q_scope.

Definition sides {P} (t : P * P * P) : list (P * P) := let '(a, b, c) := t in [(a, b); (b, c); (c, a)].
Definition swap {P} (e : P * P) : P * P := (snd e, fst e).

Lemma qsum_permutation : forall l k, Permutation l k -> qsum l == qsum k.
Proof. intros l k H. induction H; cbn [qsum]; [ reflexivity | rewrite IHPermutation; reflexivity | ring | rewrite IHPermutation1; exact IHPermutation2 ]. Qed.

(** A sum over edges that occur as often in one direction as in the other. *)
Lemma edges_cancel : forall {P} (dec : forall e e' : P * P, {e = e'} + {e <> e'}) (g : P * P -> Q) l,
  (forall e, g (swap e) == - g e) -> (forall e, count_occ dec l e = count_occ dec l (swap e)) -> qsum (map g l) == 0.
Proof.
  intros P dec g l Odd Eq.
  assert (Sw : forall e : P * P, swap (swap e) = e) by (intros [p q]; reflexivity).
  assert (Pm : Permutation l (map swap l)).
  { apply (Permutation_count_occ dec). intro e. rewrite Eq. clear - Sw. induction l as [ | f l IH]; [ reflexivity | ]. cbn [map count_occ].
    destruct (dec f (swap e)) as [X | X], (dec (swap f) e) as [Y | Y]; [ f_equal; exact IH | exfalso; apply Y; rewrite X; apply Sw | exfalso; apply X; rewrite <- Y; symmetry; apply Sw | exact IH ]. }
  pose proof (qsum_permutation _ _ (Permutation_map g Pm)) as H. rewrite map_map in H.
  assert (N : qsum (map (fun e => g (swap e)) l) == - qsum (map g l)) by (clear - Odd; induction l as [ | e l IH]; cbn [map qsum]; [ ring | rewrite IH, Odd; ring ]). lra.
Qed.

Lemma picked_count : forall {A} (g : A -> bool) (l : list A), counts (fun k => exists f, nth_error l k = Some f /\ g f = true) (length (filter g l)).
Proof.
  intros A g l. exists (filter (fun i => match nth_error l i with Some t => g t | None => false end) (seq 0 (length l))). split; [ apply NoDup_filter, seq_NoDup | ]. split.
  - induction l as [ | t l IH] using rev_ind; [ reflexivity | ]. rewrite filter_app, !app_length. cbn [length filter]. rewrite seq_app, filter_app, app_length. cbn [seq plus filter]. f_equal.
    + rewrite <- IH. f_equal. apply filter_ext_in. intros i J. apply in_seq in J. rewrite nth_error_app1 by lia. reflexivity.
    + rewrite nth_error_app2, Nat.sub_diag by lia. cbn. destruct (g t); reflexivity.
  - intro i. rewrite filter_In, in_seq. split.
    + intros (_ & H). destruct (nth_error l i) as [t | ]; [ exists t; auto | discriminate H ].
    + intros (t & E & H). rewrite E. split; [ split; [ lia | cbn; apply nth_error_Some; congruence ] | exact H ].
Qed.

(** The volume of a watertight mesh is the same from every point [o]. *)
Theorem C64_from_every_point : forall {P D} (P_eqb : P -> P -> bool) (coords : P -> vec3) (m : soup P D) o,
  (forall p q, P_eqb p q = true <-> p = q) -> wf_soup m -> watertight m ->
  (forall i p q r, face_corners m i (p, q, r) -> p <> q /\ q <> r /\ r <> p) ->
  volume (fun p => vsub (coords p) o) m == volume coords m.
Proof.
  intros P D P_eqb coords m o He (_ & V) Wt Df.
  assert (dec : forall e e' : P * P, {e = e'} + {e <> e'}).
  { assert (d : forall p q : P, {p = q} + {p <> q}) by (intros p q; destruct (P_eqb p q) eqn:E; [ left; apply He, E | right; intro X; apply He in X; congruence ]).
    intros [p q] [p' q']. destruct (d p p') as [-> | N], (d q q') as [-> | N']; [ left; reflexivity | right; congruence .. ]. }
  assert (Ts : exists ts, map (Spec_boolean.tri_of (points m)) (faces m) = map Some ts).
  { clear - V. induction V as [ | [ [a b] c] fs (Ha & Hb & Hc) V (ts & IH)]; [ exists []; reflexivity | ]. cbn [map]. unfold Spec_boolean.tri_of at 1.
    destruct (nth_error (points m) a) as [p | ] eqn:Ea; [ | apply nth_error_None in Ea; lia ]. destruct (nth_error (points m) b) as [q | ] eqn:Eb; [ | apply nth_error_None in Eb; lia ]. destruct (nth_error (points m) c) as [r | ] eqn:Ec; [ | apply nth_error_None in Ec; lia ].
    exists ((p, q, r) :: ts). cbn [map]. f_equal. exact IH. }
  destruct Ts as (ts & Ts).
  assert (Fc : forall i t, nth_error ts i = Some t <-> face_corners m i t).
  { intros i t. assert (X : nth_error ts i = Some t <-> nth_error (map (Spec_boolean.tri_of (points m)) (faces m)) i = Some (Some t)) by (rewrite Ts, nth_error_map; destruct (nth_error ts i); cbn [option_map]; split; congruence).
    rewrite X, nth_error_map. split.
    - destruct (nth_error (faces m) i) as [ [ [a b] c] | ] eqn:E; cbn [option_map]; [ | discriminate ]. unfold Spec_boolean.tri_of. intro Y.
      destruct (nth_error (points m) a) as [p | ] eqn:Ea; [ | discriminate Y ]. destruct (nth_error (points m) b) as [q | ] eqn:Eb; [ | discriminate Y ]. destruct (nth_error (points m) c) as [r | ] eqn:Ec; [ | discriminate Y ].
      injection Y as <-. exists a, b, c, p, q, r. auto.
    - intros (a & b & c & p & q & r & E & Ea & Eb & Ec & ->). rewrite E. cbn [option_map]. unfold Spec_boolean.tri_of. rewrite Ea, Eb, Ec. reflexivity. }
  assert (Tot : forall f : P * P * P -> Q, total f m = qsum (map f ts)).
  { intro f. unfold total. rewrite <- (map_map (Spec_boolean.tri_of (points m)) (at_face f)), Ts, map_map. reflexivity. }
  set (g := fun e : P * P => vdot o (vcross (coords (fst e)) (coords (snd e)))).
  assert (Z : qsum (map g (flat_map sides ts)) == 0).
  { apply (edges_cancel dec).
    - intros [p q]. unfold g, swap. cbn [fst snd]. destruct o as [ [o1 o2] o3], (coords p) as [ [p1 p2] p3], (coords q) as [ [q1 q2] q3]. cbv [vdot vcross vx vy vz fst snd]. ring.
    - set (has := fun (e : P * P) t => if in_dec dec e (sides t) then true else false).
      assert (Df' : forall t, In t ts -> let '(p, q, r) := t in p <> q /\ q <> r /\ r <> p) by (intros [ [p q] r] J; apply In_nth_error in J; destruct J as (i & E); apply Fc in E; exact (Df i p q r E)).
      assert (Len : forall e, count_occ dec (flat_map sides ts) e = length (filter (has e) ts)).
      { intro e. clear - Df'. induction ts as [ | t ts IH]; [ reflexivity | ]. cbn [flat_map filter]. rewrite count_occ_app, IH by (intros u J; apply Df'; right; exact J).
        assert (X : count_occ dec (sides t) e = if has e t then 1%nat else 0%nat).
        { assert (Nd : NoDup (sides t)).
          { specialize (Df' t (or_introl eq_refl)). destruct t as [ [p q] r]. destruct Df' as (N1 & N2 & N3). cbn [sides]. repeat constructor; cbn [In]; intuition congruence. }
          unfold has. destruct (in_dec dec e (sides t)) as [J | J]; [ apply (proj1 (NoDup_count_occ' dec _) Nd), J | apply count_occ_not_In, J ]. }
        rewrite X. destruct (has e t); reflexivity. }
      assert (Sd : forall p q, counts (has_side m p q) (length (filter (has (p, q)) ts))).
      { intros p q. destruct (picked_count (has (p, q)) ts) as (l & N & L & H). exists l. split; [ exact N | ]. split; [ exact L | ]. intro i. rewrite H. unfold has_side, has. split.
        - intros (t & E & X). exists t. split; [ apply Fc, E | ]. destruct (in_dec dec (p, q) (sides t)) as [J | J]; [ | discriminate X ]. destruct t as [ [a b] c]. cbn [sides In] in J. unfold directed. intuition congruence.
        - intros (t & F & X). exists t. split; [ apply Fc, F | ]. destruct (in_dec dec (p, q) (sides t)) as [J | J]; [ reflexivity | exfalso; apply J ]. destruct t as [ [a b] c]. cbn [sides In]. unfold directed in X. intuition congruence. }
      intros [p q]. unfold swap. cbn [fst snd]. rewrite !Len. destruct (Wt p q) as (n & C1 & C2).
      destruct (Sd p q) as (l1 & N1 & <- & H1), (Sd q p) as (l2 & N2 & <- & H2). rewrite <- (counts_unique _ n l1 C1 N1 H1), <- (counts_unique _ n l2 C2 N2 H2). reflexivity. }
  unfold volume. rewrite !Tot.
  assert (E : qsum (map (cone (fun p => vsub (coords p) o)) ts) == qsum (map (cone coords) ts) - (1 # 6) * qsum (map g (flat_map sides ts))); [ | rewrite E, Z; ring ].
  clear. induction ts as [ | [ [a b] c] ts IH]; cbn [map qsum flat_map sides app]; [ ring | ]. rewrite IH. unfold g, cone. cbn [fst snd].
  destruct o as [ [o1 o2] o3], (coords a) as [ [a1 a2] a3], (coords b) as [ [b1 b2] b3], (coords c) as [ [c1 c2] c3]. cbv [vdot vcross vsub vx vy vz fst snd]. ring.
Qed.
Print Assumptions C64_from_every_point.

(** So is that of every region that represents a set and meets the conditions. *)
Theorem C64_regions_from_every_point : forall {P D} (P_eqb : P -> P -> bool) (coords : P -> vec3) (r : region P D) S o,
  (forall p q, P_eqb p q = true <-> p = q) -> represents coords r S -> meets_conditions coords (boundary r) ->
  volume (fun p => vsub (coords p) o) (boundary r) == volume coords (boundary r).
Proof.
  intros P D P_eqb coords r S o He R Hm. apply (C64_from_every_point P_eqb); [ exact He | | | ].
  - destruct R as (W & _). unfold wf_region in W. destruct (kind r); [ rewrite W; repeat split; constructor | rewrite W; repeat split; constructor | apply W ].
  - apply (C63_regions coords r S); [ | exact Hm | exact R ]. intros p q. destruct (P_eqb p q) eqn:E; [ left; apply He, E | right; intro X; apply He in X; congruence ].
  - intros i p q s. exact (corners_differ coords (boundary r) Hm i p q s).
Qed.
Print Assumptions C64_regions_from_every_point.

(** The volume is positive if there is a point behind all faces, as in a convex body. *)
Theorem C64_positive : forall {P D} (P_eqb : P -> P -> bool) (coords : P -> vec3) (r : region P D) S o,
  (forall p q, P_eqb p q = true <-> p = q) -> represents coords r S -> meets_conditions coords (boundary r) -> faces (boundary r) <> [] ->
  (forall i a b c, soup_triangle (located coords (boundary r)) i = Ok (a, b, c) -> 0 < vdot (normal a b c) (vsub a o)) ->
  0 < volume coords (boundary r).
Proof.
  intros P D P_eqb coords r S o He R Hm Ne Beh. rewrite <- (C64_regions_from_every_point P_eqb coords r S o He R Hm).
  assert (W : wf_soup (boundary r)) by (destruct R as (W & _); unfold wf_region in W; destruct (kind r); [ rewrite W; repeat split; constructor | rewrite W; repeat split; constructor | apply W ]).
  destruct W as (_ & V).
  assert (Pos : forall h, In h (faces (boundary r)) -> 0 < at_face (cone (fun p => vsub (coords p) o)) (Spec_boolean.tri_of (points (boundary r)) h)).
  { intros h J. pose proof J as J'. rewrite Forall_forall in V. specialize (V h J). apply In_nth_error in J. destruct J as (i & E). destruct h as [ [a b] c]. cbn in V. destruct V as (Ha & Hb & Hc). unfold Spec_boolean.tri_of.
    destruct (nth_error (points (boundary r)) a) as [p | ] eqn:Ea; [ | apply nth_error_None in Ea; lia ]. destruct (nth_error (points (boundary r)) b) as [q | ] eqn:Eb; [ | apply nth_error_None in Eb; lia ]. destruct (nth_error (points (boundary r)) c) as [s | ] eqn:Ec; [ | apply nth_error_None in Ec; lia ].
    cbn [at_face cone]. assert (X : 0 < vdot (normal (coords p) (coords q) (coords s)) (vsub (coords p) o)).
    { apply (Beh i). apply Proof_bridge.located_corners. exists (p, q, s). split; [ | reflexivity ]. exists a, b, c, p, q, s. auto. }
    assert (Y : vdot (vsub (coords p) o) (vcross (vsub (coords q) o) (vsub (coords s) o)) == vdot (normal (coords p) (coords q) (coords s)) (vsub (coords p) o))
      by (unfold normal; destruct o as [ [o1 o2] o3], (coords p) as [ [p1 p2] p3], (coords q) as [ [q1 q2] q3], (coords s) as [ [s1 s2] s3]; cbv [vdot vcross vsub vx vy vz fst snd]; ring).
    rewrite Y. lra. }
  unfold volume, total. destruct (faces (boundary r)) as [ | h fs]; [ congruence | ]. clear - Pos. cbn [map qsum]. assert (0 <= qsum (map (fun h => at_face (cone (fun p => vsub (coords p) o)) (Spec_boolean.tri_of (points (boundary r)) h)) fs)).
  { assert (Pos' : forall h, In h fs -> 0 < at_face (cone (fun p => vsub (coords p) o)) (Spec_boolean.tri_of (points (boundary r)) h)) by (intros k J; apply Pos; right; exact J). clear Pos. induction fs as [ | k fs IH]; cbn [map qsum]; [ lra | ].
    assert (0 <= qsum (map (fun h => at_face (cone (fun p => vsub (coords p) o)) (Spec_boolean.tri_of (points (boundary r)) h)) fs)) by (apply IH; intros l J; apply Pos'; right; exact J). specialize (Pos' k (or_introl eq_refl)). lra. }
  specialize (Pos h (or_introl eq_refl)). lra.
Qed.
Print Assumptions C64_positive.
