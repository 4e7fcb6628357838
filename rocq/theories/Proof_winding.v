(** * How often a path passes through a closed mesh does not depend on the path *)
From Coq Require Import List Arith ZArith QArith Qminmax Lqa Lia Permutation.
From Verif Require Import Model_base Model_soup Model_geometry Model_side.
From Verif Require Import Spec_candidates Spec_side Spec_solid Proof_affine Proof_small Proof_walk Proof_link.
Import ListNotations.
Local Open Scope Q_scope.

(** ** Sums *)
Definition zsum (l : list Z) : Z := fold_right Z.add 0%Z l.
Lemma zsum_app : forall l l', zsum (l ++ l') = (zsum l + zsum l')%Z.
Proof. intros l l'. unfold zsum. induction l as [ | x l IH]; [ reflexivity | ]. cbn [app fold_right]. rewrite IH. lia. Qed.
Lemma zsum_perm : forall l l', Permutation l l' -> zsum l = zsum l'.
Proof. intros l l' H. unfold zsum. induction H; cbn [fold_right]; lia. Qed.
Lemma zsum_zero : forall A (f : A -> Z) l, (forall x, In x l -> f x = 0%Z) -> zsum (map f l) = 0%Z.
Proof. intros A f l. unfold zsum. induction l as [ | x l IH]; intro H; [ reflexivity | ]. cbn [map fold_right]. rewrite (H x) by (left; reflexivity). rewrite IH; [ reflexivity | ]. intros y J. apply H. right. exact J. Qed.
Lemma zsum_ext : forall A (f g : A -> Z) l, (forall x, In x l -> f x = g x) -> zsum (map f l) = zsum (map g l).
Proof. intros A f g l H. f_equal. apply map_ext_in. exact H. Qed.
Lemma zsum_plus : forall A (f g : A -> Z) l, zsum (map (fun x => f x + g x)%Z l) = (zsum (map f l) + zsum (map g l))%Z.
Proof. intros A f g l. unfold zsum. induction l as [ | x l IH]; [ reflexivity | ]. cbn [map fold_right]. rewrite IH. lia. Qed.
Lemma zsum_neg : forall A (f : A -> Z) l, zsum (map (fun x => - f x)%Z l) = (- zsum (map f l))%Z.
Proof. intros A f l. unfold zsum. induction l as [ | x l IH]; [ reflexivity | ]. cbn [map fold_right]. rewrite IH. lia. Qed.
Lemma zsum_one : forall A (f : A -> Z) l i x, nth_error l i = Some x -> (forall j y, nth_error l j = Some y -> j <> i -> f y = 0%Z) -> zsum (map f l) = f x.
Proof.
  intros A f. induction l as [ | y l IH]; intros [ | i] x E H; try discriminate.
  - injection E as <-. unfold zsum in *. cbn [map fold_right]. change (fold_right Z.add 0 (map f l))%Z with (zsum (map f l)). rewrite zsum_zero; [ lia | ].
    intros z J. apply In_nth_error in J. destruct J as (j & J). apply (H (S j)); [ exact J | discriminate ].
  - cbn [nth_error] in E. unfold zsum in *. cbn [map fold_right]. rewrite (H 0%nat y) by (try reflexivity; discriminate).
    rewrite (IH i x E); [ lia | ]. intros j z J N. apply (H (S j)); [ exact J | congruence ].
Qed.
Lemma zsum_two : forall A (f : A -> Z) l i j x y, nth_error l i = Some x -> nth_error l j = Some y -> i <> j ->
  (forall k z, nth_error l k = Some z -> k <> i -> k <> j -> f z = 0%Z) -> zsum (map f l) = (f x + f y)%Z.
Proof.
  intros A f. induction l as [ | w l IH]; intros [ | i] [ | j] x y E1 E2 N H; try discriminate; try contradiction.
  - injection E1 as <-. cbn [nth_error] in E2. change (zsum (map f (w :: l))) with (f w + zsum (map f l))%Z. rewrite (zsum_one A f l j y E2); [ reflexivity | ].
    intros k z J K. apply (H (S k)); [ exact J | discriminate | congruence ].
  - injection E2 as <-. cbn [nth_error] in E1. change (zsum (map f (w :: l))) with (f w + zsum (map f l))%Z. rewrite (zsum_one A f l i x E1); [ lia | ].
    intros k z J K. apply (H (S k)); [ exact J | congruence | discriminate ].
  - cbn [nth_error] in E1, E2. change (zsum (map f (w :: l))) with (f w + zsum (map f l))%Z. rewrite (H 0%nat w) by (try reflexivity; discriminate).
    rewrite (IH i j x y E1 E2); [ lia | congruence | ]. intros k z J K K'. apply (H (S k)); [ exact J | congruence | congruence ].
Qed.

(** ** Planes to avoid *)
Lemma choose_all : forall A B (R : A -> B -> Prop) l, (forall a, In a l -> exists b, R a b) ->
  exists bs, (forall a, In a l -> exists b, In b bs /\ R a b) /\ (forall b, In b bs -> exists a, In a l /\ R a b).
Proof.
  intros A B R l. induction l as [ | a l IH]; intro H.
  - exists []. split; intros ? [].
  - destruct (H a (or_introl eq_refl)) as (b & Hb). destruct IH as (bs & H1 & H2); [ intros a' J; apply H; right; exact J | ].
    exists (b :: bs). split.
    + intros a' [<- | J]; [ exists b; split; [ left; reflexivity | exact Hb ] | ]. destruct (H1 a' J) as (b' & J' & R'). exists b'. split; [ right; exact J' | exact R' ].
    + intros b' [<- | J]; [ exists a; split; [ left; reflexivity | exact Hb ] | ]. destruct (H2 b' J) as (a' & J' & R'). exists a'. split; [ right; exact J' | exact R' ].
Qed.
Lemma avoid_planes : forall pl : list (vec3 * vec3), (forall n p, In (n, p) pl -> ~ same n zero3) -> exists o, forall n p, In (n, p) pl -> ~ vdot n (vsub o p) == 0.
Proof.
  intros pl H. destruct (generic (map fst pl)) as (w & Hw).
  { intros n J. apply in_map_iff in J. destruct J as ((n' & p) & <- & J). exact (H _ _ J). }
  assert (Hw' : forall n p, In (n, p) pl -> ~ vdot n w == 0) by (intros n p J; apply Hw, in_map_iff; exists (n, p); auto). clear H Hw.
  assert (T : exists T, forall t, T <= t -> forall n p, In (n, p) pl -> ~ t * vdot n w == vdot n p).
  { induction pl as [ | (n & p) pl IH].
    - exists 0. intros t _ n p [].
    - destruct IH as (T & HT); [ intros n' p' J; apply (Hw' n' p'); right; exact J | ].
      exists (Qmax T (vdot n p / vdot n w + 1)). intros t Ht n' p' [E | J].
      + injection E as <- <-. intro E. assert (N : ~ vdot n w == 0) by (apply (Hw' n p); left; reflexivity).
        assert (X : t == vdot n p / vdot n w) by (rewrite <- E; field; exact N). pose proof (Q.le_max_r T (vdot n p / vdot n w + 1)). lra.
      + apply HT; [ | exact J ]. pose proof (Q.le_max_l T (vdot n p / vdot n w + 1)). lra. }
  destruct T as (t & HT). exists (scaled t w). intros n p J E. apply (HT t (Qle_refl t) n p J).
  assert (X : vdot n (vsub (scaled t w) p) == t * vdot n w - vdot n p) by (destruct n as [ [n1 n2] n3], w as [ [w1 w2] w3], p as [ [p1 p2] p3]; unfold vdot, vsub, scaled; cbn [vx vy vz fst snd]; ring).
  rewrite X in E. lra.
Qed.
(** A plane through three points. *)
Lemma plane_of : forall p q x, exists n, ~ same n zero3 /\ vdot n (vsub q p) == 0 /\ vdot n (vsub x p) == 0.
Proof.
  intros p q x. set (n := vcross (vsub q p) (vsub x p)).
  destruct (Qeq_dec (vdot n n) 0) as [E | E].
  - apply vdot_self_zero in E.
    assert (D : same (vsub q p) zero3 \/ ~ same (vsub q p) zero3).
    { unfold same. destruct (Qeq_dec (vx (vsub q p)) (vx zero3)); [ | right; tauto ]. destruct (Qeq_dec (vy (vsub q p)) (vy zero3)); [ | right; tauto ]. destruct (Qeq_dec (vz (vsub q p)) (vz zero3)); [ left | right ]; tauto. }
    destruct D as [D | D].
    + destruct (orthogonal (vsub x p)) as (m & Hm & E'). exists m. split; [ exact Hm | ]. split; [ | exact E' ]. destruct D as (D1 & D2 & D3). unfold zero3 in *. unfold vdot. rewrite D1, D2, D3. cbn [vx vy vz fst snd]. ring.
    + destruct (orthogonal (vsub q p)) as (m & Hm & E'). exists m. split; [ exact Hm | ]. split; [ exact E' | ].
      unfold n in E. revert D E E'. generalize (vsub q p) as u, (vsub x p) as v. clear. intros u v D (E1 & E2 & E3) E.
      assert (S : vdot m v * vdot u u == 0).
      { destruct m as [ [n1 n2] n3], u as [ [u1 u2] u3], v as [ [v1 v2] v3]. unfold vdot, vcross in *. cbn [vx vy vz fst snd] in *.
        setoid_replace ((n1 * v1 + n2 * v2 + n3 * v3) * (u1 * u1 + u2 * u2 + u3 * u3))
          with ((n1 * u1 + n2 * u2 + n3 * u3) * (u1 * v1 + u2 * v2 + u3 * v3) + (n3 * u1 - n1 * u3) * (u1 * v3 - u3 * v1) + (n1 * u2 - n2 * u1) * (u2 * v1 - u1 * v2) + (n2 * u3 - n3 * u2) * (u3 * v2 - u2 * v3)) by ring.
        setoid_replace (u1 * v3 - u3 * v1) with (- (u3 * v1 - u1 * v3)) by ring. setoid_replace (u2 * v1 - u1 * v2) with (- (u1 * v2 - u2 * v1)) by ring. setoid_replace (u3 * v2 - u2 * v3) with (- (u2 * v3 - u3 * v2)) by ring.
        rewrite E, E1, E2, E3. ring. }
      apply Qmult_integral in S. destruct S as [S | S]; [ exact S | exfalso; apply D, vdot_self_zero, S ].
  - exists n. split; [ intros (E1 & E2 & E3); apply E; unfold vdot; rewrite E1, E2, E3; reflexivity | ]. unfold n. split; [ | ]; generalize (vsub q p) as u, (vsub x p) as v; crush; ring.
Qed.

(** ** Closed meshes *)
Section Winding.
  Context {P : Type}.
  Variable coords : P -> vec3.
  Variable ts : list (P * P * P).
  Definition tri_of (t : P * P * P) : tri3 := let '(p, q, r) := t in (coords p, coords q, coords r).
  Definition sides_of (t : P * P * P) : list (P * P) := let '(p, q, r) := t in [(p, q); (q, r); (r, p)].
  Definition all_sides : list (P * P) := flat_map sides_of ts.
  Hypothesis Hflat : forall t, In t ts -> ~ flat (tri_of t).
  Hypothesis Hnodup : NoDup all_sides.
  Hypothesis Hswap : forall p q, In (p, q) all_sides -> In (q, p) all_sides.

  (** The segment meets no edge. *)
  Definition ef (x y : vec3) : Prop := forall z p q, In (p, q) all_sides -> in_segment z (coords p) (coords q) -> in_segment z x y -> False.
  Definition off (x : vec3) : Prop := forall p q, In (p, q) all_sides -> ~ in_segment x (coords p) (coords q).
  (** How often the segment passes through the mesh. *)
  Definition total (x y : vec3) : Z := zsum (map (fun t => cc (tri_of t) x y) ts).

  Lemma ef_sym : forall x y, ef x y -> ef y x.
  Proof. intros x y H z p q J S1 S2. apply (H z p q J S1). apply in_segment_sym, S2. Qed.
  Lemma ef_off : forall x y, ef x y -> off x.
  Proof. intros x y H p q J S. apply (H x p q J S). apply in_segment_start. Qed.
  Lemma total_anti : forall x y, total x y = (- total y x)%Z.
  Proof. intros x y. unfold total. rewrite <- zsum_neg. apply zsum_ext. intros t _. apply cc_anti. Qed.

  Lemma all_sides_cancel : forall g : P -> P -> Z, (forall p q, g p q = (- g q p)%Z) -> zsum (map (fun s => g (fst s) (snd s)) all_sides) = 0%Z.
  Proof.
    intros g Hg. set (sw := fun s : P * P => (snd s, fst s)).
    assert (Pm : Permutation all_sides (map sw all_sides)).
    { apply NoDup_Permutation.
      - exact Hnodup.
      - apply FinFun.Injective_map_NoDup; [ | exact Hnodup ]. intros [a b] [c d] E. unfold sw in E. cbn in E. congruence.
      - intros [p q]. rewrite in_map_iff. split.
        + intro J. exists (q, p). split; [ reflexivity | apply Hswap, J ].
        + intros ([a b] & E & J). unfold sw in E. cbn in E. injection E as <- <-. apply Hswap, J. }
    pose proof (zsum_perm _ _ (Permutation_map (fun s => g (fst s) (snd s)) Pm)) as E. rewrite map_map in E.
    assert (E2 : zsum (map (fun s => g (fst (sw s)) (snd (sw s))) all_sides) = (- zsum (map (fun s => g (fst s) (snd s)) all_sides))%Z).
    { rewrite <- zsum_neg. apply zsum_ext. intros [p q] _. cbn. apply Hg. }
    rewrite E2 in E. lia.
  Qed.

  Lemma side_listed : forall t z, In t ts -> side_in (tri_of t) z -> exists p q, In (p, q) all_sides /\ in_segment z (coords p) (coords q).
  Proof.
    intros [ [a b] c] z J H. cbn [tri_of side_in] in H. assert (K : forall s, In s (sides_of (a, b, c)) -> In s all_sides) by (intros s Js; apply in_flat_map; exists (a, b, c); auto).
    destruct H as [H | [H | H] ]; [ exists a, b | exists b, c | exists c, a ]; (split; [ apply K; cbn; auto | exact H ]).
  Qed.

  Theorem total_add : forall x y z, ef x y -> ef y z -> ef z x -> (total x y + total y z + total z x = 0)%Z.
  Proof.
    intros x y z E1 E2 E3. set (T := (x, y, z)).
    assert (A : (total x y + total y z + total z x)%Z = zsum (map (fun t => turn (tri_of t) T) ts)).
    { unfold total. rewrite <- !zsum_plus. reflexivity. }
    rewrite A.
    assert (B : zsum (map (fun t => turn (tri_of t) T) ts) = zsum (map (fun t => turn T (tri_of t)) ts)).
    { apply zsum_ext. intros t J. apply link; [ apply Hflat, J | ]. intros w S1 S2. destruct (side_listed t w J S1) as (p & q & Js & Sg). unfold T in S2. cbn [side_in] in S2.
      destruct S2 as [S2 | [S2 | S2] ]; [ exact (E1 w p q Js Sg S2) | exact (E2 w p q Js Sg S2) | exact (E3 w p q Js Sg S2) ]. }
    rewrite B. rewrite <- (all_sides_cancel (fun p q => cc T (coords p) (coords q))) by (intros; apply cc_anti).
    unfold all_sides. clear. induction ts as [ | t l IH]; [ reflexivity | ]. cbn [flat_map]. rewrite map_app, zsum_app, <- IH.
    change (zsum (map (fun t => turn T (tri_of t)) (t :: l))) with (turn T (tri_of t) + zsum (map (fun t => turn T (tri_of t)) l))%Z. f_equal.
    destruct t as [ [a b] c]. cbn. lia.
  Qed.

  (** ** A point that is seen from several others *)
  Lemma seen : forall X, (forall x, In x X -> off x) -> exists o, forall x, In x X -> ef x o.
  Proof.
    intros X Ho.
    destruct (choose_all (vec3 * (P * P)) (vec3 * vec3) (fun e n => let '(x, (p, q)) := e in snd n = coords p /\ ~ same (fst n) zero3 /\ vdot (fst n) (vsub (coords q) (coords p)) == 0 /\ vdot (fst n) (vsub x (coords p)) == 0)
      (list_prod X all_sides)) as (pl & H1 & H2).
    { intros (x & (p & q)) _. destruct (plane_of (coords p) (coords q) x) as (n & N1 & N2 & N3). exists (n, coords p). cbn [fst snd]. auto. }
    destruct (avoid_planes pl) as (o & Hpl).
    { intros n p J. destruct (H2 (n, p) J) as ((x & (a & b)) & _ & _ & N & _). exact N. }
    exists o. intros x Jx z p q Js (s & S0 & (S1 & S2 & S3)) (t & T & (T1 & T2 & T3)).
    destruct (H1 (x, (p, q))) as ((n & p') & Jn & E & N1 & N2 & N3); [ apply in_prod; assumption | ]. cbn [fst snd] in *. subst p'.
    specialize (Hpl n (coords p) Jn).
    assert (Z0 : vdot n (vsub z (coords p)) == 0).
    { assert (E : vdot n (vsub z (coords p)) == s * vdot n (vsub (coords q) (coords p))).
      { unfold vdot, vsub, along in *. cbn [vx vy vz fst snd] in *. rewrite S1, S2, S3. ring. }
      rewrite E, N2. ring. }
    assert (Z1 : vdot n (vsub z (coords p)) == (1 - t) * vdot n (vsub x (coords p)) + t * vdot n (vsub o (coords p))).
    { unfold vdot, vsub, along in *. cbn [vx vy vz fst snd] in *. rewrite T1, T2, T3. ring. }
    rewrite Z0, N3 in Z1. assert (Z2 : t * vdot n (vsub o (coords p)) == 0) by lra. apply Qmult_integral in Z2. destruct Z2 as [Z2 | Z2]; [ | contradiction ].
    apply (Ho x Jx p q Js). apply (in_segment_same z x).
    - unfold same, along in *. cbn [vx vy vz fst snd] in *. rewrite T1, T2, T3, Z2. repeat split; ring.
    - exists s. split; [ assumption | ]. repeat split; assumption.
  Qed.

  (** Every path from [x] to [y] passes through the mesh [k] times. *)
  Definition winds (x y : vec3) (k : Z) : Prop := exists o, ef x o /\ ef y o /\ (total x o - total y o)%Z = k.

  Lemma winds_unique : forall x y k l, winds x y k -> winds x y l -> k = l.
  Proof.
    intros x y k l (o & A1 & A2 & <-) (o' & B1 & B2 & <-).
    destruct (seen [x; y; o; o']) as (w & Hw).
    { intros v [<- | [<- | [<- | [<- | [] ] ] ] ]; [ exact (ef_off _ _ A1) | exact (ef_off _ _ A2) | exact (ef_off _ _ (ef_sym _ _ A1)) | exact (ef_off _ _ (ef_sym _ _ B1)) ]. }
    assert (Wx := Hw x ltac:(cbn; auto)). assert (Wy := Hw y ltac:(cbn; auto)). assert (Wo := Hw o ltac:(cbn; auto)). assert (Wo' := Hw o' ltac:(cbn; auto)).
    pose proof (total_add x o w A1 Wo (ef_sym _ _ Wx)) as E1. pose proof (total_add y o w A2 Wo (ef_sym _ _ Wy)) as E2.
    pose proof (total_add x o' w B1 Wo' (ef_sym _ _ Wx)) as E3. pose proof (total_add y o' w B2 Wo' (ef_sym _ _ Wy)) as E4. lia.
  Qed.
  Lemma winds_exists : forall x y, off x -> off y -> exists k, winds x y k.
  Proof.
    intros x y Ox Oy. destruct (seen [x; y]) as (o & Ho); [ intros v [<- | [<- | [] ] ]; assumption | ].
    exists (total x o - total y o)%Z, o. split; [ apply Ho; cbn; auto | ]. split; [ apply Ho; cbn; auto | reflexivity ].
  Qed.
  Lemma winds_off : forall x y k, winds x y k -> off x /\ off y.
  Proof. intros x y k (o & A & B & _). split; eapply ef_off; eassumption. Qed.
  Lemma winds_trans : forall x y z k l, winds x y k -> winds y z l -> winds x z (k + l).
  Proof.
    intros x y z k l A B. destruct (winds_off _ _ _ A) as (Ox & Oy). destruct (winds_off _ _ _ B) as (_ & Oz).
    destruct (seen [x; y; z]) as (o & Ho); [ intros v [<- | [<- | [<- | [] ] ] ]; assumption | ].
    assert (Wx := Ho x ltac:(cbn; auto)). assert (Wy := Ho y ltac:(cbn; auto)). assert (Wz := Ho z ltac:(cbn; auto)).
    assert (E1 := winds_unique x y k _ A (ex_intro _ o (conj Wx (conj Wy eq_refl)))). assert (E2 := winds_unique y z l _ B (ex_intro _ o (conj Wy (conj Wz eq_refl)))).
    exists o. split; [ exact Wx | ]. split; [ exact Wz | ]. lia.
  Qed.
  Lemma winds_sym : forall x y k, winds x y k -> winds y x (- k).
  Proof. intros x y k (o & A & B & <-). exists o. split; [ exact B | ]. split; [ exact A | lia ]. Qed.
  Lemma winds_direct : forall x y, ef x y -> winds x y (total x y).
  Proof.
    intros x y E. destruct (seen [x; y]) as (o & Ho); [ intros v [<- | [<- | [] ] ]; [ exact (ef_off _ _ E) | exact (ef_off _ _ (ef_sym _ _ E)) ] | ].
    assert (Wx := Ho x ltac:(cbn; auto)). assert (Wy := Ho y ltac:(cbn; auto)). exists o. split; [ exact Wx | ]. split; [ exact Wy | ].
    pose proof (total_add x y o E Wy (ef_sym _ _ Wx)) as A. rewrite (total_anti o x) in A. lia.
  Qed.
End Winding.
