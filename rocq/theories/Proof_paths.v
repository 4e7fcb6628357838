(** * Simple connected graphs of degree at most two are the paths and the cycles *)
From Coq Require Import List Arith Bool Lia Relations Permutation.
From Verif Require Import Model_base Proof_base Spec_graph Proof_graph.
Import ListNotations.

(** ** Edges without direction *)
Lemma unordered_joins : forall e f, unordered e = unordered f <-> exists i j, joins i j e /\ joins i j f.
Proof.
  intros [a b] [c d]. unfold unordered, joins. cbn [fst snd]. split.
  - intro H. exists a, b. split; [ auto | ].
    destruct (b <? a) eqn:E1, (d <? c) eqn:E2; injection H as -> ->; auto.
  - intros (i & j & [E | E] & [F | F]); injection E as -> ->; injection F as -> ->; try reflexivity;
      destruct (Nat.ltb_spec i j), (Nat.ltb_spec j i); try lia; try reflexivity; f_equal; lia.
Qed.
Lemma unordered_swap : forall a b, unordered (a, b) = unordered (b, a).
Proof. intros. apply unordered_joins. exists a, b. unfold joins. auto. Qed.
Lemma in_unordered : forall es i j, In (unordered (i, j)) (map unordered es) <-> adjacent es i j.
Proof.
  intros es i j. rewrite in_map_iff. unfold adjacent. split.
  - intros (e & E & I). apply unordered_joins in E. destruct E as (a & b & J1 & J2).
    destruct J1 as [-> | ->], J2 as [E | E]; injection E as <- <-; auto.
  - intros [I | I]; [ exists (i, j) | exists (j, i) ]; auto using unordered_swap.
Qed.

Definition noloop (es : list (nat * nat)) : Prop := forall i, ~ In (i, i) es.
Lemma simple_nodup : forall es, simple es <-> noloop es /\ NoDup (map unordered es).
Proof.
  intro es. unfold simple. split.
  - intros [L H]. split; [ exact L | ]. clear L. induction es as [ | e es IH]; cbn [map]; constructor.
    + intro I. apply in_map_iff in I. destruct I as (f & E & I). apply in_split in I. destruct I as (b & c & ->).
      apply (H [] e b f c eq_refl). apply unordered_joins. symmetry. exact E.
    + apply IH. intros a e0 b f c ->. apply (H (e :: a) e0 b f c eq_refl).
  - intros [L H]. split; [ exact L | ]. intros a e b f c -> J. apply unordered_joins in J.
    rewrite map_app in H. cbn [map] in H. apply NoDup_remove_2 in H. apply H. apply in_or_app. right.
    rewrite map_app. cbn [map]. rewrite J. apply in_or_app. right. left. reflexivity.
Qed.

Lemma same_adjacent : forall es es', same_edges es es' -> forall i j, adjacent es i j <-> adjacent es' i j.
Proof.
  intros es es' H i j. rewrite <- !in_unordered. split; apply Permutation_in; [ exact H | apply Permutation_sym; exact H ].
Qed.
Lemma same_simple : forall es es', same_edges es es' -> simple es -> simple es'.
Proof.
  intros es es' H S. apply simple_nodup in S. destruct S as [L N]. apply simple_nodup. split.
  - intros i I. assert (A : adjacent es i i) by (apply (same_adjacent _ _ H); left; exact I).
    destruct A as [A | A]; exact (L i A).
  - eapply Permutation_NoDup; [ exact H | exact N ].
Qed.
Lemma same_edges_sym : forall es es', same_edges es es' -> same_edges es' es.
Proof. intros. apply Permutation_sym. assumption. Qed.
Lemma same_from_adjacent : forall es es', simple es -> simple es' ->
  (forall i j, adjacent es i j <-> adjacent es' i j) -> same_edges es es'.
Proof.
  intros es es' S S' H. apply simple_nodup in S. apply simple_nodup in S'. apply NoDup_Permutation; [ tauto | tauto | ].
  assert (K : forall es0 e, In e (map unordered es0) <-> adjacent es0 (fst e) (snd e) /\ unordered e = e).
  { intros es0 [a b]. cbn [fst snd]. rewrite <- in_unordered. split.
    - intro I. assert (U : unordered (a, b) = (a, b)).
      { apply in_map_iff in I. destruct I as ([c d] & <- & _). unfold unordered. cbn [fst snd].
        destruct (Nat.ltb_spec d c); cbn [fst snd]; [ destruct (Nat.ltb_spec c d) | destruct (Nat.ltb_spec d c) ]; try lia; reflexivity. }
      rewrite U. auto.
    - intros [I U]. rewrite U in I. exact I. }
  intro e. rewrite !K, H. tauto.
Qed.

(** ** Degrees and neighbours *)
Definition far (x : nat) (e : nat * nat) : nat := if fst e =? x then snd e else fst e.
Definition at_ (es : list (nat * nat)) (x : nat) := filter (fun e => (fst e =? x) || (snd e =? x)) es.
Lemma far_in : forall es x y, In y (map (far x) (at_ es x)) <-> adjacent es x y.
Proof.
  intros es x y. rewrite in_map_iff. unfold at_, adjacent. split.
  - intros ([a b] & F & I). apply filter_In in I. destruct I as [I E]. unfold far in F. cbn [fst snd] in *.
    destruct (a =? x) eqn:Ea; [ apply Nat.eqb_eq in Ea; subst; auto | ]. cbn [orb] in E. apply Nat.eqb_eq in E. subst. auto.
  - intros [I | I].
    + exists (x, y). split; [ unfold far; cbn; rewrite Nat.eqb_refl; reflexivity | ]. apply filter_In. split; [ exact I | ].
      cbn. rewrite Nat.eqb_refl. reflexivity.
    + exists (y, x). split; [ unfold far; cbn [fst snd]; destruct (y =? x) eqn:E; [ apply Nat.eqb_eq in E; auto | reflexivity ] | ].
      apply filter_In. split; [ exact I | ]. cbn [fst snd]. rewrite Nat.eqb_refl, orb_true_r. reflexivity.
Qed.
Lemma incident_ge : forall es x N, NoDup N -> (forall y, In y N -> adjacent es x y) -> length N <= incident es x.
Proof.
  intros es x N D H. change (incident es x) with (length (at_ es x)). rewrite <- (map_length (far x) (at_ es x)).
  apply NoDup_incl_length; [ exact D | ]. intros y Hy. apply far_in. apply H. exact Hy.
Qed.
Lemma incident_le : forall es x N, simple es -> (forall y, adjacent es x y -> In y N) -> incident es x <= length N.
Proof.
  intros es x N S H. change (incident es x) with (length (at_ es x)). rewrite <- (map_length (far x) (at_ es x)).
  apply NoDup_incl_length; [ | intros y Hy; apply H; apply far_in; exact Hy ].
  apply simple_nodup in S. destruct S as [L D]. clear H. unfold at_.
  induction es as [ | [a b] es IH]; cbn [filter map]; [ constructor | ]. cbn [map] in D. apply NoDup_cons_iff in D. destruct D as [D1 D2].
  assert (L' : noloop es) by (intros i I; apply (L i); right; exact I). specialize (IH L' D2). cbn [fst snd].
  destruct ((a =? x) || (b =? x)) eqn:E; [ | exact IH ]. cbn [map]. constructor; [ | exact IH ].
  intro I. change (In (far x (a, b)) (map (far x) (at_ es x))) in I. apply far_in in I. apply D1.
  apply in_unordered in I. replace (unordered (a, b)) with (unordered (x, far x (a, b))); [ exact I | ].
  unfold far. cbn [fst snd]. destruct (a =? x) eqn:Ea; [ apply Nat.eqb_eq in Ea; subst; reflexivity | ].
  cbn [orb] in E. apply Nat.eqb_eq in E. subst. apply unordered_swap.
Qed.

(** ** Consecutive elements *)
Definition consec (p : list nat) (x y : nat) : Prop := exists a b, p = a ++ x :: y :: b.
Lemma path_edges_in : forall p x y, In (x, y) (path_edges p) <-> consec p x y.
Proof.
  induction p as [ | z p IH]; intros x y; cbn [path_edges combine tl].
  - split; [ intros [ ] | intros (a & b & E); destruct a; discriminate ].
  - destruct p as [ | w p].
    + split; [ intros [ ] | intros (a & b & E)]. destruct a as [ | ? [ | ? ? ] ]; discriminate.
    + change (combine (z :: w :: p) (w :: p)) with ((z, w) :: path_edges (w :: p)). cbn [In]. rewrite IH. split.
      * intros [E | (a & b & E)]; [ injection E as -> ->; exists [], p; reflexivity | exists (z :: a), b; rewrite E; reflexivity ].
      * intros ([ | c a] & b & E); [ injection E as -> -> _; auto | injection E as _ E; right; exists a, b; exact E ].
Qed.
Lemma consec_in : forall p x y, consec p x y -> In x p /\ In y p.
Proof.
  intros p x y (a & b & ->). split; apply in_or_app; right; [ left; reflexivity | right; left; reflexivity ].
Qed.
Lemma split_unique : forall (p : list nat) x l r l' r', NoDup p -> p = l ++ x :: r -> p = l' ++ x :: r' -> l = l' /\ r = r'.
Proof.
  intros p x l r l' r' D E E'. subst p. revert l' E'. induction l as [ | y l IH]; intros l' E'; destruct l' as [ | y' l']; cbn [app] in *.
  - injection E' as ->. auto.
  - injection E' as -> ->. exfalso. apply NoDup_cons_iff in D. apply (proj1 D). apply in_or_app. right. left. reflexivity.
  - injection E' as -> <-. exfalso. apply NoDup_cons_iff in D. apply (proj1 D). apply in_or_app. right. left. reflexivity.
  - injection E' as -> E'. apply NoDup_cons_iff in D. destruct (IH (proj2 D) l' E') as [-> ->]. auto.
Qed.
Lemma consec_next : forall p l x r y, NoDup p -> p = l ++ x :: r -> (consec p x y <-> exists r', r = y :: r').
Proof.
  intros p l x r y D E. split.
  - intros (a & b & E'). destruct (split_unique p x _ _ _ _ D E E') as [-> ->]. eauto.
  - intros (r' & ->). exists l, r'. exact E.
Qed.
Lemma consec_prev : forall p l x r y, NoDup p -> p = l ++ x :: r -> (consec p y x <-> exists l', l = l' ++ [y]).
Proof.
  intros p l x r y D E. split.
  - intros (a & b & E'). replace (a ++ y :: x :: b) with ((a ++ [y]) ++ x :: b) in E' by (rewrite <- app_assoc; reflexivity).
    destruct (split_unique p x _ _ _ _ D E E') as [-> ->]. eauto.
  - intros (l' & ->). exists l', r. rewrite E, <- app_assoc. reflexivity.
Qed.
Lemma path_adjacent : forall p x y, adjacent (path_edges p) x y <-> consec p x y \/ consec p y x.
Proof. intros. unfold adjacent. rewrite !path_edges_in. tauto. Qed.

Lemma cycle_edges_split : forall x r, cycle_edges (x :: r) = path_edges (x :: r) ++ [(last (x :: r) x, x)].
Proof.
  intros x r. unfold cycle_edges, path_edges. cbn [tl firstn].
  assert (K : forall (r : list nat) y h, combine (y :: r) (r ++ [h]) = combine (y :: r) r ++ [(last (y :: r) x, h)]).
  { clear r. induction r as [ | z r IH]; intros y h; [ reflexivity | ].
    change (combine (y :: z :: r) ((z :: r) ++ [h])) with ((y, z) :: combine (z :: r) (r ++ [h])). rewrite IH. reflexivity. }
  apply K.
Qed.
Lemma cycle_adjacent : forall a m z x y,
  adjacent (cycle_edges (a :: m ++ [z])) x y <->
  consec (a :: m ++ [z]) x y \/ consec (a :: m ++ [z]) y x \/ (x = a /\ y = z) \/ (x = z /\ y = a).
Proof.
  intros a m z x y. rewrite cycle_edges_split. replace (last (a :: m ++ [z]) a) with z.
  - unfold adjacent. rewrite !in_app_iff, !path_edges_in. cbn [In]. split.
    + intros [ [H | [E | [ ] ] ] | [H | [E | [ ] ] ] ]; try injection E as <- <-; tauto.
    + intros [H | [H | [ [-> ->] | [-> ->] ] ] ]; tauto.
  - change (a :: m ++ [z]) with ((a :: m) ++ [z]). rewrite last_last. reflexivity.
Qed.

Lemma path_simple : forall p, NoDup p -> simple (path_edges p).
Proof.
  intros p D. apply simple_nodup. split.
  - intros i I. apply path_edges_in in I. destruct I as (a & b & ->). apply NoDup_remove_2 in D. apply D.
    apply in_or_app. right. left. reflexivity.
  - induction D as [ | x p Hx D IH]; [ constructor | ]. destruct p as [ | y p]; [ constructor | ].
    change (path_edges (x :: y :: p)) with ((x, y) :: path_edges (y :: p)). cbn [map]. constructor; [ | exact IH ].
    intro I. apply in_unordered in I. apply path_adjacent in I. destruct I as [I | I]; apply consec_in in I; tauto.
Qed.
Lemma cycle_simple : forall a m z, NoDup (a :: m ++ [z]) -> m <> [] -> simple (cycle_edges (a :: m ++ [z])).
Proof.
  intros a m z D Hm. pose proof (path_simple _ D) as S. apply simple_nodup in S. destruct S as [L N]. apply simple_nodup.
  rewrite cycle_edges_split. replace (last (a :: m ++ [z]) a) with z
    by (change (a :: m ++ [z]) with ((a :: m) ++ [z]); rewrite last_last; reflexivity).
  assert (Naz : a <> z).
  { intros ->. apply NoDup_cons_iff in D. apply (proj1 D). apply in_or_app. right. left. reflexivity. }
  split.
  - intros i I. apply in_app_or in I. destruct I as [I | [E | [ ] ] ]; [ exact (L i I) | ]. injection E as -> ->. congruence.
  - rewrite map_app. cbn [map]. apply (Permutation_NoDup (Permutation_cons_append _ _)). constructor; [ | exact N ].
    intro I. apply in_unordered in I. apply path_adjacent in I.
    destruct m as [ | w m]; [ congruence | ]. destruct I as [I | I].
    + apply (consec_prev _ [] a ((w :: m) ++ [z]) z D eq_refl) in I. destruct I as (l' & E). destruct l'; discriminate.
    + apply (consec_next _ [] a ((w :: m) ++ [z]) z D eq_refl) in I. destruct I as (r' & E). injection E as -> E.
      apply NoDup_cons_iff in D. destruct D as [_ D]. cbn [app] in D. apply NoDup_cons_iff in D. apply (proj1 D).
      apply in_or_app. right. left. reflexivity.
Qed.

(** ** From paths and cycles to the three properties *)
Definition support (es : list (nat * nat)) (x : nat) : Prop := exists y, adjacent es x y.
Definition linked (es : list (nat * nat)) : Prop :=
  forall x y, support es x -> support es y -> clos_refl_trans nat (adjacent es) x y.

Lemma adjacent_sym : forall es x y, adjacent es x y -> adjacent es y x.
Proof. unfold adjacent. tauto. Qed.
Lemma reach_sym : forall es x y, clos_refl_trans nat (adjacent es) x y -> clos_refl_trans nat (adjacent es) y x.
Proof.
  intros es x y H. induction H as [x y A | x | x y z H1 IH1 H2 IH2].
  - apply rt_step. apply adjacent_sym. exact A.
  - apply rt_refl.
  - eapply rt_trans; eassumption.
Qed.
Lemma reach_mono : forall es es' x y, (forall a b, adjacent es a b -> adjacent es' a b) ->
  clos_refl_trans nat (adjacent es) x y -> clos_refl_trans nat (adjacent es') x y.
Proof.
  intros es es' x y H R. induction R as [x y A | x | x y z H1 IH1 H2 IH2].
  - apply rt_step. auto.
  - apply rt_refl.
  - eapply rt_trans; eassumption.
Qed.
Lemma path_reach : forall x p y, In y (x :: p) -> clos_refl_trans nat (adjacent (path_edges (x :: p))) x y.
Proof.
  intros x p. revert x. induction p as [ | z p IH]; intros x y I.
  - destruct I as [-> | [ ] ]. apply rt_refl.
  - destruct I as [-> | I]; [ apply rt_refl | ]. eapply rt_trans.
    + apply rt_step. left. apply path_edges_in. exists [], p. reflexivity.
    + eapply reach_mono; [ | apply IH; exact I ]. intros a b A. apply path_adjacent in A. apply path_adjacent.
      destruct A as [ (l & r & E) | (l & r & E) ]; [ left | right ]; exists (x :: l), r; rewrite E; reflexivity.
Qed.
Lemma all_linked : forall es p, (forall x y, adjacent (path_edges p) x y -> adjacent es x y) ->
  (forall x, support es x -> In x p) -> linked es.
Proof.
  intros es p H S x y Hx Hy. apply S in Hx. apply S in Hy. destruct p as [ | z p]; [ destruct Hx | ].
  eapply rt_trans; [ apply reach_sym | ]; (eapply reach_mono; [ exact H | apply path_reach; assumption ]).
Qed.

Lemma path_or_cycle_ok : forall es, is_path es \/ is_cycle es ->
  simple es /\ linked es /\ forall x, incident es x <= 2.
Proof.
  intros es H.
  assert (K : exists p es', NoDup p /\ same_edges es es' /\ simple es' /\
    (forall x y, consec p x y -> adjacent es' x y) /\ (forall x, support es' x -> In x p) /\
    (forall x, exists N, length N = 2 /\ forall y, adjacent es' x y -> In y N)).
  { destruct H as [ (p & D & Same) | (p & D & Len & Same) ].
    - exists p, (path_edges p). split; [ exact D | ]. split; [ exact Same | ]. split; [ apply path_simple; exact D | ].
      split; [ intros x y C; apply path_adjacent; auto | ].
      split; [ intros x (y & A); apply path_adjacent in A; destruct A as [A | A]; apply consec_in in A; tauto | ].
      intro x. destruct (in_dec Nat.eq_dec x p) as [I | I].
      + apply in_split in I. destruct I as (l & r & E). exists [hd 0 r; last l 0]. split; [ reflexivity | ].
        intros y A. apply path_adjacent in A. destruct A as [A | A].
        * apply (consec_next p l x r y D E) in A. destruct A as (r' & ->). left. reflexivity.
        * apply (consec_prev p l x r y D E) in A. destruct A as (l' & ->). right. left. rewrite last_last. reflexivity.
      + exists [0; 0]. split; [ reflexivity | ]. intros y A. apply path_adjacent in A. exfalso. apply I.
        destruct A as [A | A]; apply consec_in in A; tauto.
    - destruct p as [ | a p]; [ cbn in Len; lia | ]. destruct (exists_last (l := p)) as (m & z & ->); [ intros ->; cbn in Len; lia | ].
      assert (Hm : m <> []) by (intros ->; cbn in Len; lia).
      exists (a :: m ++ [z]), (cycle_edges (a :: m ++ [z])). split; [ exact D | ]. split; [ exact Same | ].
      split; [ apply cycle_simple; assumption | ].
      assert (Za : In a (a :: m ++ [z]) /\ In z (a :: m ++ [z]))
        by (split; [ left; reflexivity | right; apply in_or_app; right; left; reflexivity ]).
      split; [ intros x y C; apply cycle_adjacent; auto | ].
      split; [ intros x (y & A); apply cycle_adjacent in A; destruct A as [A | [A | [ [-> ->] | [-> ->] ] ] ]; try apply consec_in in A; tauto | ].
      intro x. destruct (Nat.eq_dec x a) as [-> | Na].
      + exists [hd 0 (m ++ [z]); z]. split; [ reflexivity | ]. intros y A. apply cycle_adjacent in A.
        destruct A as [A | [A | [ [_ ->] | [-> ->] ] ] ].
        * apply (consec_next _ [] a _ y D eq_refl) in A. destruct A as (r' & ->). left. reflexivity.
        * apply (consec_prev _ [] a _ y D eq_refl) in A. destruct A as (l' & E). destruct l'; discriminate.
        * right. left. reflexivity.
        * right. left. reflexivity.
      + destruct (Nat.eq_dec x z) as [-> | Nz].
        * exists [a; last (a :: m) 0]. split; [ reflexivity | ]. intros y A. apply cycle_adjacent in A.
          destruct A as [A | [A | [ [E _] | [_ ->] ] ] ]; [ | | congruence | left; reflexivity ].
          -- apply (consec_next _ (a :: m) z [] y D eq_refl) in A. destruct A as (r' & E). discriminate.
          -- apply (consec_prev _ (a :: m) z [] y D eq_refl) in A. destruct A as (l' & E). right. left. rewrite E, last_last. reflexivity.
        * destruct (in_dec Nat.eq_dec x (a :: m ++ [z])) as [I | I].
          -- apply in_split in I. destruct I as (l & r & E). exists [hd 0 r; last l 0]. split; [ reflexivity | ].
             intros y A. apply cycle_adjacent in A. destruct A as [A | [A | [ [E' _] | [E' _] ] ] ]; [ | | congruence | congruence ].
             ++ apply (consec_next _ l x r y D E) in A. destruct A as (r' & ->). left. reflexivity.
             ++ apply (consec_prev _ l x r y D E) in A. destruct A as (l' & ->). right. left. rewrite last_last. reflexivity.
          -- exists [0; 0]. split; [ reflexivity | ]. intros y A. apply cycle_adjacent in A. exfalso. apply I.
             destruct A as [A | [A | [ [-> ->] | [-> ->] ] ] ]; try apply consec_in in A; tauto. }
  destruct K as (p & es' & D & Same & S & C & Sup & Nb).
  assert (Sim : simple es) by (apply (same_simple es'); [ apply same_edges_sym; exact Same | exact S ]).
  split; [ exact Sim | ]. split.
  - apply (all_linked es p).
    + intros x y A. apply (same_adjacent _ _ Same). apply path_adjacent in A. destruct A as [A | A]; [ auto | apply adjacent_sym; auto ].
    + intros x (y & A). apply Sup. exists y. apply (same_adjacent _ _ Same). exact A.
  - intro x. destruct (Nb x) as (N & LN & HN). rewrite <- LN. apply incident_le; [ exact Sim | ].
    intros y A. apply HN. apply (same_adjacent _ _ Same). exact A.
Qed.

(** ** From the three properties to a path or a cycle *)
Section Find.
  Variable es : list (nat * nat).
  Hypothesis Sim : simple es.
  Hypothesis Deg : forall x, incident es x <= 2.

  Definition chain (p : list nat) : Prop := NoDup p /\ forall x y, consec p x y -> adjacent es x y.
  Lemma three : forall x u v w, u <> v -> v <> w -> u <> w ->
    adjacent es x u -> adjacent es x v -> adjacent es x w -> False.
  Proof.
    intros x u v w H1 H2 H3 A1 A2 A3. specialize (Deg x).
    assert (3 <= incident es x); [ | lia ]. change 3 with (length [u; v; w]). apply incident_ge.
    - constructor; [ intros [E | [E | [ ] ] ]; congruence | ]. constructor; [ intros [E | [ ] ]; congruence | ].
      constructor; [ intros [ ] | constructor ].
    - intros y [-> | [-> | [-> | [ ] ] ] ]; assumption.
  Qed.
  Lemma no_self : forall x, ~ adjacent es x x.
  Proof. intros x A. destruct Sim as [L _]. destruct A as [A | A]; exact (L x A). Qed.

  (** A neighbour of the first element of a chain that is itself in the chain. *)
  Lemma first_neighbour : forall a r y, chain (a :: r) -> adjacent es a y -> In y (a :: r) ->
    consec (a :: r) a y \/ exists m, m <> [] /\ r = m ++ [y].
  Proof.
    intros a r y [D C] A [-> | I]; [ exfalso; exact (no_self y A) | ].
    apply in_split in I. destruct I as (r1 & r2 & ->).
    destruct r1 as [ | b r1]; [ left; exists [], r2; reflexivity | ].
    destruct r2 as [ | c r2]; [ right; exists (b :: r1); split; [ discriminate | reflexivity ] | ].
    exfalso. destruct (exists_last (l := b :: r1)) as (l & u & E); [ discriminate | ]. rewrite E in *.
    assert (Cu : adjacent es u y).
    { apply C. exists (a :: l), (c :: r2). rewrite <- app_assoc. reflexivity. }
    assert (Cc : adjacent es y c).
    { apply C. exists (a :: l ++ [u]), r2. reflexivity. }
    assert (Dn : NoDup (a :: l ++ u :: y :: c :: r2)) by (rewrite <- app_assoc in D; exact D).
    apply (three y a u c).
    - intros ->. apply NoDup_cons_iff in Dn. apply (proj1 Dn). apply in_or_app. right. left. reflexivity.
    - intros ->. apply NoDup_cons_iff in Dn. destruct Dn as [_ Dn]. apply NoDup_remove_2 in Dn. apply Dn.
      apply in_or_app. right. right. left. reflexivity.
    - intros ->. apply NoDup_cons_iff in Dn. apply (proj1 Dn). apply in_or_app. right. right. right. left. reflexivity.
    - apply adjacent_sym. exact A.
    - apply adjacent_sym. exact Cu.
    - exact Cc.
  Qed.
  Lemma consec_rev : forall p x y, consec p x y -> consec (rev p) y x.
  Proof.
    intros p x y (a & b & ->). exists (rev b), (rev a). rewrite rev_app_distr. cbn [rev]. rewrite <- !app_assoc. reflexivity.
  Qed.
  Lemma chain_rev : forall p, chain p -> chain (rev p).
  Proof.
    intros p [D C]. split; [ apply NoDup_rev; exact D | ]. intros x y H. apply consec_rev in H. rewrite rev_involutive in H.
    apply adjacent_sym. apply C. exact H.
  Qed.

  (** A chain that cannot be made longer. *)
  Definition maximal (p : list nat) : Prop :=
    chain p /\ p <> [] /\ (forall y, adjacent es (hd 0 p) y -> In y p) /\ (forall y, adjacent es (last p 0) y -> In y p).

  Lemma neighbour : forall p x y, maximal p -> In x p -> adjacent es x y ->
    In y p /\ (consec p x y \/ consec p y x \/
      exists a m z, p = a :: m ++ [z] /\ m <> [] /\ ((x = a /\ y = z) \/ (x = z /\ y = a))).
  Proof.
    intros p x y (Ch & Ne & Hh & Hl) I A. apply in_split in I. destruct I as (l & r & E).
    destruct l as [ | u0 l0] eqn:El.
    - cbn [app] in E. subst p. assert (Iy : In y (x :: r)) by (apply Hh; exact A). split; [ exact Iy | ].
      destruct (first_neighbour x r y Ch A Iy) as [C | (m & Hm & ->)]; [ auto | ]. right. right. exists x, m, y. auto.
    - rewrite <- El in E. assert (Hne : l <> []) by (rewrite El; discriminate). clear El l0 u0.
      destruct r as [ | w r].
      + assert (Iy : In y p) by (apply Hl; rewrite E, last_last; exact A). split; [ exact Iy | ].
        assert (Er : rev p = x :: rev l) by (rewrite E, rev_app_distr; reflexivity).
        pose proof (chain_rev p Ch) as Chr. rewrite Er in Chr.
        assert (Iy' : In y (x :: rev l)) by (rewrite <- Er; apply -> in_rev; exact Iy).
        destruct (first_neighbour x (rev l) y Chr A Iy') as [C | (m & Hm & E2)].
        * right. left. rewrite <- Er in C. apply consec_rev in C. rewrite rev_involutive in C. exact C.
        * right. right. exists y, (rev m), x. split; [ | split; [ | auto ] ].
          -- rewrite E. apply (f_equal (@rev nat)) in E2. rewrite rev_involutive, rev_app_distr in E2. rewrite E2. reflexivity.
          -- intro N. apply Hm. apply (f_equal (@rev nat)) in N. rewrite rev_involutive in N. exact N.
      + destruct (exists_last Hne) as (l1 & u & ->). destruct Ch as [D C].
        assert (Cu : consec p u x) by (exists l1, (w :: r); rewrite E, <- app_assoc; reflexivity).
        assert (Cw : consec p x w) by (exists (l1 ++ [u]), r; exact E).
        destruct (Nat.eq_dec y u) as [-> | Nu]; [ apply consec_in in Cu as I; tauto | ].
        destruct (Nat.eq_dec y w) as [-> | Nw]; [ apply consec_in in Cw as I; tauto | ].
        exfalso. apply (three x u w y).
        * intros ->. rewrite E in D. rewrite <- app_assoc in D. cbn [app] in D. apply NoDup_remove_2 in D. apply D.
          apply in_or_app. right. right. left. reflexivity.
        * congruence.
        * congruence.
        * apply adjacent_sym. apply C. exact Cu.
        * apply C. exact Cw.
        * exact A.
  Qed.

  Lemma maximal_exists : forall k p, chain p -> p <> [] -> (forall q, chain q -> length q <= k + length p) -> exists q, maximal q /\ length p <= length q.
  Proof.
    assert (X : forall x p, (exists y, adjacent es x y /\ ~ In y p) \/ (forall y, adjacent es x y -> In y p)).
    { intros x p. destruct (existsb (fun y => if in_dec Nat.eq_dec y p then false else true) (map (far x) (at_ es x))) eqn:E.
      - apply existsb_exists in E. destruct E as (y & I & E). left. exists y. apply far_in in I. split; [ exact I | ].
        destruct (in_dec Nat.eq_dec y p); [ discriminate | assumption ].
      - right. intros y A. apply far_in in A. destruct (in_dec Nat.eq_dec y p) as [I | N]; [ exact I | exfalso ].
        assert (existsb (fun y => if in_dec Nat.eq_dec y p then false else true) (map (far x) (at_ es x)) = true); [ | congruence ].
        apply existsb_exists. exists y. split; [ exact A | ]. destruct (in_dec Nat.eq_dec y p); [ contradiction | reflexivity ]. }
    assert (Cons : forall p y, chain p -> p <> [] -> adjacent es (hd 0 p) y -> ~ In y p -> chain (y :: p)).
    { intros p y [D C] Ne A N. split; [ constructor; assumption | ]. intros a b ([ | c l] & r & E).
      - destruct p as [ | d p]; [ congruence | ]. injection E as -> -> ->. apply adjacent_sym. exact A.
      - injection E as -> E. apply C. exists l, r. exact E. }
    induction k as [ | k IH]; intros p Ch Ne B.
    - exists p. split; [ | apply Nat.le_refl ]. split; [ exact Ch | ]. split; [ exact Ne | ]. split.
      + destruct (X (hd 0 p) p) as [ (y & A & N) | H]; [ | exact H ]. pose proof (B _ (Cons p y Ch Ne A N)) as L. cbn in L. lia.
      + assert (Nr : rev p <> []) by (intro N; apply Ne; apply (f_equal (@rev nat)) in N; rewrite rev_involutive in N; exact N).
        assert (Hr : hd 0 (rev p) = last p 0).
        { destruct (exists_last Ne) as (l & z & ->). rewrite rev_app_distr, last_last. reflexivity. }
        destruct (X (last p 0) p) as [ (y & A & N) | H]; [ | exact H ]. rewrite <- Hr in A.
        pose proof (B _ (Cons (rev p) y (chain_rev p Ch) Nr A ltac:(rewrite <- in_rev; exact N))) as L. cbn in L. rewrite rev_length in L. lia.
    - destruct (X (hd 0 p) p) as [ (y & A & N) | H].
      + destruct (IH (y :: p)) as (q & Mq & Lq); [ apply Cons; assumption | discriminate | | exists q; cbn [length] in Lq; split; [ exact Mq | lia ] ].
        intros q Hq. specialize (B q Hq). cbn [length]. lia.
      + assert (Nr : rev p <> []) by (intro N; apply Ne; apply (f_equal (@rev nat)) in N; rewrite rev_involutive in N; exact N).
        assert (Hr : hd 0 (rev p) = last p 0).
        { destruct (exists_last Ne) as (l & z & ->). rewrite rev_app_distr, last_last. reflexivity. }
        destruct (X (last p 0) p) as [ (y & A & N) | H']; [ | exists p; split; [ split; [ exact Ch | auto ] | apply Nat.le_refl ] ]. rewrite <- Hr in A.
        destruct (IH (y :: rev p)) as (q & Mq & Lq); [ | | | exists q; cbn [length] in Lq; rewrite rev_length in Lq; split; [ exact Mq | lia ] ].
        * apply Cons; [ apply chain_rev; exact Ch | exact Nr | exact A | rewrite <- in_rev; exact N ].
        * discriminate.
        * intros q Hq. specialize (B q Hq). cbn [length]. rewrite rev_length. lia.
  Qed.

  Lemma find : es <> [] -> linked es -> is_path es \/ is_cycle es.
  Proof.
    intros Ne Lk. destruct es as [ | [a b] es'] eqn:Ees; [ congruence | ]. rewrite <- Ees in *.
    assert (Aab : adjacent es a b) by (left; rewrite Ees; left; reflexivity).
    assert (Ch : chain [a; b]).
    { split.
      - constructor; [ intros [-> | [ ] ]; exact (no_self a Aab) | constructor; [ intros [ ] | constructor ] ].
      - intros x y ([ | c l] & r & E); [ injection E as -> -> _; exact Aab | ]. injection E as _ E.
        destruct l as [ | ? [ | ? ? ] ]; discriminate. }
    destruct (maximal_exists (length (map fst es ++ map snd es)) [a; b] Ch) as (p & Mx & Len).
    { discriminate. }
    { intros q [D C]. destruct q as [ | x [ | y q] ]; [ cbn; lia | cbn; lia | ].
      assert (I : incl (x :: y :: q) (map fst es ++ map snd es)).
      { assert (S : forall u v, adjacent es u v -> In u (map fst es ++ map snd es) /\ In v (map fst es ++ map snd es)).
        { intros u v [I | I]; split; apply in_or_app; [ left | right | right | left ];
            apply in_map_iff; eexists; split; try exact I; reflexivity. }
        intros u Hu. apply in_split in Hu. destruct Hu as (l & r & E). destruct l as [ | u0 l0] eqn:El.
        - injection E as -> E. apply (S u y). apply C. exists [], q. reflexivity.
        - rewrite <- El in E. destruct (exists_last (l := l)) as (l1 & t & E1); [ rewrite El; discriminate | ].
          apply (S t u). apply C. exists l1, r. rewrite E, E1, <- app_assoc. reflexivity. }
      pose proof (NoDup_incl_length D I). lia. }
    assert (Cl : forall x y, In x p -> clos_refl_trans nat (adjacent es) x y -> In y p).
    { intros x y I R. apply clos_rt_rtn1 in R. induction R as [ | y z A R IH]; [ exact I | ].
      apply (neighbour p y z Mx IH A). }
    assert (All : forall x y, adjacent es x y -> In x p).
    { intros x y A. destruct Mx as (Chp & Nep & _). destruct p as [ | h [ | w p] ]; [ congruence | cbn in Len; lia | ].
      apply (Cl h x); [ left; reflexivity | ]. apply Lk; [ exists w; apply Chp; exists [], p; reflexivity | exists y; exact A ]. }
    assert (Nb := neighbour p). assert (Chp := proj1 Mx).
    assert (D : NoDup p) by apply Chp.
    destruct (in_dec (fun e f : nat * nat => ltac:(decide equality; apply Nat.eq_dec)) (unordered (hd 0 p, last p 0)) (map unordered es))
      as [I | I]; [ destruct (Nat.le_gt_cases (length p) 2) as [L2 | L3] | ].
    - left. exists p. split; [ exact D | ]. apply same_from_adjacent; [ exact Sim | apply path_simple; exact D | ].
      intros x y. rewrite path_adjacent. split.
      + intro A. destruct (Nb x y Mx (All x y A) A) as [_ [C | [C | (u & m & z & E & Hm & _) ] ] ]; [ auto | auto | exfalso ].
        rewrite E in L2. cbn [length] in L2. rewrite app_length in L2. cbn in L2. destruct m; [ congruence | cbn in L2; lia ].
      + intros [C | C]; [ apply Chp; exact C | apply adjacent_sym; apply Chp; exact C ].
    - right. exists p. split; [ exact D | ]. split; [ lia | ].
      destruct p as [ | u p]; [ cbn in L3; lia | ]. destruct (exists_last (l := p)) as (m & z & ->); [ intros ->; cbn in L3; lia | ].
      assert (Hm : m <> []) by (intros ->; cbn in L3; lia).
      apply in_unordered in I. cbn [hd] in I. change (u :: m ++ [z]) with ((u :: m) ++ [z]) in I. rewrite last_last in I.
      apply same_from_adjacent; [ exact Sim | apply cycle_simple; assumption | ].
      intros x y. rewrite cycle_adjacent. split.
      + intro A. destruct (Nb x y Mx (All x y A) A) as [_ [C | [C | (u' & m' & z' & E & Hm' & C) ] ] ]; [ auto | auto | ].
        injection E as <- E. apply app_inj_tail in E. destruct E as [_ <-]. tauto.
      + intros [C | [C | [ [-> ->] | [-> ->] ] ] ]; [ apply Chp; exact C | apply adjacent_sym; apply Chp; exact C | exact I | apply adjacent_sym; exact I ].
    - left. exists p. split; [ exact D | ]. apply same_from_adjacent; [ exact Sim | apply path_simple; exact D | ].
      intros x y. rewrite path_adjacent. split.
      + intro A. destruct (Nb x y Mx (All x y A) A) as [_ [C | [C | (u & m & z & E & Hm & C) ] ] ]; [ auto | auto | exfalso ].
        apply I. apply in_unordered. rewrite E. cbn [hd]. change (u :: m ++ [z]) with ((u :: m) ++ [z]). rewrite last_last.
        destruct C as [ [-> ->] | [-> ->] ]; [ exact A | apply adjacent_sym; exact A ].
      + intros [C | C]; [ apply Chp; exact C | apply adjacent_sym; apply Chp; exact C ].
  Qed.
End Find.

Theorem path_or_cycle_iff : forall es, es <> [] ->
  (is_path es \/ is_cycle es) <-> simple es /\ linked es /\ forall x, incident es x <= 2.
Proof.
  intros es Ne. split; [ apply path_or_cycle_ok | ]. intros (S & L & D). apply find; assumption.
Qed.

(** ** Renaming vertices *)
Definition rename (f : nat -> nat) (e : nat * nat) : nat * nat := (f (fst e), f (snd e)).
Lemma unordered_rename : forall f e, unordered (rename f (unordered e)) = unordered (rename f e).
Proof.
  intros f [a b]. unfold unordered at 2. cbn [fst snd]. destruct (b <? a); [ | reflexivity ].
  unfold rename. cbn [fst snd]. apply unordered_swap.
Qed.
Lemma same_rename : forall f es es', same_edges es es' -> same_edges (map (rename f) es) (map (rename f) es').
Proof.
  intros f es es' H. unfold same_edges.
  assert (K : forall l, map unordered (map (rename f) l) = map (fun e => unordered (rename f e)) (map unordered l)).
  { intro l. rewrite !map_map. apply map_ext. intro e. symmetry. apply unordered_rename. }
  rewrite !K. apply Permutation_map. exact H.
Qed.
Lemma path_rename : forall f p, map (rename f) (path_edges p) = path_edges (map f p).
Proof.
  intros f p. unfold path_edges. destruct p as [ | x p]; [ reflexivity | ]. cbn [tl map]. revert x.
  induction p as [ | y p IH]; intro x; [ reflexivity | ]. cbn [combine map]. f_equal. apply IH.
Qed.
Lemma cycle_rename : forall f p, map (rename f) (cycle_edges p) = cycle_edges (map f p).
Proof.
  intros f [ | x p]; [ reflexivity | ]. cbn [map]. rewrite !cycle_edges_split, map_app, path_rename. cbn [map]. f_equal.
  unfold rename. cbn [fst snd]. f_equal. f_equal. change (f x :: map f p) with (map f (x :: p)).
  generalize (x :: p). induction l as [ | z l IH]; [ reflexivity | ]. destruct l as [ | w l]; [ reflexivity | exact IH ].
Qed.
Lemma NoDup_rename : forall (f : nat -> nat) p, (forall x y, In x p -> In y p -> f x = f y -> x = y) -> NoDup p -> NoDup (map f p).
Proof.
  intros f p H D. induction D as [ | x p Hx D IH]; cbn [map]; constructor.
  - intro I. apply in_map_iff in I. destruct I as (y & E & I). apply Hx. rewrite <- (H y x); [ exact I | right; exact I | left; reflexivity | exact E ].
  - apply IH. intros y z Iy Iz. apply H; right; assumption.
Qed.
(** The vertices of a path with at least one edge, or of a cycle, are ends of edges. *)
Lemma path_support : forall p x, 2 <= length p -> In x p -> support (path_edges p) x.
Proof.
  intros p x L I. apply in_split in I. destruct I as (l & r & ->). destruct r as [ | y r].
  - destruct (exists_last (l := l)) as (l1 & u & ->); [ intros ->; cbn in L; lia | ].
    exists u. apply path_adjacent. right. exists l1, []. rewrite <- app_assoc. reflexivity.
  - exists y. apply path_adjacent. left. exists l, r. reflexivity.
Qed.
Lemma kind_rename : forall f es, es <> [] ->
  (forall x y, support es x -> support es y -> f x = f y -> x = y) ->
  is_path es \/ is_cycle es -> is_path (map (rename f) es) \/ is_cycle (map (rename f) es).
Proof.
  intros f es Ne Inj [ (p & D & S) | (p & D & L & S) ].
  - left. exists (map f p). rewrite <- path_rename. split; [ | apply same_rename; exact S ]. apply NoDup_rename; [ | exact D ].
    assert (L : 2 <= length p).
    { destruct p as [ | x [ | y p] ]; [ | | cbn; lia ]; exfalso; apply Ne; unfold same_edges in S; cbn in S;
        apply Permutation_sym, Permutation_nil in S; destruct es; [ reflexivity | discriminate | reflexivity | discriminate ]. }
    intros x y Ix Iy. apply Inj.
    + destruct (path_support p x L Ix) as (z & A). exists z. apply (same_adjacent _ _ S). exact A.
    + destruct (path_support p y L Iy) as (z & A). exists z. apply (same_adjacent _ _ S). exact A.
  - right. exists (map f p). rewrite <- cycle_rename, map_length. split; [ | split; [ exact L | apply same_rename; exact S ] ].
    apply NoDup_rename; [ | exact D ].
    assert (K : forall x, In x p -> support es x).
    { intros x Ix. destruct (path_support p x ltac:(lia) Ix) as (z & A). exists z. apply (same_adjacent _ _ S).
      destruct p as [ | u p]; [ destruct Ix | ]. rewrite cycle_edges_split. unfold adjacent in *. rewrite !in_app_iff. tauto. }
    intros x y Ix Iy. apply Inj; apply K; assumption.
Qed.
