(** * Which constraints can be rejected *)
From Coq Require Import List Arith Bool Lia QArith.
From Verif Require Import Model_base Proof_base Model_geometry Model_soup Model_region Model_points Model_boolean Model_corefine.
From Verif Require Import Spec_defects Spec_ffi Spec_corefine Spec_cut Proof_corefine_tri.
Import ListNotations.
Local Open Scope nat_scope.

Section Accepts.
  Context {P D : Type}.
  Variable P_eqb : P -> P -> bool.
  Variable accepts : triangulation P -> nat -> nat -> bool.
  Notation yes := (fun (_ : triangulation P) (_ _ : nat) => true).

  Definition ranged (t : triangulation P) : Prop :=
    3 <= length (t_vertices t) /\ (forall id vh, In (id, vh) (t_handles t) -> vh < length (t_vertices t)) /\
    (forall h k, In (h, k) (t_constraints t) -> h < length (t_vertices t) /\ k < length (t_vertices t)).
  Definition grows (t t' : triangulation P) : Prop :=
    (exists vs, map fst (t_vertices t') = map fst (t_vertices t) ++ vs) /\ exists cs, t_constraints t' = t_constraints t ++ cs.
  Lemma grows_refl : forall t, grows t t.
  Proof. intro t. split; exists []; now rewrite app_nil_r. Qed.
  Lemma grows_trans : forall t u v, grows t u -> grows u v -> grows t v.
  Proof.
    intros t u v ((vs & A) & (cs & B)) ((vs' & A') & (cs' & B')). split; [ exists (vs ++ vs') | exists (cs ++ cs') ].
    - rewrite A', A, app_assoc. reflexivity.
    - rewrite B', B, app_assoc. reflexivity.
  Qed.
  Definition joined_by (t : triangulation P) (i j : nat) : triangulation P := mk_tri (t_face t) (t_vertices t) (t_handles t) (t_constraints t ++ [(i, j)]).
  (** A constraint that is part of [t'] was rejected. *)
  Definition blocked (t' : triangulation P) : Prop :=
    exists t i j, ranged t /\ i < length (t_vertices t) /\ j < length (t_vertices t) /\ accepts t i j = false /\ grows (joined_by t i j) t'.
  Lemma blocked_grows : forall t t', blocked t -> grows t t' -> blocked t'.
  Proof. intros t t' (t0 & i & j & A & B & C & E & G) G'. exists t0, i, j. repeat (split; [ assumption | ]). exact (grows_trans _ _ _ G G'). Qed.

  Lemma insert_in_grows : forall t p id t' vh, ranged t -> insert_in P_eqb t p id = (t', vh) -> ranged t' /\ grows t t' /\ vh < length (t_vertices t').
  Proof.
    intros t p id t' vh (R1 & R2 & R3) E. unfold insert_in in E. destruct (assoc_find Nat.eqb id (t_handles t)) as [v | ] eqn:Ea.
    { injection E as <- <-. split; [ split; auto | ]. split; [ apply grows_refl | ]. apply assoc_in in Ea. exact (R2 _ _ Ea). }
    assert (Si : forall v (vs : list (P * nat)), length (set_info v id vs) = length vs /\ map fst (set_info v id vs) = map fst vs).
    { clear. intros v vs. unfold set_info. destruct (nth_error vs v) as [ [q i] | ] eqn:En; [ | auto ]. revert v En. induction vs as [ | w vs IH]; intros [ | v] En; cbn in *; try discriminate; [ injection En as ->; auto | ].
      destruct (IH v En) as [-> ->]. auto. }
    unfold cdt_insert in E. destruct (find_index (fun v => P_eqb (fst v) p) (t_vertices t)) as [n | ] eqn:Ef; injection E as <- <-; cbn [t_vertices t_handles t_constraints].
    - apply find_index_some in Ef. destruct Ef as (x & En & _). assert (Ln : n < length (t_vertices t)) by (apply nth_error_Some; congruence).
      unfold ranged, grows. cbn [t_vertices t_handles t_constraints]. rewrite (proj1 (Si _ _)), (proj2 (Si _ _)). split; [ split; [ exact R1 | split; [ | exact R3 ] ] | ].
      + intros i v J. apply in_app_iff in J. destruct J as [J | [J | [ ] ] ]; [ exact (R2 _ _ J) | injection J as <- <-; exact Ln ].
      + split; [ split; exists []; now rewrite app_nil_r | exact Ln ].
    - unfold ranged, grows. cbn [t_vertices t_handles t_constraints]. rewrite (proj1 (Si _ _)), (proj2 (Si _ _)), app_length, map_app. cbn [length map]. split; [ split; [ lia | split ] | ].
      + intros i v J. apply in_app_iff in J. destruct J as [J | [J | [ ] ] ]; [ specialize (R2 _ _ J); lia | injection J as <- <-; lia ].
      + intros h k J. destruct (R3 h k J). lia.
      + split; [ split; [ eexists; reflexivity | exists []; now rewrite app_nil_r ] | lia ].
  Qed.
  Lemma tri_insert_grows : forall t p id reg t' vh, ranged t -> tri_insert P_eqb t p id reg = Ok (t', vh) -> ranged t' /\ grows t t' /\ vh < length (t_vertices t').
  Proof.
    intros t p id reg t' vh R E. unfold tri_insert in E. pose proof (proj1 R) as R1.
    repeat match type of E with (if ?c then _ else _) = _ => destruct c end; try discriminate.
    1-3: injection E as <- <-; split; [ exact R | ]; split; [ apply grows_refl | lia ].
    all: injection E as E; exact (insert_in_grows t p id t' vh R E).
  Qed.

  Lemma constraint_sim : forall t i j, ranged t -> i < length (t_vertices t) -> j < length (t_vertices t) ->
    (insert_constraint accepts t i j = insert_constraint yes t i j \/
     (insert_constraint accepts t i j = Throw RuntimeError /\ forall t', insert_constraint yes t i j = Ok t' -> blocked t')) /\
    forall t', insert_constraint yes t i j = Ok t' -> ranged t' /\ grows t t' /\ t_vertices t' = t_vertices t.
  Proof.
    intros t i j R Li Lj. unfold insert_constraint. destruct (i =? j); [ split; [ auto | discriminate ] | ]. split.
    - destruct (accepts t i j) eqn:E; [ auto | right ]. split; [ reflexivity | ]. intros t' X. injection X as <-. exists t, i, j. repeat (split; [ assumption | ]). apply grows_refl.
    - intros t' X. injection X as <-. destruct R as (R1 & R2 & R3). split; [ | split; [ | reflexivity ] ].
      + split; [ exact R1 | ]. split; [ exact R2 | ]. cbn. intros h k J. apply in_app_iff in J. destruct J as [J | [J | [ ] ] ]; [ exact (R3 h k J) | injection J as <- <-; auto ].
      + split; [ exists []; now rewrite app_nil_r | eexists; reflexivity ].
  Qed.

  Definition state_ok (st : triangulation P * option nat * option nat) : Prop :=
    let '(t, first, prev) := st in ranged t /\ (forall v, first = Some v -> v < length (t_vertices t)) /\ (forall v, prev = Some v -> v < length (t_vertices t)).
  Notation tri_of st := (fst (fst st)).

  Lemma grows_length : forall t t', grows t t' -> length (t_vertices t) <= length (t_vertices t').
  Proof. intros t t' ((vs & E) & _). apply (f_equal (@length P)) in E. rewrite app_length, !map_length in E. lia. Qed.

  Lemma insert_one_sim : forall pts st e, state_ok st ->
    (insert_one P_eqb accepts pts st e = insert_one P_eqb yes pts st e \/
     (insert_one P_eqb accepts pts st e = Throw RuntimeError /\ forall st', insert_one P_eqb yes pts st e = Ok st' -> blocked (tri_of st'))) /\
    forall st', insert_one P_eqb yes pts st e = Ok st' -> state_ok st' /\ grows (tri_of st) (tri_of st').
  Proof.
    intros pts [ [t first] prev] [id sym] (R & Hf & Hp). unfold insert_one. cbn [fst].
    destruct (vec_at pts id) as [p | x | ] eqn:Ep; cbn [bind]; [ | split; [ auto | discriminate ] .. ].
    destruct (tri_insert P_eqb t p id sym) as [ [t1 cur] | x | ] eqn:Et; cbn [bind]; [ | split; [ auto | discriminate ] .. ].
    destruct (tri_insert_grows _ _ _ _ _ _ R Et) as (R1 & G1 & Lc). pose proof (grows_length _ _ G1) as Le.
    assert (Fok : forall t', length (t_vertices t1) <= length (t_vertices t') -> ranged t' -> state_ok (t', match first with Some v => Some v | None => Some cur end, Some cur)).
    { intros t' L2 R2. split; [ exact R2 | ]. split; intros v E; [ destruct first; injection E as <-; [ specialize (Hf _ eq_refl) | ]; lia | injection E as <-; lia ]. }
    destruct prev as [v | ].
    - specialize (Hp v eq_refl). destruct (constraint_sim t1 v cur R1 ltac:(lia) Lc) as [S G]. destruct (insert_constraint yes t1 v cur) as [t2 | x | ] eqn:E2; cbn [bind].
      + destruct (G t2 eq_refl) as (R2 & G2 & E3). split.
        * destruct S as [-> | [-> B]]; [ left; reflexivity | right ]. split; [ reflexivity | ]. intros st' X. injection X as <-. exact (B t2 eq_refl).
        * intros st' X. injection X as <-. split; [ apply Fok; [ rewrite E3; lia | exact R2 ] | exact (grows_trans _ _ _ G1 G2) ].
      + split; [ | discriminate ]. destruct S as [-> | [-> B]]; [ left; reflexivity | right; split; [ reflexivity | discriminate ] ].
      + split; [ | discriminate ]. destruct S as [-> | [-> B]]; [ left; reflexivity | right; split; [ reflexivity | discriminate ] ].
    - cbn [bind]. split; [ auto | ]. intros st' X. injection X as <-. split; [ apply Fok; [ lia | exact R1 ] | exact G1 ].
  Qed.

  (** Loops of such steps. *)
  Lemma fold_sim : forall {S E} (f g : S -> E -> res S) (tri : S -> triangulation P) (ok : S -> Prop),
    (forall s e, ok s -> (f s e = g s e \/ (f s e = Throw RuntimeError /\ forall s', g s e = Ok s' -> blocked (tri s'))) /\
       forall s', g s e = Ok s' -> ok s' /\ grows (tri s) (tri s')) ->
    forall l s, ok s -> (foldM f s l = foldM g s l \/ (foldM f s l = Throw RuntimeError /\ forall s', foldM g s l = Ok s' -> blocked (tri s'))) /\
       forall s', foldM g s l = Ok s' -> ok s' /\ grows (tri s) (tri s').
  Proof.
    intros S E f g tri ok Step. induction l as [ | e l IH]; intros s O.
    - cbn. split; [ auto | ]. intros s' X. injection X as <-. split; [ exact O | apply grows_refl ].
    - cbn. destruct (Step s e O) as [A B]. destruct (g s e) as [s1 | x | ] eqn:Eg; cbn.
      + destruct (B s1 eq_refl) as [O1 G1]. destruct (IH s1 O1) as [A' B']. split.
        * destruct A as [-> | [-> Bl]]; cbn.
          -- destruct A' as [A' | [A' Bl]]; [ left; exact A' | right; split; [ exact A' | exact Bl ] ].
          -- right. split; [ reflexivity | ]. intros s' X. exact (blocked_grows _ _ (Bl s1 eq_refl) (proj2 (B' s' X))).
        * intros s' X. destruct (B' s' X) as [O' G']. split; [ exact O' | exact (grows_trans _ _ _ G1 G') ].
      + split; [ | discriminate ]. destruct A as [-> | [-> Bl]]; cbn; [ auto | right; split; [ reflexivity | discriminate ] ].
      + split; [ | discriminate ]. destruct A as [-> | [-> Bl]]; cbn; [ auto | right; split; [ reflexivity | discriminate ] ].
  Qed.

  Lemma intersection_sim : forall pts t i, ranged t ->
    (insert_intersection P_eqb accepts pts t i = insert_intersection P_eqb yes pts t i \/
     (insert_intersection P_eqb accepts pts t i = Throw RuntimeError /\ forall t', insert_intersection P_eqb yes pts t i = Ok t' -> blocked t')) /\
    forall t', insert_intersection P_eqb yes pts t i = Ok t' -> ranged t' /\ grows t t'.
  Proof.
    intros pts t i R. unfold insert_intersection.
    assert (O : state_ok (t, None, None)) by (split; [ exact R | split; discriminate ]).
    destruct (fold_sim (insert_one P_eqb accepts pts) (insert_one P_eqb yes pts) (fun st => tri_of st) state_ok (insert_one_sim pts) (combine (i_ids i) (i_syms i)) (t, None, None) O) as [A B].
    destruct (foldM (insert_one P_eqb yes pts) (t, None, None) (combine (i_ids i) (i_syms i))) as [ [ [t1 first] prev] | x | ] eqn:E; cbn [bind].
    2, 3: split; [ | discriminate ]; destruct A as [-> | [-> Bl]]; cbn; [ auto | right; split; [ reflexivity | discriminate ] ].
    destruct (B _ eq_refl) as [(R1 & Hf & Hp) G1]. cbn [fst] in *.
    destruct (2 <? length (i_ids i)).
    - destruct prev as [v | ], first as [w | ].
      + destruct (constraint_sim t1 v w R1 (Hp v eq_refl) (Hf w eq_refl)) as [S G]. split.
        * destruct A as [-> | [-> Bl]]; cbn [bind]; [ exact S | ]. right. split; [ reflexivity | ]. intros t' X. exact (blocked_grows _ _ (Bl _ eq_refl) (proj1 (proj2 (G t' X)))).
        * intros t' X. destruct (G t' X) as (R2 & G2 & _). split; [ exact R2 | exact (grows_trans _ _ _ G1 G2) ].
      + split; [ | discriminate ]. destruct A as [-> | [-> Bl]]; cbn [bind]; [ auto | right; split; [ reflexivity | discriminate ] ].
      + split; [ | discriminate ]. destruct A as [-> | [-> Bl]]; cbn [bind]; [ auto | right; split; [ reflexivity | discriminate ] ].
      + split; [ | discriminate ]. destruct A as [-> | [-> Bl]]; cbn [bind]; [ auto | right; split; [ reflexivity | discriminate ] ].
    - split.
      + destruct A as [-> | [-> Bl]]; cbn [bind]; [ auto | right ]. split; [ reflexivity | ]. intros t' X. injection X as <-. exact (Bl _ eq_refl).
      + intros t' X. injection X as <-. auto.
  Qed.

  Lemma triangulate_sim : forall f key pts (m : soup P D) ids range,
    triangulate P_eqb accepts f key pts m ids range = triangulate P_eqb yes f key pts m ids range \/
    (triangulate P_eqb accepts f key pts m ids range = Throw RuntimeError /\ forall F t, triangulate P_eqb yes f key pts m ids range = Ok (F, t) -> blocked t).
  Proof.
    intros f key pts m ids [ | any range]; [ left; reflexivity | ]. unfold triangulate.
    destruct (face_ids m ids (key any)) as [ [ [a b] c] | x | ]; cbn [bind]; [ | left; reflexivity .. ].
    destruct (vec_at pts a) as [pa | x | ]; cbn [bind]; [ | left; reflexivity .. ]. destruct (vec_at pts b) as [pb | x | ]; cbn [bind]; [ | left; reflexivity .. ]. destruct (vec_at pts c) as [pc | x | ]; cbn [bind]; [ | left; reflexivity .. ].
    assert (R : ranged (tri_new f pa pb pc a b c)) by (split; [ cbn; lia | split; cbn; intros ? ? [ ] ]).
    destruct (fold_sim (insert_intersection P_eqb accepts pts) (insert_intersection P_eqb yes pts) (fun t => t) ranged (intersection_sim pts) (any :: range) _ R) as [A _].
    destruct A as [-> | [-> Bl]]; [ left; reflexivity | right ]. split; [ reflexivity | ]. intros F t X.
    destruct (foldM (insert_intersection P_eqb yes pts) (tri_new f pa pb pc a b c) (any :: range)) as [t1 | x | ]; cbn [bind] in X; try discriminate. injection X as _ <-. exact (Bl _ eq_refl).
  Qed.

  (** A rejected constraint was not compatible with the ones before it. *)
  Lemma blocked_not : forall (coords : P -> vec3) t a b c, accepts_compatible coords accepts -> let vs := map (fun v => coords (fst v)) (t_vertices t) in
    good_vertices vs a b c -> compatible vs (t_constraints t) -> ~ blocked t.
  Proof.
    intros coords t a b c Acc vs ((rest & Ev) & Nd & In_ & Dis) [C1 C2 C3] (t0 & i & j & (R1 & R2 & R3) & Li & Lj & Rej & (vs' & Gv) & (cs' & Gc)).
    cbn [t_vertices t_constraints joined_by] in *. unfold vs in *. set (vs0 := map (fun v => coords (fst v)) (t_vertices t0)).
    assert (Pre : map (fun v => coords (fst v)) (t_vertices t) = vs0 ++ map coords vs').
    { unfold vs0. rewrite <- (map_map fst coords (t_vertices t)), <- (map_map fst coords (t_vertices t0)), Gv, map_app. reflexivity. }
    rewrite Pre in *. assert (L0 : length vs0 = length (t_vertices t0)) by apply map_length.
    assert (At : forall h x, nth_error vs0 h = Some x -> nth_error (vs0 ++ map coords vs') h = Some x) by (intros h x E; rewrite nth_error_app1; [ exact E | apply nth_error_Some; congruence ]).
    assert (Sub : forall e, In e (t_constraints t0 ++ [(i, j)]) -> In e (t_constraints t)) by (intros e J; rewrite Gc; apply in_app_iff; auto).
    rewrite (Acc t0 a b c i j) in Rej; [ discriminate | | ]; fold vs0.
    - split; [ | split; [ exact Nd | split ] ].
      + destruct vs0 as [ | x [ | y [ | z l] ] ]; cbn in L0; try lia. injection Ev as -> -> -> _. eauto.
      + intros x J. apply In_. apply in_app_iff. auto.
      + intros h k x y E E'. apply Dis; apply At; assumption.
    - split.
      + intros h k J. destruct (C1 h k (Sub _ J)) as (N & _). split; [ exact N | ]. rewrite L0. apply in_app_iff in J. destruct J as [J | [J | [ ] ] ]; [ exact (R3 h k J) | injection J as <- <-; auto ].
      + intros h k v p q x J E1 E2 E3. apply (C2 h k v p q x (Sub _ J)); apply At; assumption.
      + intros h k h' k' p q p' q' x J J' E1 E2 E3 E4. apply (C3 h k h' k' p q p' q' x (Sub _ J) (Sub _ J')); apply At; assumption.
  Qed.
End Accepts.
