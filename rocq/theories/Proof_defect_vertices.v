(** * Non-manifold vertices *)
From Coq Require Import List Arith Bool NArith Lia Relations Permutation.
From Verif Require Import Model_base Proof_base Proof_mesh Model_soup Model_points Proof_points.
From Verif Require Import Model_candidates Spec_candidates Model_graph Spec_graph Proof_graph Proof_paths.
From Verif Require Import Proof_builder Model_defects Spec_defects Proof_defects.
Import ListNotations.

(** ** The faces around every vertex *)
Lemma vec_push_ok : forall {A} (v : list (list A)) i x, i < length v -> exists v', vec_push v i x = Ok v' /\ length v' = length v /\
  forall w, nth_error v' w = if w =? i then option_map (fun l => l ++ [x]) (nth_error v w) else nth_error v w.
Proof.
  intros A v i x H. unfold vec_push, vec_at. destruct (nth_error v i) as [l | ] eqn:E; [ | apply nth_error_None in E; lia ].
  cbn [bind]. unfold vec_set. replace (i <? length v) with true by (symmetry; apply Nat.ltb_lt; exact H).
  eexists. split; [ reflexivity | ]. split; [ apply length_list_set | ]. intro w. destruct (Nat.eqb_spec w i) as [-> | N].
  - rewrite nth_error_list_set_eq by exact H. rewrite E. reflexivity.
  - apply nth_error_list_set_neq. congruence.
Qed.

Section Vertices.
  Context {P D : Type}.
  Variable m : soup P D.
  Hypothesis V : valid_faces m.

  Definition around (v : nat) (l : list (nat * face)) : list nat :=
    map fst (filter (fun e => properb (snd e) && has_vertexb (snd e) v) l).

  Lemma vf_map_ok : exists vf, vf_map m = Ok vf /\ length vf = num_vertices m /\
    forall v, v < num_vertices m -> nth_error vf v = Some (around v (combine (seq 0 (num_faces m)) (faces m))).
  Proof.
    unfold vf_map.
    rewrite (foldM_faces m (fun vf fi (f : face) => if repeated f then Ok vf else
      let '(a, b, c) := f in
      let* vf := vec_push vf a fi in
      let* vf := vec_push vf b fi in
      vec_push vf c fi)).
    assert (G : forall l vf, (forall e, In e l -> let '(a, b, c) := snd e in a < num_vertices m /\ b < num_vertices m /\ c < num_vertices m) ->
      length vf = num_vertices m ->
      exists vf', foldM (fun vf (e : nat * face) => if repeated (snd e) then Ok vf else
          let '(a, b, c) := snd e in
          let* vf := vec_push vf a (fst e) in
          let* vf := vec_push vf b (fst e) in
          vec_push vf c (fst e)) vf l = Ok vf' /\ length vf' = num_vertices m /\
        forall v, nth_error vf' v = option_map (fun x => x ++ around v l) (nth_error vf v)).
    { induction l as [ | [fi f] l IH]; intros vf Hl Lv; cbn [foldM fst snd].
      - exists vf. split; [ reflexivity | ]. split; [ exact Lv | ]. intro v. destruct (nth_error vf v); cbn; [ rewrite app_nil_r | ]; reflexivity.
      - assert (Hf := Hl _ (or_introl eq_refl)). cbn [snd] in Hf.
        assert (Hl' : forall e, In e l -> let '(a, b, c) := snd e in a < num_vertices m /\ b < num_vertices m /\ c < num_vertices m)
          by (intros e He; apply Hl; right; exact He).
        rewrite repeated_properb. destruct (properb f) eqn:Pf; cbn [negb bind].
        + destruct f as [ [a b] c]. destruct Hf as (Ha & Hb & Hc).
          destruct (vec_push_ok vf a fi ltac:(lia)) as (v1 & -> & L1 & N1). cbn [bind].
          destruct (vec_push_ok v1 b fi ltac:(lia)) as (v2 & -> & L2 & N2). cbn [bind].
          destruct (vec_push_ok v2 c fi ltac:(lia)) as (v3 & -> & L3 & N3). cbn [bind].
          destruct (IH v3 Hl' ltac:(lia)) as (vf' & E & L' & N'). exists vf'. split; [ exact E | ]. split; [ exact L' | ].
          intro v. rewrite N', N3, N2, N1. unfold around. cbn [filter snd]. rewrite Pf. cbn [andb].
          apply properb_iff in Pf. destruct Pf as (D1 & D2 & D3). unfold has_vertexb at 2.
          destruct (nth_error vf v) as [x | ];
            destruct (Nat.eqb_spec v a), (Nat.eqb_spec v b), (Nat.eqb_spec v c); subst; try congruence; cbn [orb map fst option_map];
              rewrite <- ?app_assoc; reflexivity.
        + destruct (IH vf Hl' Lv) as (vf' & E & L' & N'). exists vf'. split; [ exact E | ]. split; [ exact L' | ].
          intro v. rewrite N'. unfold around. cbn [filter snd]. rewrite Pf. reflexivity. }
    destruct (G (combine (seq 0 (num_faces m)) (faces m)) (repeat [] (num_vertices m)) (valid_in m V) (repeat_length _ _)) as (vf & E & L & N).
    exists vf. split; [ exact E | ]. split; [ exact L | ]. intros v Hv. rewrite N, nth_error_repeat by exact Hv. reflexivity.
  Qed.

  Lemma around_link : forall v, Forall2 (fun fi e => next_vertex m fi v = Ok (fst e) /\ prev_vertex m fi v = Ok (snd e))
    (around v (combine (seq 0 (num_faces m)) (faces m))) (link m v).
  Proof.
    intro v. unfold link.
    assert (G : forall l pre, faces m = pre ++ l -> Forall2 (fun fi e => next_vertex m fi v = Ok (fst e) /\ prev_vertex m fi v = Ok (snd e))
      (around v (combine (seq (length pre) (length l)) l)) (flat_map (opposite_edge v) l)).
    { induction l as [ | f l IH]; intros pre E; [ constructor | ]. cbn [length seq combine flat_map].
      assert (Sf : soup_face m (length pre) = Ok f).
      { unfold soup_face, vec_at. rewrite E, nth_error_app2, Nat.sub_diag by lia. reflexivity. }
      specialize (IH (pre ++ [f])). rewrite app_length in IH. cbn [length] in IH. rewrite Nat.add_1_r in IH.
      specialize (IH ltac:(rewrite <- app_assoc; exact E)). unfold around in *. cbn [filter snd].
      destruct f as [ [a b] c]. unfold opposite_edge at 1. destruct (properb (a, b, c)) eqn:Pf; cbn [negb andb]; [ | exact IH ].
      apply properb_iff in Pf. destruct Pf as (D1 & D2 & D3). unfold has_vertexb at 1.
      destruct (Nat.eqb_spec v a) as [-> | Na]; [ | destruct (Nat.eqb_spec v b) as [-> | Nb]; [ | destruct (Nat.eqb_spec v c) as [-> | Nc] ] ];
        cbn [orb map fst app]; try exact IH; (constructor; [ | exact IH ]);
        unfold next_vertex, prev_vertex; rewrite Sf; cbn [bind fst snd];
        rewrite ?Nat.eqb_refl;
        repeat match goal with |- context [?x =? ?y] => replace (x =? y) with false by (symmetry; apply Nat.eqb_neq; congruence) end; auto. }
    apply (G (faces m) [] eq_refl).
  Qed.
End Vertices.

(** ** Local names *)
Definition named (loc : list (nat * nat)) : Prop := NoDup (map fst loc) /\ map snd loc = seq 0 (length loc).
Lemma eqb_ok : forall a b, Nat.eqb a b = true <-> a = b.
Proof. apply Nat.eqb_eq. Qed.
Lemma emplace_named : forall loc k, named loc -> named (emplace Nat.eqb loc k (length loc)) /\
  forall x, In x (map fst (emplace Nat.eqb loc k (length loc))) <-> x = k \/ In x (map fst loc).
Proof.
  intros loc k [D S]. unfold emplace. destruct (assoc_find Nat.eqb k loc) as [i | ] eqn:E.
  - split; [ split; assumption | ]. intro x. split; [ auto | ]. intros [-> | I]; [ | exact I ].
    apply (assoc_find_some Nat.eqb eqb_ok) in E. apply (in_map fst) in E. exact E.
  - assert (N : ~ In k (map fst loc)).
    { intro I. apply in_map_iff in I. destruct I as ([k' i] & Ek & I). cbn in Ek. subst k'.
      exact (assoc_find_none Nat.eqb eqb_ok _ _ i E I). }
    split; [ split | ].
    + rewrite map_app. cbn [map fst]. apply (Permutation_NoDup (Permutation_cons_append _ _)). constructor; assumption.
    + rewrite map_app, app_length, S, seq_app. reflexivity.
    + intro x. rewrite map_app, in_app_iff. cbn [map fst In]. intuition.
Qed.

Section Local.
  Context {P D : Type}.
  Variable m : soup P D.
  Variable v : nat.
  Definition around_edge (fi : nat) (e : nat * nat) : Prop := next_vertex m fi v = Ok (fst e) /\ prev_vertex m fi v = Ok (snd e).

  Lemma local_vertices_ok : forall fis E, Forall2 around_edge fis E ->
    exists loc, local_vertices m v fis = Ok loc /\ named loc /\
      forall x, In x (map fst loc) <-> exists e, In e E /\ (x = fst e \/ x = snd e).
  Proof.
    intros fis E F. unfold local_vertices.
    assert (G : forall loc0, named loc0 -> exists loc,
      foldM (fun loc fi =>
        let* n := next_vertex m fi v in
        let loc := emplace Nat.eqb loc n (length loc) in
        let* p := prev_vertex m fi v in
        Ok (emplace Nat.eqb loc p (length loc))) loc0 fis = Ok loc /\ named loc /\
      forall x, In x (map fst loc) <-> In x (map fst loc0) \/ exists e, In e E /\ (x = fst e \/ x = snd e)).
    { induction F as [ | fi e fis E [Hn Hp] F IH]; intros loc0 N0; cbn [foldM].
      - exists loc0. split; [ reflexivity | ]. split; [ exact N0 | ]. intro x. split; [ auto | ]. intros [H | (e & [ ] & _)]. exact H.
      - rewrite Hn. cbn [bind]. rewrite Hp. cbn [bind].
        destruct (emplace_named loc0 (fst e) N0) as [N1 I1].
        destruct (emplace_named (emplace Nat.eqb loc0 (fst e) (length loc0)) (snd e) N1) as [N2 I2].
        destruct (IH _ N2) as (loc & El & Nl & Il). exists loc. split; [ exact El | ]. split; [ exact Nl | ].
        intro x. rewrite Il, I2, I1. split.
        + intros [ [-> | [-> | H] ] | (e' & I & H)]; [ right | right | auto | right ].
          * exists e. cbn. auto.
          * exists e. cbn. auto.
          * exists e'. cbn. auto.
        + intros [H | (e' & [-> | I] & H)]; [ auto | | right; eauto ]. destruct H as [-> | ->]; auto. }
    destruct (G [] (conj (NoDup_nil _) eq_refl)) as (loc & El & Nl & Il). exists loc. split; [ exact El | ]. split; [ exact Nl | ].
    intro x. rewrite Il. cbn. split; [ intros [ [ ] | H]; exact H | auto ].
  Qed.

  Definition index (loc : list (nat * nat)) (x : nat) : nat := match assoc_find Nat.eqb x loc with Some i => i | None => 0 end.
  Definition name (loc : list (nat * nat)) (i : nat) : nat := nth i (map fst loc) 0.
  Lemma index_ok : forall loc x, named loc -> In x (map fst loc) ->
    map_at loc x = Ok (index loc x) /\ index loc x < length loc /\ name loc (index loc x) = x.
  Proof.
    intros loc x [Dl S] I. unfold map_at, index. destruct (assoc_find Nat.eqb x loc) as [i | ] eqn:E.
    - split; [ reflexivity | ]. apply (assoc_find_some Nat.eqb eqb_ok) in E. apply In_nth_error in E. destruct E as [k E].
      assert (L : k < length loc) by (apply nth_error_Some; congruence).
      assert (Ei : i = k).
      { assert (X : nth_error (map snd loc) k = Some i) by (apply (map_nth_error snd) in E; exact E).
        rewrite S, nth_error_seq in X by exact L. injection X as <-. reflexivity. }
      subst k. split; [ exact L | ]. unfold name. apply nth_error_nth. apply (map_nth_error fst) in E. exact E.
    - exfalso. apply in_map_iff in I. destruct I as ([x' i] & Ex & I). cbn in Ex. subst x'.
      exact (assoc_find_none Nat.eqb eqb_ok _ _ i E I).
  Qed.
  Lemma name_ok : forall loc i, named loc -> i < length loc -> In (name loc i) (map fst loc) /\ index loc (name loc i) = i.
  Proof.
    intros loc i N L. assert (I : In (name loc i) (map fst loc)) by (apply nth_In; rewrite map_length; exact L).
    split; [ exact I | ]. destruct (index_ok loc (name loc i) N I) as (_ & L' & E). unfold name in E.
    apply (NoDup_nth (map fst loc) 0) in E; [ exact E | apply N | rewrite map_length; exact L' | rewrite map_length; exact L ].
  Qed.

  Lemma local_graph_ok : forall fis E loc, Forall2 around_edge fis E -> named loc ->
    (forall e, In e E -> In (fst e) (map fst loc) /\ In (snd e) (map fst loc)) ->
    local_graph m v fis loc = add_edges (new_graph (length loc)) (map (rename (index loc)) E).
  Proof.
    intros fis E loc F N. unfold local_graph, add_edges. generalize (new_graph (length loc)).
    induction F as [ | fi e fis E [Hn Hp] F IH]; intros g H; [ reflexivity | ]. cbn [foldM map].
    destruct (H e (or_introl eq_refl)) as [H1 H2].
    rewrite Hn. cbn [bind]. rewrite (proj1 (index_ok loc _ N H1)). cbn [bind]. rewrite Hp. cbn [bind].
    rewrite (proj1 (index_ok loc _ N H2)). cbn [bind rename fst snd].
    destruct (add_edge g (index loc (fst e)) (index loc (snd e))) as [g' | | ]; cbn [bind]; [ | reflexivity | reflexivity ].
    apply IH. intros e' I. apply H. right. exact I.
  Qed.
End Local.

Lemma connected_linked : forall n es, edges_below n es -> (forall i, i < n -> support es i) -> (connected n es <-> linked es).
Proof.
  intros n es E S. assert (B : forall x, support es x -> x < n).
  { intros x (y & A). unfold edges_below in E. rewrite Forall_forall in E. destruct A as [A | A]; apply E in A; cbn in A; lia. }
  split.
  - intros C x y Hx Hy. apply C; apply B; assumption.
  - intros L i j Hi Hj. apply L; apply S; assumption.
Qed.

Section Report.
  Context {P D : Type}.
  Variable m : soup P D.
  Hypothesis V : valid_faces m.
  Hypothesis Small : (N.of_nat (num_faces m) < 2 ^ 32)%N.

  Lemma link_length : forall v, length (link m v) <= num_faces m.
  Proof.
    intro v. unfold link, num_faces. induction (faces m) as [ | f fs IH]; [ reflexivity | ]. cbn [flat_map length]. rewrite app_length.
    assert (length (opposite_edge v f) <= 1); [ | lia ]. destruct f as [ [a b] c]. unfold opposite_edge.
    destruct (negb (properb (a, b, c))), (v =? a), (v =? b), (v =? c); cbn; lia.
  Qed.

  Lemma vertex_ok : forall vf v, vf_map m = Ok vf -> v < num_vertices m -> exists b, non_manifold_vertex m vf v = Ok b /\
    (b = true <-> link m v <> [] /\ ~ (is_path (link m v) \/ is_cycle (link m v))).
  Proof.
    intros vf v Evf Hv. destruct (vf_map_ok m V) as (vf' & Evf' & Lvf & Nvf). assert (vf' = vf) by congruence. subst vf'.
    unfold non_manifold_vertex, vec_at. rewrite (Nvf v Hv). cbn [bind].
    pose proof (around_link m v) as F. set (E := link m v) in *.
    set (fis := around v (combine (seq 0 (num_faces m)) (faces m))) in *.
    destruct fis as [ | f0 fr] eqn:Efis.
    { inversion F as [HE | ]; subst. exists false. split; [ reflexivity | ]. split; [ discriminate | ]. intros [X _]. congruence. }
    rewrite <- Efis in *. clearbody fis.
    assert (NE : E <> []) by (intro X; rewrite X in F; inversion F; congruence).
    destruct (local_vertices_ok m v fis E F) as (loc & Eloc & Nloc & Iloc).
    assert (Ends : forall e, In e E -> In (fst e) (map fst loc) /\ In (snd e) (map fst loc))
      by (intros e I; split; apply Iloc; exists e; auto).
    replace (match fis with [] => Ok false | _ :: _ =>
        let* loc := local_vertices m v fis in
        let* g := local_graph m v fis loc in
        let* s := is_simple g in
        if negb s then Ok true
        else
          let* c := is_connected g in
          if negb c then Ok true
          else let* d := max_degree g in Ok (2 <? d)%N
      end) with (
        let* loc := local_vertices m v fis in
        let* g := local_graph m v fis loc in
        let* s := is_simple g in
        if negb s then Ok true
        else
          let* c := is_connected g in
          if negb c then Ok true
          else let* d := max_degree g in Ok (2 <? d)%N) by (rewrite Efis; reflexivity).
    rewrite Eloc. cbn [bind]. rewrite (local_graph_ok m v fis E loc F Nloc Ends).
    set (n := length loc). set (E' := map (rename (index loc)) E).
    assert (B : edges_below n E').
    { unfold edges_below, E'. rewrite Forall_forall. intros e' I. apply in_map_iff in I. destruct I as (e & <- & I).
      destruct (Ends e I) as [I1 I2]. split; apply (index_ok loc); assumption. }
    assert (Len : (N.of_nat (length E') < 2 ^ 32)%N).
    { unfold E'. rewrite map_length. pose proof (link_length v) as LL. fold E in LL. lia. }
    destruct (rep_adds E' n (new_graph n) [] (rep_new n) B Len) as (g & Eg & R). rewrite Eg. cbn [bind app] in *.
    assert (Sup : forall i, i < n -> support E' i).
    { intros i Hi. destruct (name_ok loc i Nloc Hi) as [I X]. apply Iloc in I. destruct I as (e & I & Hx).
      assert (I' : In (rename (index loc) e) E') by (apply in_map; exact I). unfold rename in I'.
      destruct Hx as [Hx | Hx]; rewrite <- Hx, X in I'; eexists; [ left | right ]; exact I'. }
    assert (Hn : 0 < n).
    { destruct E as [ | e E0] eqn:EE; [ congruence | ]. destruct (Ends e (or_introl eq_refl)) as [I _].
      destruct loc; [ destruct I | unfold n; cbn; lia ]. }
    destruct (is_simple_ok n g E' R) as (s & Es & Hs). rewrite (simple_iff n E' B) in Hs.
    destruct (is_connected_ok n g E' R B Hn) as (c & Ec & Hc). rewrite (connected_linked n E' B Sup) in Hc.
    pose proof (max_degree_ok n g E' R B Len) as Ed.
    assert (Hd : (2 <? N.of_nat (list_max (map (incident E') (seq 0 n))))%N = false <-> forall x, incident E' x <= 2).
    { rewrite N.ltb_ge. transitivity (list_max (map (incident E') (seq 0 n)) <= 2); [ lia | ].
      rewrite list_max_le, Forall_map, Forall_forall. split.
      - intros H x. destruct (Nat.lt_ge_cases x n) as [L | L]; [ apply H; apply in_seq; lia | ].
        apply Nat.le_trans with 0; [ | lia ]. replace (incident E' x) with 0; [ lia | ]. symmetry. unfold incident.
        assert (X : forall e, In e E' -> (fst e =? x) || (snd e =? x) = false).
        { intros e I. unfold edges_below in B. rewrite Forall_forall in B. apply B in I.
          apply orb_false_iff. split; apply Nat.eqb_neq; lia. }
        clear - X. induction E' as [ | e E0 IH]; [ reflexivity | ]. cbn [filter]. rewrite (X e (or_introl eq_refl)).
        apply IH. intros e' I. apply X. right. exact I.
      - intros H x _. apply H. }
    assert (Kind : (is_path E \/ is_cycle E) <-> s = true /\ c = true /\ forall x, incident E' x <= 2).
    { rewrite Hs, Hc. rewrite <- (path_or_cycle_iff E') by (unfold E'; destruct E; [ congruence | discriminate ]).
      split.
      - intro H. unfold E'. apply kind_rename; [ exact NE | | exact H ].
        intros x y Hx Hy Exy.
        assert (Kx : forall x, support E x -> In x (map fst loc)).
        { intros z (w & [A | A]); [ exact (proj1 (Ends _ A)) | exact (proj2 (Ends _ A)) ]. }
        destruct (index_ok loc x Nloc (Kx x Hx)) as (_ & _ & X1). destruct (index_ok loc y Nloc (Kx y Hy)) as (_ & _ & X2). congruence.
      - intro H. assert (Back : map (rename (name loc)) E' = E).
        { unfold E'. rewrite map_map. rewrite <- (map_id E) at 2. apply map_ext_in. intros e I. destruct (Ends e I) as [I1 I2].
          unfold rename. cbn [fst snd]. destruct (index_ok loc _ Nloc I1) as (_ & _ & ->). destruct (index_ok loc _ Nloc I2) as (_ & _ & ->).
          destruct e; reflexivity. }
        rewrite <- Back. apply kind_rename; [ unfold E'; destruct E; [ congruence | discriminate ] | | exact H ].
        intros x y Hx Hy Exy.
        assert (Kx : forall x, support E' x -> x < n).
        { intros z (w & A). unfold edges_below in B. rewrite Forall_forall in B. destruct A as [A | A]; apply B in A; cbn in A; lia. }
        destruct (name_ok loc x Nloc (Kx x Hx)) as [_ X1]. destruct (name_ok loc y Nloc (Kx y Hy)) as [_ X2]. congruence. }
    rewrite Es. cbn [bind]. destruct s; cbn [negb].
    - rewrite Ec. cbn [bind]. destruct c; cbn [negb].
      + rewrite Ed. cbn [bind]. eexists. split; [ reflexivity | ]. rewrite Kind, <- Hd.
        destruct ((2 <? N.of_nat (list_max (map (incident E') (seq 0 n))))%N); split; intro H; try discriminate; auto.
        * split; [ exact NE | ]. intros (_ & _ & X). discriminate.
        * exfalso. apply (proj2 H). auto.
      + exists true. split; [ reflexivity | ]. split; [ intros _; split; [ exact NE | ] | auto ]. rewrite Kind. intros (_ & X & _). discriminate.
    - exists true. split; [ reflexivity | ]. split; [ intros _; split; [ exact NE | ] | auto ]. rewrite Kind. intros (X & _). discriminate.
  Qed.

  Lemma non_manifold_vertices_ok : exists vis, non_manifold_vertices m = Ok vis /\ NoDup vis /\
    forall v, In v vis <-> v < num_vertices m /\ link m v <> [] /\ ~ (is_path (link m v) \/ is_cycle (link m v)).
  Proof.
    unfold non_manifold_vertices. destruct (vf_map_ok m V) as (vf & Evf & _ & _). rewrite Evf. cbn [bind].
    set (h := fun v => match non_manifold_vertex m vf v with Ok b => b | _ => false end).
    rewrite (foldM_select _ h).
    - cbn [app]. eexists. split; [ reflexivity | ]. split; [ apply NoDup_filter; apply seq_NoDup | ].
      intro v. rewrite filter_In, in_seq. unfold h. split.
      + intros [L H]. split; [ lia | ]. destruct (vertex_ok vf v Evf ltac:(lia)) as (b & Eb & Hb). rewrite Eb in H. apply Hb. exact H.
      + intros [L H]. split; [ lia | ]. destruct (vertex_ok vf v Evf L) as (b & Eb & Hb). rewrite Eb. apply Hb. exact H.
    - intros v acc I. apply in_seq in I. destruct (vertex_ok vf v Evf ltac:(lia)) as (b & Eb & _). unfold h. rewrite Eb. cbn [bind].
      destruct b; reflexivity.
  Qed.
End Report.
