(** * One execution, as a function

    [one_corefine] performs the steps of the constructor of Corefine (Model_corefine.v) and
    [one_mix] those of mix (Model_mix.v) one after the other, with a single thread, and
    [one_mix_ok] shows that this is one of the executions of the model.  With it the outcome
    of the model on given meshes can be computed. *)
From Coq Require Import List Arith NArith Bool Lia Permutation Sorted.
From Verif Require Import Model_base Proof_base Model_geometry Model_soup Model_mesh Model_points Model_aabb Model_parallel_do Model_forkjoin Model_classify Model_local Model_candidates Model_corefine Model_region Model_side Model_mix.
From Verif Require Import Proof_candidates.
Import ListNotations.
Local Open Scope nat_scope.

(** ** Threads one after the other *)
Section Exec.
  Context {action state : Type} (act : action -> state -> state).
  Fixpoint exec (c : cmd action) (s : state) : state :=
    match c with
    | CSkip => s
    | CAct a => act a s
    | CSeq c1 c2 | CPar c1 c2 => exec c2 (exec c1 s)
    end.

  Lemma steps_trans : forall x y z, Model_forkjoin.steps act x y -> Model_forkjoin.steps act y z -> Model_forkjoin.steps act x z.
  Proof. intros x y z H G. induction H as [ | x y w S _ IH]; [ exact G | ]. eapply steps_cons; [ exact S | exact (IH G) ]. Qed.
  Lemma steps_lift : forall (K : cmd action -> cmd action), (forall c s c' s', Model_forkjoin.step act (c, s) (c', s') -> Model_forkjoin.step act (K c, s) (K c', s')) ->
    forall c s c' s', Model_forkjoin.steps act (c, s) (c', s') -> Model_forkjoin.steps act (K c, s) (K c', s').
  Proof.
    intros K HK. assert (G : forall x y, Model_forkjoin.steps act x y -> Model_forkjoin.steps act (K (fst x), snd x) (K (fst y), snd y)); [ | intros c s c' s' H; exact (G _ _ H) ].
    intros x y H. induction H as [x | [c s] [c1 s1] z S _ IH]; [ apply steps_refl | ]. eapply steps_cons; [ apply HK; exact S | exact IH ].
  Qed.
  Lemma exec_steps : forall c s, Model_forkjoin.steps act (c, s) (CSkip, exec c s).
  Proof.
    induction c as [ | a | c1 IH1 c2 IH2 | c1 IH1 c2 IH2]; intro s; cbn [exec].
    - apply steps_refl.
    - eapply steps_cons; [ apply step_act | apply steps_refl ].
    - eapply steps_trans; [ exact (steps_lift (fun c => CSeq c c2) (fun _ _ _ _ => step_seq _ _ _ _ _ _ _ _) _ _ _ _ (IH1 s)) | ].
      eapply steps_cons; [ apply step_next | apply IH2 ].
    - eapply steps_trans; [ exact (steps_lift (fun c => CPar c c2) (fun _ _ _ _ => step_left _ _ _ _ _ _ _ _) _ _ _ _ (IH1 s)) | ].
      eapply steps_trans; [ exact (steps_lift (fun c => CPar CSkip c) (fun _ _ _ _ => step_right _ _ _ _ _ _ _ _) _ _ _ _ (IH2 _)) | ].
      eapply steps_cons; [ apply step_join | apply steps_refl ].
  Qed.
End Exec.

(** ** A loop of one thread *)
Definition loop {A T} (body : A -> res (list T)) (l : list A) : res (list T) :=
  let* ls := mapM body l in Ok (concat ls).
Lemma seq_bodies_ok : forall {A T} (f : A -> res (list T)) l ls, mapM f l = Ok ls -> forall i s, exists tr, seq_bodies (to_body f) i l s = (tr, inl (s ++ concat ls)).
Proof.
  intros A T f l. induction l as [ | a l IH]; cbn [mapM]; intros ls H i s.
  - injection H as <-. exists []. cbn. rewrite app_nil_r. reflexivity.
  - destruct (f a) as [x | | ] eqn:E; cbn [bind] in H; [ | discriminate .. ]. destruct (mapM f l) as [xs | | ] eqn:E'; cbn [bind] in H; [ | discriminate .. ]. injection H as <-.
    cbn [seq_bodies]. unfold to_body at 1. rewrite E. destruct (IH _ eq_refl (i + 1) (s ++ x)) as (tr & ->). eexists. cbn [concat]. rewrite app_assoc. reflexivity.
Qed.
Lemma loop_ok : forall {A T} (f : A -> res (list T)) l out, loop f l = Ok out -> exists tr, parallel_do (to_body f) append_post l true 1 [] [] tr out None.
Proof.
  intros A T f l out H. unfold loop in H. destruct (mapM f l) as [ls | | ] eqn:E; cbn [bind] in H; [ | discriminate .. ]. injection H as <-.
  destruct l as [ | a l].
  - cbn in E. injection E as <-. exists []. apply pd_empty. reflexivity.
  - destruct (seq_bodies_ok f (a :: l) ls E 0 []) as (tr & S). eexists. apply pd_single; [ discriminate | cbn; lia | ].
    unfold seq_do. rewrite S. cbn [append_post app]. reflexivity.
Qed.
Lemma mapM_all : forall {A T} (f : A -> res T) l ls, mapM f l = Ok ls -> Forall2 (fun a t => f a = Ok t) l ls.
Proof.
  intros A T f l. induction l as [ | a l IH]; cbn [mapM]; intros ls H.
  - injection H as <-. constructor.
  - destruct (f a) as [x | | ] eqn:E; cbn [bind] in H; [ | discriminate .. ]. destruct (mapM f l) as [xs | | ]; cbn [bind] in H; [ | discriminate .. ]. injection H as <-. constructor; auto.
Qed.

(** ** Sorting *)
Fixpoint insert (key : info -> nat) (i : info) (l : list info) : list info :=
  match l with
  | [] => [i]
  | j :: r => if key i <=? key j then i :: l else j :: insert key i r
  end.
Definition in_order (key : info -> nat) (l : list info) : list info := fold_right (insert key) [] l.
Lemma in_order_ok : forall key l, Model_corefine.sorts key l (in_order key l).
Proof.
  intros key l. induction l as [ | i l (Pm & So)]; [ split; constructor | ]. cbn [in_order fold_right]. fold (in_order key l).
  assert (G : forall l', StronglySorted (fun i j => key i <= key j) l' -> Permutation (i :: l') (insert key i l') /\ StronglySorted (fun i j => key i <= key j) (insert key i l')).
  { clear. intros l' So. induction So as [ | j l' So (Pm & So') Hj]; cbn [insert]; [ split; repeat constructor | ]. destruct (Nat.leb_spec (key i) (key j)) as [H | H].
    - split; [ apply Permutation_refl | ]. constructor; [ constructor; assumption | ]. constructor; [ exact H | ]. rewrite Forall_forall in *. intros x J. specialize (Hj x J). cbn in *. lia.
    - split; [ eapply perm_trans; [ apply perm_swap | constructor; exact Pm ] | ]. constructor; [ exact So' | ]. apply (Permutation_Forall Pm). constructor; [ lia | exact Hj ]. }
  destruct (G _ So) as (P2 & S2). split; [ | exact S2 ]. eapply perm_trans; [ constructor; exact Pm | exact P2 ].
Qed.

Section Run.
  Context {P D : Type}.
  Variable P_eqb : P -> P -> bool.
  Variable coords : P -> vec3.
  Variable pbox : P -> box.
  Variable longest_axis : option box -> nat.
  Variable sort_by : nat -> list (box * nat) -> list (box * nat).
  Variable nth_element_by : nat -> nat -> list (box * nat) -> list (box * nat).
  Variable construct_ll : P -> P -> P -> P -> P.
  Variable construct_pl : P -> P -> P -> P -> P -> P.
  Variable cdt_accepts : triangulation P -> nat -> nat -> bool.
  Variable cdt_faces : triangulation P -> list (nat * nat * nat).
  Variables base1 base2 : vec3 -> vec3.
  Variable sort_around : list Model_local.around -> list Model_local.around.
  Variable centroid : P -> P -> P -> P.
  Variable side_of : soup P D -> P -> res oriented_side.

  Definition one_coplanar (a b : soup P D) (a_pts b_pts : list nat) : res (list face_tag * list face_tag) :=
    let* tab := key_table a a_pts in
    let* bodies := mapM (coplanar_body tab b b_pts) (seq 0 (num_faces b)) in
    Ok (fold_left do_write (concat bodies) (repeat UNKNOWN (num_faces a), repeat UNKNOWN (num_faces b))).
  Definition one_tags (left right : soup P D) (lp rp : list nat) : res (list face_tag * list face_tag) :=
    if num_faces left <? num_faces right then one_coplanar left right lp rp
    else let* (ta, tb) := one_coplanar right left rp lp in Ok (tb, ta).
  Lemma one_coplanar_ok : forall a b ap bp ts, one_coplanar a b ap bp = Ok ts -> coplanar_ab a b ap bp ts.
  Proof.
    intros a b ap bp ts H. unfold one_coplanar in H. destruct (key_table a ap) as [tab | | ] eqn:Et; cbn [bind] in H; [ | discriminate .. ].
    destruct (mapM _ _) as [bodies | | ] eqn:Eb in H; cbn [bind] in H; [ | discriminate .. ]. injection H as <-.
    apply (cab a b ap bp tab bodies (concat bodies) Et (mapM_all _ _ _ Eb)). apply interleave_exists.
  Qed.
  Lemma one_tags_ok : forall left right lp rp lt rt, one_tags left right lp rp = Ok (lt, rt) -> find_coplanar_faces left right lp rp lt rt.
  Proof.
    intros left right lp rp lt rt H. unfold one_tags in H. destruct (Nat.ltb_spec (num_faces left) (num_faces right)) as [L | L].
    - apply fcf_left; [ exact L | ]. apply one_coplanar_ok. exact H.
    - destruct (one_coplanar right left rp lp) as [ [ta tb] | | ] eqn:E; cbn [bind] in H; [ | discriminate .. ]. injection H as <- <-. apply fcf_right; [ lia | ]. apply one_coplanar_ok. exact E.
  Qed.

  Definition one_tree (m : soup P D) : res (tree (box * nat)) :=
    let* ls := soup_leaves pbox m in
    Ok (exec (act (@fst box nat) longest_axis sort_by nth_element_by) (tree_program 0 ls) (tree_init ls)).
  Definition one_pairs (left right : soup P D) (l_tags r_tags : list face_tag) : res (list (nat * nat)) :=
    let left_is_a := num_faces left <? num_faces right in
    let a := if left_is_a then left else right in
    let b := if left_is_a then right else left in
    let a_tags := if left_is_a then l_tags else r_tags in
    let b_tags := if left_is_a then r_tags else l_tags in
    let* t := one_tree a in
    loop (pairs_body pbox left_is_a b a_tags b_tags t) (seq 0 (num_faces b)).
  Lemma one_pairs_ok : forall left right lt rt pairs, one_pairs left right lt rt = Ok pairs ->
    find_pairs pbox longest_axis sort_by nth_element_by 1 left right lt rt pairs None.
  Proof.
    intros left right lt rt pairs H. unfold one_pairs in H.
    destruct (one_tree (if num_faces left <? num_faces right then left else right)) as [t | | ] eqn:Et; cbn [bind] in H; [ | discriminate .. ].
    destruct (loop_ok _ _ _ H) as (tr & Hp). apply (fp_intro pbox longest_axis sort_by nth_element_by 1 left right lt rt t tr pairs None); [ | exact Hp ].
    unfold one_tree in Et. destruct (soup_leaves pbox _) as [ls | | ] eqn:El in Et; cbn [bind] in Et; [ | discriminate .. ]. injection Et as <-.
    exact (aabb_tree_intro pbox longest_axis sort_by nth_element_by _ 0 ls _ El (exec_steps _ _ _)).
  Qed.

  Definition one_corefine (left right : soup P D) : res (corefined P) :=
    let '(pl, lids, rids) := start_points P_eqb left right in
    let* (ltags, rtags) := one_tags left right lids rids in
    let* pairs := one_pairs left right ltags rtags in
    let* infos0 := loop (pair_body coords (pl_points pl) left right lids rids) pairs in
    let* (pl', infos1) := insert_infos P_eqb construct_ll construct_pl pl left right lids rids infos0 in
    let infos2 := in_order i_left infos1 in
    let* ltris := mapM (triangulate P_eqb cdt_accepts LEFT_FACE i_left (pl_points pl') left lids) (ranges (length infos2) i_left infos2) in
    let infos3 := in_order i_right infos2 in
    let* rtris := mapM (triangulate P_eqb cdt_accepts RIGHT_FACE i_right (pl_points pl') right rids) (ranges (length infos3) i_right infos3) in
    Ok (mk_corefined (pl_points pl') lids rids ltags rtags infos3 ltris rtris).
  Theorem one_corefine_ok : forall left right cf, one_corefine left right = Ok cf ->
    corefine P_eqb coords pbox longest_axis sort_by nth_element_by construct_ll construct_pl cdt_accepts 1 left right (Ok cf).
  Proof.
    intros left right cf H. unfold one_corefine in H. destruct (start_points P_eqb left right) as [ [pl lids] rids] eqn:Es.
    destruct (one_tags left right lids rids) as [ [lt rt] | | ] eqn:Et; cbn [bind] in H; [ | discriminate .. ].
    destruct (one_pairs left right lt rt) as [pairs | | ] eqn:Ep; cbn [bind] in H; [ | discriminate .. ].
    destruct (loop _ pairs) as [infos0 | | ] eqn:Ei in H; cbn [bind] in H; [ | discriminate .. ].
    destruct (insert_infos _ _ _ _ _ _ _ _ infos0) as [ [pl' infos1] | | ] eqn:En in H; cbn [bind] in H; [ | discriminate .. ].
    destruct (mapM (triangulate P_eqb cdt_accepts LEFT_FACE i_left (pl_points pl') left lids) _) as [ltris | | ] eqn:El in H; cbn [bind] in H; [ | discriminate .. ].
    destruct (mapM (triangulate P_eqb cdt_accepts RIGHT_FACE i_right (pl_points pl') right rids) _) as [rtris | | ] eqn:Er in H; cbn [bind] in H; [ | discriminate .. ].
    injection H as <-. destruct (loop_ok _ _ _ Ei) as (tr & Hi).
    eapply corefine_ok; [ exact Es | apply one_tags_ok; exact Et | apply one_pairs_ok; exact Ep | exact Hi | exact En | apply in_order_ok | apply fr_ok, mapM_all; exact El | apply in_order_ok | apply fr_ok, mapM_all; exact Er ].
  Qed.

  (** What classification starts from. *)
  Definition one_start (left right : soup P D) : res (mesh P (mixed_data D) * list edge) :=
    let* cf := one_corefine left right in
    let* m := mixed_mesh cdt_faces cf left right in
    let* border := get_intersecting_edges cf in
    Ok (m, border).
  Theorem one_mix_ok : forall left right m border order order' m' w, one_start left right = Ok (m, border) ->
    set_elements border order -> (forall l, Permutation l (order' l)) ->
    classified coords base1 base2 sort_around centroid side_of border left right m order order' = Ok (m', w) ->
    mixes P_eqb coords pbox longest_axis sort_by nth_element_by construct_ll construct_pl cdt_accepts cdt_faces
      base1 base2 sort_around centroid side_of 1 left right (Ok (take_soup m', w)).
  Proof.
    intros left right m border order order' m' w H So Po Cl. unfold one_start in H.
    destruct (one_corefine left right) as [cf | | ] eqn:Ec; cbn [bind] in H; [ | discriminate .. ].
    destruct (mixed_mesh cdt_faces cf left right) as [m0 | | ] eqn:Em; cbn [bind] in H; [ | discriminate .. ].
    destruct (get_intersecting_edges cf) as [b0 | | ] eqn:Eb; cbn [bind] in H; [ | discriminate .. ]. injection H as <- <-.
    eapply mixes_ok; [ apply one_corefine_ok; exact Ec | exact Em | exact Eb | exact So | exact Po | exact Cl ].
  Qed.
End Run.
