(** * Proofs about Find_coplanar_faces *)
From Coq Require Import List Arith Bool Lia Permutation.
From Verif Require Import Model_base Proof_base Model_soup Model_points Proof_points Model_interleave.
From Verif Require Import Model_candidates Spec_candidates Proof_parallel_sort.
Import ListNotations.
Local Open Scope nat_scope.

(** ** Interleavings *)
Lemma concat_list_set : forall {W} (ls : list (list W)) i w r,
  nth_error ls i = Some (w :: r) ->
  Permutation (concat ls) (w :: concat (list_set ls i r)).
Proof.
  intros W. induction ls as [ | l ls IH]; intros [ | i] w r H; cbn in *; try discriminate.
  - injection H as ->. apply Permutation_refl.
  - specialize (IH _ _ _ H). eapply Permutation_trans; [ apply Permutation_app_head; exact IH | ].
    apply Permutation_sym, Permutation_middle.
Qed.

Lemma interleave_perm : forall {W} (ls : list (list W)) tr, interleave ls tr -> Permutation tr (concat ls).
Proof.
  intros W ls tr H. induction H as [ls H | ls i w r tr E H IH].
  - replace (concat ls) with (@nil W); [ apply Permutation_refl | ].
    induction H; cbn; auto. subst x. exact IHForall.
  - eapply Permutation_trans; [ apply perm_skip; exact IH | ].
    apply Permutation_sym, concat_list_set. exact E.
Qed.

Lemma interleave_exists : forall {W} (ls : list (list W)), interleave ls (concat ls).
Proof.
  intros W ls.
  enough (H : forall pre, Forall (fun l => l = []) pre -> interleave (pre ++ ls) (concat ls))
    by exact (H [] (Forall_nil _)).
  induction ls as [ | l ls IH]; intros pre Hp; cbn [concat].
  - rewrite app_nil_r. apply il_done. exact Hp.
  - revert pre Hp. induction l as [ | w l IHl]; intros pre Hp; cbn [app].
    + specialize (IH (pre ++ [[]])). rewrite <- app_assoc in IH. apply IH.
      apply Forall_app. auto.
    + apply il_next with (i := length pre) (r := l).
      * rewrite nth_error_app2, Nat.sub_diag by lia. reflexivity.
      * replace (list_set (pre ++ (w :: l) :: ls) (length pre) l) with (pre ++ l :: ls).
        -- apply IHl. exact Hp.
        -- clear. induction pre; cbn; [ reflexivity | f_equal; assumption ].
Qed.

(** ** Cycles *)
Ltac cyc := repeat match goal with
  | t : nat * nat * nat |- _ => destruct t as [ [? ?] ?]
  | H : _ /\ _ |- _ => destruct H
  | H : _ \/ _ |- _ => destruct H
  | H : (_, _, _) = (_, _, _) |- _ => injection H as ? ? ?
  end.

Lemma same_cycle_refl : forall t, same_cycle t t.
Proof. intros [ [x y] z]. cbn. auto. Qed.
Lemma same_cycle_sym : forall t u, same_cycle t u -> same_cycle u t.
Proof. intros t u H. unfold same_cycle in *. cyc; subst; auto. Qed.
Lemma same_cycle_trans : forall t u v, same_cycle t u -> same_cycle u v -> same_cycle t v.
Proof. intros t u v H H'. unfold same_cycle in *. cyc; subst; auto. Qed.
Lemma opposite_cycle_sym : forall t u, opposite_cycle t u -> opposite_cycle u t.
Proof. intros t u H. unfold opposite_cycle, same_cycle in *. cyc; subst; auto. Qed.
Lemma opposite_same : forall t u v, opposite_cycle t u -> same_cycle u v -> opposite_cycle t v.
Proof. intros t u v H H'. unfold opposite_cycle, same_cycle in *. cyc; subst; auto. Qed.
Lemma same_opposite : forall t u v, same_cycle t u -> opposite_cycle u v -> opposite_cycle t v.
Proof. intros t u v H H'. unfold opposite_cycle, same_cycle in *. cyc; subst; auto. Qed.
Lemma opposite_opposite : forall t u v, opposite_cycle t u -> opposite_cycle u v -> same_cycle t v.
Proof. intros t u v H H'. unfold opposite_cycle, same_cycle in *. cyc; subst; auto. Qed.
Lemma not_self_opposite : forall t u, distinct3 t -> same_cycle t u -> opposite_cycle t u -> False.
Proof.
  intros t u D H H'. unfold distinct3, opposite_cycle, same_cycle in *. cyc; subst; congruence.
Qed.

Lemma rotate_min_same : forall t u, distinct3 t -> distinct3 u ->
  (rotate_min t = rotate_min u <-> same_cycle t u).
Proof.
  intros [ [x y] z] [ [a b] c] [D1 [D2 D3] ] [E1 [E2 E3] ]. unfold rotate_min, same_cycle.
  destruct (Nat.ltb_spec y x), (Nat.ltb_spec z y), (Nat.ltb_spec z x),
    (Nat.ltb_spec b a), (Nat.ltb_spec c b), (Nat.ltb_spec c a); try lia; split; intro H';
    cyc; subst; try lia; auto; try congruence.
Qed.

Lemma opposite_rotate_min : forall x y z, distinct3 (x, y, z) ->
  opposite (rotate_min (x, y, z)) = rotate_min (z, y, x).
Proof.
  intros x y z [D1 [D2 D3] ]. unfold rotate_min.
  destruct (Nat.ltb_spec y x), (Nat.ltb_spec z y), (Nat.ltb_spec z x),
    (Nat.ltb_spec y z), (Nat.ltb_spec x y), (Nat.ltb_spec x z); try lia; reflexivity.
Qed.

Lemma rotate_min_opposite : forall t u, distinct3 t -> distinct3 u ->
  (rotate_min t = opposite (rotate_min u) <-> opposite_cycle t u).
Proof.
  intros t [ [x y] z] D E. rewrite opposite_rotate_min by exact E.
  assert (E' : distinct3 (z, y, x)) by (cbn in *; intuition congruence).
  rewrite rotate_min_same by assumption. destruct t as [ [a b] c].
  unfold opposite_cycle, same_cycle. split; intro H; cyc; subst; auto.
Qed.

Lemma triple_eqb_ok : forall a b, triple_eqb a b = true <-> a = b.
Proof.
  intros [ [a1 a2] a3] [ [b1 b2] b3]. unfold triple_eqb.
  rewrite !andb_true_iff, !Nat.eqb_eq. split; [ intros [ [-> ->] ->]; auto | intro H; injection H; auto ].
Qed.

(** ** Keys *)
Lemma face_points_key : forall {P D} (m : soup P D) pts fi t,
  face_points m pts fi t -> triangle_key m fi pts = Ok (rotate_min t).
Proof.
  intros P D m pts fi t (v0 & v1 & v2 & p0 & p1 & p2 & Hf & H0 & H1 & H2 & ->).
  unfold triangle_key, soup_face, vec_at. rewrite Hf. cbn [bind]. rewrite H0, H1, H2. reflexivity.
Qed.

Lemma face_points_fun : forall {P D} (m : soup P D) pts fi t u,
  face_points m pts fi t -> face_points m pts fi u -> t = u.
Proof.
  intros P D m pts fi t u (v0 & v1 & v2 & p0 & p1 & p2 & Hf & H0 & H1 & H2 & ->)
    (v0' & v1' & v2' & p0' & p1' & p2' & Hf' & H0' & H1' & H2' & ->). congruence.
Qed.

Lemma face_points_lt : forall {P D} (m : soup P D) pts fi t, face_points m pts fi t -> fi < num_faces m.
Proof.
  intros P D m pts fi t (v0 & v1 & v2 & p0 & p1 & p2 & Hf & _). unfold num_faces.
  apply nth_error_Some. congruence.
Qed.

Lemma clean_distinct : forall {P D} (m : soup P D) pts fi t, clean m pts -> face_points m pts fi t ->
  distinct3 t.
Proof.
  intros P D m pts fi t Hc H. destruct (cl_points _ _ Hc fi) as [u [Hu Du] ].
  - exact (face_points_lt _ _ _ _ H).
  - rewrite (face_points_fun _ _ _ _ _ H Hu). exact Du.
Qed.

Lemma key_table_spec : forall {P D} (m : soup P D) pts, clean m pts ->
  exists tab, key_table m pts = Ok tab /\
    forall k i, assoc_find triple_eqb k tab = Some i <->
      exists t, face_points m pts i t /\ rotate_min t = k.
Proof.
  intros P D m pts Hc. unfold key_table.
  assert (H : forall n tab, n <= num_faces m ->
    (forall k i, In (k, i) tab <-> i < num_faces m - n /\ exists t, face_points m pts i t /\ rotate_min t = k) ->
    exists tab', foldM (fun tab fi => let* t := triangle_key m fi pts in Ok (emplace triple_eqb tab t fi))
      tab (seq (num_faces m - n) n) = Ok tab' /\
    (forall k i, In (k, i) tab' <-> exists t, face_points m pts i t /\ rotate_min t = k)).
  { induction n as [ | n IH]; intros tab Hn Hinv.
    - exists tab. split; [ reflexivity | ]. intros k i. rewrite Hinv. split.
      + intros [_ H]. exact H.
      + intros [t [Ht Hk] ]. split; [ pose proof (face_points_lt _ _ _ _ Ht); lia | eauto ].
    - cbn [seq foldM]. set (i0 := num_faces m - S n).
      destruct (cl_points _ _ Hc i0) as [t0 [Ht0 Dt0] ]; [ unfold i0; lia | ].
      rewrite (face_points_key _ _ _ _ Ht0). cbn [bind].
      assert (Hnew : assoc_find triple_eqb (rotate_min t0) tab = None).
      { destruct (assoc_find triple_eqb (rotate_min t0) tab) as [j | ] eqn:E; auto.
        apply (assoc_find_some _ triple_eqb_ok) in E. apply Hinv in E.
        destruct E as [Hj [t [Ht Hk] ] ].
        assert (j = i0).
        { apply (cl_nodup _ _ Hc j i0 t t0 Ht Ht0). left.
          apply rotate_min_same; auto. exact (clean_distinct _ _ _ _ Hc Ht). }
        unfold i0 in *. lia. }
      unfold emplace at 2. rewrite Hnew.
      replace (S i0) with (num_faces m - n) by (unfold i0; lia). apply IH; [ lia | ].
      intros k i. rewrite in_app_iff. cbn [In]. rewrite Hinv. fold i0. split.
      + intros [ [Hi Ht] | [E | [] ] ]; [ split; [ unfold i0 in *; lia | exact Ht ] | ].
        injection E as <- <-. split; [ unfold i0; lia | eauto ].
      + intros [Hi [t [Ht Hk] ] ]. destruct (Nat.eq_dec i i0) as [-> | N].
        * right. left. rewrite (face_points_fun _ _ _ _ _ Ht Ht0) in Hk. congruence.
        * left. split; [ unfold i0 in *; lia | eauto ]. }
  destruct (H (num_faces m) []) as [tab [Hf Hin] ].
  - lia.
  - intros k i. split; [ intros [] | intros [Hi _]; lia ].
  - replace (num_faces m - num_faces m) with 0 in Hf by lia. exists tab. split; [ exact Hf | ].
    intros k i. rewrite <- Hin. split.
    + apply (assoc_find_some _ triple_eqb_ok).
    + intro Hki. destruct (assoc_find triple_eqb k tab) as [j | ] eqn:E.
      * f_equal. apply (assoc_find_some _ triple_eqb_ok) in E. apply Hin in E. apply Hin in Hki.
        destruct E as [t [Ht Ek] ], Hki as [u [Hu Eu] ].
        apply (cl_nodup _ _ Hc j i t u Ht Hu). left.
        apply rotate_min_same; [ exact (clean_distinct _ _ _ _ Hc Ht)
                               | exact (clean_distinct _ _ _ _ Hc Hu) | congruence ].
      * exfalso. exact (assoc_find_none _ triple_eqb_ok _ _ _ E Hki).
Qed.

(** ** The loop body *)
Section Body.
  Context {P D : Type} (a b : soup P D) (ap bp : list nat).
  Hypothesis Ca : clean a ap.
  Hypothesis Cb : clean b bp.

  (** What the body does for a face with points [u]. *)
  Definition body_spec (fi : nat) (u : triple) (ws : list tag_write) : Prop :=
    (exists i t, face_points a ap i t /\ same_cycle t u /\
       ws = [mk_tw true i COPLANAR; mk_tw false fi COPLANAR]) \/
    ((forall i t, face_points a ap i t -> ~ same_cycle t u) /\
     exists i t, face_points a ap i t /\ opposite_cycle t u /\
       ws = [mk_tw true i OPPOSITE; mk_tw false fi OPPOSITE]) \/
    ((forall i t, face_points a ap i t -> ~ same_cycle t u /\ ~ opposite_cycle t u) /\ ws = []).

  Lemma body_ok : forall tab fi u,
    (forall k i, assoc_find triple_eqb k tab = Some i <->
       exists t, face_points a ap i t /\ rotate_min t = k) ->
    face_points b bp fi u ->
    exists ws, coplanar_body tab b bp fi = Ok ws /\ body_spec fi u ws.
  Proof.
    intros tab fi u Htab Hu. assert (Du := clean_distinct _ _ _ _ Cb Hu).
    unfold coplanar_body. rewrite (face_points_key _ _ _ _ Hu). cbn [bind].
    destruct (assoc_find triple_eqb (rotate_min u) tab) as [i | ] eqn:E.
    - eexists. split; [ reflexivity | ]. left. apply Htab in E. destruct E as [t [Ht Hk] ].
      exists i, t. split; [ exact Ht | split; [ | reflexivity ] ].
      apply rotate_min_same; auto. exact (clean_distinct _ _ _ _ Ca Ht).
    - assert (N : forall i t, face_points a ap i t -> ~ same_cycle t u).
      { intros i t Ht Hs. apply rotate_min_same in Hs; auto; [ | exact (clean_distinct _ _ _ _ Ca Ht) ].
        assert (assoc_find triple_eqb (rotate_min u) tab = Some i) by (apply Htab; eauto). congruence. }
      destruct (assoc_find triple_eqb (opposite (rotate_min u)) tab) as [i | ] eqn:E'.
      + eexists. split; [ reflexivity | ]. right. left. split; [ exact N | ].
        apply Htab in E'. destruct E' as [t [Ht Hk] ].
        exists i, t. split; [ exact Ht | split; [ | reflexivity ] ].
        apply rotate_min_opposite; auto. exact (clean_distinct _ _ _ _ Ca Ht).
      + eexists. split; [ reflexivity | ]. right. right. split; [ | reflexivity ].
        intros i t Ht. split; [ exact (N _ _ Ht) | ]. intro Hs.
        apply rotate_min_opposite in Hs; auto; [ | exact (clean_distinct _ _ _ _ Ca Ht) ].
        assert (assoc_find triple_eqb (opposite (rotate_min u)) tab = Some i) by (apply Htab; eauto).
        congruence.
  Qed.

  Lemma bodies_ok : forall tab,
    (forall k i, assoc_find triple_eqb k tab = Some i <->
       exists t, face_points a ap i t /\ rotate_min t = k) ->
    exists bodies,
      Forall2 (fun fi ws => coplanar_body tab b bp fi = Ok ws) (seq 0 (num_faces b)) bodies.
  Proof.
    intros tab Htab.
    assert (H : forall fi, In fi (seq 0 (num_faces b)) -> exists ws, coplanar_body tab b bp fi = Ok ws).
    { intros fi Hi. apply in_seq in Hi. destruct (cl_points _ _ Cb fi) as [u [Hu _] ]; [ lia | ].
      destruct (body_ok tab fi u Htab Hu) as [ws [H _] ]. eauto. }
    induction (seq 0 (num_faces b)) as [ | fi l IH].
    - exists []. constructor.
    - destruct (H fi (or_introl eq_refl)) as [ws Hw]. destruct IH as [bs Hb].
      + intros; apply H; right; assumption.
      + exists (ws :: bs). constructor; assumption.
  Qed.

  (** The value of a cell after some writes. *)
  Definition cell_of (s : list face_tag * list face_tag) (side : bool) (i : nat) : option face_tag :=
    nth_error (if side then fst s else snd s) i.

  Lemma do_write_cell : forall s w side i,
    cell_of (do_write s w) side i =
      if (Bool.eqb (tw_a w) side && (tw_idx w =? i))
      then option_map (fun _ => tw_tag w) (cell_of s side i) else cell_of s side i.
  Proof.
    intros [s1 s2] [wa wi wt] side i. unfold do_write, cell_of. cbn [tw_a tw_idx tw_tag].
    assert (G : forall l : list face_tag, nth_error (list_set l wi wt) i =
      if wi =? i then option_map (fun _ => wt) (nth_error l i) else nth_error l i).
    { intro l. destruct (Nat.eqb_spec wi i) as [<- | N].
      - destruct (nth_error l wi) eqn:E.
        + apply nth_error_list_set_eq. apply nth_error_Some. congruence.
        + cbn. apply nth_error_None. rewrite length_list_set. apply nth_error_None. exact E.
      - apply nth_error_list_set_neq. auto. }
    destruct wa, side; cbn [fst snd Bool.eqb andb]; auto.
  Qed.

  Lemma writes_none : forall tr s side i,
    (forall w, In w tr -> ~ (tw_a w = side /\ tw_idx w = i)) ->
    cell_of (fold_left do_write tr s) side i = cell_of s side i.
  Proof.
    induction tr as [ | w tr IH]; intros s side i H; cbn [fold_left]; auto.
    rewrite IH by (intros; apply H; right; assumption). rewrite do_write_cell.
    destruct (Bool.eqb (tw_a w) side && (tw_idx w =? i)) eqn:E; auto.
    apply andb_true_iff in E. destruct E as [E1 E2]. apply Bool.eqb_prop in E1. apply Nat.eqb_eq in E2.
    exfalso. apply (H w); auto. left. reflexivity.
  Qed.

  Lemma writes_same : forall tr s side i tag,
    cell_of s side i <> None ->
    (forall w, In w tr -> tw_a w = side -> tw_idx w = i -> tw_tag w = tag) ->
    (exists w, In w tr /\ tw_a w = side /\ tw_idx w = i) ->
    cell_of (fold_left do_write tr s) side i = Some tag.
  Proof.
    induction tr as [ | w tr IH]; intros s side i tag Hs H [w0 [Hin Hw0] ]; [ destruct Hin | ].
    cbn [fold_left].
    assert (Hs' : cell_of (do_write s w) side i <> None).
    { rewrite do_write_cell. destruct (Bool.eqb (tw_a w) side && (tw_idx w =? i)); auto.
      destruct (cell_of s side i); [ discriminate | congruence ]. }
    assert (Dec : (exists w, In w tr /\ tw_a w = side /\ tw_idx w = i) \/
                  (forall w, In w tr -> ~ (tw_a w = side /\ tw_idx w = i))).
    { clear. induction tr as [ | x tr IH]; [ right; intros w [] | ].
      destruct IH as [ [w [Hw H] ] | H]; [ left; exists w; split; [ right; auto | auto ] | ].
      destruct (Bool.bool_dec (tw_a x) side), (Nat.eq_dec (tw_idx x) i);
        try (left; exists x; split; [ left; reflexivity | auto ]; fail);
        (right; intros w [<- | Hw]; [ intros [? ?]; contradiction | auto ]). }
    destruct Dec as [Hex | Hno].
    - apply IH; auto. intros; apply H; auto. right. assumption.
    - rewrite writes_none by exact Hno. rewrite do_write_cell.
      destruct Hin as [-> | Hin]; [ | exfalso; exact (Hno w0 Hin Hw0) ].
      destruct Hw0 as [A B]. rewrite <- A, <- B, Bool.eqb_reflx, Nat.eqb_refl. cbn [andb].
      rewrite A, B. destruct (cell_of s side i) eqn:E; [ | congruence ]. cbn. f_equal.
      apply H; auto. left. reflexivity.
  Qed.

  Variable tab : list (triple * nat).
  Hypothesis Htab : forall k i, assoc_find triple_eqb k tab = Some i <->
       exists t, face_points a ap i t /\ rotate_min t = k.
  Variable bodies : list (list tag_write).
  Hypothesis Hbodies :
    Forall2 (fun fi ws => coplanar_body tab b bp fi = Ok ws) (seq 0 (num_faces b)) bodies.

  Lemma body_at : forall fi ws, nth_error bodies fi = Some ws ->
    exists u, face_points b bp fi u /\ body_spec fi u ws.
  Proof.
    intros fi ws H.
    assert (Hb : fi < num_faces b /\ coplanar_body tab b bp fi = Ok ws).
    { assert (G : forall n k l, Forall2 (fun fi ws => coplanar_body tab b bp fi = Ok ws) (seq k n) l ->
        forall i w, nth_error l i = Some w -> i < n /\ coplanar_body tab b bp (k + i) = Ok w).
      { induction n as [ | n IH]; intros k l Hf i w Hi; inversion Hf as [ | x y xs ys Hx Hr]; subst.
        - destruct i; discriminate.
        - destruct i as [ | i]; cbn in Hi.
          + injection Hi as <-. rewrite Nat.add_0_r. split; [ lia | exact Hx ].
          + destruct (IH _ _ Hr _ _ Hi) as [A B]. split; [ lia | ].
            replace (k + S i) with (S k + i) by lia. exact B. }
      exact (G _ _ _ Hbodies fi ws H). }
    destruct Hb as [Hlt Hb]. destruct (cl_points _ _ Cb fi Hlt) as [u [Hu _] ].
    exists u. split; [ exact Hu | ]. destruct (body_ok tab fi u Htab Hu) as [ws' [E S] ].
    rewrite Hb in E. injection E as <-. exact S.
  Qed.

  Lemma body_exists : forall fi, fi < num_faces b -> exists ws, nth_error bodies fi = Some ws.
  Proof.
    intros fi H. destruct (nth_error bodies fi) eqn:E; eauto. apply nth_error_None in E.
    rewrite <- (Forall2_len _ _ _ _ _ Hbodies), seq_length in E. lia.
  Qed.

  (** A write and where it comes from. *)
  Lemma write_origin : forall w, In w (concat bodies) ->
    exists fi u i t, face_points b bp fi u /\ face_points a ap i t /\
      (w = mk_tw true i (tw_tag w) \/ w = mk_tw false fi (tw_tag w)) /\
      ((tw_tag w = COPLANAR /\ same_cycle t u) \/
       (tw_tag w = OPPOSITE /\ opposite_cycle t u /\ forall i t, face_points a ap i t -> ~ same_cycle t u)).
  Proof.
    intros w Hw. apply in_concat in Hw. destruct Hw as [ws [Hws Hw] ].
    apply In_nth_error in Hws. destruct Hws as [fi Hfi].
    destruct (body_at _ _ Hfi) as [u [Hu [ [i [t [Ht [Hs ->] ] ] ] | [ [N [i [t [Ht [Hs ->] ] ] ] ] | [N ->] ] ] ] ].
    - exists fi, u, i, t. repeat (split; [ assumption | ]).
      destruct Hw as [<- | [<- | [] ] ]; cbn [tw_tag]; auto.
    - exists fi, u, i, t. repeat (split; [ assumption | ]).
      destruct Hw as [<- | [<- | [] ] ]; cbn [tw_tag]; auto 7.
    - destruct Hw.
  Qed.

  Lemma same_tag : forall w w', In w (concat bodies) -> In w' (concat bodies) ->
    tw_a w = tw_a w' -> tw_idx w = tw_idx w' -> tw_tag w = tw_tag w'.
  Proof.
    intros w w' H H' Ha Hi.
    destruct (write_origin w H) as (fi & u & i & t & Hu & Ht & Ew & Hc).
    destruct (write_origin w' H') as (fi' & u' & i' & t' & Hu' & Ht' & Ew' & Hc').
    assert (E : fi = fi' \/ i = i').
    { destruct Ew as [Ew | Ew], Ew' as [Ew' | Ew']; rewrite Ew, Ew' in Ha; try discriminate;
        rewrite Ew, Ew' in Hi; cbn in Hi; auto. }
    destruct Hc as [ [-> Hs] | [-> [Hs N] ] ], Hc' as [ [-> Hs'] | [-> [Hs' N'] ] ]; auto; exfalso.
    - destruct E as [<- | <-].
      + rewrite (face_points_fun _ _ _ _ _ Hu' Hu) in N'. exact (N' _ _ Ht Hs).
      + rewrite (face_points_fun _ _ _ _ _ Ht' Ht) in Hs'.
        assert (fi = fi').
        { apply (cl_nodup _ _ Cb fi fi' u u' Hu Hu'). right.
          apply (same_opposite u t u'); auto. apply same_cycle_sym. exact Hs. }
        subst fi'. rewrite (face_points_fun _ _ _ _ _ Hu' Hu) in Hs'.
        apply (not_self_opposite t u); auto. exact (clean_distinct _ _ _ _ Ca Ht).
    - destruct E as [<- | <-].
      + rewrite (face_points_fun _ _ _ _ _ Hu' Hu) in Hs'. exact (N _ _ Ht' Hs').
      + rewrite (face_points_fun _ _ _ _ _ Ht' Ht) in Hs'.
        assert (fi = fi').
        { apply (cl_nodup _ _ Cb fi fi' u u' Hu Hu'). right.
          apply (opposite_same u t u'); auto. apply opposite_cycle_sym. exact Hs. }
        subst fi'. rewrite (face_points_fun _ _ _ _ _ Hu' Hu) in Hs'.
        apply (not_self_opposite t u); auto. exact (clean_distinct _ _ _ _ Ca Ht).
  Qed.

  (** Different iterations write to different cells. *)
  Lemma different_cells : forall f f' ws ws' w w',
    nth_error bodies f = Some ws -> nth_error bodies f' = Some ws' -> f <> f' ->
    In w ws -> In w' ws' -> ~ (tw_a w = tw_a w' /\ tw_idx w = tw_idx w').
  Proof.
    assert (G : forall f ws w, nth_error bodies f = Some ws -> In w ws ->
      exists u i t, face_points b bp f u /\ face_points a ap i t /\
        (w = mk_tw true i (tw_tag w) \/ w = mk_tw false f (tw_tag w)) /\
        (same_cycle t u \/ opposite_cycle t u)).
    { intros f ws w Hf Hw.
      destruct (body_at _ _ Hf) as [u [Hu [ [i [t [Ht [Hs ->] ] ] ] | [ [N [i [t [Ht [Hs ->] ] ] ] ] | [N ->] ] ] ] ].
      - exists u, i, t. repeat (split; [ assumption | ]).
        destruct Hw as [<- | [<- | [] ] ]; cbn [tw_tag]; auto.
      - exists u, i, t. repeat (split; [ assumption | ]).
        destruct Hw as [<- | [<- | [] ] ]; cbn [tw_tag]; auto.
      - destruct Hw. }
    intros f f' ws ws' w w' Hf Hf' N Hw Hw' [Ha Hi].
    destruct (G f ws w Hf Hw) as (u & i & t & Hu & Ht & E & C).
    destruct (G f' ws' w' Hf' Hw') as (u' & i' & t' & Hu' & Ht' & E' & C').
    destruct E as [E | E], E' as [E' | E']; rewrite E, E' in Ha; try discriminate;
      rewrite E, E' in Hi; cbn in Hi; [ | auto ].
    subst i'. rewrite (face_points_fun _ _ _ _ _ Ht' Ht) in C'.
    apply N. apply (cl_nodup _ _ Cb f f' u u' Hu Hu').
    destruct C as [C | C], C' as [C' | C'].
    - left. apply (same_cycle_trans u t u'); auto. apply same_cycle_sym. auto.
    - right. apply (same_opposite u t u'); auto. apply same_cycle_sym. auto.
    - right. apply (opposite_same u t u'); auto. apply opposite_cycle_sym. auto.
    - left. apply (opposite_opposite u t u'); auto. apply opposite_cycle_sym. auto.
  Qed.

  Variable tr : list tag_write.
  Hypothesis Htr : interleave bodies tr.

  Let final := fold_left do_write tr (repeat UNKNOWN (num_faces a), repeat UNKNOWN (num_faces b)).

  Lemma in_tr : forall w, In w tr <-> In w (concat bodies).
  Proof.
    intro w. pose proof (interleave_perm _ _ Htr) as Hp. split; apply Permutation_in; auto.
    apply Permutation_sym. exact Hp.
  Qed.

  Lemma final_lengths : length (fst final) = num_faces a /\ length (snd final) = num_faces b.
  Proof.
    unfold final.
    assert (G : forall tr s, length (fst (fold_left do_write tr s)) = length (fst s) /\
      length (snd (fold_left do_write tr s)) = length (snd s)).
    { induction tr0 as [ | w tr0 IH]; intro s; cbn [fold_left]; auto.
      destruct (IH (do_write s w)) as [-> ->]. unfold do_write. destruct (tw_a w); cbn [fst snd];
        rewrite length_list_set; auto. }
    destruct (G tr (repeat UNKNOWN (num_faces a), repeat UNKNOWN (num_faces b))) as [-> ->].
    cbn. rewrite !repeat_length. auto.
  Qed.

  Lemma init_cell : forall (side : bool) i, i < num_faces (if side then a else b) ->
    cell_of (repeat UNKNOWN (num_faces a), repeat UNKNOWN (num_faces b)) side i = Some UNKNOWN.
  Proof.
    intros side i H. unfold cell_of. cbn [fst snd].
    destruct side; apply nth_error_repeat; exact H.
  Qed.

  (** All writes of the loop, seen from the tag they leave in a cell. *)
  Lemma cell_written : forall (side : bool) i tag, i < num_faces (if side then a else b) ->
    In (mk_tw side i tag) tr -> cell_of final side i = Some tag.
  Proof.
    intros side i tag Hi Hw. apply writes_same.
    - rewrite init_cell by exact Hi. discriminate.
    - intros w Hin Ha Hidx. apply (same_tag w (mk_tw side i tag)); auto; apply in_tr; assumption.
    - exists (mk_tw side i tag). auto.
  Qed.

  Lemma final_a : forall i, i < num_faces a ->
    exists tag, cell_of final true i = Some tag /\ expected_tag a ap b bp i tag.
  Proof.
    intros i Hi. destruct (cl_points _ _ Ca i Hi) as [t [Ht Dt] ].
    assert (Dec : (exists w, In w tr /\ tw_a w = true /\ tw_idx w = i) \/
                  (forall w, In w tr -> ~ (tw_a w = true /\ tw_idx w = i))).
    { clear. induction tr as [ | x l IH]; [ right; intros w [] | ].
      destruct IH as [ [w [Hw H] ] | H]; [ left; exists w; split; [ right; auto | auto ] | ].
      destruct (Bool.bool_dec (tw_a x) true), (Nat.eq_dec (tw_idx x) i);
        try (left; exists x; split; [ left; reflexivity | auto ]; fail);
        (right; intros w [<- | Hw]; [ intros [? ?]; contradiction | auto ]). }
    destruct Dec as [ [w [Hw [Ha Hidx] ] ] | Hno].
    - exists (tw_tag w). split.
      + apply cell_written; auto. destruct w; cbn in *; subst; exact Hw.
      + apply in_tr in Hw. destruct (write_origin w Hw) as (fi & u & i' & t' & Hu & Ht' & E & C).
        destruct E as [E | E]; [ | rewrite E in Ha; discriminate ].
        assert (i' = i) by (rewrite E in Hidx; exact Hidx). subst i'.
        rewrite (face_points_fun _ _ _ _ _ Ht' Ht) in C.
        exists t. split; [ exact Ht | ]. destruct C as [ [-> C] | [-> [C N] ] ].
        * eauto.
        * split; [ eauto | ]. intros j v Hv Hs.
          assert (fi = j).
          { apply (cl_nodup _ _ Cb fi j u v Hu Hv). right.
            apply (opposite_same u t v); auto. apply opposite_cycle_sym. exact C. }
          subst j. rewrite (face_points_fun _ _ _ _ _ Hv Hu) in Hs.
          exact (N _ _ Ht Hs).
    - exists UNKNOWN. split; [ unfold final; rewrite writes_none by exact Hno; apply init_cell; exact Hi | ].
      exists t. split; [ exact Ht | ]. intros j u Hu.
      destruct (body_exists j (face_points_lt _ _ _ _ Hu)) as [ws Hws].
      destruct (body_at _ _ Hws) as [u' [Hu' S] ]. rewrite (face_points_fun _ _ _ _ _ Hu' Hu) in S.
      assert (Hin : forall w, In w ws -> In w tr).
      { intros w Hw. apply in_tr. apply in_concat. exists ws. split; [ eapply nth_error_In; exact Hws | exact Hw ]. }
      destruct S as [ [i' [t' [Ht' [Hs ->] ] ] ] | [ [N [i' [t' [Ht' [Hs ->] ] ] ] ] | [N ->] ] ].
      + assert (i' <> i) as Ni.
        { intros ->. apply (Hno (mk_tw true i COPLANAR)); [ apply Hin; left; reflexivity | auto ]. }
        split; intro Hx; apply Ni; apply (cl_nodup _ _ Ca i' i t' t Ht' Ht).
        * left. apply (same_cycle_trans t' u t); auto. apply same_cycle_sym. auto.
        * right. apply (same_opposite t' u t); auto. apply opposite_cycle_sym. auto.
      + assert (i' <> i) as Ni.
        { intros ->. apply (Hno (mk_tw true i OPPOSITE)); [ apply Hin; left; reflexivity | auto ]. }
        split; [ exact (N _ _ Ht) | ]. intro Hx; apply Ni; apply (cl_nodup _ _ Ca i' i t' t Ht' Ht).
        left. apply (opposite_opposite t' u t); auto. apply opposite_cycle_sym. auto.
      + exact (N _ _ Ht).
  Qed.

  Lemma final_b : forall j, j < num_faces b ->
    exists tag, cell_of final false j = Some tag /\ expected_tag b bp a ap j tag.
  Proof.
    intros j Hj. destruct (body_exists j Hj) as [ws Hws].
    destruct (body_at _ _ Hws) as [u [Hu S] ].
    assert (Hin : forall w, In w ws -> In w tr).
    { intros w Hw. apply in_tr. apply in_concat. exists ws. split; [ eapply nth_error_In; exact Hws | exact Hw ]. }
    destruct S as [ [i [t [Ht [Hs ->] ] ] ] | [ [N [i [t [Ht [Hs ->] ] ] ] ] | [N ->] ] ].
    - exists COPLANAR. split; [ apply cell_written; [ exact Hj | apply Hin; right; left; reflexivity ] | ].
      exists u. split; [ exact Hu | ]. exists i, t. split; [ exact Ht | apply same_cycle_sym; exact Hs ].
    - exists OPPOSITE. split; [ apply cell_written; [ exact Hj | apply Hin; right; left; reflexivity ] | ].
      exists u. split; [ exact Hu | ]. split.
      + exists i, t. split; [ exact Ht | apply opposite_cycle_sym; exact Hs ].
      + intros i' t' Ht' Hx. apply (N _ _ Ht'). apply same_cycle_sym. exact Hx.
    - exists UNKNOWN. split.
      + unfold final. rewrite writes_none; [ apply init_cell; exact Hj | ].
        intros w Hw [Ha Hi]. apply in_tr in Hw. apply in_concat in Hw. destruct Hw as [ws' [Hws' Hw] ].
        apply In_nth_error in Hws'. destruct Hws' as [f Hf].
        destruct (body_at _ _ Hf) as [v [Hv S] ].
        destruct S as [ [i [t [Ht [Hs ->] ] ] ] | [ [N' [i [t [Ht [Hs ->] ] ] ] ] | [N' ->] ] ];
          [ | | destruct Hw ]; destruct Hw as [<- | [<- | [] ] ]; cbn in Ha, Hi; try discriminate; subst f;
          rewrite Hws in Hf; discriminate.
      + exists u. split; [ exact Hu | ]. intros i t Ht. destruct (N _ _ Ht) as [N1 N2].
        split; intro Hx; [ apply N1, same_cycle_sym | apply N2, opposite_cycle_sym ]; exact Hx.
  Qed.
End Body.
