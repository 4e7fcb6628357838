(** * Reading and writing PLY *)
From Coq Require Import Ascii String.
From Coq Require Import List Arith Bool NArith ZArith Lia.
From Verif Require Import Model_base Proof_base Model_soup Model_text Spec_text Proof_text Proof_obj Proof_off.
Import ListNotations.
Local Open Scope list_scope.

(** ** The header *)
Lemma ply_line_skip : forall l st es, ply_significant l = false -> ply_header_line l st es = Some (st, es).
Proof.
  intros l st es H. unfold ply_header_line, ply_significant in *. pose proof (holds_open l) as Hh.
  destruct (words l) as [ | w ws] eqn:W.
  - rewrite (get_eof_nil _ Hh). reflexivity.
  - apply negb_false_iff in H. apply text_eqb_eq in H. subst w.
    destruct (get_eof_cons _ _ _ Hh) as (r & E & W2 & _). rewrite E. cbn [failb negb clear_bits rest].
    assert (H2 : holds (mk_stream (txt "comment" ++ r) false false) (txt "comment" :: ws))
      by (split; [ reflexivity | split; [ discriminate | exact W2 ] ]).
    destruct (get_word_holds _ _ _ H2) as (s1 & E1 & _). unfold clear_bits. cbn [rest]. rewrite E1, text_eqb_refl. reflexivity.
Qed.

(** What the header does with a line whose first word is not "comment". *)
Lemma ply_line_first : forall l w ws st es, words l = w :: ws -> w <> txt "comment" ->
  exists s, holds s ws /\ ply_header_line l st es =
    match st with
    | PLY_SIGNATURE =>
        if text_eqb w (txt "ply") && negb (failb (get_eof s)) then Some (PLY_VERSION, es) else None
    | PLY_VERSION =>
        if negb (text_eqb w (txt "format")) then None
        else
          let s := get_eof (get_const (txt "1.0") (get_const (txt "ascii") s)) in
          if failb s then None else Some (PLY_ELEMENTS, es)
    | PLY_ELEMENTS =>
        if text_eqb w (txt "element") then
          let (name, s) := get_word s in
          let (n, s) := get_size s in
          if failb (get_eof s) then None else Some (PLY_ELEMENTS, es ++ [mk_element name n []])
        else if text_eqb w (txt "property") then
          match es with
          | [] => None
          | _ =>
              let (type, s) := get_word s in
              if failb s then None
              else if text_eqb type (txt "list") then
                let (_, s) := get_word s in
                let (_, s) := get_word s in
                let (name, s) := get_word s in
                if failb (get_eof s) then None
                else Some (PLY_ELEMENTS, push_property (mk_property true name) es)
              else
                let (name, s) := get_word s in
                if failb (get_eof s) then None
                else Some (PLY_ELEMENTS, push_property (mk_property false name) es)
          end
        else if text_eqb w (txt "end_header") then Some (PLY_BODY, es)
        else None
    | PLY_BODY => Some (st, es)
    end.
Proof.
  intros l w ws st es W N. pose proof (holds_open l) as Hh. rewrite W in Hh.
  unfold ply_header_line.
  destruct (get_eof_cons _ _ _ Hh) as (r & E & W2 & _). rewrite E. cbn [failb negb]. unfold clear_bits. cbn [rest].
  assert (H2 : holds (mk_stream (w ++ r) false false) (w :: ws))
    by (split; [ reflexivity | split; [ discriminate | exact W2 ] ]).
  destruct (get_word_holds _ _ _ H2) as (s1 & E1 & H1). rewrite E1, (text_eqb_neq _ _ N).
  exists s1. split; [ exact H1 | reflexivity ].
Qed.

Inductive steps : list text -> ply_state -> list ply_element -> ply_state -> list ply_element -> Prop :=
| steps_nil : forall st es, steps [] st es st es
| steps_cons : forall l ls st es st1 es1 st2 es2,
    ply_header_line l st es = Some (st1, es1) -> st1 <> PLY_BODY -> steps ls st1 es1 st2 es2 ->
    steps (l :: ls) st es st2 es2.
Lemma steps_app : forall a b st es st1 es1 st2 es2, steps a st es st1 es1 -> steps b st1 es1 st2 es2 ->
  steps (a ++ b) st es st2 es2.
Proof.
  intros a b st es st1 es1 st2 es2 H. induction H as [ | l ls st es sta esa stb esb E N H IH]; intro Hb; [ exact Hb | ].
  cbn [app]. eapply steps_cons; [ exact E | exact N | apply IH; exact Hb ].
Qed.
Lemma steps_unfilter : forall ls st es st2 es2, st <> PLY_BODY ->
  steps (filter ply_significant ls) st es st2 es2 -> steps ls st es st2 es2.
Proof.
  induction ls as [ | l ls IH]; intros st es st2 es2 N H; [ exact H | ]. cbn [filter] in H.
  destruct (ply_significant l) eqn:S.
  - inversion H as [ | ? ? ? ? st1 es1 ? ? E N1 H1 ]; subst. eapply steps_cons; eauto.
  - eapply steps_cons; [ apply ply_line_skip; exact S | exact N | apply IH; assumption ].
Qed.
Lemma steps_header : forall ls st es st2 es2 r, steps ls st es st2 es2 ->
  ply_header (ls ++ r) st es = ply_header r st2 es2.
Proof.
  intros ls st es st2 es2 r H. induction H as [ | l ls st es st1 es1 st2 es2 E N H IH]; [ reflexivity | ].
  cbn [app ply_header]. rewrite E. destruct st1; try exact IH. congruence.
Qed.

Lemma push_property_last : forall p es e,
  push_property p (es ++ [e]) = es ++ [mk_element (element_name e) (count e) (properties e ++ [p])].
Proof.
  intros p es e. induction es as [ | x es IH]; [ reflexivity | ]. cbn [app push_property].
  destruct (es ++ [e]) as [ | y t] eqn:E; [ destruct es; discriminate | ]. rewrite IH. reflexivity.
Qed.

Lemma property_line : forall l p es e, declares_property l p ->
  ply_header_line l PLY_ELEMENTS (es ++ [e]) =
  Some (PLY_ELEMENTS, es ++ [mk_element (element_name e) (count e) (properties e ++ [p])]).
Proof.
  intros l [b n] es e H. unfold declares_property in H. cbn [is_list property_name] in H. destruct b.
  - destruct H as (t1 & t2 & W).
    destruct (ply_line_first l _ _ PLY_ELEMENTS (es ++ [e]) W ltac:(discriminate)) as (s & Hs & E). rewrite E. clear E.
    rewrite (text_eqb_neq (txt "property") (txt "element")) by discriminate. rewrite text_eqb_refl.
    destruct (get_word_holds _ _ _ Hs) as (s1 & E1 & H1). rewrite E1, (proj1 H1), text_eqb_refl.
    destruct (get_word_holds _ _ _ H1) as (s2 & E2 & H2). rewrite E2.
    destruct (get_word_holds _ _ _ H2) as (s3 & E3 & H3). rewrite E3.
    destruct (get_word_holds _ _ _ H3) as (s4 & E4 & H4). rewrite E4.
    rewrite (get_eof_nil _ H4), push_property_last. destruct (es ++ [e]) eqn:K; [ destruct es; discriminate | reflexivity ].
  - destruct H as (t & Nt & W).
    destruct (ply_line_first l _ _ PLY_ELEMENTS (es ++ [e]) W ltac:(discriminate)) as (s & Hs & E). rewrite E. clear E.
    rewrite (text_eqb_neq (txt "property") (txt "element")) by discriminate. rewrite text_eqb_refl.
    destruct (get_word_holds _ _ _ Hs) as (s1 & E1 & H1). rewrite E1, (proj1 H1), (text_eqb_neq _ _ Nt).
    destruct (get_word_holds _ _ _ H1) as (s2 & E2 & H2). rewrite E2.
    rewrite (get_eof_nil _ H2), push_property_last. destruct (es ++ [e]) eqn:K; [ destruct es; discriminate | reflexivity ].
Qed.
Lemma property_lines : forall pls ps, Forall2 declares_property pls ps -> forall es n c ps0,
  steps pls PLY_ELEMENTS (es ++ [mk_element n c ps0]) PLY_ELEMENTS (es ++ [mk_element n c (ps0 ++ ps)]).
Proof.
  intros pls ps H. induction H as [ | l p pls ps Hl H IH]; intros es n c ps0.
  - rewrite app_nil_r. constructor.
  - eapply steps_cons; [ apply property_line; exact Hl | discriminate | ]. cbn [element_name count properties].
    specialize (IH es n c (ps0 ++ [p])). rewrite <- app_assoc in IH. exact IH.
Qed.
Lemma element_lines : forall ls es, declares_elements ls es -> forall es0,
  steps ls PLY_ELEMENTS es0 PLY_ELEMENTS (es0 ++ es).
Proof.
  intros ls es H. induction H as [ | l ls pls e es W Hc Hp H IH]; intro es0.
  - rewrite app_nil_r. constructor.
  - assert (E : ply_header_line l PLY_ELEMENTS es0 = Some (PLY_ELEMENTS, es0 ++ [mk_element (element_name e) (count e) []])).
    { destruct (ply_line_first l _ _ PLY_ELEMENTS es0 W ltac:(discriminate)) as (s & Hs & E). rewrite E. clear E.
      rewrite text_eqb_refl. destruct (get_word_holds _ _ _ Hs) as (s1 & E1 & H1). rewrite E1.
      destruct (get_size_holds _ _ _ Hc H1) as (s2 & E2 & H2). rewrite E2, (get_eof_nil _ H2). reflexivity. }
    eapply steps_cons; [ exact E | discriminate | ].
    eapply steps_app; [ apply (property_lines pls (properties e) Hp es0 (element_name e) (count e) []) | ].
    cbn [app]. specialize (IH (es0 ++ [mk_element (element_name e) (count e) (properties e)])).
    rewrite <- app_assoc in IH. destruct e. exact IH.
Qed.

Lemma header_ok : forall header es body, ply_header_means header es ->
  ply_header (header ++ body) PLY_SIGNATURE [] = Some (es, body).
Proof.
  intros header es body (l1 & l2 & decls & l3 & more & Ef & W1 & W2 & Hd & W3 & ls' & ->).
  assert (S3 : ply_significant l3 = true) by (unfold ply_significant; rewrite W3; reflexivity).
  assert (Ef' : filter ply_significant ls' = l1 :: l2 :: decls).
  { rewrite filter_app in Ef. cbn [filter] in Ef. rewrite S3 in Ef.
    change (l1 :: l2 :: decls ++ [l3]) with ((l1 :: l2 :: decls) ++ [l3]) in Ef.
    apply app_inj_tail in Ef. tauto. }
  assert (K : steps ls' PLY_SIGNATURE [] PLY_ELEMENTS es).
  { apply steps_unfilter; [ discriminate | ]. rewrite Ef'.
    assert (E1 : ply_header_line l1 PLY_SIGNATURE [] = Some (PLY_VERSION, [])).
    { destruct (ply_line_first l1 _ _ PLY_SIGNATURE [] W1 ltac:(discriminate)) as (s & Hs & E). rewrite E.
      rewrite text_eqb_refl, (get_eof_nil _ Hs). reflexivity. }
    assert (E2 : ply_header_line l2 PLY_VERSION [] = Some (PLY_ELEMENTS, [])).
    { destruct (ply_line_first l2 _ _ PLY_VERSION [] W2 ltac:(discriminate)) as (s & Hs & E). rewrite E.
      rewrite text_eqb_refl. cbn [negb]. apply get_const_holds in Hs. apply get_const_holds in Hs.
      cbn zeta. rewrite (get_eof_nil _ Hs). reflexivity. }
    eapply steps_cons; [ exact E1 | discriminate | ].
    eapply steps_cons; [ exact E2 | discriminate | ]. exact (element_lines decls es Hd []). }
  rewrite <- app_assoc, (steps_header _ _ _ _ _ _ K). cbn [app ply_header].
  destruct (ply_line_first l3 _ _ PLY_ELEMENTS es W3 ltac:(discriminate)) as (s & Hs & E). rewrite E.
  rewrite (text_eqb_neq (txt "end_header") (txt "element")) by discriminate.
  rewrite (text_eqb_neq (txt "end_header") (txt "property")) by discriminate.
  rewrite text_eqb_refl. reflexivity.
Qed.

(** ** Finding the elements and properties *)
Lemma find_index_first : forall A (p : A -> bool) a x b, Forall (fun y => p y = false) a -> p x = true ->
  find_index p (a ++ x :: b) = Some (List.length a).
Proof.
  intros A p a x b H Hx. induction H as [ | y a Hy Ha IH]; cbn [app find_index List.length].
  - rewrite Hx. reflexivity.
  - rewrite Hy, IH. reflexivity.
Qed.
Lemma find_index_some : forall A (p : A -> bool) l, (exists x, In x l /\ p x = true) ->
  exists i x, find_index p l = Some i /\ nth_error l i = Some x /\ p x = true.
Proof.
  intros A p l (x & I & Hx). induction l as [ | y l IH]; [ contradiction | ]. cbn [find_index].
  destruct (p y) eqn:Hy; [ exists 0, y; auto | ].
  destruct I as [-> | I]; [ congruence | ]. destruct (IH I) as (i & z & E & Nz & Hz).
  exists (S i), z. rewrite E. auto.
Qed.

Definition named (names : list text) (list : bool) (p : ply_property) : bool :=
  existsb (text_eqb (property_name p)) names && Bool.eqb (is_list p) list.
Lemma named_spec : forall names b p, named names b p = true <-> In (property_name p) names /\ is_list p = b.
Proof.
  intros names b p. unfold named. rewrite andb_true_iff, existsb_exists. split.
  - intros [ (n & I & E) B]. apply text_eqb_eq in E. apply eqb_prop in B. subst n. auto.
  - intros [I B]. split; [ exists (property_name p); split; [ exact I | apply text_eqb_refl ] | ].
    rewrite B. apply eqb_reflx.
Qed.
Lemma value_of_index : forall names b ps vals v, value_of names b ps vals v ->
  exists i, find_index (named names b) ps = Some i /\ nth_error vals i = Some v.
Proof.
  intros names b ps vals v H. induction H as [ p ps v vs I B | p ps v vs r N H IH ]; cbn [find_index].
  - replace (named names b p) with true by (symmetry; apply named_spec; auto). exists 0. auto.
  - destruct (named names b p) eqn:E; [ apply named_spec in E; contradiction | ].
    destruct IH as (i & E1 & E2). exists (S i). rewrite E1. auto.
Qed.

(** ** Lines of the body *)
Lemma skip_words_holds : forall items s ws, holds s (items ++ ws) -> holds (skip_words (List.length items) s) ws.
Proof.
  induction items as [ | w items IH]; intros s ws H; cbn [List.length skip_words app] in *; [ exact H | ].
  destruct (get_word_holds _ _ _ H) as (s1 & E1 & H1). rewrite E1. apply IH. exact H1.
Qed.
Lemma skip_property_holds : forall p v s ws, value_words p v -> holds s (v ++ ws) -> holds (skip_property p s) ws.
Proof.
  intros p v s ws Hv H. unfold value_words in Hv. unfold skip_property. destruct (is_list p).
  - destruct Hv as (items & Hn & ->). cbn [app] in H. destruct (get_size_holds _ _ _ Hn H) as (s1 & E1 & H1). rewrite E1.
    apply skip_words_holds. exact H1.
  - destruct Hv as (w & ->). cbn [app] in H. destruct (get_word_holds _ _ _ H) as (s1 & E1 & H1). rewrite E1. exact H1.
Qed.

Section Ply.
  Context {P D : Type}.
  Variable d0 : D.
  Variable parse : text -> option N.
  Variable point_of : N * N * N -> P.

  Notation built := (built (D := D) d0 point_of).

  Definition pending (vals : list (list text)) (i xi : nat) (x0 x : N) : Prop :=
    (xi < i /\ x0 = x) \/ (i <= xi /\ exists a, nth_error vals (xi - i) = Some [a] /\ number_word parse a x).
  Lemma pending_skip : forall v vals i xi x0 x, pending (v :: vals) i xi x0 x -> i <> xi -> pending vals (S i) xi x0 x.
  Proof.
    intros v vals i xi x0 x [ [L E] | [L (a & E & Ha)] ] N; [ left; split; [ lia | exact E ] | ].
    right. split; [ lia | ]. exists a. split; [ | exact Ha ].
    replace (xi - i) with (S (xi - S i)) in E by lia. exact E.
  Qed.
  Lemma pending_here : forall v vals i x0 x, pending (v :: vals) i i x0 x ->
    exists a, v = [a] /\ number_word parse a x.
  Proof.
    intros v vals i x0 x [ [L _] | [_ (a & E & Ha)] ]; [ lia | ]. rewrite Nat.sub_diag in E. injection E as ->. eauto.
  Qed.

  Lemma ply_vertex_ok : forall xi yi zi x y z more, xi <> yi -> xi <> zi -> yi <> zi ->
    forall ps vals, Forall2 value_words ps vals -> forall i x0 y0 z0 s,
    holds s (concat vals ++ more) ->
    pending vals i xi x0 x -> pending vals i yi y0 y -> pending vals i zi z0 z ->
    exists s', ply_vertex parse xi yi zi i ps x0 y0 z0 s = (x, y, z, s') /\ holds s' more.
  Proof.
    intros xi yi zi x y z more N1 N2 N3 ps vals H.
    induction H as [ | p v ps vals Hv H IH]; intros i x0 y0 z0 s Hs Hx Hy Hz.
    - cbn [ply_vertex].
      assert (K : forall xi x0 x, pending [] i xi x0 x -> x0 = x).
      { intros xi' x0' x' [ [_ E] | [_ (a & E & _)] ]; [ exact E | ]. destruct (xi' - i); discriminate. }
      rewrite (K _ _ _ Hx), (K _ _ _ Hy), (K _ _ _ Hz). eauto.
    - cbn [ply_vertex concat] in *. rewrite <- app_assoc in Hs.
      destruct (i =? xi) eqn:Ex; [ apply Nat.eqb_eq in Ex; subst xi | apply Nat.eqb_neq in Ex ].
      { destruct (pending_here _ _ _ _ _ Hx) as (a & -> & Ha). cbn [app] in Hs.
        destruct (get_double_holds parse _ _ _ _ Hs Ha) as (s1 & E1 & H1). rewrite E1.
        apply IH; [ exact H1 | left; split; [ lia | reflexivity ] | | ]; eapply pending_skip; eauto. }
      destruct (i =? yi) eqn:Ey; [ apply Nat.eqb_eq in Ey; subst yi | apply Nat.eqb_neq in Ey ].
      { destruct (pending_here _ _ _ _ _ Hy) as (a & -> & Ha). cbn [app] in Hs.
        destruct (get_double_holds parse _ _ _ _ Hs Ha) as (s1 & E1 & H1). rewrite E1.
        apply IH; [ exact H1 | | left; split; [ lia | reflexivity ] | ]; eapply pending_skip; eauto. }
      destruct (i =? zi) eqn:Ez; [ apply Nat.eqb_eq in Ez; subst zi | apply Nat.eqb_neq in Ez ].
      { destruct (pending_here _ _ _ _ _ Hz) as (a & -> & Ha). cbn [app] in Hs.
        destruct (get_double_holds parse _ _ _ _ Hs Ha) as (s1 & E1 & H1). rewrite E1.
        apply IH; [ exact H1 | | | left; split; [ lia | reflexivity ] ]; eapply pending_skip; eauto. }
      apply IH; [ exact (skip_property_holds p v s _ Hv Hs) | | | ]; eapply pending_skip; eauto.
  Qed.

  Lemma ply_face_done : forall vi more ps vals, Forall2 value_words ps vals -> forall i face s, vi < i ->
    holds s (concat vals ++ more) ->
    exists s', ply_face vi i ps face s = (face, s') /\ holds s' more.
  Proof.
    intros vi more ps vals H. induction H as [ | p v ps vals Hv H IH]; intros i face s L Hs; cbn [ply_face concat] in *.
    - eauto.
    - rewrite <- app_assoc in Hs. replace (i =? vi) with false by (symmetry; apply Nat.eqb_neq; lia).
      apply IH; [ lia | ]. exact (skip_property_holds p v s _ Hv Hs).
  Qed.
  Lemma ply_face_ok : forall vi p more, Forall size p -> size (List.length p) ->
    forall ps vals, Forall2 value_words ps vals -> forall i s, i <= vi ->
    nth_error vals (vi - i) = Some (decimal_nat (List.length p) :: map decimal_nat p) ->
    holds s (concat vals ++ more) ->
    exists s', ply_face vi i ps [] s = (p, s') /\ holds s' more.
  Proof.
    intros vi p more Hp Hn ps vals H. induction H as [ | q v ps vals Hv H IH]; intros i s L E Hs; cbn [ply_face concat] in *.
    - destruct (vi - i); discriminate.
    - rewrite <- app_assoc in Hs. destruct (i =? vi) eqn:Ei.
      + apply Nat.eqb_eq in Ei. subst vi. rewrite Nat.sub_diag in E. injection E as ->. cbn [app] in Hs.
        destruct (get_size_holds _ _ _ Hn Hs) as (s1 & E1 & H1). rewrite E1.
        destruct (get_indices_holds p _ _ Hp H1) as (s2 & E2 & H2). rewrite E2. cbn [app].
        apply (ply_face_done i more ps vals H); [ lia | exact H2 ].
      + apply Nat.eqb_neq in Ei. apply IH; [ lia | | exact (skip_property_holds q v s _ Hv Hs) ].
        replace (vi - i) with (S (vi - S i)) in E by lia. exact E.
  Qed.

  (** ** The body *)
  Notation body_line := (ply_body_line d0 parse point_of).
  Notation body := (ply_body d0 parse point_of).
  Definition with_count (e : ply_element) (n : nat) : ply_element := mk_element (element_name e) n (properties e).
  Definition nxt (es : list ply_element) (k : nat) : nat := next_element (List.length es - k) es k.

  Lemma nxt_end : forall es, nxt es (List.length es) = List.length es.
  Proof. intro es. unfold nxt. rewrite Nat.sub_diag. reflexivity. Qed.
  Lemma nxt_stay : forall pre e post, count e <> 0 -> nxt (pre ++ e :: post) (List.length pre) = List.length pre.
  Proof.
    intros pre e post N. unfold nxt. rewrite app_length. cbn [List.length].
    replace (List.length pre + S (List.length post) - List.length pre) with (S (List.length post)) by lia.
    cbn [next_element]. rewrite nth_error_app2 by lia. rewrite Nat.sub_diag. cbn [nth_error].
    destruct (count e =? 0) eqn:E; [ apply Nat.eqb_eq in E; contradiction | reflexivity ].
  Qed.
  Lemma nxt_skip : forall pre e post, count e = 0 ->
    nxt (pre ++ e :: post) (List.length pre) = nxt (pre ++ e :: post) (S (List.length pre)).
  Proof.
    intros pre e post N. unfold nxt. rewrite app_length. cbn [List.length].
    replace (List.length pre + S (List.length post) - List.length pre) with (S (List.length post)) by lia.
    replace (List.length pre + S (List.length post) - S (List.length pre)) with (List.length post) by lia.
    cbn [next_element]. rewrite nth_error_app2 by lia. rewrite Nat.sub_diag. cbn [nth_error].
    rewrite N. reflexivity.
  Qed.

  Inductive lines_effect (lay : ply_layout) (k : nat) (e : ply_element) :
      list text -> soup P D -> soup P D -> Prop :=
  | le_nil : forall s, lines_effect lay k e [] s s
  | le_cons : forall l ls s s1 s2, body_line lay k e l s = Ok (Some s1) -> lines_effect lay k e ls s1 s2 ->
      lines_effect lay k e (l :: ls) s s2.
  Inductive effects (lay : ply_layout) : nat -> list ply_element -> list (list text) -> soup P D -> soup P D -> Prop :=
  | ef_nil : forall k s, effects lay k [] [] s s
  | ef_cons : forall k e es g gs s s1 s2, List.length g = count e -> lines_effect lay k e g s s1 ->
      effects lay (S k) es gs s1 s2 -> effects lay k (e :: es) (g :: gs) s s2.
  Lemma effects_app : forall lay k es gs s s1, effects lay k es gs s s1 -> forall es' gs' s2,
    effects lay (k + List.length es) es' gs' s1 s2 -> effects lay k (es ++ es') (gs ++ gs') s s2.
  Proof.
    intros lay k es gs s s1 H. induction H as [ k s | k e es g gs s sa sb L E H IH ]; intros es' gs' s2 H'.
    - cbn [List.length] in H'. rewrite Nat.add_0_r in H'. exact H'.
    - cbn [app]. eapply ef_cons; [ exact L | exact E | ]. apply IH. cbn [List.length] in H'.
      replace (S k + List.length es) with (k + S (List.length es)) by lia. exact H'.
  Qed.

  Lemma body_element : forall lay e g n s s1 pre post r, List.length g = n ->
    lines_effect lay (List.length pre) e g s s1 ->
    body lay (g ++ r) (pre ++ with_count e n :: post) (nxt (pre ++ with_count e n :: post) (List.length pre)) s =
    body lay r (pre ++ with_count e 0 :: post) (nxt (pre ++ with_count e 0 :: post) (S (List.length pre))) s1.
  Proof.
    intros lay e g. induction g as [ | l g IH]; intros n s s1 pre post r L H.
    - cbn in L. subst n. inversion H; subst. cbn [app]. rewrite nxt_skip by reflexivity. reflexivity.
    - cbn [List.length] in L. subst n. inversion H as [ | ? ? ? sa ? E H' ]; subst.
      rewrite nxt_stay by discriminate. cbn [app ply_body].
      rewrite nth_error_app2 by lia. rewrite Nat.sub_diag. cbn [nth_error].
      replace (body_line lay (List.length pre) (with_count e (S (List.length g))) l s) with (Ok (Some sa))
        by (rewrite <- E; reflexivity).
      cbn [bind].
      assert (T : take_line (pre ++ with_count e (S (List.length g)) :: post) (List.length pre) =
                  pre ++ with_count e (List.length g) :: post).
      { unfold take_line. rewrite nth_error_app2 by lia. rewrite Nat.sub_diag. cbn [nth_error with_count element_name count properties].
        rewrite Nat.sub_succ, Nat.sub_0_r. clear. induction pre as [ | x pre IHp]; [ reflexivity | ].
        cbn [app List.length list_set]. rewrite IHp. reflexivity. }
      rewrite T. apply IH; [ reflexivity | exact H' ].
  Qed.
  Lemma body_effects : forall lay k es gs s s', effects lay k es gs s s' -> forall pre, List.length pre = k ->
    body lay (concat gs) (pre ++ es) (nxt (pre ++ es) k) s = Ok (Some s').
  Proof.
    intros lay k es gs s s' H. induction H as [ k s | k e es g gs s s1 s2 L E H IH ]; intros pre Lp.
    - cbn [concat ply_body]. rewrite app_nil_r. subst k. rewrite nxt_end, Nat.eqb_refl. reflexivity.
    - cbn [concat]. subst k.
      replace e with (with_count e (count e)) at 1 2 by (destruct e; reflexivity).
      rewrite (body_element lay e g (count e) s s1 pre es (concat gs) L E).
      specialize (IH (pre ++ [with_count e 0])). rewrite app_length in IH. cbn [List.length] in IH.
      rewrite <- app_assoc in IH. cbn [app] in IH. apply IH. lia.
  Qed.

  (** Elements that are not used. *)
  Lemma other_lines : forall lay k e g s, k <> vertex_at lay -> k <> face_at lay -> lines_effect lay k e g s s.
  Proof.
    intros lay k e g s N1 N2. induction g as [ | l g IH]; [ constructor | ].
    eapply le_cons; [ | exact IH ]. unfold ply_body_line.
    apply Nat.eqb_neq in N1. apply Nat.eqb_neq in N2. rewrite N1, N2. reflexivity.
  Qed.
  Lemma other_elements : forall lay es ls k s,
    (forall i, i < List.length es -> k + i <> vertex_at lay /\ k + i <> face_at lay) ->
    List.length ls = list_sum (map count es) ->
    exists gs, concat gs = ls /\ effects lay k es gs s s.
  Proof.
    intros lay es. induction es as [ | e es IH]; intros ls k s N L.
    - exists []. destruct ls; [ | discriminate ]. split; [ reflexivity | constructor ].
    - cbn [map list_sum] in L. change (list_sum (count e :: map count es)) with (count e + list_sum (map count es)) in L.
      destruct (IH (skipn (count e) ls) (S k) s) as (gs & E & H).
      + intros i Hi. specialize (N (S i)). cbn [List.length] in N. rewrite Nat.add_succ_r in N. apply N. lia.
      + rewrite skipn_length. lia.
      + exists (firstn (count e) ls :: gs). split; [ cbn [concat]; rewrite E; apply firstn_skipn | ].
        eapply ef_cons; [ rewrite firstn_length; lia | | exact H ].
        apply other_lines; specialize (N 0); cbn [List.length] in N; rewrite Nat.add_0_r in N; apply N; lia.
  Qed.

  Lemma layout_ok : forall es1 ve es2 fe es3,
    (forall e, In e (es1 ++ es2) -> element_name e <> txt "vertex" /\ element_name e <> txt "face") ->
    element_name ve = txt "vertex" -> element_name fe = txt "face" ->
    (forall n, In n [txt "x"; txt "y"; txt "z"] ->
       exists p, In p (properties ve) /\ is_list p = false /\ property_name p = n) ->
    (exists p, In p (properties fe) /\ is_list p = true /\
       In (property_name p) [txt "vertex_index"; txt "vertex_indices"]) ->
    exists xi yi zi vi,
      ply_find_layout (es1 ++ [ve] ++ es2 ++ [fe] ++ es3) =
        Some (mk_layout (List.length es1) xi yi zi (List.length es1 + S (List.length es2)) vi) /\
      find_property ve [txt "x"] false = Some xi /\ find_property ve [txt "y"] false = Some yi /\
      find_property ve [txt "z"] false = Some zi /\
      find_property fe [txt "vertex_index"; txt "vertex_indices"] true = Some vi /\
      xi <> yi /\ xi <> zi /\ yi <> zi.
  Proof.
    intros es1 ve es2 fe es3 Hn Ev Ef Hp Hq.
    assert (X : forall n, In n [txt "x"; txt "y"; txt "z"] -> exists i p, find_property ve [n] false = Some i /\
      nth_error (properties ve) i = Some p /\ property_name p = n).
    { intros n I. destruct (Hp n I) as (p & Ip & Bp & Np).
      destruct (find_index_some _ (named [n] false) (properties ve)) as (i & q & E & Nq & Hq').
      - exists p. split; [ exact Ip | ]. apply named_spec. split; [ left; symmetry; exact Np | exact Bp ].
      - exists i, q. split; [ exact E | ]. split; [ exact Nq | ]. apply named_spec in Hq'. destruct Hq' as [ [Hq' | [ ] ] _]. auto. }
    destruct (X (txt "x") ltac:(cbn; auto)) as (xi & px & Ex & Nx & Qx).
    destruct (X (txt "y") ltac:(cbn; auto)) as (yi & py & Ey & Ny & Qy).
    destruct (X (txt "z") ltac:(cbn; auto)) as (zi & pz & Ez & Nz & Qz).
    assert (Y : exists i, find_property fe [txt "vertex_index"; txt "vertex_indices"] true = Some i).
    { destruct Hq as (p & Ip & Bp & Np).
      destruct (find_index_some _ (named [txt "vertex_index"; txt "vertex_indices"] true) (properties fe)) as (i & q & E & _).
      - exists p. split; [ exact Ip | ]. apply named_spec. split; [ exact Np | exact Bp ].
      - exists i. exact E. }
    destruct Y as (vi & Ei). exists xi, yi, zi, vi.
    assert (F1 : find_element (txt "vertex") (es1 ++ [ve] ++ es2 ++ [fe] ++ es3) = Some (List.length es1)).
    { unfold find_element. cbn [app]. apply find_index_first.
      - apply Forall_forall. intros e I. apply text_eqb_neq. apply Hn. apply in_or_app. left. exact I.
      - rewrite Ev. apply text_eqb_refl. }
    assert (F2 : find_element (txt "face") (es1 ++ [ve] ++ es2 ++ [fe] ++ es3) = Some (List.length es1 + S (List.length es2))).
    { unfold find_element. replace (es1 ++ [ve] ++ es2 ++ [fe] ++ es3) with ((es1 ++ [ve] ++ es2) ++ fe :: es3)
        by (rewrite <- !app_assoc; reflexivity).
      replace (List.length es1 + S (List.length es2)) with (List.length (es1 ++ [ve] ++ es2))
        by (rewrite !app_length; cbn; lia).
      apply find_index_first.
      - apply Forall_app. split; [ apply Forall_forall; intros e I; apply text_eqb_neq; apply Hn; apply in_or_app; left; exact I | ].
        constructor; [ rewrite Ev; reflexivity | ].
        apply Forall_forall; intros e I; apply text_eqb_neq; apply Hn; apply in_or_app; right; exact I.
      - rewrite Ef. apply text_eqb_refl. }
    split.
    - unfold ply_find_layout. rewrite F1, F2.
      replace (nth_error (es1 ++ [ve] ++ es2 ++ [fe] ++ es3) (List.length es1)) with (Some ve)
        by (rewrite nth_error_app2 by lia; rewrite Nat.sub_diag; reflexivity).
      replace (nth_error (es1 ++ [ve] ++ es2 ++ [fe] ++ es3) (List.length es1 + S (List.length es2))) with (Some fe).
      2:{ rewrite nth_error_app2 by lia. replace (List.length es1 + S (List.length es2) - List.length es1) with (S (List.length es2)) by lia.
          cbn [app nth_error]. rewrite nth_error_app2 by lia. rewrite Nat.sub_diag. reflexivity. }
      rewrite Ex, Ey, Ez, Ei. reflexivity.
    - repeat split; try assumption.
      + intros <-. rewrite Nx in Ny. injection Ny as ->. rewrite Qx in Qy. discriminate.
      + intros <-. rewrite Nx in Nz. injection Nz as ->. rewrite Qx in Qz. discriminate.
      + intros <-. rewrite Ny in Nz. injection Nz as ->. rewrite Qy in Qz. discriminate.
  Qed.

  Lemma vertex_lines_effect : forall lay ve vlines vs, Forall2 (ply_vertex_line parse ve) vlines vs ->
    find_property ve [txt "x"] false = Some (x_at lay) -> find_property ve [txt "y"] false = Some (y_at lay) ->
    find_property ve [txt "z"] false = Some (z_at lay) ->
    x_at lay <> y_at lay -> x_at lay <> z_at lay -> y_at lay <> z_at lay ->
    forall vs0 fs, lines_effect lay (vertex_at lay) ve vlines (built vs0 fs) (built (vs0 ++ vs) fs).
  Proof.
    intros lay ve vlines vs H Fx Fy Fz N1 N2 N3. induction H as [ | l [ [x y] z] vlines vs Hl H IH]; intros vs0 fs.
    - rewrite app_nil_r. constructor.
    - destruct Hl as (vals & a & b & c & (Hv & more & W) & Va & Ha & Vb & Hb & Vc & Hc).
      destruct (value_of_index _ _ _ _ _ Va) as (i & Ei & Ni).
      destruct (value_of_index _ _ _ _ _ Vb) as (j & Ej & Nj).
      destruct (value_of_index _ _ _ _ _ Vc) as (k & Ek & Nk).
      change (find_property ve [txt "x"] false = Some i) in Ei. rewrite Fx in Ei. injection Ei as <-.
      change (find_property ve [txt "y"] false = Some j) in Ej. rewrite Fy in Ej. injection Ej as <-.
      change (find_property ve [txt "z"] false = Some k) in Ek. rewrite Fz in Ek. injection Ek as <-.
      assert (E : body_line lay (vertex_at lay) ve l (built vs0 fs) = Ok (Some (built (vs0 ++ [(x, y, z)]) fs))).
      { unfold ply_body_line. rewrite Nat.eqb_refl.
        pose proof (holds_open l) as Hh. rewrite W in Hh.
        destruct (ply_vertex_ok _ _ _ x y z more N1 N2 N3 _ _ Hv 0 0%N 0%N 0%N _ Hh) as (s' & E & H').
        - right. split; [ lia | ]. exists a. rewrite Nat.sub_0_r. auto.
        - right. split; [ lia | ]. exists b. rewrite Nat.sub_0_r. auto.
        - right. split; [ lia | ]. exists c. rewrite Nat.sub_0_r. auto.
        - rewrite E, (proj1 H'), built_vertex. reflexivity. }
      eapply le_cons; [ exact E | ]. specialize (IH (vs0 ++ [(x, y, z)]) fs). rewrite <- app_assoc in IH. exact IH.
  Qed.
  Lemma face_lines_effect : forall lay fe flines ps, Forall2 (ply_polygon_line fe) flines ps ->
    find_property fe [txt "vertex_index"; txt "vertex_indices"] true = Some (index_at lay) ->
    face_at lay <> vertex_at lay ->
    forall vs fs, lines_effect lay (face_at lay) fe flines (built vs fs) (built vs (fs ++ concat (map fan ps))).
  Proof.
    intros lay fe flines ps H Fi N. induction H as [ | l p flines ps Hl H IH]; intros vs fs.
    - cbn [map concat]. rewrite app_nil_r. constructor.
    - destruct Hl as (Hp & Hn & vals & (Hv & more & W) & Vi).
      destruct (value_of_index _ _ _ _ _ Vi) as (i & Ei & Ni).
      change (find_property fe [txt "vertex_index"; txt "vertex_indices"] true = Some i) in Ei. rewrite Fi in Ei. injection Ei as <-.
      assert (E : body_line lay (face_at lay) fe l (built vs fs) = Ok (Some (built vs (fs ++ fan p)))).
      { unfold ply_body_line. apply Nat.eqb_neq in N. rewrite N, Nat.eqb_refl.
        pose proof (holds_open l) as Hh. rewrite W in Hh.
        assert (Ni' : nth_error vals (index_at lay - 0) = Some (decimal_nat (List.length p) :: map decimal_nat p))
          by (rewrite Nat.sub_0_r; exact Ni).
        destruct (ply_face_ok (index_at lay) p more Hp Hn _ _ Hv 0 _ (Nat.le_0_l _) Ni' Hh) as (s' & E & H').
        rewrite E, (proj1 H'), add_fan_ok. cbn [bind]. rewrite built_faces. reflexivity. }
      eapply le_cons; [ exact E | ]. specialize (IH vs (fs ++ fan p)). cbn [map concat]. rewrite <- app_assoc in IH. exact IH.
  Qed.

  Lemma ply_read_ok : forall file vs ps target, ply_means parse file vs ps ->
    read_ply d0 parse point_of file target = Ok (true, built vs (concat (map fan ps))).
  Proof.
    intros file vs ps target (header & es1 & ve & es2 & fe & es3 & b1 & vl & b2 & fl & b3 &
      Efile & Hh & Hn & Ev & Ef & Hp & Hq & L1 & Lv & L2 & Lf & L3 & Hvl & Hfl).
    unfold read_ply. rewrite Efile, (header_ok _ _ _ Hh).
    destruct (layout_ok es1 ve es2 fe es3 Hn Ev Ef Hp Hq) as (xi & yi & zi & vi & El & Fx & Fy & Fz & Fi & N1 & N2 & N3).
    rewrite El. set (lay := mk_layout (List.length es1) xi yi zi (List.length es1 + S (List.length es2)) vi) in *.
    destruct (other_elements lay es1 b1 0 (built [] [])) as (g1 & C1 & E1); [ | exact L1 | ].
    { intros i Hi. cbn [lay vertex_at face_at]. lia. }
    destruct (other_elements lay es2 b2 (S (List.length es1)) (built vs [])) as (g2 & C2 & E2); [ | exact L2 | ].
    { intros i Hi. cbn [lay vertex_at face_at]. lia. }
    destruct (other_elements lay es3 b3 (S (List.length es1 + S (List.length es2))) (built vs (concat (map fan ps)))) as (g3 & C3 & E3); [ | exact L3 | ].
    { intros i Hi. cbn [lay vertex_at face_at]. lia. }
    pose proof (vertex_lines_effect lay ve vl vs Hvl Fx Fy Fz N1 N2 N3 [] []) as E4.
    pose proof (face_lines_effect lay fe fl ps Hfl Fi ltac:(cbn [lay vertex_at face_at]; lia) vs []) as E5.
    cbn [app] in E4, E5.
    assert (E : effects lay 0 (es1 ++ [ve] ++ es2 ++ [fe] ++ es3) (g1 ++ [vl] ++ g2 ++ [fl] ++ g3)
                  (built [] []) (built vs (concat (map fan ps)))).
    { eapply effects_app; [ exact E1 | ]. cbn [app]. eapply ef_cons; [ exact Lv | exact E4 | ].
      eapply effects_app; [ exact E2 | ]. cbn [app].
      replace (S (0 + List.length es1) + List.length es2) with (face_at lay) by (cbn [lay face_at]; lia).
      eapply ef_cons; [ exact Lf | exact E5 | ]. exact E3. }
    assert (C : b1 ++ vl ++ b2 ++ fl ++ b3 = concat (g1 ++ [vl] ++ g2 ++ [fl] ++ g3)).
    { rewrite !concat_app. cbn [concat]. rewrite C1, C2, C3, !app_nil_r. reflexivity. }
    rewrite C. change empty_soup with (built [] []).
    pose proof (body_effects lay 0 _ _ _ _ E [] eq_refl) as B. cbn [app] in B. unfold nxt in B. rewrite Nat.sub_0_r in B.
    cbn [app]. rewrite B. reflexivity.
  Qed.

  (** Reading never throws. *)
  Lemma body_line_total : forall lay k e l s, exists o, body_line lay k e l s = Ok o.
  Proof.
    intros lay k e l s. unfold ply_body_line. destruct (k =? vertex_at lay).
    - destruct (ply_vertex _ _ _ _ _ _ _ _ _ _) as [ [ [x y] z] s1]. destruct (failb s1); eauto.
    - destruct (k =? face_at lay); [ | eauto ]. destruct (ply_face _ _ _ _ _) as [p s1]. destruct (failb s1); [ eauto | ].
      rewrite add_fan_ok. cbn [bind]. eauto.
  Qed.
  Lemma body_total : forall lay ls es k s, exists o, body lay ls es k s = Ok o.
  Proof.
    intros lay ls. induction ls as [ | l ls IH]; intros es k s; cbn [ply_body]; [ eauto | ].
    destruct (nth_error es k) as [e | ]; [ | eauto ].
    destruct (body_line_total lay k e l s) as [o E]. rewrite E. cbn [bind]. destruct o; [ apply IH | eauto ].
  Qed.

  (** The number of lines. *)
  Definition remaining (es : list ply_element) (k : nat) : nat := list_sum (map count (skipn k es)).
  Lemma next_remaining : forall fuel es k, List.length es - k <= fuel ->
    remaining es (next_element fuel es k) = remaining es k /\
    (nth_error es (next_element fuel es k) = None \/
     exists e, nth_error es (next_element fuel es k) = Some e /\ count e <> 0).
  Proof.
    induction fuel as [ | fuel IH]; intros es k L; cbn [next_element].
    - split; [ reflexivity | ]. left. apply nth_error_None. lia.
    - destruct (nth_error es k) as [e | ] eqn:E; [ | split; [ reflexivity | left; exact E ] ].
      destruct (count e =? 0) eqn:C.
      + apply Nat.eqb_eq in C. destruct (IH es (S k) ltac:(lia)) as [A B]. split; [ | exact B ]. rewrite A.
        unfold remaining. destruct (nth_error_split _ _ E) as (a & b & -> & La). subst k.
        rewrite !skipn_app, Nat.sub_diag. rewrite skipn_all. replace (S (List.length a) - List.length a) with 1 by lia.
        rewrite skipn_all2 by lia. cbn [app skipn map list_sum]. change (list_sum (count e :: map count b)) with (count e + list_sum (map count b)). lia.
      + apply Nat.eqb_neq in C. split; [ reflexivity | ]. right. eauto.
  Qed.
  Lemma body_count : forall lay ls es k s s', body lay ls es k s = Ok (Some s') ->
    (forall e, nth_error es k = Some e -> count e <> 0) ->
    List.length ls = remaining es k.
  Proof.
    intros lay ls. induction ls as [ | l ls IH]; intros es k s s' H N; cbn [ply_body] in H.
    - destruct (k =? List.length es) eqn:E; [ | discriminate ]. apply Nat.eqb_eq in E. subst k.
      unfold remaining. rewrite skipn_all. reflexivity.
    - destruct (nth_error es k) as [e | ] eqn:E; [ | discriminate ].
      destruct (body_line lay k e l s) as [ [s1 | ] | | ]; cbn [bind] in H; try discriminate.
      set (es1 := take_line es k) in *.
      destruct (next_remaining (List.length es1 - k) es1 k ltac:(lia)) as [A B].
      specialize (IH es1 _ s1 s' H).
      rewrite A in IH. cbn [List.length]. rewrite IH.
      + unfold es1, take_line. rewrite E. specialize (N e eq_refl). destruct (nth_error_split _ _ E) as (a & b & -> & La). subst k.
        unfold remaining. set (e1 := mk_element _ _ _).
        assert (T : list_set (a ++ e :: b) (List.length a) e1 = a ++ e1 :: b).
        { clear. induction a as [ | x a IHa]; [ reflexivity | ]. cbn [app List.length list_set]. rewrite IHa. reflexivity. }
        rewrite T. rewrite !skipn_app, !Nat.sub_diag, !skipn_all. cbn [app skipn map].
        change (list_sum (count e1 :: map count b)) with (count e1 + list_sum (map count b)).
        change (list_sum (count e :: map count b)) with (count e + list_sum (map count b)).
        cbn [e1 count]. lia.
      + intros e' E'. destruct B as [B | (e2 & B & C)]; congruence.
  Qed.
End Ply.

Section WritePly.
  Context {P D : Type}.
  Variable parse : text -> option N.
  Variable print : N -> text.
  Variable valid : N -> Prop.
  Variable coords : P -> N * N * N.
  Hypothesis Hf : faithful parse print valid.

  Definition header_words (nv nf : nat) : list (list text) :=
    [[txt "ply"]; [txt "format"; txt "ascii"; txt "1.0"];
     [txt "element"; txt "vertex"; decimal_nat nv];
     [txt "property"; txt "float"; txt "x"]; [txt "property"; txt "float"; txt "y"];
     [txt "property"; txt "float"; txt "z"];
     [txt "element"; txt "face"; decimal_nat nf];
     [txt "property"; txt "list"; txt "uchar"; txt "int"; txt "vertex_index"];
     [txt "end_header"]].
  Lemma header_words_ok : forall nv nf, Forall (Forall word) (header_words nv nf).
  Proof.
    intros nv nf. unfold header_words.
    repeat (apply Forall_cons;
      [ repeat (apply Forall_cons; [ first [ apply decimal_word | split; [ discriminate | repeat constructor ] ] | ]); apply Forall_nil | ]).
    apply Forall_nil.
  Qed.
  Lemma write_ply_file : forall s : soup P D, write_ply print coords s =
    file_of (header_words (num_vertices s) (num_faces s) ++ body_words print coords s).
  Proof.
    intro s. rewrite file_of_app, <- write_body. unfold write_ply, file_of, header_words, line_of. cbn [map concat unwords].
    rewrite <- !app_assoc. cbn [app]. reflexivity.
  Qed.

  Definition vertex_element (n : nat) : ply_element :=
    mk_element (txt "vertex") n [mk_property false (txt "x"); mk_property false (txt "y"); mk_property false (txt "z")].
  Definition face_element (n : nat) : ply_element :=
    mk_element (txt "face") n [mk_property true (txt "vertex_index")].

  Lemma written_header : forall nv nf, size nv -> size nf ->
    ply_header_means (map unwords (header_words nv nf)) [vertex_element nv; face_element nf].
  Proof.
    intros nv nf Sv Sf.
    assert (W : forall ws, In ws (header_words nv nf) -> words (unwords ws) = ws).
    { intros ws I. apply words_unwords. pose proof (header_words_ok nv nf) as K. rewrite Forall_forall in K. apply K. exact I. }
    exists (unwords [txt "ply"]), (unwords [txt "format"; txt "ascii"; txt "1.0"]),
      (map unwords (firstn 6 (skipn 2 (header_words nv nf)))), (unwords [txt "end_header"]), [].
    split; [ | split; [ apply W; cbn; tauto | split; [ apply W; cbn; tauto | split; [ | split; [ apply W; cbn; tauto | ] ] ] ] ].
    - assert (F : forall l, In l (map unwords (header_words nv nf)) -> ply_significant l = true).
      { intros l I. apply in_map_iff in I. destruct I as (ws & <- & I). unfold ply_significant. rewrite (W ws I).
        cbn in I. repeat (destruct I as [<- | I]; [ reflexivity | ]). contradiction. }
      rewrite (filter_true _ _ (map unwords (header_words nv nf))) by (apply Forall_forall; exact F).
      reflexivity.
    - cbn [header_words skipn firstn map].
      refine (de_cons _ [_; _] [_; _; _] (vertex_element nv) [face_element nf] _ Sv _ _).
      + apply W. cbn; tauto.
      + repeat (constructor; [ exists (txt "float"); split; [ discriminate | apply W; cbn; tauto ] | ]). constructor.
      + refine (de_cons _ [] [_] (face_element nf) [] _ Sf _ de_nil).
        * apply W. cbn; tauto.
        * constructor; [ | constructor ]. exists (txt "uchar"), (txt "int"). apply W. cbn; tauto.
    - exists (map unwords (firstn 8 (header_words nv nf))). reflexivity.
  Qed.

  Lemma ply_written : forall s : soup P D,
    Forall (valid_coords valid coords) (points s) ->
    Forall (fun f : face => let '(i, j, k) := f in size i /\ size j /\ size k) (faces s) ->
    size (num_vertices s) -> size (num_faces s) ->
    ply_means parse (write_ply print coords s) (map coords (points s))
      (map (fun f : face => let '(i, j, k) := f in [i; j; k]) (faces s)).
  Proof.
    intros s Hv Hfs Sv Sf.
    exists (map unwords (header_words (num_vertices s) (num_faces s))), [], (vertex_element (num_vertices s)), [],
      (face_element (num_faces s)), [], [],
      (map (fun x => unwords (coord_words print coords x)) (points s)), [],
      (map (fun x => unwords (triangle_words x)) (faces s)), [].
    split; [ | split; [ | split; [ | split; [ | split; [ | split; [ | split ] ] ] ] ] ].
    - rewrite write_ply_file. rewrite <- (app_nil_r (file_of _)), lines_file.
      + cbn [lines]. rewrite app_nil_r, map_app. f_equal. cbn [app]. rewrite app_nil_r. unfold body_words. rewrite map_app, !map_map. reflexivity.
      + apply Forall_app. split; [ apply header_words_ok | ]. apply (body_words_ok parse print valid coords Hf). exact Hv.
    - exact (written_header _ _ Sv Sf).
    - intros e [ ].
    - reflexivity.
    - reflexivity.
    - intros n I. exists (mk_property false n). split; [ | split; reflexivity ].
      destruct I as [<- | [<- | [<- | [ ] ] ] ]; cbn; tauto.
    - eexists. split; [ left; reflexivity | ]. split; [ reflexivity | ]. left. reflexivity.
    - split; [ reflexivity | ]. split; [ apply map_length | ]. split; [ reflexivity | ]. split; [ apply map_length | ].
      split; [ reflexivity | ]. split.
      + clear - Hf Hv. induction Hv as [ | p ps Hp Hps IH]; cbn [map]; constructor; [ | exact IH ].
        destruct (body_vertex parse print valid coords Hf p Hp) as [K _]. unfold vertex_line in K. unfold ply_vertex_line.
        destruct (coords p) as [ [x y] z]. destruct K as (a & b & c & more & W & Ha & Hb & Hc).
        exists [[a]; [b]; [c]], a, b, c.
        assert (D1 : forall a b : text, a <> b -> ~ (In a [b] /\ false = false)) by (intros u v N [ [E | [ ] ] _]; congruence).
        split; [ | split; [ | split; [ exact Ha | split; [ | split; [ exact Hb | split; [ | exact Hc ] ] ] ] ] ].
        * split; [ | exists more; exact W ]. repeat (constructor; [ eexists; reflexivity | ]). constructor.
        * apply vo_here; [ left; reflexivity | reflexivity ].
        * apply vo_later; [ apply D1; discriminate | ]. apply vo_here; [ left; reflexivity | reflexivity ].
        * apply vo_later; [ apply D1; discriminate | ]. apply vo_later; [ apply D1; discriminate | ]. apply vo_here; [ left; reflexivity | reflexivity ].
      + clear - Hfs. induction Hfs as [ | f fs Hp Hps IH]; cbn [map]; constructor; [ | exact IH ].
        destruct (body_face f Hp) as [ (K1 & K2 & more & W) _]. split; [ exact K1 | ]. split; [ exact K2 | ].
        destruct f as [ [i j] k]. exists [[decimal_nat 3; decimal_nat i; decimal_nat j; decimal_nat k]]. split.
        * split; [ | exists more; exact W ]. constructor; [ | constructor ].
          exists [decimal_nat i; decimal_nat j; decimal_nat k]. split; [ vm_compute; reflexivity | reflexivity ].
        * apply vo_here; [ left; reflexivity | reflexivity ].
  Qed.
End WritePly.
