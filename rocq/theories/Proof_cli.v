(** * Lemmas on the command line program *)
From Coq Require Import Ascii String NArith List Arith Bool Lia.
From Verif Require Import Model_base Proof_base Model_soup Model_boolean Model_binary Model_text Model_cli Spec_cli.
Import ListNotations.
Local Open Scope nat_scope.

Lemma text_eqb_eq : forall a c, text_eqb a c = true <-> a = c.
Proof.
  induction a as [ | x a IH]; intros [ | y c]; cbn [text_eqb]; try (split; intro; congruence).
  rewrite andb_true_iff, Ascii.eqb_eq, IH. split; [ intros [-> ->]; reflexivity | intro E; injection E; auto ].
Qed.

Lemma seq_ok : forall A B (m : cmd A) (k : A -> cmd B) w r w',
  seq_cmd m k w = (Ok r, w') <-> exists a w1, m w = (Ok a, w1) /\ k a w1 = (Ok r, w').
Proof.
  intros A B m k w r w'. unfold seq_cmd. destruct (m w) as [ [a | e | ] w1]; split.
  - intro H. exists a, w1. auto.
  - intros (a' & w1' & E & H). injection E as <- <-. exact H.
  - intro H; discriminate.
  - intros (a' & w1' & E & H). discriminate.
  - intro H; discriminate.
  - intros (a' & w1' & E & H). discriminate.
Qed.
Lemma lift_ok : forall A (r : res A) w a w', lift r w = (Ok a, w') <-> r = Ok a /\ w' = w.
Proof. intros A r w a w'. unfold lift. split; [ intro H; injection H; auto | intros [-> ->]; reflexivity ]. Qed.

Section Proofs.
  Variable b : backend.
  Variable to_interval : QArith_base.Q -> interval.
  Variable parse : text -> option N.
  Variable print : N -> text.
  Variable to_doubles : lazy_point -> N * N * N.
  Variable parse_boolean : list text -> option boolean_options.
  Variable parse_convert : list text -> option (text * text).
  Variable parse_defects : list text -> option text.
  Variable mix : soup lazy_point unit -> soup lazy_point unit -> res (soup lazy_point (mixed_data unit) * N).
  Variable find_defects : soup lazy_point unit -> res unit.
  Variable device : nat -> text -> write_outcome.
  Notation read_region := (read_region b to_interval parse).
  Notation write_region := (write_region b print to_doubles device).
  Notation content_for := (content_for b print to_doubles).
  Notation write_outputs := (write_outputs b print to_doubles device).
  Notation write_file := (write_file device).

  (** Reading leaves files alone. *)
  Lemma reading : forall name r w x w', read_region name r w = (x, w') -> files w' = files w /\ attempts w' = attempts w.
  Proof.
    intros name r w x w' H. unfold Model_cli.read_region in H.
    destruct (text_eqb name (txt ":empty:")); [ injection H as _ <-; auto | ].
    destruct (text_eqb name (txt ":full:")); [ injection H as _ <-; auto | ].
    destruct (ends_with name (txt ".kigumi")).
    - unfold read_kigumi_file in H. destruct (files w name) as [bytes | ]; [ | injection H as _ <-; auto ].
      destruct (read_kigumi_region _ _ _ _ _ _) as [ [y s] | | ]; injection H as _ <-; auto.
    - assert (K : forall s y w1, read_triangle_soup parse name s w = (y, w1) -> w1 = w).
      { intros s y w1 E. unfold read_triangle_soup in E.
        destruct (ends_with name (txt ".obj")), (ends_with name (txt ".off")), (ends_with name (txt ".ply")), (files w name); injection E; auto. }
      unfold seq_cmd in H. destruct (read_triangle_soup parse name empty_soup w) as [y w1] eqn:E. apply K in E. subst w1.
      destruct y as [ [ [ | ] s] | | ]; cbn [fst snd] in H; unfold lift, ret in H; try (injection H as _ <-; auto; fail).
      destruct (region_of_soup s); injection H as _ <-; auto.
  Qed.

  Lemma write_file_other : forall name c w x w', write_file name c w = (x, w') -> forall f, f <> name -> files w' f = files w f.
  Proof.
    intros name c w x w' H f N. unfold Model_cli.write_file in H.
    assert (E : text_eqb f name = false) by (apply not_true_iff_false; rewrite text_eqb_eq; exact N).
    destruct (device (attempts w) name) as [ | n noticed | ], c as [bytes | | ]; injection H as _ <-; cbn [files]; rewrite ?E; reflexivity.
  Qed.
  Lemma write_region_other : forall name r w x w', write_region name r w = (x, w') -> forall f, f <> name -> files w' f = files w f.
  Proof.
    intros name r w x w' H f N. unfold Model_cli.write_region in H. destruct (content_for name r); [ eapply write_file_other; eassumption | ].
    injection H as _ <-. reflexivity.
  Qed.

  (** A successful write. *)
  Definition stored_by (o : write_outcome) (bytes : list Init.Byte.byte) : list Init.Byte.byte :=
    match o with Stops n _ => firstn n bytes | _ => bytes end.
  Definition after (w : world) (name : text) (bytes : list Init.Byte.byte) : world :=
    mk_world (fun f => if text_eqb f name then Some (stored_by (device (attempts w) name) bytes) else files w f) (attempts w + 1) (buf w).
  Lemma write_region_ok : forall name r w w',
    write_region name r w = (Ok true, w') <->
    exists bytes, content_for name r = Some (Ok bytes) /\ looks_good (device (attempts w) name) /\ w' = after w name bytes.
  Proof.
    intros name r w w'. unfold Model_cli.write_region, looks_good, after. split.
    - destruct (content_for name r) as [c | ]; [ | intro H; discriminate ]. intro H. unfold Model_cli.write_file in H.
      destruct (device (attempts w) name) as [ | n [ | ] | ] eqn:E, c as [bytes | | ]; try discriminate; injection H as <-; exists bytes; cbn [stored_by]; eauto 6.
    - intros (bytes & -> & L & ->). unfold Model_cli.write_file. destruct L as [-> | [n ->] ]; reflexivity.
  Qed.

  (** A successful sequence of outputs. *)
  Inductive written (bd : @builder lazy_point unit) : world -> list (boolean_operator * text) -> world -> Prop :=
  | written_nil : forall w, written bd w [] w
  | written_cons : forall w op f bytes l w',
      result_file b print to_doubles bd op f bytes -> looks_good (device (attempts w) f) ->
      written bd (after w f bytes) l w' -> written bd w ((op, f) :: l) w'.
  Definition asked (l : list (boolean_operator * option text)) : list (boolean_operator * text) :=
    flat_map (fun x => match snd x with Some f => [(fst x, f)] | None => [] end) l.

  Lemma outputs_ok : forall bd l w w', write_outputs bd l w = (Ok tt, w') <-> written bd w (asked l) w'.
  Proof.
    intros bd l. induction l as [ | [op [f | ] ] l IH]; intros w w'; cbn [Model_cli.write_outputs asked flat_map fst snd app].
    - split; [ intro H; injection H as <-; constructor | intro H; inversion H; subst; reflexivity ].
    - fold (asked l). rewrite seq_ok. split.
      + intros (r & w1 & E1 & H). apply lift_ok in E1. destruct E1 as [E1 ->]. apply seq_ok in H. destruct H as (g & w2 & E2 & H).
        destruct g; [ | discriminate ]. apply write_region_ok in E2. destruct E2 as (bytes & Ec & L & ->). apply IH in H.
        econstructor; [ exists r; eauto | exact L | exact H ].
      + intro H. inversion H as [ | ? ? ? bytes ? ? (r & Er & Ec) L Hw]; subst. exists r, w. split; [ apply lift_ok; auto | ].
        apply seq_ok. exists true, (after w f bytes). split; [ apply write_region_ok; eauto | ]. apply IH. exact Hw.
    - apply IH.
  Qed.
  Lemma asked_outputs : forall o, asked (outputs o) = requests o.
  Proof. intros o. unfold asked, outputs, requests. cbn [flat_map fst snd]. rewrite app_nil_r. reflexivity. Qed.

  Lemma written_each : forall bd w l w', written bd w l w' <->
    (forall i op f, nth_error l i = Some (op, f) ->
       looks_good (device (attempts w + i) f) /\ exists bytes, result_file b print to_doubles bd op f bytes) /\
    written bd w l w'.
  Proof.
    intros bd w l w'. split; [ | tauto ]. intro H. split; [ | exact H ]. induction H as [ | w op f bytes l w' R L Hw IH]; intros i op' f' E.
    - destruct i; discriminate.
    - destruct i as [ | i].
      + cbn in E. injection E as <- <-. rewrite Nat.add_0_r. eauto.
      + cbn [nth_error] in E. destruct (IH i op' f' E) as [A B]. cbn [after attempts] in A. split; [ | exact B ]. replace (attempts w + S i) with (attempts w + 1 + i) by lia. exact A.
  Qed.
  Lemma written_exists : forall bd l w,
    (forall i op f, nth_error l i = Some (op, f) ->
       looks_good (device (attempts w + i) f) /\ exists bytes, result_file b print to_doubles bd op f bytes) ->
    exists w', written bd w l w'.
  Proof.
    intros bd l. induction l as [ | [op f] l IH]; intros w H; [ exists w; constructor | ].
    destruct (H 0 op f eq_refl) as [L (bytes & R)]. rewrite Nat.add_0_r in L.
    destruct (IH (after w f bytes)) as (w' & Hw).
    - intros i op' f' E. cbn [after attempts]. replace (attempts w + 1 + i) with (attempts w + S i) by lia. apply (H (S i) op' f' E).
    - exists w'. econstructor; eassumption.
  Qed.
  Lemma written_other : forall bd w l w', written bd w l w' -> forall f, (forall op, ~ In (op, f) l) -> files w' f = files w f.
  Proof.
    intros bd w l w' H f. induction H as [ | w op g bytes l w' R L Hw IH]; intro N; [ reflexivity | ].
    rewrite IH by (intros op' I; apply (N op'); right; exact I). cbn [after files].
    destruct (text_eqb f g) eqn:E; [ | reflexivity ]. apply text_eqb_eq in E. subst g. elim (N op). left. reflexivity.
  Qed.
  Lemma written_last : forall bd w l w', reported device -> written bd w l w' ->
    forall pre op f post, l = pre ++ (op, f) :: post -> (forall op', ~ In (op', f) post) ->
    exists bytes, result_file b print to_doubles bd op f bytes /\ files w' f = Some bytes.
  Proof.
    intros bd w l w' Hd H. induction H as [ | w op0 g bytes l w' R L Hw IH]; intros pre op f post E N.
    - destruct pre; discriminate.
    - destruct pre as [ | x pre]; cbn [app] in E.
      + injection E as -> -> ->. exists bytes. split; [ exact R | ]. rewrite (written_other _ _ _ _ Hw f N). cbn [after files].
        rewrite (proj2 (text_eqb_eq _ _) eq_refl). destruct L as [-> | [n Ln] ]; [ reflexivity | elim (Hd _ _ _ Ln) ].
      + injection E as _ E. exact (IH _ _ _ _ E N).
  Qed.

  Lemma outputs_other : forall bd l w x w', write_outputs bd l w = (x, w') -> forall f, (forall op, ~ In (op, f) (asked l)) -> files w' f = files w f.
  Proof.
    intros bd l. induction l as [ | [op [g | ] ] l IH]; intros w x w' H f N; cbn [Model_cli.write_outputs] in H.
    - injection H as _ <-. reflexivity.
    - unfold seq_cmd in H. unfold lift at 1 in H. destruct (Model_boolean.run tt bd op true) as [r | | ]; try (injection H as _ <-; reflexivity).
      destruct (write_region g (stored_of r) w) as [y w1] eqn:E. assert (F : files w1 f = files w f).
      { apply (write_region_other _ _ _ _ _ E). intros ->. apply (N op). cbn. left. reflexivity. }
      destruct y as [ [ | ] | | ]; try (injection H as _ <-; exact F). rewrite (IH _ _ _ H); [ exact F | ]. intros op' I. apply (N op'). cbn. right. exact I.
    - apply (IH _ _ _ H). exact N.
  Qed.
End Proofs.
