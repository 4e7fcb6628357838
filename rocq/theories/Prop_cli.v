(** * C39: the command line program *)
From Coq Require Import Ascii String NArith List Arith Bool Lia.
From Verif Require Import Model_base Proof_base Model_soup Model_boolean Model_binary Spec_binary Prop_binary Model_text Model_cli Spec_cli Proof_cli.
Import ListNotations.
Local Open Scope nat_scope.

(** kigumi boolean: the exit status is 0 exactly if the arguments are understood, both
    operands can be read and combined, and for every requested output the result
    of the operator exists, the format is known and the stream is good after writing. *)
Theorem C39_boolean_status : forall b to_interval parse print to_doubles parse_boolean parse_convert parse_defects
    mix find_defects device args w,
  (exists w', main b to_interval parse print to_doubles parse_boolean parse_convert parse_defects mix find_defects device
     (txt "boolean" :: args) w = (Ok 0, w')) <->
  (exists o bd, parse_boolean args = Some o /\ operands b to_interval parse mix o w bd /\
     forall i op f, nth_error (requests o) i = Some (op, f) ->
       looks_good (device (attempts w + i) f) /\ exists bytes, result_file b print to_doubles bd op f bytes).
Proof.
  intros b ti parse print td pb pc pd mix fd device args w. unfold main.
  change (text_eqb (txt "boolean") (txt "boolean")) with true. cbv iota. unfold exit_status. split.
  - intros (w' & H). destruct (boolean_command b ti parse print td pb mix device args w) as [ [ [ ] | | ] w1] eqn:E; try discriminate. injection H as <-.
    unfold boolean_command in E. destruct (pb args) as [o | ]; [ | discriminate ]. apply seq_ok in E. destruct E as ([g1 r1] & wa & E1 & E). cbn [fst snd] in E. destruct g1; [ cbn [negb] in E | discriminate ].
    apply seq_ok in E. destruct E as ([g2 r2] & wb & E2 & E). cbn [fst snd] in E. destruct g2; [ cbn [negb] in E | discriminate ].
    apply seq_ok in E. destruct E as (bd & wc & E3 & E). apply lift_ok in E3. destruct E3 as [E3 ->].
    apply outputs_ok in E. rewrite asked_outputs in E. apply written_each in E. destruct E as [E _].
    destruct (reading _ _ _ _ _ _ _ _ E1) as [_ A1]. destruct (reading _ _ _ _ _ _ _ _ E2) as [_ A2].
    exists o, bd. split; [ reflexivity | ]. split; [ exists r1, wa, r2, wb; auto | ]. intros i op f Hi. specialize (E i op f Hi). rewrite A2, A1 in E. exact E.
  - intros (o & bd & Ho & (r1 & w1 & r2 & w2 & E1 & E2 & E3) & F).
    destruct (reading _ _ _ _ _ _ _ _ E1) as [_ A1]. destruct (reading _ _ _ _ _ _ _ _ E2) as [_ A2].
    destruct (written_exists b print td device bd (requests o) w2) as (w' & Hw).
    { intros i op f Hi. rewrite A2, A1. exact (F i op f Hi). }
    exists w'. assert (E : boolean_command b ti parse print td pb mix device args w = (Ok tt, w')); [ | rewrite E; reflexivity ].
    unfold boolean_command. rewrite Ho. apply seq_ok. exists (true, r1), w1. split; [ exact E1 | ]. cbn [fst snd negb].
    apply seq_ok. exists (true, r2), w2. split; [ exact E2 | ]. cbn [fst snd negb].
    apply seq_ok. exists bd, w2. split; [ apply lift_ok; auto | ]. apply outputs_ok. rewrite asked_outputs. exact Hw.
Qed.
Print Assumptions C39_boolean_status.

(** The operands ":empty:" and ":full:" are the empty set and the whole space, without any
    file; other names are files, with a known extension. *)
Theorem C39_operand_names : forall b to_interval parse name w,
  (name = txt ":empty:" -> exists r, read_region b to_interval parse name fresh w = (Ok (true, r), w) /\
     kind (region_of_stored r) = EMPTY) /\
  (name = txt ":full:" -> exists r, read_region b to_interval parse name fresh w = (Ok (true, r), w) /\
     kind (region_of_stored r) = FULL) /\
  (forall r w', read_region b to_interval parse name fresh w = (Ok (true, r), w') ->
     name = txt ":empty:" \/ name = txt ":full:" \/
     (exists bytes, files w name = Some bytes) /\
     exists e, In e [txt ".kigumi"; txt ".obj"; txt ".off"; txt ".ply"] /\ ends_with name e = true).
Proof.
  intros b ti parse name w. split; [ | split ].
  - intros ->. eexists. split; reflexivity.
  - intros ->. eexists. split; reflexivity.
  - intros r w' H. unfold read_region in H.
    destruct (text_eqb name (txt ":empty:")) eqn:E1; [ left; now apply text_eqb_eq | right ].
    destruct (text_eqb name (txt ":full:")) eqn:E2; [ left; now apply text_eqb_eq | right ].
    destruct (ends_with name (txt ".kigumi")) eqn:E3.
    + unfold read_kigumi_file in H. destruct (files w name) as [ bytes | ]; [ | discriminate ].
      split; [ eauto | ]. eexists. split; [ left; reflexivity | exact E3 ].
    + apply seq_ok in H. destruct H as ([g t] & w1 & H1 & H2). cbn [fst snd] in H2. destruct g; [ | discriminate ].
      unfold read_triangle_soup in H1. destruct (files w name) as [ bytes | ].
      * split; [ eauto | ]. destruct (ends_with name (txt ".obj")) eqn:E4; [ | destruct (ends_with name (txt ".off")) eqn:E5;
          [ | destruct (ends_with name (txt ".ply")) eqn:E6; [ | discriminate ] ] ];
          (eexists; split; [ | eassumption ]); cbn; auto.
      * destruct (ends_with name (txt ".obj")), (ends_with name (txt ".off")), (ends_with name (txt ".ply")); discriminate.
Qed.
Print Assumptions C39_operand_names.

(** Provided that write failures are noticed before the file is closed: after status 0,
    every requested file holds the result of the operator of its option (the last such
    option if a file is named twice), and no other file has changed.  What is missing: failures
    of the operating system when the buffer is emptied by the destructor, see below. *)
Theorem C39_boolean_files_partial : forall b to_interval parse print to_doubles parse_boolean parse_convert parse_defects
    mix find_defects device args w w',
  reported device ->
  main b to_interval parse print to_doubles parse_boolean parse_convert parse_defects mix find_defects device
     (txt "boolean" :: args) w = (Ok 0, w') ->
  exists o bd, parse_boolean args = Some o /\ operands b to_interval parse mix o w bd /\
    (forall pre op f post, requests o = pre ++ (op, f) :: post -> (forall op', ~ In (op', f) post) ->
       exists bytes, result_file b print to_doubles bd op f bytes /\ files w' f = Some bytes) /\
    (forall f, (forall op, ~ In (op, f) (requests o)) -> files w' f = files w f).
Proof.
  intros b ti parse print td pb pc pd mix fd device args w w' Hd H. unfold main in H.
  change (text_eqb (txt "boolean") (txt "boolean")) with true in H. cbv iota in H. unfold exit_status in H.
  destruct (boolean_command b ti parse print td pb mix device args w) as [ [ [ ] | | ] w1] eqn:E; try discriminate. injection H as <-.
  unfold boolean_command in E. destruct (pb args) as [o | ]; [ | discriminate ]. apply seq_ok in E. destruct E as ([g1 r1] & wa & E1 & E). cbn [fst snd] in E. destruct g1; [ cbn [negb] in E | discriminate ].
  apply seq_ok in E. destruct E as ([g2 r2] & wb & E2 & E). cbn [fst snd] in E. destruct g2; [ cbn [negb] in E | discriminate ].
  apply seq_ok in E. destruct E as (bd & wc & E3 & E). apply lift_ok in E3. destruct E3 as [E3 ->].
  apply outputs_ok in E. rewrite asked_outputs in E.
  destruct (reading _ _ _ _ _ _ _ _ E1) as [A1 _]. destruct (reading _ _ _ _ _ _ _ _ E2) as [A2 _].
  exists o, bd. split; [ reflexivity | ]. split; [ exists r1, wa, r2, wb; auto | ]. split.
  - intros pre op f post Er N. exact (written_last _ _ _ _ _ _ _ _ Hd E _ _ _ _ Er N).
  - intros f N. rewrite (written_other _ _ _ _ _ _ _ _ E f N), A2, A1. reflexivity.
Qed.
Print Assumptions C39_boolean_files_partial.

(** Whatever happens, failures included, only files named by an output option change. *)
Theorem C39_only_requested : forall b to_interval parse print to_doubles parse_boolean parse_convert parse_defects
    mix find_defects device args w st w' f,
  main b to_interval parse print to_doubles parse_boolean parse_convert parse_defects mix find_defects device args w = (st, w') ->
  files w' f <> files w f ->
  (exists rest o op, args = txt "boolean" :: rest /\ parse_boolean rest = Some o /\ In (op, f) (requests o)) \/
  (exists rest input, args = txt "convert" :: rest /\ parse_convert rest = Some (input, f)).
Proof.
  intros b ti parse print td pb pc pd mix fd device args w st w' f H N.
  destruct args as [ | c args]; cbn [main] in H; [ injection H as _ <-; elim N; reflexivity | ].
  destruct (text_eqb c (txt "boolean")) eqn:Ec; [ | destruct (text_eqb c (txt "convert")) eqn:Ed; [ | destruct (text_eqb c (txt "defects")) eqn:Ee ] ].
  - apply text_eqb_eq in Ec. subst c. left. assert (E : exists y, boolean_command b ti parse print td pb mix device args w = (y, w')).
    { unfold exit_status in H. destruct (boolean_command b ti parse print td pb mix device args w) as [ [ | | ] w1]; injection H as _ <-; eauto. }
    destruct E as (y & E). unfold boolean_command in E. destruct (pb args) as [o | ] eqn:Epb; [ | injection E as _ <-; elim N; reflexivity ].
    assert (D : (exists op, In (op, f) (requests o)) \/ forall op, ~ In (op, f) (requests o)).
    { induction (requests o) as [ | [op g] l IH]; [ right; intros ? [ ] | ]. destruct (text_eqb g f) eqn:Eg.
      - apply text_eqb_eq in Eg. subst g. left. exists op. left. reflexivity.
      - destruct IH as [ [op' I] | I]; [ left; exists op'; right; exact I | right; intros op' [J | J]; [ | exact (I _ J) ] ]. injection J as _ ->. rewrite (proj2 (text_eqb_eq _ _) eq_refl) in Eg. discriminate. }
    destruct D as [ [op D] | D]; [ exists args, o, op; auto | ]. exfalso. apply N. unfold seq_cmd in E.
    destruct (read_region b ti parse (first o) fresh w) as [y1 w1] eqn:E1. destruct (reading _ _ _ _ _ _ _ _ E1) as [A1 _]. rewrite <- A1.
    destruct y1 as [ [g1 r1] | | ]; try (injection E as _ <-; reflexivity). cbn [fst snd] in E. destruct g1; cbn [negb] in E; [ | injection E as _ <-; reflexivity ].
    destruct (read_region b ti parse (second o) fresh w1) as [y2 w2] eqn:E2. destruct (reading _ _ _ _ _ _ _ _ E2) as [A2 _]. rewrite <- A2.
    destruct y2 as [ [g2 r2] | | ]; try (injection E as _ <-; reflexivity). cbn [fst snd] in E. destruct g2; cbn [negb] in E; [ | injection E as _ <-; reflexivity ].
    unfold lift in E. destruct (build mix (region_of_stored r1) (region_of_stored r2)) as [bd | | ]; try (injection E as _ <-; reflexivity).
    apply (outputs_other _ _ _ _ _ _ _ _ _ E). rewrite asked_outputs. exact D.
  - apply text_eqb_eq in Ed. subst c. right. assert (E : exists y, convert_command b ti parse print td pc device args w = (y, w')).
    { unfold exit_status in H. destruct (convert_command b ti parse print td pc device args w) as [ [ | | ] w1]; injection H as _ <-; eauto. }
    destruct E as (y & E). unfold convert_command in E. destruct (pc args) as [ [i o] | ] eqn:Epc; [ | injection E as _ <-; elim N; reflexivity ].
    exists args, i. split; [ reflexivity | ]. rewrite Epc. f_equal. f_equal. destruct (text_eqb f o) eqn:Eo; [ apply text_eqb_eq in Eo; auto | ].
    assert (No : f <> o) by (intros ->; rewrite (proj2 (text_eqb_eq _ _) eq_refl) in Eo; discriminate). exfalso. apply N. unfold seq_cmd in E.
    destruct (read_region b ti parse i fresh w) as [y1 w1] eqn:E1. destruct (reading _ _ _ _ _ _ _ _ E1) as [A1 _]. rewrite <- A1.
    destruct y1 as [ [g1 r1] | | ]; try (injection E as _ <-; reflexivity). cbn [fst snd] in E. destruct g1; cbn [negb] in E; [ | injection E as _ <-; reflexivity ].
    destruct (write_region b print td device o r1 w1) as [y2 w2] eqn:E2. rewrite <- (write_region_other _ _ _ _ _ _ _ _ _ E2 f No).
    destruct y2 as [ [ | ] | | ]; injection E as _ <-; reflexivity.
  - exfalso. apply N. unfold exit_status, defects_command, seq_cmd, throw, lift in H. destruct (pd args) as [i | ]; [ | injection H as _ <-; reflexivity ].
    destruct (read_region b ti parse i fresh w) as [y1 w1] eqn:E1. destruct (reading _ _ _ _ _ _ _ _ E1) as [A1 _]. rewrite <- A1.
    destruct y1 as [ [g1 r1] | | ]; try (injection H as _ <-; reflexivity). cbn [fst snd] in H. destruct g1; cbn [negb] in H; [ | injection H as _ <-; reflexivity ].
    destruct (fd (stored_soup r1)); injection H as _ <-; reflexivity.
  - injection H as _ <-. elim N. reflexivity.
Qed.
Print Assumptions C39_only_requested.

(** Without a known command, or without any, the status is 1 and nothing is written. *)
Theorem C39_no_command : forall b to_interval parse print to_doubles parse_boolean parse_convert parse_defects
    mix find_defects device args w,
  (forall rest, args <> txt "boolean" :: rest /\ args <> txt "convert" :: rest /\ args <> txt "defects" :: rest) ->
  main b to_interval parse print to_doubles parse_boolean parse_convert parse_defects mix find_defects device args w = (Ok 1, w).
Proof.
  intros b ti parse print td pb pc pd mix fd device [ | c args] w H; [ reflexivity | ]. cbn [main]. destruct (H args) as (H1 & H2 & H3).
  destruct (text_eqb c (txt "boolean")) eqn:E1; [ apply text_eqb_eq in E1; subst c; elim H1; reflexivity | ].
  destruct (text_eqb c (txt "convert")) eqn:E2; [ apply text_eqb_eq in E2; subst c; elim H2; reflexivity | ].
  destruct (text_eqb c (txt "defects")) eqn:E3; [ apply text_eqb_eq in E3; subst c; elim H3; reflexivity | ]. reflexivity.
Qed.
Print Assumptions C39_no_command.

(** kigumi convert: status 0 exactly if the input can be read, the format of the output is known and its
    stream is good after writing. *)
Theorem C39_convert_status : forall b to_interval parse print to_doubles parse_boolean parse_convert parse_defects
    mix find_defects device args w,
  (exists w', main b to_interval parse print to_doubles parse_boolean parse_convert parse_defects mix find_defects device
     (txt "convert" :: args) w = (Ok 0, w')) <->
  (exists input output r w1 bytes, parse_convert args = Some (input, output) /\
     read_region b to_interval parse input fresh w = (Ok (true, r), w1) /\
     content_for b print to_doubles output r = Some (Ok bytes) /\ looks_good (device (attempts w) output)).
Proof.
  intros b ti parse print td pb pc pd mix fd device args w. unfold main.
  change (text_eqb (txt "convert") (txt "boolean")) with false. change (text_eqb (txt "convert") (txt "convert")) with true. cbv iota. unfold exit_status. split.
  - intros (w' & H). destruct (convert_command b ti parse print td pc device args w) as [ [ [ ] | | ] w1] eqn:E; try discriminate. injection H as <-.
    unfold convert_command in E. destruct (pc args) as [ [i o] | ]; [ | discriminate ]. apply seq_ok in E. destruct E as ([g1 r1] & wa & E1 & E). cbn [fst snd] in E. destruct g1; [ cbn [negb] in E | discriminate ].
    apply seq_ok in E. destruct E as (g2 & wb & E2 & E). destruct g2; [ | discriminate ]. apply write_region_ok in E2. destruct E2 as (bytes & Ec & L & _).
    destruct (reading _ _ _ _ _ _ _ _ E1) as [_ A1]. rewrite A1 in L. eauto 10.
  - intros (i & o & r & w1 & bytes & Hp & E1 & Ec & L). destruct (reading _ _ _ _ _ _ _ _ E1) as [_ A1].
    exists (after device w1 o bytes). assert (E : convert_command b ti parse print td pc device args w = (Ok tt, after device w1 o bytes)); [ | rewrite E; reflexivity ].
    unfold convert_command. rewrite Hp. apply seq_ok. exists (true, r), w1. split; [ exact E1 | ]. cbn [fst snd negb].
    apply seq_ok. exists true, (after device w1 o bytes). split; [ | reflexivity ]. apply write_region_ok. exists bytes. rewrite A1. auto.
Qed.
Print Assumptions C39_convert_status.

(** Converting to .kigumi keeps the region: what is read from the output afterwards is what was read
    from the input. *)
Theorem C39_convert_back_partial : forall b to_interval parse print to_doubles parse_boolean parse_convert parse_defects
    mix find_defects device args w w' input output r w1,
  reported device ->
  parse_convert args = Some (input, output) -> ends_with output (txt ".kigumi") = true ->
  read_region b to_interval parse input fresh w = (Ok (true, r), w1) -> valid_region r ->
  main b to_interval parse print to_doubles parse_boolean parse_convert parse_defects mix find_defects device
     (txt "convert" :: args) w = (Ok 0, w') ->
  exists r' w2, read_region b to_interval parse output fresh w' = (Ok (true, r'), w2) /\ same_region r r'.
Proof.
  intros b ti parse print td pb pc pd mix fd device args w w' i o r w1 Hd Hp He Hr Hv H. unfold main in H.
  change (text_eqb (txt "convert") (txt "boolean")) with false in H. change (text_eqb (txt "convert") (txt "convert")) with true in H. cbv iota in H. unfold exit_status in H.
  destruct (convert_command b ti parse print td pc device args w) as [ [ [ ] | | ] w3] eqn:E; try discriminate. injection H as <-.
  unfold convert_command in E. rewrite Hp in E. apply seq_ok in E. destruct E as ([g1 r1] & wa & E1 & E). rewrite Hr in E1. injection E1 as <- <- <-. cbn [fst snd negb] in E.
  apply seq_ok in E. destruct E as (g2 & wb & E2 & E). destruct g2; [ | discriminate ]. injection E as <-. apply write_region_ok in E2. destruct E2 as (bytes & Ec & L & ->).
  unfold content_for in Ec. rewrite He in Ec. injection Ec as Ec.
  assert (Hc : good_codec write_null read_null). { exact C25_null_codec. }
  destruct (C25_round_trip unit b tt write_null read_null ti r bytes [] (buf w1) Hc Hv Ec) as (r' & buf' & Er & S).
  assert (Ne : text_eqb o (txt ":empty:") = false).
  { apply not_true_iff_false. rewrite text_eqb_eq. intros ->. vm_compute in He. discriminate. }
  assert (Nf : text_eqb o (txt ":full:") = false).
  { apply not_true_iff_false. rewrite text_eqb_eq. intros ->. vm_compute in He. discriminate. }
  exists r'. eexists. split; [ | exact S ]. unfold read_region. rewrite Ne, Nf, He. unfold read_kigumi_file. cbn [after files buf attempts]. rewrite (proj2 (text_eqb_eq _ _) eq_refl).
  assert (Es : stored_by (device (attempts w1) o) bytes = bytes). { destruct L as [-> | [n Ln] ]; [ reflexivity | elim (Hd _ _ _ Ln) ]. }
  rewrite Es. rewrite app_nil_r in Er. rewrite Er. reflexivity.
Qed.
Print Assumptions C39_convert_back_partial.

(** The claim "status 0 exactly if all outputs were written" is false: a failure that only shows
    when the buffer is emptied by the destructor is not reported. *)
Theorem C39_status_refuted : forall b to_interval parse print to_doubles parse_boolean parse_defects mix find_defects w,
  let device := fun _ _ => Stops 0 false in
  let parse_convert := fun _ => Some (txt ":full:", txt "a.kigumi") in
  exists w', main b to_interval parse print to_doubles parse_boolean parse_convert parse_defects mix find_defects device
     [txt "convert"; txt ":full:"; txt "a.kigumi"] w = (Ok 0, w') /\
    files w' (txt "a.kigumi") = Some [] /\
    content_for b print to_doubles (txt "a.kigumi") (stored_of region_full) <> Some (Ok []).
Proof.
  intros b ti parse print td pb pd mix fd w device pc. eexists. split; [ reflexivity | ]. split; [ reflexivity | ]. discriminate.
Qed.
Print Assumptions C39_status_refuted.

(** Converting an empty or full region to a mesh format reports success, but the region is lost: the file cannot
    be converted back. *)
Theorem C39_kind_lost_refuted : forall b to_interval parse print to_doubles parse_boolean parse_defects mix find_defects w,
  let device := fun _ _ => Writes in
  let there := fun _ => Some (txt ":full:", txt "a.off") in
  let back := fun _ => Some (txt "a.off", txt "b.kigumi") in
  exists w' w'',
    main b to_interval parse print to_doubles parse_boolean there parse_defects mix find_defects device
      [txt "convert"; txt ":full:"; txt "a.off"] w = (Ok 0, w') /\
    main b to_interval parse print to_doubles parse_boolean back parse_defects mix find_defects device
      [txt "convert"; txt "a.off"; txt "b.kigumi"] w' = (Ok 1, w'').
Proof.
  intros b ti parse print td pb pd mix fd w device there back. do 2 eexists. split; [ reflexivity | ]. reflexivity.
Qed.
Print Assumptions C39_kind_lost_refuted.

(** A run that meets the hypotheses: the difference and the union of the full and the empty region. *)
Example C39_run : forall b to_interval parse print to_doubles parse_convert parse_defects mix find_defects,
  let device := fun _ _ => Writes in
  let o := mk_options (txt ":full:") (txt ":empty:") None (Some (txt "d.kigumi")) None (Some (txt "u.off")) in
  let parse_boolean := fun _ : list text => Some o in
  let w := mk_world (fun _ => None) 0 [] in
  reported device /\
  requests o = [(op_UNION, txt "u.off"); (op_DIFFERENCE, txt "d.kigumi")] /\
  exists w', main b to_interval parse print to_doubles parse_boolean parse_convert parse_defects mix find_defects device
    [txt "boolean"; txt ":full:"; txt ":empty:"; txt "--dif"; txt "d.kigumi"; txt "--uni"; txt "u.off"] w = (Ok 0, w') /\
    files w' (txt "u.off") = Some (bytes_of (txt "OFF" ++ [newline] ++ txt "0 0 0" ++ [newline])) /\
    (exists bytes, files w' (txt "d.kigumi") = Some (Init.Byte.x01 :: bytes)) /\
    files w' (txt "i.off") = None.
Proof.
  intros b ti parse print td pc pd mix fd device o pb w. split; [ discriminate | ]. split; [ reflexivity | ].
  eexists. split; [ reflexivity | ]. split; [ reflexivity | ]. split; [ eexists; reflexivity | reflexivity ].
Qed.

(** And for conversion. *)
Example C39_convert_run : forall b to_interval parse print to_doubles parse_boolean parse_defects mix find_defects,
  let device := fun _ _ => Writes in
  let parse_convert := fun _ : list text => Some (txt ":full:", txt "a.kigumi") in
  let w := mk_world (fun _ => None) 0 [] in
  reported device /\ ends_with (txt "a.kigumi") (txt ".kigumi") = true /\ valid_region (stored_of (@region_full lazy_point unit)) /\
  read_region b to_interval parse (txt ":full:") fresh w = (Ok (true, stored_of region_full), w) /\
  exists w', main b to_interval parse print to_doubles parse_boolean parse_convert parse_defects mix find_defects device
    [txt "convert"; txt ":full:"; txt "a.kigumi"] w = (Ok 0, w').
Proof.
  intros b ti parse print td pb pd mix fd device pc w. split; [ discriminate | ]. split; [ reflexivity | ]. split; [ split; [ constructor | reflexivity ] | ].
  split; [ reflexivity | ]. eexists. reflexivity.
Qed.
