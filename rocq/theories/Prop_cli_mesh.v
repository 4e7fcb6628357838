(** * C39, continued: what was written can be read again *)
From Coq Require Import Ascii String NArith List Arith Bool Lia.
From Verif Require Import Model_base Proof_base Model_soup Model_boolean Model_binary Spec_binary Prop_binary Model_text Spec_text Prop_text Model_cli Spec_cli Proof_cli Prop_cli.
Import ListNotations.
Local Open Scope nat_scope.

(** ** Specification *)

(** A file of one of the formats for meshes. *)
Definition mesh_name (f : text) : Prop := exists e, In e [txt ".obj"; txt ".off"; txt ".ply"] /\ ends_with f e = true.
(** A mesh with at least one face, numbers that can be printed, and faces that refer to its vertices. *)
Definition printable (valid : N -> Prop) (to_doubles : lazy_point -> N * N * N) (s : soup lazy_point unit) : Prop :=
  num_faces s <> 0 /\ valid_points valid to_doubles s /\ faces_below s (N.of_nat (num_vertices s)) /\
  (N.of_nat (num_vertices s) < 2 ^ 63)%N /\ size (num_faces s).
(** Reading the file gives the region back: from a .kigumi file, all of it; from the other formats, a region with
    the boundary, the coordinates of which are rounded to doubles. *)
Definition reads_back b to_interval parse valid to_doubles (w : world) (f : text) (r : cli_region) : Prop :=
  (ends_with f (txt ".kigumi") = true -> valid_region r ->
     exists r' w', read_region b to_interval parse f fresh w = (Ok (true, r'), w') /\ same_region r r') /\
  (mesh_name f -> printable valid to_doubles (stored_soup r) ->
     exists s w', read_region b to_interval parse f fresh w = (Ok (true, stored_of (mk_region BOUNDARY_DEFINED s)), w') /\
       same_soup tt to_doubles s (stored_soup r)).
Definition of_doubles (c : N * N * N) : lazy_point := let '(x, y, z) := c in point_of_doubles x y z.

(** ** Proofs *)
Lemma text_of_bytes : forall t, text_of (bytes_of t) = t.
Proof.
  induction t as [ | c t IH]; [ reflexivity | ]. unfold text_of, bytes_of in *. cbn [map]. rewrite IH, ascii_of_byte_of_ascii. reflexivity.
Qed.

Lemma skipn_twice : forall {A} y x (l : list A), skipn x (skipn y l) = skipn (y + x) l.
Proof. intros A y. induction y as [ | y IH]; intros x [ | a l]; cbn [skipn Nat.add]; [ reflexivity .. | apply skipn_nil | apply IH ]. Qed.
Lemma endings : forall f s t, ends_with f s = true -> ends_with f t = true -> List.length t <= List.length s -> t = skipn (List.length s - List.length t) s.
Proof.
  intros f s t Hs Ht L. unfold ends_with in Hs, Ht. apply text_eqb_eq in Hs, Ht.
  assert (Ls : List.length s <= List.length f) by (apply (f_equal (@List.length _)) in Hs; rewrite skipn_length in Hs; lia).
  transitivity (skipn (List.length f - List.length t) f); [ symmetry; exact Ht | ]. rewrite <- Hs at 2. rewrite skipn_twice. f_equal. lia.
Qed.

Lemma content_reads_back : forall b to_interval parse print valid to_doubles w f r bytes,
  faithful parse print valid -> exact_points valid of_doubles to_doubles ->
  content_for b print to_doubles f r = Some (Ok bytes) -> files w f = Some bytes ->
  reads_back b to_interval parse valid to_doubles w f r.
Proof.
  intros b ti parse print valid td w f r bytes Hf He Hc Hw.
  assert (No : forall e : text, (exists e0, In e0 [txt ".kigumi"; txt ".obj"; txt ".off"; txt ".ply"] /\ ends_with f e0 = true) -> text_eqb f (txt ":empty:") = false /\ text_eqb f (txt ":full:") = false).
  { intros e (e0 & I & E). split; apply not_true_iff_false; rewrite text_eqb_eq; intros ->; cbn in I; repeat (destruct I as [<- | I]; [ vm_compute in E; discriminate E | ]); destruct I. }
  split.
  - intros E V. destruct (No [] (ex_intro _ _ (conj (or_introl eq_refl) E))) as (N1 & N2). unfold content_for in Hc. rewrite E in Hc. injection Hc as Hc.
    destruct (C25_round_trip unit b tt write_null read_null ti r bytes [] (buf w) C25_null_codec V Hc) as (r' & buf' & Er & S).
    exists r'. eexists. split; [ | exact S ]. unfold read_region. rewrite N1, N2, E. unfold read_kigumi_file. rewrite Hw. rewrite app_nil_r in Er. rewrite Er. reflexivity.
  - intros (e & I & E) (P1 & P2 & P3 & P4 & P5).
    assert (Nk : ends_with f (txt ".kigumi") = false).
    { apply not_true_iff_false. intro K. cbn in I. repeat (destruct I as [<- | I]; [ pose proof (endings f _ _ K E ltac:(cbn; lia)) as X; vm_compute in X; discriminate X | ]). destruct I. }
    assert (Ot : forall e', In e' [txt ".obj"; txt ".off"; txt ".ply"] -> e' <> e -> ends_with f e' = false).
    { intros e' I' D. apply not_true_iff_false. intro K. apply D. cbn in I, I'.
      repeat (destruct I as [<- | I]; [ repeat (destruct I' as [<- | I']; [ exact (endings f _ _ E K ltac:(cbn; lia)) | ]); destruct I' | ]); destruct I. }
    destruct (No [] (ex_intro _ e (conj (or_intror I) E))) as (N1 & N2).
    assert (Fb : faces_below (stored_soup r) (2 ^ 64)%N).
    { intros i j k J. pose proof (P3 i j k J). assert (2 ^ 63 < 2 ^ 64)%N by reflexivity. lia. }
    assert (Sv : size (num_vertices (stored_soup r))) by (unfold size; assert (2 ^ 63 < 2 ^ 64)%N by reflexivity; lia).
    assert (Rd : exists s', fst (read_triangle_soup parse f empty_soup w) = Ok (true, s') /\ snd (read_triangle_soup parse f empty_soup w) = w /\ same_soup tt td s' (stored_soup r)).
    { unfold content_for in Hc. rewrite Nk in Hc. unfold read_triangle_soup. destruct I as [<- | [<- | [<- | [ ] ] ] ].
      - rewrite E in Hc |- *. assert (Eb : bytes = bytes_of (write_obj print td false (stored_soup r))) by congruence. rewrite Eb in Hw. rewrite Hw, text_of_bytes. destruct (C28_round_trip _ _ tt parse print valid of_doubles td false (stored_soup r) empty_soup Hf He P2 P3 P4) as (s' & R & S). exists s'. split; [ exact R | split; [ reflexivity | exact S ] ].
      - rewrite (Ot (txt ".obj")) in Hc |- * by (cbn; auto; discriminate). rewrite E in Hc |- *. assert (Eb : bytes = bytes_of (write_off print td (stored_soup r))) by congruence. rewrite Eb in Hw. rewrite Hw, text_of_bytes. destruct (C29_round_trip _ _ tt parse print valid of_doubles td (stored_soup r) empty_soup Hf He P2 Fb Sv P5) as (s' & R & S). exists s'. split; [ exact R | split; [ reflexivity | exact S ] ].
      - rewrite (Ot (txt ".obj")), (Ot (txt ".off")) in Hc |- * by (cbn; auto; discriminate). rewrite E in Hc |- *. assert (Eb : bytes = bytes_of (write_ply print td (stored_soup r))) by congruence. rewrite Eb in Hw. rewrite Hw, text_of_bytes. destruct (C30_round_trip _ _ tt parse print valid of_doubles td (stored_soup r) empty_soup Hf He P2 Fb Sv P5) as (s' & R & S). exists s'. split; [ exact R | split; [ reflexivity | exact S ] ]. }
    destruct Rd as (s' & R1 & R2 & S). exists s', w. split; [ | exact S ]. unfold read_region. rewrite N1, N2, Nk. unfold seq_cmd.
    destruct (read_triangle_soup parse f empty_soup w) as [x w1]. cbn [fst snd] in R1, R2. subst x w1. cbn [fst snd]. unfold lift, region_of_soup.
    assert (Nf : num_faces s' = num_faces (stored_soup r)) by (unfold num_faces; rewrite (proj1 (proj2 S)); reflexivity).
    rewrite Nf. destruct (Nat.eqb_spec (num_faces (stored_soup r)) 0) as [Z | _]; [ contradiction | ]. reflexivity.
Qed.

(** ** Theorems *)

(** Provided that write failures are noticed before the file is closed: after kigumi convert with status 0, the output
    read again is the input. *)
Theorem C39_convert_read_back_partial : forall b to_interval parse print valid to_doubles parse_boolean parse_convert parse_defects
    mix find_defects device args w w',
  reported device -> faithful parse print valid -> exact_points valid of_doubles to_doubles ->
  main b to_interval parse print to_doubles parse_boolean parse_convert parse_defects mix find_defects device
     (txt "convert" :: args) w = (Ok 0, w') ->
  exists input output r w1, parse_convert args = Some (input, output) /\
    read_region b to_interval parse input fresh w = (Ok (true, r), w1) /\
    reads_back b to_interval parse valid to_doubles w' output r.
Proof.
  intros b ti parse print valid td pb pc pd mix fd device args w w' Hd Hf He H. unfold main in H.
  change (text_eqb (txt "convert") (txt "boolean")) with false in H. change (text_eqb (txt "convert") (txt "convert")) with true in H. cbv iota in H. unfold exit_status in H.
  destruct (convert_command b ti parse print td pc device args w) as [ [ [ ] | | ] w3] eqn:E; try discriminate. injection H as <-.
  unfold convert_command in E. destruct (pc args) as [ [i o] | ]; [ | discriminate ]. apply seq_ok in E. destruct E as ([g1 r1] & wa & E1 & E). cbn [fst snd] in E. destruct g1; [ cbn [negb] in E | discriminate ].
  apply seq_ok in E. destruct E as (g2 & wb & E2 & E). destruct g2; [ | discriminate ]. injection E as <-. apply write_region_ok in E2. destruct E2 as (bytes & Ec & L & ->).
  exists i, o, r1, wa. split; [ reflexivity | ]. split; [ exact E1 | ].
  apply (content_reads_back b ti parse print valid td _ o r1 bytes Hf He Ec). cbn [after files]. rewrite (proj2 (text_eqb_eq _ _) eq_refl). f_equal.
  destruct L as [-> | [n Ln] ]; [ reflexivity | elim (Hd _ _ _ Ln) ].
Qed.
Print Assumptions C39_convert_read_back_partial.

(** And after kigumi boolean with status 0, each output read again is the result of the operator of its option. *)
Theorem C39_boolean_read_back_partial : forall b to_interval parse print valid to_doubles parse_boolean parse_convert parse_defects
    mix find_defects device args w w',
  reported device -> faithful parse print valid -> exact_points valid of_doubles to_doubles ->
  main b to_interval parse print to_doubles parse_boolean parse_convert parse_defects mix find_defects device
     (txt "boolean" :: args) w = (Ok 0, w') ->
  exists o bd, parse_boolean args = Some o /\ operands b to_interval parse mix o w bd /\
    forall pre op f post, requests o = pre ++ (op, f) :: post -> (forall op', ~ In (op', f) post) ->
      exists r, Model_boolean.run tt bd op true = Ok r /\ reads_back b to_interval parse valid to_doubles w' f (stored_of r).
Proof.
  intros b ti parse print valid td pb pc pd mix fd device args w w' Hd Hf He H.
  destruct (C39_boolean_files_partial b ti parse print td pb pc pd mix fd device args w w' Hd H) as (o & bd & Ho & Hb & R & _).
  exists o, bd. split; [ exact Ho | ]. split; [ exact Hb | ]. intros pre op f post Er N.
  destruct (R pre op f post Er N) as (bytes & (r & Hr & Hc) & Hw). exists r. split; [ exact Hr | ].
  exact (content_reads_back b ti parse print valid td w' f (stored_of r) bytes Hf He Hc Hw).
Qed.
Print Assumptions C39_boolean_read_back_partial.

(** A run that meets the hypotheses: a triangle in a.obj is converted to b.off. *)
Definition ex_doubles (p : lazy_point) : N * N * N := let '(x, y, z) := approx p in (fst x, fst y, fst z).
Example C39_convert_mesh_run : forall b to_interval parse_boolean parse_defects mix find_defects,
  let device := fun _ _ => Writes in
  let parse_convert := fun _ : list text => Some (txt "a.obj", txt "b.off") in
  let w := mk_world (fun f => if text_eqb f (txt "a.obj") then Some (bytes_of (file ["v 1 2 3"; "v 4 5 6"; "v 7 8 9"; "f 1 2 3"]%string)) else None) 0 [] in
  reported device /\ faithful ex_parse decimal (fun _ => True) /\ exact_points (fun _ => True) of_doubles ex_doubles /\ mesh_name (txt "b.off") /\
  exists w' s, main b to_interval ex_parse decimal ex_doubles parse_boolean parse_convert parse_defects mix find_defects device
    [txt "convert"; txt "a.obj"; txt "b.off"] w = (Ok 0, w') /\
    read_region b to_interval ex_parse (txt "a.obj") fresh w = (Ok (true, stored_of (mk_region BOUNDARY_DEFINED s)), w) /\
    printable (fun _ => True) ex_doubles s /\ faces s = [(0, 1, 2)] /\
    files w' (txt "b.off") = Some (bytes_of (file ["OFF"; "3 1 0"; "1 2 3"; "4 5 6"; "7 8 9"; "3 0 1 2"]%string)).
Proof.
  intros b ti pb pd mix fd device pc w. split; [ discriminate | ]. split; [ exact C28_faithful | ]. split; [ intros x y z _ _ _; reflexivity | ].
  split; [ exists (txt ".off"); split; [ cbn; auto | reflexivity ] | ].
  eexists. exists (mk_soup [point_of_doubles 1 2 3; point_of_doubles 4 5 6; point_of_doubles 7 8 9] [(0, 1, 2)] [tt]).
  split; [ reflexivity | ]. split; [ reflexivity | ]. split.
  - split; [ discriminate | ]. split; [ intros p x y z _ _; auto | ]. split; [ | split; [ vm_compute; reflexivity | vm_compute; reflexivity ] ].
    intros i j k [J | [ ] ]. injection J as <- <- <-. vm_compute. auto.
  - split; [ reflexivity | ]. reflexivity.
Qed.
