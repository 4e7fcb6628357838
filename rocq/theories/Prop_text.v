(** * Theorems about the text formats: C28 to C31 and C46 *)
From Coq Require Import Ascii String.
From Coq Require Import List Arith Bool NArith ZArith Lia.
From Verif Require Import Model_base Proof_base Model_soup Model_text Spec_text Proof_text Proof_obj Proof_off Proof_ply.
Import ListNotations.
Local Open Scope list_scope.

(** The parameters: [d0] is the default face data; [parse] and [print] convert between text and
    doubles (given by their 64 bits); [point_of] and [coords] convert between points and
    three doubles. *)

(** Points read from doubles give the same doubles. *)
Definition exact_points {P} (valid : N -> Prop) (point_of : N * N * N -> P) (coords : P -> N * N * N) : Prop :=
  forall x y z, valid x -> valid y -> valid z -> coords (point_of (x, y, z)) = (x, y, z).
(** Every coordinate of every point is a valid double. *)
Definition valid_points {P D} (valid : N -> Prop) (coords : P -> N * N * N) (s : soup P D) : Prop :=
  forall p x y z, In p (points s) -> coords p = (x, y, z) -> valid x /\ valid y /\ valid z.
Definition faces_below {P D} (s : soup P D) (n : N) : Prop :=
  forall i j k, In (i, j, k) (faces s) -> (N.of_nat i < n /\ N.of_nat j < n /\ N.of_nat k < n)%N.

(** The same coordinates and faces, in the same order; default face data. *)
Definition same_soup {P D} (d0 : D) (coords : P -> N * N * N) (s' s : soup P D) : Prop :=
  map coords (points s') = map coords (points s) /\ faces s' = faces s /\
  face_data s' = map (fun _ => d0) (faces s).

Lemma same_built : forall P D (d0 : D) valid (point_of : N * N * N -> P) coords (s : soup P D) fs,
  exact_points valid point_of coords -> valid_points valid coords s -> fs = faces s ->
  same_soup d0 coords (built d0 point_of (map coords (points s)) fs) s.
Proof.
  intros P D d0 valid point_of coords s fs He Hv ->. unfold same_soup, built. cbn [points faces face_data]. repeat split.
  - rewrite !map_map. apply map_ext_in. intros p I. destruct (coords p) as [ [x y] z] eqn:E.
    destruct (Hv p x y z I E) as (A & B & C). apply He; assumption.
  - generalize (faces s). intro l. induction l as [ | f l IH]; [ reflexivity | ]. cbn. rewrite IH. reflexivity.
Qed.
Lemma valid_points_forall : forall P D valid (coords : P -> N * N * N) (s : soup P D),
  valid_points valid coords s -> Forall (valid_coords valid coords) (points s).
Proof.
  intros P D valid coords s H. apply Forall_forall. intros p I. unfold valid_coords.
  destruct (coords p) as [ [x y] z] eqn:E. exact (H p x y z I E).
Qed.
Lemma faces_below_size : forall P D (s : soup P D), faces_below s (2 ^ 64)%N ->
  Forall (fun f : face => let '(i, j, k) := f in size i /\ size j /\ size k) (faces s).
Proof.
  intros P D s H. apply Forall_forall. intros [ [i j] k] I. exact (H i j k I).
Qed.

(** ** C28: OBJ files round-trip, with positive and with negative indices. *)
Theorem C28_round_trip : forall P D (d0 : D) parse print valid (point_of : N * N * N -> P) coords
    negative (s target : soup P D),
  faithful parse print valid -> exact_points valid point_of coords -> valid_points valid coords s ->
  faces_below s (N.of_nat (num_vertices s)) -> (N.of_nat (num_vertices s) < 2 ^ 63)%N ->
  exists s', read_obj d0 parse point_of (write_obj print coords negative s) target = Ok (true, s') /\
    same_soup d0 coords s' s.
Proof.
  intros P D d0 parse print valid point_of coords negative s target Hf He Hv Hfs Hn. eexists. split.
  - unfold read_obj. change (@empty_soup P D) with (built (P := P) d0 point_of [] []).
    erewrite obj_lines_ok.
    2:{ apply (obj_written parse print valid coords Hf negative s).
        - apply valid_points_forall. exact Hv.
        - apply Forall_forall. intros [ [i j] k] I. specialize (Hfs i j k I). lia.
        - lia. }
    reflexivity.
  - apply (same_built P D d0 valid); [ exact He | exact Hv | ]. cbn [app]. apply fan_triangles.
Qed.
Print Assumptions C28_round_trip.

(** ** C29: OFF files round-trip. *)
Theorem C29_round_trip : forall P D (d0 : D) parse print valid (point_of : N * N * N -> P) coords (s target : soup P D),
  faithful parse print valid -> exact_points valid point_of coords -> valid_points valid coords s ->
  faces_below s (2 ^ 64) -> size (num_vertices s) -> size (num_faces s) ->
  exists s', read_off d0 parse point_of (write_off print coords s) target = Ok (true, s') /\
    same_soup d0 coords s' s.
Proof.
  intros P D d0 parse print valid point_of coords s target Hf He Hv Hfs Hn Hm. eexists. split.
  - erewrite off_read_ok; [ reflexivity | ]. apply (off_written parse print valid coords Hf s).
    + apply valid_points_forall. exact Hv.
    + apply faces_below_size. exact Hfs.
    + exact Hn.
    + exact Hm.
  - apply (same_built P D d0 valid); [ exact He | exact Hv | ]. cbn [app]. apply fan_triangles.
Qed.
Print Assumptions C29_round_trip.

(** A file whose number of lines is not the one it declares is not accepted, and the
    target is left as it is. *)
Theorem C29_wrong_counts_fail : forall P D (d0 : D) parse (point_of : N * N * N -> P) file
    signature counts body nv nf more (target : soup P D),
  filter significant (lines file) = signature :: counts :: body ->
  words counts = decimal_nat nv :: decimal_nat nf :: more -> size nv -> size nf ->
  List.length body <> nv + nf ->
  read_off d0 parse point_of file target = Ok (false, target).
Proof.
  intros P D d0 parse point_of file signature counts body nv nf more target Hl Hw Sv Sf N.
  unfold read_off.
  destruct (off_lines_total d0 parse point_of (lines file) (mk_off READING_SIGNATURE 0 0 empty_soup)) as (r & E).
  rewrite E. cbn [bind]. destruct r as [o | ]; [ | reflexivity ].
  destruct (ost o) eqn:Eo; try reflexivity. exfalso. apply N.
  rewrite off_lines_filter, Hl in E.
  assert (Sg : Forall (fun l => significant l = true) (signature :: counts :: body)).
  { rewrite <- Hl. apply Forall_forall. intros l I. apply filter_In in I. tauto. }
  inversion Sg as [ | ? ? S1 Sg1 ]; subst. inversion Sg1 as [ | ? ? S2 Sg2 ]; subst.
  cbn [off_lines] in E. unfold off_line at 1 in E.
  destruct (line_significant signature S1) as (F1 & _ & _). rewrite F1 in E. cbn [negb ost] in E.
  destruct (get_off_signature _) as [bin s1]. destruct (failb s1); [ discriminate | ]. destruct bin; [ discriminate | ].
  cbn [bind onv onf osoup] in E.
  unfold off_line at 1 in E.
  destruct (line_significant counts S2) as (F2 & H2 & _). rewrite F2 in E. cbn [negb ost onv onf osoup] in E.
  rewrite Hw in H2.
  destruct (get_size_holds _ _ _ Sv H2) as (s2 & E2 & H3). rewrite E2 in E.
  destruct (get_size_holds _ _ _ Sf H3) as (s3 & E3 & H4). rewrite E3, (proj1 H4) in E. cbn [bind] in E.
  match type of E with off_lines _ _ _ _ ?o1 = _ => set (o1' := o1) in E end.
  destruct (off_count d0 parse point_of body o1' o Sg2 eq_refl E Eo) as [K _]. exact K.
Qed.
Print Assumptions C29_wrong_counts_fail.

(** ** C30: PLY files round-trip. *)
Theorem C30_round_trip : forall P D (d0 : D) parse print valid (point_of : N * N * N -> P) coords (s target : soup P D),
  faithful parse print valid -> exact_points valid point_of coords -> valid_points valid coords s ->
  faces_below s (2 ^ 64) -> size (num_vertices s) -> size (num_faces s) ->
  exists s', read_ply d0 parse point_of (write_ply print coords s) target = Ok (true, s') /\
    same_soup d0 coords s' s.
Proof.
  intros P D d0 parse print valid point_of coords s target Hf He Hv Hfs Hn Hm. eexists. split.
  - erewrite ply_read_ok; [ reflexivity | ]. apply (ply_written parse print valid coords Hf s).
    + apply valid_points_forall. exact Hv.
    + apply faces_below_size. exact Hfs.
    + exact Hn.
    + exact Hm.
  - apply (same_built P D d0 valid); [ exact He | exact Hv | ]. cbn [app]. apply fan_triangles.
Qed.
Print Assumptions C30_round_trip.

(** The same for PLY: lines that are missing or too many are noticed. *)
Theorem C30_wrong_counts_fail : forall P D (d0 : D) parse (point_of : N * N * N -> P) file
    header elements body (target : soup P D),
  lines file = header ++ body -> ply_header_means header elements ->
  List.length body <> list_sum (map count elements) ->
  read_ply d0 parse point_of file target = Ok (false, target).
Proof.
  intros P D d0 parse point_of file header elements body target Hl Hh N.
  unfold read_ply. rewrite Hl, (header_ok _ _ _ Hh).
  destruct (ply_find_layout elements) as [lay | ]; [ | reflexivity ].
  destruct (body_total d0 parse point_of lay body elements (next_element (List.length elements) elements 0) empty_soup) as (r & E).
  rewrite E. cbn [bind]. destruct r as [s | ]; [ | reflexivity ]. exfalso. apply N.
  destruct (next_remaining (List.length elements) elements 0 ltac:(lia)) as [A B].
  rewrite (body_count d0 parse point_of _ _ _ _ _ _ E).
  - rewrite A. reflexivity.
  - intros e Ee. destruct B as [B | (e2 & B & C)]; congruence.
Qed.
Print Assumptions C30_wrong_counts_fail.

(** ** C31: polygons become fans of triangles. *)

(** The triangles of a polygon with n vertices: n - 2 of them, the i-th is (v0, v(i+1), v(i+2)). *)
Theorem C31_fan : forall p,
  List.length (fan p) = List.length p - 2 /\
  forall i, i + 2 < List.length p ->
    nth_error (fan p) i = Some (nth 0 p 0, nth (i + 1) p 0, nth (i + 2) p 0).
Proof.
  assert (K : forall v0 r v, List.length (fan_from v0 v r) = List.length r /\
    forall i, i < List.length r -> nth_error (fan_from v0 v r) i = Some (v0, nth i (v :: r) 0, nth i r 0)).
  { intros v0 r. induction r as [ | w r IH]; intro v; cbn [fan_from List.length]; [ split; [ reflexivity | lia ] | ].
    destruct (IH w) as [L H]. split; [ rewrite L; reflexivity | ].
    intros [ | i] Hi; [ reflexivity | ]. cbn [nth_error]. rewrite H by lia. reflexivity. }
  intros [ | v0 [ | v1 r] ]; cbn [fan List.length]; try (split; [ reflexivity | lia ]).
  destruct (K v0 r v1) as [L H]. split; [ rewrite L; lia | ]. intros i Hi. rewrite H by lia.
  rewrite !Nat.add_succ_r, Nat.add_0_r. reflexivity.
Qed.
Print Assumptions C31_fan.

(** A file that declares the vertices [vs] and the polygons [ps] gives the soup with these
    vertices and the fans of the polygons, whatever the target was before. *)
Definition polygon_soup {P D} (d0 : D) (point_of : N * N * N -> P) (vs : list (N * N * N)) (ps : list (list nat)) : soup P D :=
  mk_soup (map point_of vs) (concat (map fan ps)) (map (fun _ => d0) (concat (map fan ps))).
Lemma built_polygon : forall P D (d0 : D) (point_of : N * N * N -> P) vs ps,
  built d0 point_of vs (concat (map fan ps)) = polygon_soup d0 point_of vs ps.
Proof.
  intros. unfold built, polygon_soup. f_equal. generalize (concat (map fan ps)). intro l.
  induction l as [ | f l IH]; [ reflexivity | ]. cbn. rewrite IH. reflexivity.
Qed.

Theorem C31_obj_polygons : forall P D (d0 : D) parse (point_of : N * N * N -> P) file vs ps (target : soup P D),
  obj_means parse [] (lines file) vs ps ->
  read_obj d0 parse point_of file target = Ok (true, polygon_soup d0 point_of vs ps).
Proof.
  intros P D d0 parse point_of file vs ps target H. unfold read_obj.
  change (@empty_soup P D) with (built (P := P) d0 point_of [] []).
  rewrite (obj_lines_ok d0 parse point_of _ _ _ _ [] H), <- built_polygon. reflexivity.
Qed.
Print Assumptions C31_obj_polygons.
Theorem C31_off_polygons : forall P D (d0 : D) parse (point_of : N * N * N -> P) file vs ps (target : soup P D),
  off_means parse (lines file) vs ps ->
  read_off d0 parse point_of file target = Ok (true, polygon_soup d0 point_of vs ps).
Proof.
  intros P D d0 parse point_of file vs ps target H. rewrite <- built_polygon. apply off_read_ok. exact H.
Qed.
Print Assumptions C31_off_polygons.
Theorem C31_ply_polygons : forall P D (d0 : D) parse (point_of : N * N * N -> P) file vs ps (target : soup P D),
  ply_means parse file vs ps ->
  read_ply d0 parse point_of file target = Ok (true, polygon_soup d0 point_of vs ps).
Proof.
  intros P D d0 parse point_of file vs ps target H. rewrite <- built_polygon. apply ply_read_ok. exact H.
Qed.
Print Assumptions C31_ply_polygons.

(** For every file, a reader returns normally.  Either it returns false and the target is
    unchanged, or it returns true and the result does not depend on the target. *)
Definition all_or_nothing {P D} (read : text -> soup P D -> res (bool * soup P D)) : Prop :=
  forall file,
    (forall target, read file target = Ok (false, target)) \/
    (exists s, forall target, read file target = Ok (true, s)).
Theorem C31_all_or_nothing : forall P D (d0 : D) parse (point_of : N * N * N -> P),
  all_or_nothing (read_obj d0 parse point_of) /\
  all_or_nothing (read_off d0 parse point_of) /\
  all_or_nothing (read_ply d0 parse point_of).
Proof.
  intros P D d0 parse point_of. repeat split; intro file.
  - unfold read_obj. destruct (obj_lines_total d0 parse point_of (lines file) empty_soup) as (r & E). rewrite E. cbn [bind].
    destruct r as [s | ]; [ right; exists s; reflexivity | left; reflexivity ].
  - unfold read_off. destruct (off_lines_total d0 parse point_of (lines file) (mk_off READING_SIGNATURE 0 0 empty_soup)) as (r & E).
    rewrite E. cbn [bind].
    destruct r as [o | ]; [ destruct (ost o); first [ right; exists (osoup o); reflexivity | left; reflexivity ] | left; reflexivity ].
  - unfold read_ply. destruct (ply_header (lines file) PLY_SIGNATURE []) as [ [es ls] | ]; [ | left; reflexivity ].
    destruct (ply_find_layout es) as [lay | ]; [ | left; reflexivity ].
    destruct (body_total d0 parse point_of lay ls es (next_element (List.length es) es 0) empty_soup) as (r & E). rewrite E. cbn [bind].
    destruct r as [s | ]; [ right; exists s; reflexivity | left; reflexivity ].
Qed.
Print Assumptions C31_all_or_nothing.

(** ** Examples *)

(** Conversions that meet the hypotheses: "doubles" printed as decimal numbers. *)
Definition ex_parse (w : text) : option N :=
  if negb (is_nil w) && forallb is_digit w then Some (digits_value w) else None.
Example C28_faithful : faithful ex_parse decimal (fun _ => True).
Proof.
  constructor.
  - intros x _. unfold ex_parse. destruct (decimal_ok x) as (V & N & _).
    assert (F : forallb is_digit (decimal x) = true) by (apply forallb_forall; apply Forall_forall; apply decimal_digits).
    rewrite F, V. destruct (decimal x); [ congruence | reflexivity ].
  - intros x c _ I. pose proof (decimal_digits x) as F. rewrite Forall_forall in F. specialize (F c I).
    revert F. unfold is_digit, is_space. intro F. apply andb_true_iff in F. destruct F as [F1 F2].
    apply N.leb_le in F1. apply N.leb_le in F2. destruct (N_of_ascii c =? 32)%N eqn:E; [ apply N.eqb_eq in E; lia | ].
    cbn [orb]. destruct ((9 <=? N_of_ascii c)%N) eqn:E1; [ | reflexivity ]. cbn [andb]. apply N.leb_gt. lia.
  - intros x _. destruct (decimal_first x) as (d & r & E & Hd). exists (digit d), r. split; [ exact E | ]. right.
    destruct (digit_facts d Hd) as (H & _). exact H.
Qed.
Example C28_exact_points : exact_points (fun _ => True) (fun c : N * N * N => c) (fun c => c).
Proof. intros x y z _ _ _. reflexivity. Qed.

Definition ex_soup : soup (N * N * N) unit :=
  mk_soup [(0, 0, 0); (10, 0, 0); (0, 12, 0); (0, 0, 345)]%N [(0, 2, 1); (0, 1, 3); (1, 2, 3)] [tt; tt; tt].
Example C28_example : forall negative target,
  exists s', read_obj tt ex_parse (fun c => c) (write_obj decimal (fun c => c) negative ex_soup) target = Ok (true, s') /\
    same_soup tt (fun c => c) s' ex_soup.
Proof.
  intros negative target. apply (C28_round_trip _ _ _ _ _ (fun _ => True)).
  - exact C28_faithful.
  - exact C28_exact_points.
  - intros p x y z _ _. auto.
  - intros i j k I. cbn in I. repeat (destruct I as [I | I]; [ injection I as <- <- <-; vm_compute; auto | ]). contradiction.
  - vm_compute. reflexivity.
Qed.

Definition file (ls : list string) : text := concat (map line_of ls).
(** Comments, blank lines, suffixes, negative indices and polygons. *)
Definition ex_obj : text := file
  ["# a comment"; ""; "v 1 2 3"; "  v 4 5 6 7"; "vn 0 0 1"; "v 7 8 9"; "g x"; "f 1/2/3 2//7 3"; "v 1 1 1"; "f 1 -3 3 -1 2"; "f 1 2"]%string.
Example C31_obj_example :
  obj_means ex_parse [] (lines ex_obj) [(1, 2, 3); (4, 5, 6); (7, 8, 9); (1, 1, 1)]%N [[0; 1; 2]; [0; 1; 2; 3; 1]; [0; 1]] /\
  read_obj tt ex_parse (fun c => c) ex_obj ex_soup =
    Ok (true, mk_soup [(1, 2, 3); (4, 5, 6); (7, 8, 9); (1, 1, 1)]%N [(0, 1, 2); (0, 1, 2); (0, 2, 3); (0, 3, 1)] [tt; tt; tt; tt]).
Proof.
  assert (H : obj_means ex_parse [] (lines ex_obj) [(1, 2, 3); (4, 5, 6); (7, 8, 9); (1, 1, 1)]%N [[0; 1; 2]; [0; 1; 2; 3; 1]; [0; 1]]).
  { assert (O : forall l, match words l with w :: _ => negb (text_eqb w (txt "v") || text_eqb w (txt "f")) | [] => true end = true ->
      forall w ws, words l = w :: ws -> w <> txt "v" /\ w <> txt "f").
    { intros l H w ws E. rewrite E in H. apply negb_true_iff, orb_false_iff in H. destruct H as [A B].
      split; intros ->; [ rewrite text_eqb_refl in A | rewrite text_eqb_refl in B ]; discriminate. }
    assert (R : forall nv w i v suffix, w = decimal_Z v ++ suffix ->
      match suffix with c :: _ => is_digit c = false | [] => True end ->
      ((0 < v < 2 ^ 63 /\ v = Z.of_nat i + 1) \/ (- 2 ^ 63 <= v < 0 /\ Z.of_nat i = Z.of_nat nv + v /\ Z.of_nat i < 2 ^ 64))%Z -> refers nv w i).
    { intros nv w i v suffix E1 E2 E3. exists v, suffix. auto. }
    repeat match goal with
    | |- obj_means _ _ _ _ _ =>
        first
        [ apply obj_other; [ apply O; vm_compute; reflexivity | ]
        | eapply obj_vertex; [ vm_compute; reflexivity | vm_compute; reflexivity | vm_compute; reflexivity | vm_compute; reflexivity | cbn [app] ]
        | apply obj_end
        | eapply obj_face; [ vm_compute; reflexivity | | ] ]
    end.
    - apply Forall2_cons; [ apply (R _ _ _ 1%Z (txt "/2/3")); [ reflexivity | reflexivity | cbn; lia ] | ].
      apply Forall2_cons; [ apply (R _ _ _ 2%Z (txt "//7")); [ reflexivity | reflexivity | cbn; lia ] | ].
      apply Forall2_cons; [ apply (R _ _ _ 3%Z []); [ reflexivity | exact I | cbn; lia ] | apply Forall2_nil ].
    - apply Forall2_cons; [ apply (R _ _ _ 1%Z []); [ reflexivity | exact I | cbn; lia ] | ].
      apply Forall2_cons; [ apply (R _ _ _ (-3)%Z []); [ reflexivity | exact I | cbn; lia ] | ].
      apply Forall2_cons; [ apply (R _ _ _ 3%Z []); [ reflexivity | exact I | cbn; lia ] | ].
      apply Forall2_cons; [ apply (R _ _ _ (-1)%Z []); [ reflexivity | exact I | cbn; lia ] | ].
      apply Forall2_cons; [ apply (R _ _ _ 2%Z []); [ reflexivity | exact I | cbn; lia ] | apply Forall2_nil ].
    - apply Forall2_cons; [ apply (R _ _ _ 1%Z []); [ reflexivity | exact I | cbn; lia ] | ].
      apply Forall2_cons; [ apply (R _ _ _ 2%Z []); [ reflexivity | exact I | cbn; lia ] | apply Forall2_nil ]. }
  split; [ exact H | ]. rewrite (C31_obj_polygons _ _ tt ex_parse (fun c => c) ex_obj _ _ ex_soup H). reflexivity.
Qed.

Definition ex_off : text := file
  ["# a comment"; "CNOFF # colours"; ""; "3 2 0 # counts"; "1 2 3"; "4 5 6 255 0 0"; "# in between"; "7 8 9"; "4 0 1 2 0 17"; "2 0 1"]%string.
Example C31_off_example :
  off_means ex_parse (lines ex_off) [(1, 2, 3); (4, 5, 6); (7, 8, 9)]%N [[0; 1; 2; 0]; [0; 1]].
Proof.
  exists (txt "CNOFF # colours"), (txt "3 2 0 # counts"), [txt "1 2 3"; txt "4 5 6 255 0 0"; txt "7 8 9"],
    [txt "4 0 1 2 0 17"; txt "2 0 1"], (txt "CNOFF"), [txt "#"; txt "colours"], [txt "0"; txt "#"; txt "counts"].
  split; [ vm_compute; reflexivity | ]. split; [ | split; [ | split ] ].
  - split; [ vm_compute; reflexivity | ]. split; [ | exists []; reflexivity ].
    exists [], (txt "C"), (txt "N"). repeat split; auto.
  - split; [ vm_compute; reflexivity | ]. split; reflexivity.
  - repeat (apply Forall2_cons; [ do 4 eexists; split; [ vm_compute; reflexivity | ]; repeat split; vm_compute; reflexivity | ]).
    apply Forall2_nil.
  - repeat (apply Forall2_cons; [ split; [ repeat constructor | ]; split; [ reflexivity | ]; eexists; vm_compute; reflexivity | ]).
    apply Forall2_nil.
Qed.
(** One line too few, one line too many. *)
Example C29_example : forall target,
  read_off tt ex_parse (fun c => c) (file ["OFF"; "3 1 0"; "1 2 3"; "4 5 6"; "3 0 1 2"]%string) target = Ok (false, target) /\
  read_off tt ex_parse (fun c => c) (file ["OFF"; "1 1 0"; "1 2 3"; "3 0 0 0"; "3 0 0 0"]%string) target = Ok (false, target).
Proof.
  intro target. split.
  - apply (C29_wrong_counts_fail _ _ _ _ _ _ (txt "OFF") (txt "3 1 0") [txt "1 2 3"; txt "4 5 6"; txt "3 0 1 2"] 3 1 [txt "0"]);
      try (vm_compute; reflexivity). cbn. lia.
  - apply (C29_wrong_counts_fail _ _ _ _ _ _ (txt "OFF") (txt "1 1 0") [txt "1 2 3"; txt "3 0 0 0"; txt "3 0 0 0"] 1 1 [txt "0"]);
      try (vm_compute; reflexivity). cbn. lia.
Qed.

(** Properties in another order, a list that is not used, an element that is not used. *)
Definition ex_ply_header : list string :=
  ["ply"; "comment by hand"; "format ascii 1.0"; "element camera 1"; "property list uchar float m";
   "element vertex 3"; "property float z"; "property list uchar int tags"; "property float x"; "property float y";
   "element face 1"; "property uchar flags"; "property list uchar int vertex_indices"; "end_header"]%string.
Definition ex_ply_body : list string := ["2 17 18"; "3 2 0 0 1 2"; "6 0 4 5"; "9 1 55 7 8"; "1 4 0 1 2 1 "]%string.
Definition ex_ply_elements : list ply_element :=
  [mk_element (txt "camera") 1 [mk_property true (txt "m")];
   mk_element (txt "vertex") 3 [mk_property false (txt "z"); mk_property true (txt "tags"); mk_property false (txt "x"); mk_property false (txt "y")];
   mk_element (txt "face") 1 [mk_property false (txt "flags"); mk_property true (txt "vertex_indices")] ].
Example C30_header_example : ply_header_means (map txt ex_ply_header) ex_ply_elements.
Proof.
  exists (txt "ply"), (txt "format ascii 1.0"),
    (map txt ["element camera 1"; "property list uchar float m"; "element vertex 3"; "property float z"; "property list uchar int tags";
      "property float x"; "property float y"; "element face 1"; "property uchar flags"; "property list uchar int vertex_indices"]%string),
    (txt "end_header"), [].
  split; [ vm_compute; reflexivity | ]. split; [ vm_compute; reflexivity | ]. split; [ vm_compute; reflexivity | ].
  split; [ | split; [ vm_compute; reflexivity | exists (map txt (firstn 13 ex_ply_header)); reflexivity ] ].
  cbn [map ex_ply_elements].
  assert (L : forall l n, words (txt l) = [txt "property"; txt "list"; txt "uchar"; txt "int"; n] \/
                          words (txt l) = [txt "property"; txt "list"; txt "uchar"; txt "float"; n] ->
    declares_property (txt l) (mk_property true n)).
  { intros l n [E | E]; do 2 eexists; exact E. }
  assert (S : forall l n, words (txt l) = [txt "property"; txt "float"; n] \/ words (txt l) = [txt "property"; txt "uchar"; n] ->
    declares_property (txt l) (mk_property false n)).
  { intros l n [E | E]; eexists; (split; [ | exact E ]); discriminate. }
  refine (de_cons _ [_; _; _; _; _; _; _; _] [_] _ _ _ _ _ (de_cons _ [_; _; _] [_; _; _; _] _ _ _ _ _ (de_cons _ [] [_; _] _ _ _ _ _ de_nil)));
    try (vm_compute; reflexivity).
  - apply Forall2_cons; [ apply L; right; vm_compute; reflexivity | apply Forall2_nil ].
  - apply Forall2_cons; [ apply S; left; vm_compute; reflexivity | ].
    apply Forall2_cons; [ apply L; left; vm_compute; reflexivity | ].
    apply Forall2_cons; [ apply S; left; vm_compute; reflexivity | ].
    apply Forall2_cons; [ apply S; left; vm_compute; reflexivity | apply Forall2_nil ].
  - apply Forall2_cons; [ apply S; right; vm_compute; reflexivity | ].
    apply Forall2_cons; [ apply L; left; vm_compute; reflexivity | apply Forall2_nil ].
Qed.
Example C31_ply_example :
  ply_means ex_parse (file (ex_ply_header ++ ex_ply_body)) [(1, 2, 3); (4, 5, 6); (7, 8, 9)]%N [[0; 1; 2; 1]].
Proof.
  exists (map txt ex_ply_header), (firstn 1 ex_ply_elements), (nth 1 ex_ply_elements (mk_element [] 0 [])), [],
    (nth 2 ex_ply_elements (mk_element [] 0 [])), [], (map txt ["2 17 18"]%string),
    (map txt ["3 2 0 0 1 2"; "6 0 4 5"; "9 1 55 7 8"]%string), [], (map txt ["1 4 0 1 2 1 "]%string), [].
  split; [ vm_compute; reflexivity | ]. split; [ exact C30_header_example | ].
  split; [ intros e [<- | [ ] ]; split; discriminate | ].
  split; [ reflexivity | ]. split; [ reflexivity | ].
  split; [ intros n I; exists (mk_property false n); split; [ destruct I as [<- | [<- | [<- | [ ] ] ] ]; cbn; tauto | split; reflexivity ] | ].
  split; [ exists (mk_property true (txt "vertex_indices")); cbn; tauto | ].
  do 5 (split; [ reflexivity | ]).
  assert (N : forall a b c d : text, (a <> b \/ false <> false) -> ~ (In a [b] /\ false = false)).
  { intros a b _ _ [H | H] [ [E | [ ] ] _]; congruence. }
  assert (M : forall a b : text, ~ (In a [b] /\ true = false)) by (intros a b [_ E]; discriminate).
  split.
  - assert (V : forall l za n items xa ya z x y, words l = za :: n :: items ++ [xa; ya] -> n = decimal_nat (List.length items) -> size (List.length items) ->
      number_word ex_parse za z -> number_word ex_parse xa x -> number_word ex_parse ya y ->
      ply_vertex_line ex_parse (nth 1 ex_ply_elements (mk_element [] 0 [])) l (x, y, z)).
    { intros l za n items xa ya z x y W -> Hs Hz Hx Hy. exists [[za]; decimal_nat (List.length items) :: items; [xa]; [ya] ], xa, ya, za.
      split; [ split; [ | exists []; rewrite app_nil_r; cbn [concat app]; rewrite W; reflexivity ] | ].
      - apply Forall2_cons; [ eexists; reflexivity | ]. apply Forall2_cons; [ exists items; auto | ].
        apply Forall2_cons; [ eexists; reflexivity | ]. apply Forall2_cons; [ eexists; reflexivity | apply Forall2_nil ].
      - repeat split; try assumption.
        + do 2 (apply vo_later; [ first [ apply N; first [ left; discriminate ] | apply M ]; exact [] | ]). apply vo_here; [ left; reflexivity | reflexivity ].
        + do 3 (apply vo_later; [ first [ apply N; first [ left; discriminate ] | apply M ]; exact [] | ]). apply vo_here; [ left; reflexivity | reflexivity ].
        + apply vo_here; [ left; reflexivity | reflexivity ]. }
    apply Forall2_cons; [ eapply (V _ _ _ [txt "0"; txt "0"]); vm_compute; reflexivity | ].
    apply Forall2_cons; [ eapply (V _ _ _ []); vm_compute; reflexivity | ].
    apply Forall2_cons; [ eapply (V _ _ _ [txt "55"]); vm_compute; reflexivity | apply Forall2_nil ].
  - apply Forall2_cons; [ | apply Forall2_nil ]. split; [ repeat constructor | ]. split; [ reflexivity | ].
    exists [[txt "1"]; map txt ["4"; "0"; "1"; "2"; "1"]%string ]. split.
    + split; [ | exists []; vm_compute; reflexivity ]. apply Forall2_cons; [ eexists; reflexivity | ].
      apply Forall2_cons; [ | apply Forall2_nil ]. exists (map txt ["0"; "1"; "2"; "1"]%string). split; vm_compute; reflexivity.
    + apply vo_later; [ intros [_ E]; discriminate | ]. apply vo_here; [ right; left; reflexivity | reflexivity ].
Qed.
Example C30_example : forall target,
  read_ply tt ex_parse (fun c => c) (file (ex_ply_header ++ firstn 4 ex_ply_body)) target = Ok (false, target).
Proof.
  intro target. apply (C30_wrong_counts_fail _ _ _ _ _ _ (map txt ex_ply_header) ex_ply_elements (map txt (firstn 4 ex_ply_body))).
  - vm_compute. reflexivity.
  - exact C30_header_example.
  - cbn. lia.
Qed.

(** ** C46: the readers do not check the indices of the vertices of a face, so a read that is reported
    as successful can give a soup with faces that refer to vertices that do not exist. *)
Definition indices_exist {P D} (s : soup P D) : Prop := faces_below s (N.of_nat (num_vertices s)).
Theorem C46_obj_indices_exist_refuted : exists file s,
  read_obj tt ex_parse (fun c => c) file empty_soup = Ok (true, s) /\ ~ indices_exist s.
Proof.
  exists (file ["v 0 0 0"; "v 1 0 0"; "f 1 2 7"]%string), (mk_soup [(0, 0, 0); (1, 0, 0)]%N [(0, 1, 6)] [tt]).
  split; [ vm_compute; reflexivity | ]. intro H. specialize (H 0 1 6 (or_introl eq_refl)). cbn in H. lia.
Qed.
Print Assumptions C46_obj_indices_exist_refuted.
Theorem C46_off_indices_exist_refuted : exists file s,
  read_off tt ex_parse (fun c => c) file empty_soup = Ok (true, s) /\ ~ indices_exist s.
Proof.
  exists (file ["OFF"; "1 1 0"; "0 0 0"; "3 0 1 2"]%string), (mk_soup [(0, 0, 0)]%N [(0, 1, 2)] [tt]).
  split; [ vm_compute; reflexivity | ]. intro H. specialize (H 0 1 2 (or_introl eq_refl)). cbn in H. lia.
Qed.
Print Assumptions C46_off_indices_exist_refuted.
Theorem C46_ply_indices_exist_refuted : exists file s,
  read_ply tt ex_parse (fun c => c) file empty_soup = Ok (true, s) /\ ~ indices_exist s.
Proof.
  exists (file ["ply"; "format ascii 1.0"; "element vertex 1"; "property float x"; "property float y"; "property float z";
    "element face 1"; "property list uchar int vertex_index"; "end_header"; "0 0 0"; "3 0 1 2"]%string),
    (mk_soup [(0, 0, 0)]%N [(0, 1, 2)] [tt]).
  split; [ vm_compute; reflexivity | ]. intro H. specialize (H 0 1 2 (or_introl eq_refl)). cbn in H. lia.
Qed.
Print Assumptions C46_ply_indices_exist_refuted.
(** What holds: the indices exist if the polygons of the file only use vertices of the file. *)
Theorem C46_indices_exist_partial : forall P D (d0 : D) parse (point_of : N * N * N -> P) file vs ps (target : soup P D),
  obj_means parse [] (lines file) vs ps \/ off_means parse (lines file) vs ps \/ ply_means parse file vs ps ->
  (forall p i, In p ps -> In i p -> i < List.length vs) ->
  exists s, (read_obj d0 parse point_of file target = Ok (true, s) \/ read_off d0 parse point_of file target = Ok (true, s) \/
             read_ply d0 parse point_of file target = Ok (true, s)) /\ indices_exist s.
Proof.
  intros P D d0 parse point_of file vs ps target H Hi. exists (polygon_soup d0 point_of vs ps). split.
  - destruct H as [H | [H | H] ].
    + left. apply C31_obj_polygons. exact H.
    + right. left. apply C31_off_polygons. exact H.
    + right. right. apply C31_ply_polygons. exact H.
  - intros i j k I. cbn [polygon_soup faces] in I. apply in_concat in I. destruct I as (l & Il & I).
    apply in_map_iff in Il. destruct Il as (p & <- & Ip).
    assert (K : forall v0 r v a b c, In (a, b, c) (fan_from v0 v r) -> a = v0 /\ In b (v :: r) /\ In c r).
    { intros v0 r. induction r as [ | w r IH]; intros v a b c J; [ contradiction | ]. cbn [fan_from] in J.
      destruct J as [J | J]; [ injection J as <- <- <-; cbn; auto | ]. destruct (IH w a b c J) as (-> & A & B). cbn in *. tauto. }
    unfold num_vertices, polygon_soup. cbn [points]. rewrite map_length.
    destruct p as [ | v0 [ | v1 r] ]; cbn [fan] in I; try contradiction. destruct (K _ _ _ _ _ _ I) as (-> & A & B).
    pose proof (Hi _ v0 Ip ltac:(left; reflexivity)). pose proof (Hi _ j Ip ltac:(right; exact A)).
    pose proof (Hi _ k Ip ltac:(right; right; exact B)). lia.
Qed.
Print Assumptions C46_indices_exist_partial.
