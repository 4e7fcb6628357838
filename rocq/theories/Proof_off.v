(** * Reading and writing OFF *)
From Coq Require Import Ascii String.
From Coq Require Import List Arith Bool NArith ZArith Lia.
From Verif Require Import Model_base Proof_base Model_soup Model_text Spec_text Proof_text Proof_obj.
Import ListNotations.
Local Open Scope list_scope.

Lemma off_signature_ok : forall s w more, holds s (w :: more) -> off_signature w -> blank more ->
  exists s', get_off_signature s = (false, s') /\ failb s' = false.
Proof.
  intros s w more H Hw B. unfold get_off_signature.
  destruct (get_word_holds _ _ _ H) as (s1 & E1 & H1). rewrite E1, (proj1 H1).
  assert (E : drop_prefix (txt "N") (drop_prefix (txt "C") (drop_prefix (txt "ST") w)) = txt "OFF").
  { destruct Hw as (st & c & n & -> & [-> | ->] & [-> | ->] & [-> | ->]); vm_compute; reflexivity. }
  rewrite E, text_eqb_refl. cbn [negb].
  pose proof (opt_hash_blank s1 more H1 B) as F. rewrite F. cbn [negb]. eauto.
Qed.

Definition after (nv nf : nat) : off_state :=
  if nv =? 0 then (if nf =? 0 then END else READING_FACES) else READING_VERTICES.

Section Off.
  Context {P D : Type}.
  Variable d0 : D.
  Variable parse : text -> option N.
  Variable point_of : N * N * N -> P.

  Notation line := (off_line d0 parse point_of).
  Notation loop := (off_lines d0 parse point_of).
  Notation built := (built d0 point_of).

  Lemma off_line_blank : forall l o, significant l = false -> line l o = Ok (Some o).
  Proof. intros l o S. unfold off_line. rewrite (line_blank l S). reflexivity. Qed.
  Lemma off_lines_filter : forall ls o, loop ls o = loop (filter significant ls) o.
  Proof.
    induction ls as [ | l ls IH]; intro o; [ reflexivity | ]. cbn [filter]. destruct (significant l) eqn:S.
    - cbn [off_lines]. destruct (line l o) as [ [o' | ] | | ]; cbn [bind]; try reflexivity. apply IH.
    - cbn [off_lines]. rewrite (off_line_blank l o S). cbn [bind]. apply IH.
  Qed.

  Lemma off_vertices : forall vlines vs, Forall2 (vertex_line parse) vlines vs ->
    Forall (fun l => significant l = true) vlines -> forall nf vs0 fs r,
    loop (vlines ++ r) (mk_off (after (List.length vs) nf) (List.length vs) nf (built vs0 fs)) =
    loop r (mk_off (after 0 nf) 0 nf (built (vs0 ++ vs) fs)).
  Proof.
    intros vlines vs H. induction H as [ | l [ [x y] z] vlines vs Hl H IH]; intros Hs nf vs0 fs r.
    - cbn [app List.length]. rewrite app_nil_r. reflexivity.
    - inversion Hs as [ | ? ? S Hs' ]; subst. cbn [app List.length off_lines].
      destruct Hl as (a & b & c & more & W & Ha & Hb & Hc).
      destruct (line_significant l S) as (F & Hh & _). rewrite W in Hh.
      unfold off_line. rewrite F. cbn [negb ost].
      replace (after (Datatypes.S (List.length vs)) nf) with READING_VERTICES by reflexivity. cbn [ost onv onf osoup].
      destruct (get_doubles_holds parse _ _ _ _ _ _ _ _ Hh Ha Hb Hc) as (s2 & E2 & H2). rewrite E2, (proj1 H2).
      cbn [bind]. rewrite Nat.sub_succ, Nat.sub_0_r, (built_vertex (D := D) d0 point_of). fold (after (List.length vs) nf).
      rewrite (IH Hs'). rewrite <- app_assoc. reflexivity.
  Qed.
  Lemma off_faces : forall flines ps, Forall2 polygon_line flines ps ->
    Forall (fun l => significant l = true) flines -> forall vs fs,
    loop flines (mk_off (after 0 (List.length ps)) 0 (List.length ps) (built vs fs)) =
    Ok (Some (mk_off END 0 0 (built vs (fs ++ concat (map fan ps))))).
  Proof.
    intros flines ps H. induction H as [ | l p flines ps Hl H IH]; intros Hs vs fs.
    - cbn [List.length off_lines map concat]. rewrite app_nil_r. reflexivity.
    - inversion Hs as [ | ? ? S Hs' ]; subst. cbn [List.length off_lines].
      destruct Hl as (Hp & Hn & more & W).
      destruct (line_significant l S) as (F & Hh & _). rewrite W in Hh.
      unfold off_line. rewrite F. cbn [negb ost].
      replace (after 0 (Datatypes.S (List.length ps))) with READING_FACES by reflexivity. cbn [ost onv onf osoup].
      destruct (get_size_holds _ _ _ Hn Hh) as (s1 & E1 & H1). rewrite E1.
      destruct (get_indices_holds p _ _ Hp H1) as (s2 & E2 & H2). rewrite E2, (proj1 H2).
      rewrite add_fan_ok. cbn [bind]. rewrite Nat.sub_succ, Nat.sub_0_r, built_faces.
      change (if List.length ps =? 0 then END else READING_FACES) with (after 0 (List.length ps)).
      rewrite (IH Hs'). cbn [map concat]. rewrite app_assoc. reflexivity.
  Qed.

  Lemma off_read_ok : forall file vs ps target, off_means parse (lines file) vs ps ->
    read_off d0 parse point_of file target = Ok (true, built vs (concat (map fan ps))).
  Proof.
    intros file vs ps target (sg & cn & vl & fl & w & m1 & m2 & Ef & (Ws & Hs & B) & (Wc & Sv & Sp) & Hvl & Hfl).
    unfold read_off. rewrite off_lines_filter, Ef.
    assert (Sig : Forall (fun l => significant l = true) (sg :: cn :: vl ++ fl)).
    { rewrite <- Ef. apply Forall_forall. intros l Hl. apply filter_In in Hl. tauto. }
    inversion Sig as [ | ? ? S1 Sig1 ]; subst. inversion Sig1 as [ | ? ? S2 Sig2 ]; subst.
    apply Forall_app in Sig2. destruct Sig2 as [S3 S4].
    cbn [off_lines]. unfold off_line at 1.
    destruct (line_significant sg S1) as (F & Hh & _). rewrite F. cbn [negb ost onv onf osoup]. rewrite Ws in Hh.
    destruct (off_signature_ok _ _ _ Hh Hs B) as (s' & E & F'). rewrite E, F'. cbn [bind].
    unfold off_line at 1. destruct (line_significant cn S2) as (F2 & Hh2 & _). rewrite F2. cbn [negb ost onv onf osoup].
    rewrite Wc in Hh2. destruct (get_size_holds _ _ _ Sv Hh2) as (s1 & E1 & H1). rewrite E1.
    destruct (get_size_holds _ _ _ Sp H1) as (s2 & E2 & H2). rewrite E2, (proj1 H2). cbn [bind].
    change (if List.length vs =? 0 then if List.length ps =? 0 then END else READING_FACES else READING_VERTICES)
      with (after (List.length vs) (List.length ps)).
    change empty_soup with (built [] []).
    rewrite (off_vertices vl vs Hvl S3), (off_faces fl ps Hfl S4). reflexivity.
  Qed.

  (** Reading never throws. *)
  Lemma off_line_total : forall l o, exists r, line l o = Ok r.
  Proof.
    intros l o. unfold off_line. destruct (negb _); [ eauto | ]. destruct (ost o).
    - destruct (get_off_signature _) as [b s]. destruct (failb s); [ eauto | ]. destruct b; eauto.
    - destruct (get_size _) as [nv s1]. destruct (get_size s1) as [nf s2]. destruct (failb s2); eauto.
    - destruct (get_doubles _ _) as [ [ [x y] z] s]. destruct (failb s); eauto.
    - destruct (get_size _) as [n s1]. destruct (get_indices n s1) as [p s2]. destruct (failb s2); [ eauto | ].
      rewrite add_fan_ok. cbn [bind]. eauto.
    - eauto.
  Qed.
  Lemma off_lines_total : forall ls o, exists r, loop ls o = Ok r.
  Proof.
    induction ls as [ | l ls IH]; intro o; cbn [off_lines]; [ eauto | ].
    destruct (off_line_total l o) as [r E]. rewrite E. cbn [bind]. destruct r; [ apply IH | eauto ].
  Qed.

  (** The number of lines. *)
  Lemma off_count : forall ls o o', Forall (fun l => significant l = true) ls ->
    ost o = after (onv o) (onf o) -> loop ls o = Ok (Some o') -> ost o' = END ->
    List.length ls = onv o + onf o /\ num_vertices (osoup o') = num_vertices (osoup o) + onv o.
  Proof.
    induction ls as [ | l ls IH]; intros o o' Hs Ho H He; cbn [off_lines] in H.
    - injection H as <-. rewrite Ho in He. unfold after in He.
      destruct (onv o); [ | discriminate ]. destruct (onf o); [ | discriminate ]. cbn. lia.
    - inversion Hs as [ | ? ? S Hs' ]; subst.
      destruct (line l o) as [ [o1 | ] | | ] eqn:E; cbn [bind] in H; try discriminate.
      assert (K : ost o1 = after (onv o1) (onf o1) /\ onv o + onf o = Datatypes.S (onv o1 + onf o1) /\
                  num_vertices (osoup o1) + onv o1 = num_vertices (osoup o) + onv o).
      { unfold off_line in E. destruct (line_significant l S) as (F & _ & _). rewrite F in E. cbn [negb] in E.
        rewrite Ho in E. unfold after in E. destruct (onv o) as [ | n] eqn:En; cbn [Nat.eqb] in E.
        - destruct (onf o) as [ | m] eqn:Em; cbn [Nat.eqb] in E; [ discriminate | ].
          destruct (get_size _) as [k s1]. destruct (get_indices k s1) as [p s2]. destruct (failb s2); [ discriminate | ].
          rewrite add_fan_ok in E. cbn [bind] in E. injection E as <-. cbn [ost onv onf osoup].
          unfold after, num_vertices, with_faces. cbn [Nat.eqb points Nat.sub]. rewrite ?Nat.sub_0_r. split; [ reflexivity | lia ].
        - destruct (get_doubles _ _) as [ [ [x y] z] s]. destruct (failb s); [ discriminate | ].
          injection E as <-. cbn [ost onv onf osoup]. unfold after. cbn [Nat.sub]. rewrite ?Nat.sub_0_r.
          split; [ reflexivity | ]. unfold num_vertices, add_vertex. cbn [snd points]. rewrite app_length. cbn. lia. }
      destruct K as (K1 & K2 & K3). destruct (IH o1 o' Hs' K1 H He) as [I1 I2]. cbn [List.length]. lia.
  Qed.
End Off.

Section WriteOff.
  Context {P D : Type}.
  Variable parse : text -> option N.
  Variable print : N -> text.
  Variable valid : N -> Prop.
  Variable coords : P -> N * N * N.
  Hypothesis Hf : faithful parse print valid.

  Definition triangle_words (f : face) : list text :=
    let '(i, j, k) := f in [txt "3"; decimal_nat i; decimal_nat j; decimal_nat k].
  Lemma triangle_words_ok : forall f, Forall word (triangle_words f).
  Proof.
    intros [ [i j] k]. unfold triangle_words. constructor; [ split; [ discriminate | repeat constructor ] | ].
    repeat (constructor; [ apply decimal_word | ]). constructor.
  Qed.
  Lemma write_triangle_words : forall f, write_triangle f = unwords (triangle_words f) ++ [newline].
  Proof.
    intros [ [i j] k]. unfold write_triangle, triangle_words. cbn [unwords]. rewrite <- !app_assoc. reflexivity.
  Qed.
  Definition body_words (s : soup P D) : list (list text) :=
    map (coord_words print coords) (points s) ++ map triangle_words (faces s).
  Lemma body_words_ok : forall s : soup P D, Forall (valid_coords valid coords) (points s) ->
    Forall (Forall word) (body_words s).
  Proof.
    intros s H. apply Forall_app. split; apply Forall_map.
    - eapply Forall_impl; [ | exact H ]. intros p Hp. apply (coord_words_ok parse print valid coords Hf). exact Hp.
    - apply Forall_forall. intros f _. apply triangle_words_ok.
  Qed.
  Lemma write_body : forall s : soup P D,
    concat (map (write_coords print coords) (points s)) ++ concat (map write_triangle (faces s)) =
    file_of (body_words s).
  Proof.
    intro s. unfold body_words. rewrite file_of_app. unfold file_of. rewrite !map_map. f_equal; f_equal; apply map_ext.
    - intro p. apply write_coords_words.
    - intro f. apply write_triangle_words.
  Qed.
  Lemma write_off_file : forall s : soup P D, write_off print coords s =
    file_of ([[txt "OFF"]; [decimal_nat (num_vertices s); decimal_nat (num_faces s); txt "0"]] ++ body_words s).
  Proof.
    intro s. rewrite file_of_app, <- write_body. unfold write_off, file_of. cbn [map concat unwords].
    rewrite <- !app_assoc. cbn [app]. reflexivity.
  Qed.

  Lemma body_vertex : forall p, valid_coords valid coords p ->
    vertex_line parse (unwords (coord_words print coords p)) (coords p) /\
    significant (unwords (coord_words print coords p)) = true.
  Proof.
    intros p V. pose proof V as V'. unfold valid_coords in V'. destruct (coords p) as [ [x y] z] eqn:Ec.
    assert (W : words (unwords (coord_words print coords p)) = [print x; print y; print z]).
    { rewrite words_unwords by (apply (coord_words_ok parse print valid coords Hf); exact V).
      unfold coord_words. rewrite Ec. reflexivity. }
    split.
    - exists (print x), (print y), (print z), []. split; [ exact W | ].
      repeat split; apply (print_number parse print valid Hf); tauto.
    - apply significant_spec. rewrite W. cbn [blank]. apply (print_not_comment parse print valid Hf). tauto.
  Qed.
  Lemma body_face : forall f : face, (let '(i, j, k) := f in size i /\ size j /\ size k) ->
    polygon_line (unwords (triangle_words f)) (let '(i, j, k) := f in [i; j; k]) /\
    significant (unwords (triangle_words f)) = true.
  Proof.
    intros [ [i j] k] (Hi & Hj & Hk).
    assert (W : words (unwords (triangle_words (i, j, k))) = triangle_words (i, j, k))
      by (apply words_unwords, triangle_words_ok).
    split.
    - split; [ repeat constructor; assumption | ]. split; [ vm_compute; reflexivity | ].
      exists []. rewrite W. reflexivity.
    - apply significant_spec. rewrite W. cbn [blank triangle_words]. intros [r E]. discriminate.
  Qed.

  Lemma filter_true : forall A (f : A -> bool) l, Forall (fun x => f x = true) l -> filter f l = l.
  Proof. intros A f l H. induction H as [ | x l Hx Hl IH]; [ reflexivity | ]. cbn [filter]. rewrite Hx, IH. reflexivity. Qed.

  Lemma off_written : forall s : soup P D,
    Forall (valid_coords valid coords) (points s) ->
    Forall (fun f : face => let '(i, j, k) := f in size i /\ size j /\ size k) (faces s) ->
    size (num_vertices s) -> size (num_faces s) ->
    off_means parse (lines (write_off print coords s)) (map coords (points s))
      (map (fun f : face => let '(i, j, k) := f in [i; j; k]) (faces s)).
  Proof.
    intros s Hv Hfs Sv Sf. rewrite write_off_file. rewrite <- (app_nil_r (file_of _)).
    assert (Nw : word (txt "OFF")) by (split; [ discriminate | repeat constructor ]).
    assert (Zw : word (txt "0")) by (split; [ discriminate | repeat constructor ]).
    assert (Cw : Forall word [decimal_nat (num_vertices s); decimal_nat (num_faces s); txt "0"]).
    { repeat (constructor; [ first [ apply decimal_word | exact Zw ] | ]). constructor. }
    rewrite lines_file.
    2:{ apply Forall_app. split; [ | apply body_words_ok; exact Hv ].
        apply Forall_cons; [ apply Forall_cons; [ exact Nw | apply Forall_nil ] | ].
        apply Forall_cons; [ exact Cw | apply Forall_nil ]. }
    cbn [lines]. rewrite app_nil_r, map_app. cbn [map app].
    unfold body_words. rewrite map_app, !map_map.
    set (vl := map (fun x => unwords (coord_words print coords x)) (points s)).
    set (fl := map (fun x => unwords (triangle_words x)) (faces s)).
    assert (V : Forall2 (vertex_line parse) vl (map coords (points s)) /\ Forall (fun l => significant l = true) vl).
    { unfold vl. clear - Hf Hv. induction Hv as [ | p ps Hp Hps IH]; cbn [map]; [ split; constructor | ].
      destruct IH. destruct (body_vertex p Hp). split; constructor; assumption. }
    assert (F : Forall2 polygon_line fl (map (fun f : face => let '(i, j, k) := f in [i; j; k]) (faces s)) /\
                Forall (fun l => significant l = true) fl).
    { unfold fl. clear - Hfs. induction Hfs as [ | f fs Hp Hps IH]; cbn [map]; [ split; constructor | ].
      destruct IH. destruct (body_face f Hp). split; constructor; assumption. }
    assert (S2 : significant (unwords [decimal_nat (num_vertices s); decimal_nat (num_faces s); txt "0"]) = true).
    { apply significant_spec. rewrite words_unwords by exact Cw. cbn [blank]. intros [r E].
      destruct (decimal_first (N.of_nat (num_vertices s))) as (d & t & Ed & Hd). unfold decimal_nat in E. rewrite Ed in E.
      injection E as E _. destruct (digit_facts d Hd) as (_ & _ & _ & _ & _ & K & _). rewrite E in K. discriminate. }
    exists (unwords [txt "OFF"]), (unwords [decimal_nat (num_vertices s); decimal_nat (num_faces s); txt "0"]),
      vl, fl, (txt "OFF"), [], [txt "0"].
    split; [ | split; [ | split; [ | split; [ exact (proj1 V) | exact (proj1 F) ] ] ] ].
    - apply filter_true. constructor; [ reflexivity | ]. constructor; [ exact S2 | ].
      apply Forall_app. split; [ exact (proj2 V) | exact (proj2 F) ].
    - split; [ reflexivity | ]. split; [ | exact I ]. exists [], [], []. repeat split; auto.
    - rewrite !map_length. split; [ apply words_unwords; exact Cw | ]. split; assumption.
  Qed.
End WriteOff.
