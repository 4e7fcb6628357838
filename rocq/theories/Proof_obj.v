(** * Reading and writing OBJ *)
From Coq Require Import Ascii String.
From Coq Require Import List Arith Bool NArith ZArith Lia.
From Verif Require Import Model_base Proof_base Model_soup Model_text Spec_text Proof_text.
Import ListNotations.
Local Open Scope list_scope.

Lemma skip_suffix_ok : forall suffix r, Forall (fun c => nonspace c = true) suffix ->
  match r with c :: _ => nonspace c = false | [] => True end ->
  let s := skip_suffix (mk_stream (suffix ++ r) (is_nil (suffix ++ r)) false) in
  holds s (words r) \/ (words r = [] /\ failb s = true).
Proof.
  intros suffix r Fs Nr. unfold skip_suffix, good. cbn [eofb failb rest negb andb]. rewrite andb_true_r.
  destruct (suffix ++ r) as [ | c t] eqn:E.
  - right. apply app_eq_nil in E. destruct E as [-> ->]. split; reflexivity.
  - cbn [is_nil negb]. left. rewrite <- E. change (fun c => negb (is_space c)) with nonspace.
    rewrite (span_exact nonspace suffix r Fs Nr). apply holds_rest.
Qed.

Lemma length_words : forall l, List.length (words l) <= List.length l.
Proof.
  induction l as [ | c r IH]; [ cbn; lia | ]. cbn [words List.length].
  destruct (is_space c); [ lia | ]. destruct r as [ | d r']; [ cbn; lia | ].
  destruct (is_space d); [ cbn [List.length] in *; lia | ].
  destruct (words (d :: r')) as [ | w ws]; cbn [List.length] in *; lia.
Qed.

Lemma obj_refs_ok : forall nv ws p fuel s face,
  holds s ws \/ (ws = [] /\ failb s = true) -> Forall2 (refers nv) ws p -> List.length ws < fuel ->
  obj_refs fuel nv s face = Ok (Some (face ++ p)).
Proof.
  intros nv ws. induction ws as [ | w ws IH]; intros p fuel s face H Hp Hf.
  - inversion Hp; subst. destruct fuel as [ | fuel]; [ cbn in Hf; lia | ]. cbn [obj_refs].
    assert (F : exists z s', get_ptrdiff s = (z, s') /\ failb s' = true).
    { unfold get_ptrdiff, get_integer. destruct H as [H | [_ H] ].
      - destruct (sentry_none s H) as (s' & E & F). rewrite E. eauto.
      - destruct (sentry_failed s H) as (s' & E & F). rewrite E. eauto. }
    destruct F as (z & s' & E & F). rewrite E, F, app_nil_r. reflexivity.
  - inversion Hp as [ | ? i ? p' Hi Hp' ]; subst. destruct H as [H | [H _] ]; [ | discriminate ].
    destruct fuel as [ | fuel]; [ cbn in Hf; lia | ]. cbn [obj_refs].
    destruct Hi as (v & suffix & Ew & Ns & Hv). subst w.
    assert (Hc : signed64 (v <? 0)%Z (Z.abs_N v) = Some v).
    { unfold signed64. destruct Hv as [ [Hv _] | [Hv _] ].
      - replace (v <? 0)%Z with false by (symmetry; apply Z.ltb_ge; lia).
        replace (Z.abs_N v <? 2 ^ 63)%N with true; [ f_equal; lia | ].
        symmetry. apply N.ltb_lt. change (2 ^ 63)%N with (Z.to_N (2 ^ 63)). lia.
      - replace (v <? 0)%Z with true by (symmetry; apply Z.ltb_lt; lia).
        replace (Z.abs_N v <=? 2 ^ 63)%N with true; [ f_equal; lia | ].
        symmetry. apply N.leb_le. change (2 ^ 63)%N with (Z.to_N (2 ^ 63)). lia. }
    destruct (get_integer_signed signed64 s v suffix ws v H Ns Hc) as (r & E & Wr & Nr & Fs).
    unfold get_ptrdiff. rewrite E. cbn [failb].
    pose proof (skip_suffix_ok suffix r Fs Nr) as K. cbn zeta in K.
    rewrite Wr in K.
    assert (L : List.length ws < fuel) by (cbn in Hf; lia).
    destruct Hv as [ [Hv Hi] | (Hv & Hi & Hb) ].
    + replace (0 <? v)%Z with true by (symmetry; apply Z.ltb_lt; lia).
      replace (Z.to_nat (v - 1)) with i by lia.
      rewrite (IH p' fuel _ _ K Hp' L). rewrite <- app_assoc. reflexivity.
    + replace (0 <? v)%Z with false by (symmetry; apply Z.ltb_ge; lia).
      replace (v <? 0)%Z with true by (symmetry; apply Z.ltb_lt; lia).
      replace (Z.to_nat (wrap64 (Z.of_nat nv + v))) with i.
      2:{ unfold wrap64. rewrite <- Hi. rewrite Z.mod_small by lia. lia. }
      rewrite (IH p' fuel _ _ K Hp' L). rewrite <- app_assoc. reflexivity.
Qed.

(** The loop over the references always ends. *)
Lemma get_integer_shorter : forall conv s z s', get_integer conv s = (z, s') -> failb s' = false ->
  List.length (rest s') < List.length (rest s).
Proof.
  intros conv s z s' H F. unfold get_integer in H. unfold sentry in H. destruct (good s).
  - destruct (is_nil (skip_space (rest s))); [ injection H as <- <-; discriminate | ]. cbn [rest] in H.
    assert (L : List.length (skip_space (rest s)) <= List.length (rest s)).
    { unfold skip_space. rewrite <- (span_app is_space (rest s)) at 2. rewrite app_length. lia. }
    set (l := skip_space (rest s)) in *.
    set (nr := match l with
               | [] => (false, [])
               | c :: t => if Ascii.eqb c "-" then (true, t) else if Ascii.eqb c "+" then (false, t) else (false, l)
               end) in *.
    assert (L2 : List.length (snd nr) <= List.length l).
    { unfold nr. destruct l as [ | c t]; [ cbn; lia | ].
      destruct (Ascii.eqb c "-"); [ cbn; lia | ]. destruct (Ascii.eqb c "+"); cbn; lia. }
    destruct nr as [neg r]. cbn [snd] in L2.
    pose proof (span_app is_digit r) as A. destruct (span is_digit r) as [ds r'] eqn:Es. cbn [fst snd] in A.
    destruct ds as [ | d ds]; cbn [is_nil] in H; [ injection H as <- <-; discriminate | ].
    destruct (conv neg (digits_value (d :: ds))); injection H as <- <-; [ | discriminate ]. cbn [rest].
    rewrite <- A in L2. rewrite app_length in L2. cbn [List.length] in L2. lia.
  - injection H as <- <-. discriminate.
Qed.
Lemma skip_suffix_shorter : forall s, List.length (rest (skip_suffix s)) <= List.length (rest s).
Proof.
  intro s. unfold skip_suffix. destruct (good s); [ | cbn; lia ]. cbn [rest].
  rewrite <- (span_app (fun c => negb (is_space c)) (rest s)) at 2. rewrite app_length. lia.
Qed.
Lemma obj_refs_total : forall nv fuel s face, List.length (rest s) < fuel ->
  exists o, obj_refs fuel nv s face = Ok o.
Proof.
  intros nv fuel. induction fuel as [ | fuel IH]; intros s face L; [ lia | ]. cbn [obj_refs].
  destruct (get_ptrdiff s) as [v s'] eqn:E. destruct (failb s') eqn:F; [ eauto | ].
  pose proof (get_integer_shorter _ _ _ _ E F) as L1. pose proof (skip_suffix_shorter s') as L2.
  destruct (0 <? v)%Z; [ apply IH; lia | ]. destruct (v <? 0)%Z; [ apply IH; lia | eauto ].
Qed.

Section Obj.
  Context {P D : Type}.
  Variable d0 : D.
  Variable parse : text -> option N.
  Variable print : N -> text.
  Variable point_of : N * N * N -> P.
  Variable coords : P -> N * N * N.

  Notation line := (obj_line d0 parse point_of).

  Definition built (vs : list (N * N * N)) (fs : list face) : soup P D :=
    mk_soup (map point_of vs) fs (repeat d0 (List.length fs)).
  Lemma built_vertex : forall vs fs v, snd (add_vertex (built vs fs) (point_of v)) = built (vs ++ [v]) fs.
  Proof. intros vs fs v. unfold built, add_vertex. cbn. rewrite map_app. reflexivity. Qed.
  Lemma built_faces : forall vs fs gs, with_faces d0 (built vs fs) gs = built vs (fs ++ gs).
  Proof. intros vs fs gs. unfold built, with_faces. cbn. rewrite app_length, repeat_app. reflexivity. Qed.

  Lemma not_comment_v : ~ comment (txt "v").
  Proof. intros [r H]. discriminate. Qed.
  Lemma not_comment_f : ~ comment (txt "f").
  Proof. intros [r H]. discriminate. Qed.

  Lemma obj_line_vertex : forall l a b c more x y z s,
    words l = txt "v" :: a :: b :: c :: more ->
    number_word parse a x -> number_word parse b y -> number_word parse c z ->
    line l s = Ok (Some (snd (add_vertex s (point_of (x, y, z))))).
  Proof.
    intros l a b c more x y z s W Ha Hb Hc. unfold obj_line.
    assert (S : significant l = true).
    { apply significant_spec. rewrite W. exact not_comment_v. }
    destruct (line_significant l S) as (F & H & _). rewrite F. cbn [negb]. rewrite W in H.
    destruct (get_word_holds _ _ _ H) as (s1 & E1 & H1). rewrite E1, text_eqb_refl.
    destruct (get_doubles_holds parse _ _ _ _ _ _ _ _ H1 Ha Hb Hc) as (s2 & E2 & H2). rewrite E2, (proj1 H2).
    reflexivity.
  Qed.
  Lemma obj_line_face : forall l ws p s, words l = txt "f" :: ws -> Forall2 (refers (num_vertices s)) ws p ->
    line l s = Ok (Some (with_faces d0 s (fan p))).
  Proof.
    intros l ws p s W Hp. unfold obj_line.
    assert (S : significant l = true).
    { apply significant_spec. rewrite W. exact not_comment_f. }
    destruct (line_significant l S) as (F & H & _). rewrite F. cbn [negb]. rewrite W in H.
    destruct (get_word_holds _ _ _ H) as (s1 & E1 & H1). rewrite E1, text_eqb_refl.
    rewrite (text_eqb_neq (txt "f") (txt "v")) by discriminate.
    rewrite (obj_refs_ok (num_vertices s) ws p _ s1 []); [ | left; exact H1 | exact Hp | ].
    - cbn [bind app]. rewrite add_fan_ok. reflexivity.
    - pose proof (length_words (rest s1)) as L. rewrite (proj2 (proj2 H1)) in L. lia.
  Qed.
  Lemma obj_line_other : forall l s, (forall w ws, words l = w :: ws -> w <> txt "v" /\ w <> txt "f") ->
    line l s = Ok (Some s).
  Proof.
    intros l s N. unfold obj_line. destruct (significant l) eqn:S.
    - destruct (line_significant l S) as (F & H & Nn). rewrite F. cbn [negb].
      destruct (words l) as [ | w ws] eqn:W; [ congruence | ].
      destruct (get_word_holds _ _ _ H) as (s1 & E1 & H1). rewrite E1.
      destruct (N w ws eq_refl) as [N1 N2]. rewrite !text_eqb_neq by assumption. reflexivity.
    - rewrite (line_blank l S). reflexivity.
  Qed.

  Lemma obj_lines_ok : forall vs ls vs' ps fs, obj_means parse vs ls vs' ps ->
    obj_lines d0 parse point_of ls (built vs fs) = Ok (Some (built vs' (fs ++ concat (map fan ps)))).
  Proof.
    intros vs ls vs' ps fs H. revert fs. induction H as [ vs | vs l ls vs' ps a b c more x y z W Ha Hb Hc H IH
      | vs l ls vs' ps ws p W Hp H IH | vs l ls vs' ps N H IH ]; intro fs; cbn [obj_lines map concat].
    - rewrite app_nil_r. reflexivity.
    - rewrite (obj_line_vertex _ _ _ _ _ _ _ _ _ W Ha Hb Hc). cbn [bind]. rewrite built_vertex. apply IH.
    - rewrite (obj_line_face l ws p) ; [ | exact W | ].
      + cbn [bind]. rewrite built_faces, IH, app_assoc. reflexivity.
      + unfold num_vertices, built. cbn [points]. rewrite map_length. exact Hp.
    - rewrite (obj_line_other l _ N). cbn [bind]. apply IH.
  Qed.

  (** Reading never throws. *)
  Lemma obj_line_total : forall l s, exists o, line l s = Ok o.
  Proof.
    intros l s. unfold obj_line. destruct (negb _); [ eauto | ].
    destruct (get_word _) as [w s1]. destruct (text_eqb w (txt "v")).
    - destruct (get_doubles parse s1) as [ [ [x y] z] s2]. destruct (failb s2); eauto.
    - destruct (text_eqb w (txt "f")); [ | eauto ].
      destruct (obj_refs_total (num_vertices s) (S (List.length (rest s1))) s1 []) as [o E]; [ lia | ].
      rewrite E. cbn [bind]. destruct o as [p | ]; [ | eauto ]. rewrite add_fan_ok. cbn [bind]. eauto.
  Qed.
  Lemma obj_lines_total : forall ls s, exists o, obj_lines d0 parse point_of ls s = Ok o.
  Proof.
    induction ls as [ | l ls IH]; intro s; cbn [obj_lines]; [ eauto | ].
    destruct (obj_line_total l s) as [o E]. rewrite E. cbn [bind]. destruct o; [ apply IH | eauto ].
  Qed.
End Obj.

(** ** Written lines *)
Lemma lines_line : forall l r, ~ In newline l -> lines (l ++ newline :: r) = l :: lines r.
Proof.
  induction l as [ | c l IH]; intros r N; cbn [app lines].
  - rewrite Ascii.eqb_refl. reflexivity.
  - destruct (Ascii.eqb c newline) eqn:E.
    + apply Ascii.eqb_eq in E. subst c. exfalso. apply N. left. reflexivity.
    + rewrite IH by (intro H; apply N; right; exact H). reflexivity.
Qed.

Lemma words_last : forall w, w <> [] -> Forall (fun c => nonspace c = true) w -> words w = [w].
Proof.
  intros w N F. destruct w as [ | c r]; [ congruence | ].
  assert (Nc : is_space c = false) by (inversion F; apply negb_true_iff; assumption).
  rewrite (words_span (c :: r) c r eq_refl Nc).
  assert (E : span nonspace ((c :: r) ++ []) = (c :: r, [])) by (apply span_exact; [ exact F | exact I ]).
  rewrite app_nil_r in E. rewrite E. reflexivity.
Qed.
Lemma words_first : forall w d r, w <> [] -> Forall (fun c => nonspace c = true) w -> is_space d = true ->
  words (w ++ d :: r) = w :: words r.
Proof.
  intros w d r N F S. destruct w as [ | c t]; [ congruence | ].
  assert (Nc : is_space c = false) by (inversion F; apply negb_true_iff; assumption).
  rewrite (words_span ((c :: t) ++ d :: r) c (t ++ d :: r) eq_refl Nc).
  rewrite (span_exact nonspace (c :: t) (d :: r)); [ | exact F | unfold nonspace; rewrite S; reflexivity ].
  cbn [fst snd]. f_equal. cbn [words]. rewrite S. reflexivity.
Qed.

Definition word (w : text) : Prop := w <> [] /\ Forall (fun c => nonspace c = true) w.
Lemma word_no_newline : forall w, word w -> ~ In newline w.
Proof.
  intros w [_ F] H. rewrite Forall_forall in F. specialize (F _ H). discriminate.
Qed.
Lemma decimal_word : forall n, word (decimal n).
Proof.
  intro n. destruct (decimal_ok n) as (_ & N & F). split; [ exact N | ].
  eapply Forall_impl; [ | exact F ]. intros c (d & Hd & ->). unfold nonspace.
  destruct (digit_facts d Hd) as (_ & _ & _ & _ & -> & _). reflexivity.
Qed.
Lemma decimal_Z_word : forall z, word (decimal_Z z).
Proof.
  intro z. unfold decimal_Z. destruct (decimal_word (Z.abs_N z)) as [N F]. destruct (z <? 0)%Z; [ | split; assumption ].
  split; [ discriminate | ]. constructor; [ reflexivity | exact F ].
Qed.

(** Words separated by single spaces. *)
Fixpoint unwords (ws : list text) : text :=
  match ws with
  | [] => []
  | [w] => w
  | w :: ws => w ++ space ++ unwords ws
  end.
Lemma words_unwords : forall ws, Forall word ws -> words (unwords ws) = ws.
Proof.
  induction ws as [ | w ws IH]; intro H; [ reflexivity | ]. inversion H as [ | ? ? [Nw Fw] Hws ]; subst.
  destruct ws as [ | w' ws]; [ exact (words_last w Nw Fw) | ].
  change (unwords (w :: w' :: ws)) with (w ++ " "%char :: unwords (w' :: ws)).
  rewrite (words_first w " "%char _ Nw Fw eq_refl). rewrite (IH Hws). reflexivity.
Qed.
Lemma unwords_no_newline : forall ws, Forall word ws -> ~ In newline (unwords ws).
Proof.
  induction ws as [ | w ws IH]; intros H; [ intros [ ] | ]. inversion H as [ | ? ? Hw Hws ]; subst.
  destruct ws as [ | w' ws]; [ exact (word_no_newline w Hw) | ].
  change (unwords (w :: w' :: ws)) with (w ++ " "%char :: unwords (w' :: ws)). intro I.
  apply in_app_or in I. destruct I as [I | [I | I] ].
  - exact (word_no_newline w Hw I).
  - discriminate.
  - exact (IH Hws I).
Qed.
(** A text made of lines of words. *)
Definition file_of (ls : list (list text)) : text := concat (map (fun ws => unwords ws ++ [newline]) ls).
Lemma file_of_app : forall a b, file_of (a ++ b) = file_of a ++ file_of b.
Proof. intros a b. unfold file_of. rewrite map_app, concat_app. reflexivity. Qed.
Lemma lines_file : forall ls r, Forall (Forall word) ls -> lines (file_of ls ++ r) = map unwords ls ++ lines r.
Proof.
  intros ls r H. induction H as [ | ws ls Hw Hls IH]; [ reflexivity | ].
  unfold file_of in *. cbn [map concat]. rewrite <- !app_assoc. cbn [app].
  rewrite lines_line by (apply unwords_no_newline; exact Hw). rewrite IH. reflexivity.
Qed.

Section Write.
  Context {P D : Type}.
  Variable parse : text -> option N.
  Variable print : N -> text.
  Variable valid : N -> Prop.
  Variable coords : P -> N * N * N.
  Hypothesis Hf : faithful parse print valid.

  Definition valid_coords (p : P) : Prop := let '(x, y, z) := coords p in valid x /\ valid y /\ valid z.

  Lemma print_word : forall x, valid x -> word (print x).
  Proof.
    intros x V. split.
    - destruct (fa_first _ _ _ Hf x V) as (c & r & E & _). rewrite E. discriminate.
    - apply Forall_forall. intros c I. unfold nonspace. rewrite (fa_words _ _ _ Hf x c V I). reflexivity.
  Qed.
  Lemma print_number : forall x, valid x -> number_word parse (print x) x.
  Proof.
    intros x V. pose proof (fa_parse _ _ _ Hf x V) as E. destruct (fa_first _ _ _ Hf x V) as (c & r & Ec & Hc).
    rewrite Ec in *. unfold number_word. replace (Ascii.eqb c "+") with false; [ exact E | ].
    symmetry. destruct Hc as [-> | Hc]; [ reflexivity | ]. destruct (Ascii.eqb c "+") eqn:E2; [ | reflexivity ].
    apply Ascii.eqb_eq in E2. subst c. discriminate.
  Qed.
  Lemma print_not_comment : forall x, valid x -> ~ comment (print x).
  Proof.
    intros x V [r E]. destruct (fa_first _ _ _ Hf x V) as (c & t & Ec & Hc). rewrite E in Ec. injection Ec as <- _.
    destruct Hc as [Hc | Hc]; discriminate.
  Qed.

  Definition coord_words (p : P) : list text := let '(x, y, z) := coords p in [print x; print y; print z].
  Lemma write_coords_words : forall p, write_coords print coords p = unwords (coord_words p) ++ [newline].
  Proof.
    intro p. unfold write_coords, coord_words. destruct (coords p) as [ [x y] z]. cbn [unwords].
    rewrite <- !app_assoc. reflexivity.
  Qed.
  Lemma coord_words_ok : forall p, valid_coords p -> Forall word (coord_words p).
  Proof.
    intros p V. unfold valid_coords, coord_words in *. destruct (coords p) as [ [x y] z].
    repeat constructor; try (apply print_word; tauto).
  Qed.

  Definition face_words (neg : bool) (nv : nat) (f : face) : list text :=
    let '(i, j, k) := f in [txt "f"; obj_ref neg nv i; obj_ref neg nv j; obj_ref neg nv k].
  Lemma obj_ref_word : forall neg nv i, word (obj_ref neg nv i).
  Proof. intros [ | ] nv i; [ apply decimal_Z_word | apply decimal_word ]. Qed.
  Lemma face_words_ok : forall neg nv f, Forall word (face_words neg nv f).
  Proof.
    intros neg nv [ [i j] k]. unfold face_words. constructor; [ | repeat (constructor; [ apply obj_ref_word | ]); constructor ].
    split; [ discriminate | repeat constructor ].
  Qed.
  Lemma write_obj_file : forall neg (s : soup P D), write_obj print coords neg s =
    file_of (map (fun p => txt "v" :: coord_words p) (points s) ++ map (face_words neg (num_vertices s)) (faces s)).
  Proof.
    intros neg s. rewrite file_of_app. unfold write_obj, file_of. f_equal.
    - rewrite map_map. f_equal. apply map_ext. intro p. rewrite write_coords_words. unfold coord_words.
      destruct (coords p) as [ [x y] z]. reflexivity.
    - rewrite map_map. f_equal. apply map_ext. intros [ [i j] k]. unfold write_obj_face, face_words.
      cbn [unwords]. rewrite <- !app_assoc. reflexivity.
  Qed.

  Lemma obj_ref_refers : forall neg nv i, i < nv -> (Z.of_nat nv < 2 ^ 63)%Z -> refers nv (obj_ref neg nv i) i.
  Proof.
    intros neg nv i L B. unfold obj_ref. destruct neg.
    - assert (E : as_signed (Z.of_nat nv - Z.of_nat i) = (Z.of_nat nv - Z.of_nat i)%Z).
      { unfold as_signed, wrap64. rewrite Z.mod_small by lia.
        replace (Z.of_nat nv - Z.of_nat i <? 2 ^ 63)%Z with true; [ reflexivity | symmetry; apply Z.ltb_lt; lia ]. }
      rewrite E. exists (- (Z.of_nat nv - Z.of_nat i))%Z, []. split; [ rewrite app_nil_r; reflexivity | ].
      split; [ exact I | ]. right. lia.
    - exists (Z.of_nat i + 1)%Z, []. rewrite app_nil_r. split.
      + unfold decimal_Z. replace (Z.of_nat i + 1 <? 0)%Z with false by (symmetry; apply Z.ltb_ge; lia).
        f_equal. lia.
      + split; [ exact I | ]. left. lia.
  Qed.

  Lemma fan_triangles : forall (fs : list face), concat (map fan (map (fun f : face => let '(i, j, k) := f in [i; j; k]) fs)) = fs.
  Proof. induction fs as [ | [ [i j] k] fs IH]; [ reflexivity | ]. cbn in *. rewrite IH. reflexivity. Qed.

  Lemma obj_written : forall neg (s : soup P D),
    Forall valid_coords (points s) ->
    Forall (fun f : face => let '(i, j, k) := f in i < num_vertices s /\ j < num_vertices s /\ k < num_vertices s) (faces s) ->
    (Z.of_nat (num_vertices s) < 2 ^ 63)%Z ->
    obj_means parse [] (lines (write_obj print coords neg s)) (map coords (points s))
      (map (fun f : face => let '(i, j, k) := f in [i; j; k]) (faces s)).
  Proof.
    intros neg s Hv Hfs B. rewrite write_obj_file.
    rewrite <- (app_nil_r (file_of _)), lines_file.
    2:{ apply Forall_app. split; apply Forall_map.
        - eapply Forall_impl; [ | exact Hv ]. intros p Hp. constructor; [ split; [ discriminate | repeat constructor ] | ].
          apply coord_words_ok. exact Hp.
        - apply Forall_forall. intros f _. apply face_words_ok. }
    cbn [lines]. rewrite app_nil_r, map_app, !map_map.
    assert (Faces : forall fs vs, List.length vs = num_vertices s ->
      Forall (fun f : face => let '(i, j, k) := f in i < num_vertices s /\ j < num_vertices s /\ k < num_vertices s) fs ->
      obj_means parse vs (map (fun x => unwords (face_words neg (num_vertices s) x)) fs) vs
        (map (fun f : face => let '(i, j, k) := f in [i; j; k]) fs)).
    { intros fs vs L H. induction H as [ | [ [i j] k] fs Hi Hfs' IH]; cbn [map]; [ constructor | ].
      eapply obj_face; [ | | exact IH ].
      - rewrite words_unwords by apply face_words_ok. reflexivity.
      - rewrite L. repeat (constructor; [ apply obj_ref_refers; lia | ]). constructor. }
    assert (All : forall ps vs, vs ++ map coords ps = map coords (points s) -> Forall valid_coords ps ->
      obj_means parse vs
        (map (fun x => unwords (txt "v" :: coord_words x)) ps ++
         map (fun x => unwords (face_words neg (num_vertices s) x)) (faces s))
        (map coords (points s)) (map (fun f : face => let '(i, j, k) := f in [i; j; k]) (faces s))).
    { intros ps. induction ps as [ | p ps IH]; intros vs E H; cbn [map app].
      - cbn [map] in E. rewrite app_nil_r in E. subst vs. apply Faces; [ apply map_length | exact Hfs ].
      - inversion H as [ | ? ? Hp Hps ]; subst. destruct (coords p) as [ [x y] z] eqn:Ec.
        pose proof Hp as Hp'. unfold valid_coords in Hp'. rewrite Ec in Hp'. destruct Hp' as (Vx & Vy & Vz).
        eapply (obj_vertex parse vs _ _ _ _ (print x) (print y) (print z) [] x y z).
        + rewrite words_unwords.
          * unfold coord_words. rewrite Ec. reflexivity.
          * constructor; [ split; [ discriminate | repeat constructor ] | ]. apply coord_words_ok. exact Hp.
        + apply print_number. exact Vx.
        + apply print_number. exact Vy.
        + apply print_number. exact Vz.
        + apply IH; [ | exact Hps ]. rewrite <- E. cbn [map]. rewrite Ec, <- app_assoc. reflexivity. }
    apply All; [ reflexivity | exact Hv ].
  Qed.
End Write.
