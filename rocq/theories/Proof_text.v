(** * Reading text: streams and words *)
From Coq Require Import Ascii String.
From Coq Require Import List Arith Bool NArith ZArith Lia.
From Verif Require Import Model_base Proof_base Model_soup Model_text Spec_text.
Import ListNotations.
Local Open Scope list_scope.

Lemma text_eqb_eq : forall a b, text_eqb a b = true <-> a = b.
Proof.
  induction a as [ | x a IH]; intros [ | y b]; cbn [text_eqb]; split; intro H; try discriminate; try reflexivity.
  - apply andb_true_iff in H. destruct H as [H1 H2]. apply Ascii.eqb_eq in H1. apply IH in H2. congruence.
  - injection H as -> ->. rewrite Ascii.eqb_refl. cbn. apply IH. reflexivity.
Qed.
Lemma text_eqb_refl : forall a, text_eqb a a = true.
Proof. intro a. apply text_eqb_eq. reflexivity. Qed.
Lemma text_eqb_neq : forall a b, a <> b -> text_eqb a b = false.
Proof. intros a b N. destruct (text_eqb a b) eqn:E; [ | reflexivity ]. apply text_eqb_eq in E. contradiction. Qed.

Lemma span_app : forall p l, fst (span p l) ++ snd (span p l) = l.
Proof.
  intros p l. induction l as [ | c r IH]; cbn [span]; [ reflexivity | ].
  destruct (p c); [ | reflexivity ]. destruct (span p r) as [a b]. cbn in *. congruence.
Qed.
Lemma span_fst : forall p l, Forall (fun c => p c = true) (fst (span p l)).
Proof.
  intros p l. induction l as [ | c r IH]; cbn [span]; [ constructor | ].
  destruct (p c) eqn:E; [ | constructor ]. destruct (span p r) as [a b]. cbn in *. auto.
Qed.
Lemma span_snd : forall p l c r, snd (span p l) = c :: r -> p c = false.
Proof.
  intros p l c r. induction l as [ | d l IH]; cbn [span]; [ discriminate | ].
  destruct (p d) eqn:E; [ destruct (span p l) as [a b]; cbn in *; auto | ].
  cbn. intro H. injection H as -> ->. exact E.
Qed.
(** The prefix is where the property stops holding. *)
Lemma span_exact : forall p a b, Forall (fun c => p c = true) a ->
  match b with c :: _ => p c = false | [] => True end -> span p (a ++ b) = (a, b).
Proof.
  intros p a b H N. induction H as [ | c a Hc Ha IH]; cbn [app].
  - destruct b as [ | c b]; cbn [span]; [ reflexivity | ]. rewrite N. reflexivity.
  - cbn [span]. rewrite Hc, IH. reflexivity.
Qed.

Definition nonspace (c : ascii) : bool := negb (is_space c).

Lemma words_skip : forall l, words (skip_space l) = words l.
Proof.
  unfold skip_space. induction l as [ | c r IH]; [ reflexivity | ]. cbn [span].
  destruct (is_space c) eqn:E.
  - destruct (span is_space r) as [a b]. cbn [snd] in *. rewrite IH. cbn [words]. rewrite E. reflexivity.
  - reflexivity.
Qed.
Lemma words_nil : forall l, words l = [] -> skip_space l = [].
Proof.
  intros l H. rewrite <- words_skip in H. destruct (skip_space l) as [ | c r] eqn:E; [ reflexivity | ].
  assert (N : is_space c = false) by (apply (span_snd is_space l c r); exact E).
  cbn [words] in H. rewrite N in H. destruct r as [ | d r]; [ discriminate | ].
  destruct (is_space d); [ discriminate | ]. destruct (words (d :: r)); discriminate.
Qed.
Lemma words_span : forall l c r, l = c :: r -> is_space c = false ->
  words l = fst (span nonspace l) :: words (snd (span nonspace l)).
Proof.
  induction l as [ | x l IH]; intros c r E N; [ discriminate | ]. injection E as -> ->.
  cbn [span]. unfold nonspace at 1 3. rewrite N. cbn [negb].
  cbn [words]. rewrite N. destruct r as [ | d r].
  - reflexivity.
  - destruct (is_space d) eqn:Nd.
    + cbn [span]. unfold nonspace. rewrite Nd. cbn [negb fst snd]. reflexivity.
    + rewrite (IH d r eq_refl Nd). destruct (span nonspace (d :: r)) as [a b]. reflexivity.
Qed.

(** A word and what follows it. *)
Lemma words_cons : forall l w ws, words l = w :: ws ->
  exists r, skip_space l = w ++ r /\ words r = ws /\ w <> [] /\ Forall (fun c => nonspace c = true) w /\
    match r with c :: _ => nonspace c = false | [] => True end.
Proof.
  intros l w ws H. rewrite <- words_skip in H. destruct (skip_space l) as [ | c r] eqn:E; [ discriminate | ].
  assert (N : is_space c = false) by (apply (span_snd is_space l c r); exact E).
  rewrite (words_span (c :: r) c r eq_refl N) in H.
  assert (Hw : fst (span nonspace (c :: r)) = w) by congruence.
  assert (Hws : words (snd (span nonspace (c :: r))) = ws) by congruence. clear H.
  exists (snd (span nonspace (c :: r))). split; [ | split; [ exact Hws | split; [ | split ] ] ].
  - rewrite <- Hw, span_app. reflexivity.
  - rewrite <- Hw. cbn [span]. unfold nonspace at 1. rewrite N. cbn [negb].
    destruct (span nonspace r). discriminate.
  - rewrite <- Hw. apply span_fst.
  - destruct (snd (span nonspace (c :: r))) as [ | d t] eqn:Ed; [ exact I | ].
    apply (span_snd nonspace (c :: r) d t). exact Ed.
Qed.

Lemma is_nil_app : forall (w : text) r, w <> [] -> is_nil (w ++ r) = false.
Proof. intros [ | c w] r N; [ congruence | reflexivity ]. Qed.

(** ** Streams that hold words *)
Definition holds (s : stream) (ws : list text) : Prop :=
  failb s = false /\ (eofb s = true -> rest s = []) /\ words (rest s) = ws.

Lemma holds_open : forall l, holds (open_line l) (words l).
Proof. intro l. split; [ reflexivity | ]. split; [ discriminate | reflexivity ]. Qed.
Lemma holds_rest : forall r, holds (mk_stream r (is_nil r) false) (words r).
Proof. intro r. split; [ reflexivity | ]. split; [ | reflexivity ]. destruct r; [ reflexivity | discriminate ]. Qed.
Lemma holds_good : forall s w ws, holds s (w :: ws) -> good s = true.
Proof.
  intros s w ws (F & E & W). unfold good. rewrite F. destruct (eofb s); [ | reflexivity ].
  rewrite (E eq_refl) in W. discriminate.
Qed.

Lemma sentry_holds : forall s w ws, holds s (w :: ws) -> exists r,
  sentry s = (true, mk_stream (w ++ r) false false) /\ words r = ws /\ w <> [] /\
  Forall (fun c => nonspace c = true) w /\ match r with c :: _ => nonspace c = false | [] => True end.
Proof.
  intros s w ws H. destruct H as (F & E & W).
  destruct (words_cons _ _ _ W) as (r & Es & Wr & Nw & Fw & Nr).
  exists r. split; [ | auto ]. unfold sentry.
  assert (G : good s = true) by (apply (holds_good s w ws); repeat split; assumption). rewrite G, Es.
  rewrite is_nil_app by exact Nw. reflexivity.
Qed.
Lemma sentry_none : forall s, holds s [] -> exists s', sentry s = (false, s') /\ failb s' = true.
Proof.
  intros s (F & E & W). unfold sentry. destruct (good s).
  - rewrite (words_nil _ W). cbn [is_nil]. eexists. split; reflexivity.
  - eexists. split; reflexivity.
Qed.
Lemma sentry_failed : forall s, failb s = true -> exists s', sentry s = (false, s') /\ failb s' = true.
Proof.
  intros s F. unfold sentry, good. rewrite F, andb_false_r. eexists. split; reflexivity.
Qed.

Lemma get_word_holds : forall s w ws, holds s (w :: ws) -> exists s', get_word s = (w, s') /\ holds s' ws.
Proof.
  intros s w ws H. destruct (sentry_holds _ _ _ H) as (r & E & Wr & Nw & Fw & Nr).
  unfold get_word. rewrite E. cbn [rest].
  change (fun c => negb (is_space c)) with nonspace. rewrite (span_exact nonspace w r Fw Nr).
  eexists. split; [ reflexivity | ]. rewrite <- Wr. apply holds_rest.
Qed.
Lemma get_word_none : forall s, holds s [] -> failb (snd (get_word s)) = true.
Proof. intros s H. unfold get_word. destruct (sentry_none s H) as (s' & E & F). rewrite E. exact F. Qed.
Lemma get_word_failed : forall s, failb s = true -> failb (snd (get_word s)) = true.
Proof. intros s H. unfold get_word. destruct (sentry_failed s H) as (s' & E & F). rewrite E. exact F. Qed.

(** ** Numbers *)
Lemma digit_facts : forall n, (n < 10)%N -> is_digit (digit n) = true /\ digit_value (digit n) = n /\
  Ascii.eqb (digit n) "-" = false /\ Ascii.eqb (digit n) "+" = false /\ is_space (digit n) = false /\
  Ascii.eqb (digit n) "#" = false /\ digit n <> newline.
Proof.
  intros n H.
  assert (C : In n [0; 1; 2; 3; 4; 5; 6; 7; 8; 9]%N) by (cbn; lia).
  cbn in C. repeat (destruct C as [<- | C]; [ vm_compute; repeat split; try reflexivity; discriminate | ]). contradiction.
Qed.
Lemma digits_value_app : forall l c, digits_value (l ++ [c]) = (10 * digits_value l + digit_value c)%N.
Proof. intros l c. unfold digits_value. rewrite fold_left_app. reflexivity. Qed.
Lemma digits_of_ok : forall fuel n, (N.size_nat n <= fuel)%nat -> 0 < fuel ->
  digits_value (digits_of fuel n) = n /\ digits_of fuel n <> [] /\
  Forall (fun c => exists d, (d < 10)%N /\ c = digit d) (digits_of fuel n).
Proof.
  induction fuel as [ | fuel IH]; intros n Hs Hf; [ lia | ]. cbn [digits_of].
  destruct (n <? 10)%N eqn:E.
  - apply N.ltb_lt in E. split; [ | split; [ discriminate | repeat constructor; eauto ] ].
    unfold digits_value. cbn [fold_left]. destruct (digit_facts n E) as (_ & -> & _). lia.
  - apply N.ltb_ge in E.
    assert (S : (N.size_nat (n / 10) < N.size_nat n)%nat).
    { destruct n as [ | p]; [ lia | ].
      assert (Q : (Npos p / 10 <= Npos p / 2)%N).
      { apply N.div_le_compat_l. lia. }
      assert (M : forall a b, (a <= b)%N -> (N.size_nat a <= N.size_nat b)%nat).
      { intros a b L. destruct (N.eq_dec a 0) as [-> | Na]; [ cbn; lia | ].
        assert (Nb : b <> 0%N) by lia.
        pose proof (N.log2_le_mono a b L) as G.
        assert (SN : forall k, N.of_nat (N.size_nat k) = N.size k).
        { intros [ | q]; [ reflexivity | ]. cbn [N.size_nat N.size].
          clear. induction q as [q IHq | q IHq | ]; cbn [Pos.size_nat Pos.size]; try reflexivity; lia. }
        pose proof (SN a) as Sa. pose proof (SN b) as Sb.
        rewrite N.size_log2 in Sa by exact Na. rewrite N.size_log2 in Sb by exact Nb. lia. }
      specialize (M _ _ Q). destruct p as [p | p | ]; [ | | cbn in E; lia ].
      - assert (D : (Npos p~1 / 2 = Npos p)%N).
        { change (Npos p~1) with (2 * Npos p + 1)%N. rewrite N.mul_comm, N.div_add_l by lia.
          change (1 / 2)%N with 0%N. lia. }
        rewrite D in M. cbn [N.size_nat Pos.size_nat] in *. lia.
      - assert (D : (Npos p~0 / 2 = Npos p)%N).
        { change (Npos p~0) with (2 * Npos p)%N. rewrite N.mul_comm, N.div_mul by lia. reflexivity. }
        rewrite D in M. cbn [N.size_nat Pos.size_nat] in *. lia. }
    assert (Fp : 0 < fuel).
    { destruct fuel; [ | lia ]. destruct n as [ | p]; [ lia | ]. destruct p; cbn in Hs, E; try lia;
      destruct p; cbn in Hs; lia. }
    destruct (IH (n / 10)%N ltac:(lia) Fp) as (V & Nn & Fd).
    assert (L : (n mod 10 < 10)%N) by (apply N.mod_upper_bound; lia).
    split; [ | split ].
    + rewrite digits_value_app, V. destruct (digit_facts _ L) as (_ & -> & _).
      pose proof (N.div_mod n 10 ltac:(lia)). lia.
    + destruct (digits_of fuel (n / 10)); discriminate.
    + apply Forall_app. split; [ exact Fd | ]. repeat constructor. eauto.
Qed.
Lemma decimal_ok : forall n, digits_value (decimal n) = n /\ decimal n <> [] /\
  Forall (fun c => exists d, (d < 10)%N /\ c = digit d) (decimal n).
Proof. intro n. apply digits_of_ok; lia. Qed.

Lemma decimal_digits : forall n, Forall (fun c => is_digit c = true) (decimal n).
Proof.
  intro n. destruct (decimal_ok n) as (_ & _ & F). eapply Forall_impl; [ | exact F ].
  intros c (d & Hd & ->). destruct (digit_facts d Hd) as (H & _). exact H.
Qed.
Lemma decimal_first : forall n, exists d r, decimal n = digit d :: r /\ (d < 10)%N.
Proof.
  intro n. destruct (decimal_ok n) as (_ & N & F). destruct (decimal n) as [ | c r]; [ congruence | ].
  inversion F as [ | ? ? (d & Hd & ->) _ ]. exists d, r. auto.
Qed.

(** Reading an integer that a word starts with. *)
Lemma get_integer_signed : forall conv s v suffix ws z,
  holds s ((decimal_Z v ++ suffix) :: ws) ->
  match suffix with c :: _ => is_digit c = false | [] => True end ->
  conv (v <? 0)%Z (Z.abs_N v) = Some z ->
  exists r, get_integer conv s = (z, mk_stream (suffix ++ r) (is_nil (suffix ++ r)) false) /\
    words r = ws /\ match r with c :: _ => nonspace c = false | [] => True end /\
    Forall (fun c => nonspace c = true) suffix.
Proof.
  intros conv s v suffix ws z H Ns Hc.
  destruct (sentry_holds _ _ _ H) as (r & E & Wr & Nw & Fw & Nr).
  exists r. apply Forall_app in Fw. split; [ | split; [ exact Wr | split; [ exact Nr | exact (proj2 Fw) ] ] ].
  unfold get_integer. rewrite E. cbn [rest].
  assert (Nd : match suffix ++ r with c :: _ => is_digit c = false | [] => True end).
  { destruct suffix as [ | c suffix]; [ | exact Ns ]. cbn [app]. destruct r as [ | c r]; [ exact I | ].
    destruct (is_digit c) eqn:D; [ | reflexivity ]. exfalso. unfold nonspace, is_space in Nr. unfold is_digit in D.
    apply negb_false_iff in Nr. apply andb_true_iff in D. destruct D as [D1 D2].
    apply N.leb_le in D1. apply N.leb_le in D2. apply orb_true_iff in Nr.
    destruct Nr as [Nr | Nr]; [ apply N.eqb_eq in Nr; lia | ].
    apply andb_true_iff in Nr. destruct Nr as [_ Nr]. apply N.leb_le in Nr. lia. }
  destruct (decimal_ok (Z.abs_N v)) as (V & Nn & _).
  pose proof (decimal_digits (Z.abs_N v)) as Fd.
  destruct (decimal_first (Z.abs_N v)) as (d & t & Ed & Hd).
  destruct (digit_facts d Hd) as (_ & _ & D1 & D2 & _).
  unfold decimal_Z in *. destruct (v <? 0)%Z eqn:Sv; cbn [app].
  - rewrite Ascii.eqb_refl. rewrite <- app_assoc. rewrite (span_exact is_digit _ _ Fd Nd).
    replace (is_nil (decimal (Z.abs_N v))) with false by (rewrite Ed; reflexivity).
    rewrite V, Hc. reflexivity.
  - rewrite <- !app_assoc.
    rewrite Ed. cbn [app]. rewrite D1, D2.
    change (digit d :: t ++ suffix ++ r) with ((digit d :: t) ++ suffix ++ r). rewrite <- Ed.
    rewrite (span_exact is_digit _ _ Fd Nd).
    replace (is_nil (decimal (Z.abs_N v))) with false by (rewrite Ed; reflexivity).
    rewrite V, Hc. reflexivity.
Qed.

Lemma get_size_holds : forall s n ws, size n -> holds s (decimal_nat n :: ws) ->
  exists s', get_size s = (n, s') /\ holds s' ws.
Proof.
  intros s n ws Hn H. unfold get_size.
  destruct (get_integer_signed unsigned64 s (Z.of_nat n) [] ws (Z.of_nat n)) as (r & E & W & _).
  - rewrite app_nil_r. unfold decimal_Z. replace (Z.of_nat n <? 0)%Z with false by (symmetry; apply Z.ltb_ge; lia).
    replace (Z.abs_N (Z.of_nat n)) with (N.of_nat n) by lia. exact H.
  - exact I.
  - unfold unsigned64. replace (Z.of_nat n <? 0)%Z with false by (symmetry; apply Z.ltb_ge; lia).
    replace (Z.abs_N (Z.of_nat n)) with (N.of_nat n) by lia. unfold size in Hn.
    apply N.ltb_lt in Hn. rewrite Hn. f_equal. lia.
  - rewrite E. cbn [app]. eexists. split; [ rewrite Nat2Z.id; reflexivity | ]. rewrite <- W. apply holds_rest.
Qed.
Lemma get_size_failed : forall s, failb s = true -> failb (snd (get_size s)) = true.
Proof.
  intros s H. unfold get_size, get_integer. destruct (sentry_failed s H) as (s' & E & F). rewrite E. exact F.
Qed.

Lemma get_indices_holds : forall p s ws, Forall size p -> holds s (map decimal_nat p ++ ws) ->
  exists s', get_indices (List.length p) s = (p, s') /\ holds s' ws.
Proof.
  intros p. induction p as [ | n p IH]; intros s ws Hp H; cbn [List.length get_indices map app] in *.
  - eauto.
  - inversion Hp as [ | ? ? Hn Hp' ]; subst. destruct (get_size_holds s n _ Hn H) as (s1 & E1 & H1).
    destruct (IH s1 ws Hp' H1) as (s2 & E2 & H2). rewrite E1, E2. eauto.
Qed.

(** ** Ends of lines and comments *)
Lemma get_eof_nil : forall s, holds s [] -> failb (get_eof s) = false.
Proof.
  intros s (F & E & W). unfold get_eof. destruct (eofb s) eqn:Ee; [ exact F | ].
  unfold get_ws, good. rewrite Ee, F. cbn [negb andb]. rewrite (words_nil _ W). reflexivity.
Qed.
Lemma get_eof_cons : forall s w ws, holds s (w :: ws) -> exists r,
  get_eof s = mk_stream (w ++ r) false true /\ words (w ++ r) = w :: ws /\ w <> [].
Proof.
  intros s w ws H. pose proof (holds_good _ _ _ H) as G. destruct H as (F & E & W).
  destruct (words_cons _ _ _ W) as (r & Es & Wr & Nw & Fw & Nr).
  exists r. split; [ | split; [ rewrite <- Es, words_skip; exact W | exact Nw ] ].
  unfold get_eof. unfold good in G. apply andb_true_iff in G. destruct G as [G _]. apply negb_true_iff in G.
  rewrite G. unfold get_ws, good. rewrite G, F. cbn [negb andb]. rewrite Es.
  rewrite is_nil_app by exact Nw. cbn [eofb]. reflexivity.
Qed.

(** Whether a line or the rest of a line is blank or a comment. *)
Definition blank (ws : list text) : Prop := match ws with [] => True | w :: _ => comment w end.
Lemma opt_hash_blank : forall s ws, holds s ws -> blank ws ->
  failb (get_opt_hash_comment_eof s) = false.
Proof.
  intros s ws H B. unfold get_opt_hash_comment_eof. rewrite (proj1 H).
  destruct ws as [ | w ws].
  - rewrite (get_eof_nil s H). cbn [negb]. exact (get_eof_nil s H).
  - destruct (get_eof_cons s w ws H) as (r & E & W & Nw). rewrite E. cbn [failb negb clear_bits rest].
    destruct B as [t ->]. cbn [app]. rewrite Ascii.eqb_refl. reflexivity.
Qed.
Lemma opt_hash_cons : forall s w ws, holds s (w :: ws) -> ~ comment w ->
  failb (get_opt_hash_comment_eof s) = true /\ holds (clear_bits (get_opt_hash_comment_eof s)) (w :: ws).
Proof.
  intros s w ws H B. unfold get_opt_hash_comment_eof. rewrite (proj1 H).
  destruct (get_eof_cons s w ws H) as (r & E & W & Nw). rewrite E. cbn [failb negb clear_bits rest].
  destruct w as [ | c w]; [ congruence | ]. cbn [app] in *.
  destruct (Ascii.eqb c "#") eqn:Ec.
  - apply Ascii.eqb_eq in Ec. subst c. exfalso. apply B. exists w. reflexivity.
  - cbn [set_fail failb clear_bits rest eofb]. split; [ reflexivity | ].
    split; [ reflexivity | ]. split; [ discriminate | ]. exact W.
Qed.

Lemma significant_spec : forall l, significant l = true <-> ~ blank (words l).
Proof.
  intro l. unfold significant, blank. destruct (words l) as [ | w ws] eqn:E.
  - split; [ discriminate | intro H; exfalso; apply H; exact I ].
  - destruct (words_cons _ _ _ E) as (r & _ & _ & Nw & _). destruct w as [ | c w]; [ congruence | ].
    destruct (Ascii.eqb c "#") eqn:Ec; cbn [negb].
    + apply Ascii.eqb_eq in Ec. subst c. split; [ discriminate | ]. intro H. exfalso. apply H. exists w. reflexivity.
    + split; [ | reflexivity ]. intros _ [t Et]. injection Et as -> _. rewrite Ascii.eqb_refl in Ec. discriminate.
Qed.
Lemma line_blank : forall l, significant l = false -> failb (get_opt_hash_comment_eof (open_line l)) = false.
Proof.
  intros l H. apply (opt_hash_blank _ (words l)); [ apply holds_open | ].
  unfold significant in H. unfold blank. destruct (words l) as [ | w ws] eqn:E; [ exact I | ].
  destruct w as [ | c w]; [ discriminate | ]. apply negb_false_iff in H. apply Ascii.eqb_eq in H. subst c. exists w. reflexivity.
Qed.
Lemma line_significant : forall l, significant l = true ->
  failb (get_opt_hash_comment_eof (open_line l)) = true /\
  holds (clear_bits (get_opt_hash_comment_eof (open_line l))) (words l) /\ words l <> [].
Proof.
  intros l H. apply significant_spec in H. destruct (words l) as [ | w ws] eqn:E; [ exfalso; apply H; exact I | ].
  destruct (opt_hash_cons (open_line l) w ws) as [A B]; [ rewrite <- E; apply holds_open | exact H | ].
  split; [ exact A | ]. split; [ exact B | discriminate ].
Qed.

Lemma get_const_holds : forall str s ws, holds s (str :: ws) -> holds (get_const str s) ws.
Proof.
  intros str s ws H. unfold get_const. destruct (get_word_holds _ _ _ H) as (s' & E & H'). rewrite E.
  rewrite (proj1 H'), text_eqb_refl. cbn [negb andb]. exact H'.
Qed.
Lemma get_const_other : forall str s w ws, holds s (w :: ws) -> w <> str -> failb (get_const str s) = true.
Proof.
  intros str s w ws H N. unfold get_const. destruct (get_word_holds _ _ _ H) as (s' & E & H'). rewrite E.
  rewrite (text_eqb_neq _ _ N), andb_false_r. reflexivity.
Qed.
Lemma get_const_none : forall str s, holds s [] -> failb (get_const str s) = true.
Proof.
  intros str s H. unfold get_const. pose proof (get_word_none s H) as F. destruct (get_word s) as [w s']. cbn in F.
  rewrite F. reflexivity.
Qed.

Section Doubles.
  Variable parse : text -> option N.

  Lemma get_double_holds : forall s w ws x, holds s (w :: ws) -> number_word parse w x ->
    exists s', get_double parse s = (x, s') /\ holds s' ws.
  Proof.
    intros s w ws x H Hw. unfold get_double. destruct (get_word_holds _ _ _ H) as (s' & E & H'). rewrite E.
    rewrite (proj1 H'). exists s'. split; [ | exact H' ]. unfold number_word in Hw. destruct w as [ | c w].
    - rewrite Hw. reflexivity.
    - destruct (Ascii.eqb c "+"); rewrite Hw; reflexivity.
  Qed.
  Lemma get_double_failed : forall s, failb s = true -> failb (snd (get_double parse s)) = true.
  Proof.
    intros s H. unfold get_double. pose proof (get_word_failed s H) as F. destruct (get_word s) as [w s']. cbn in F.
    rewrite F. exact F.
  Qed.
  Lemma get_doubles_holds : forall s a b c ws x y z, holds s (a :: b :: c :: ws) ->
    number_word parse a x -> number_word parse b y -> number_word parse c z ->
    exists s', get_doubles parse s = (x, y, z, s') /\ holds s' ws.
  Proof.
    intros s a b c ws x y z H Ha Hb Hc. unfold get_doubles.
    destruct (get_double_holds _ _ _ _ H Ha) as (s1 & -> & H1).
    destruct (get_double_holds _ _ _ _ H1 Hb) as (s2 & -> & H2).
    destruct (get_double_holds _ _ _ _ H2 Hc) as (s3 & -> & H3). eauto.
  Qed.
End Doubles.

(** ** Triangle fans *)
Lemma vec_at_nth : forall A (l : list A) i x, nth_error l i = Some x -> vec_at l i = Ok x.
Proof. intros A l i x H. unfold vec_at. rewrite H. reflexivity. Qed.
Arguments vec_at_nth {A}.

Section Fan.
  Context {P D : Type}.
  Variable d0 : D.

  Definition with_faces (s : soup P D) (fs : list face) : soup P D :=
    mk_soup (points s) (faces s ++ fs) (face_data s ++ repeat d0 (List.length fs)).
  Lemma with_faces_nil : forall s, with_faces s [] = s.
  Proof. intros [p f d]. unfold with_faces. cbn. rewrite !app_nil_r. reflexivity. Qed.
  Lemma with_faces_app : forall s a b, with_faces (with_faces s a) b = with_faces s (a ++ b).
  Proof.
    intros [p f d] a b. unfold with_faces. cbn. rewrite app_length, repeat_app, !app_assoc. reflexivity.
  Qed.

  Lemma add_fan_loop : forall v0 face r n prev s,
    nth_error face 0 = Some v0 -> nth_error face (S n) = Some prev ->
    (forall i, nth_error face (S (S n) + i) = nth_error r i) ->
    foldM (fun s i =>
        let* a := vec_at face 0 in
        let* b := vec_at face (i + 1) in
        let* c := vec_at face (i + 2) in
        Ok (snd (add_face d0 s (a, b, c)))) s (seq n (List.length r)) =
    Ok (with_faces s (fan_from v0 prev r)).
  Proof.
    intros v0 face r. induction r as [ | v r IH]; intros n prev s H0 H1 Hr.
    - cbn [List.length seq foldM fan_from]. rewrite with_faces_nil. reflexivity.
    - cbn [List.length seq fan_from].
      match goal with |- foldM ?G _ _ = _ => set (F := G) in * end.
      cbn [foldM].
      assert (Hv : nth_error face (S (S n)) = Some v).
      { specialize (Hr 0). rewrite Nat.add_0_r in Hr. exact Hr. }
      assert (E : F s n = Ok (with_faces s [(v0, prev, v)])).
      { unfold F. rewrite (vec_at_nth face 0 v0 H0). cbn [bind].
        rewrite (vec_at_nth face (n + 1) prev) by (rewrite Nat.add_1_r; exact H1). cbn [bind].
        rewrite (vec_at_nth face (n + 2) v) by (replace (n + 2) with (S (S n)) by lia; exact Hv).
        reflexivity. }
      rewrite E. cbn [bind]. rewrite (IH (S n) v).
      + rewrite with_faces_app. reflexivity.
      + exact H0.
      + exact Hv.
      + intro i. specialize (Hr (S i)). cbn [nth_error] in Hr. rewrite <- Hr. f_equal. lia.
  Qed.
  Lemma add_fan_ok : forall (s : soup P D) p, add_fan d0 s p = Ok (with_faces s (fan p)).
  Proof.
    intros s p. unfold add_fan. destruct p as [ | v0 [ | v1 r] ]; cbn [List.length Nat.leb fan];
      rewrite ?with_faces_nil; try reflexivity.
    destruct r as [ | v2 r]; [ cbn; rewrite with_faces_nil; reflexivity | ].
    cbn [List.length Nat.leb]. replace (S (S (S (List.length r))) - 2) with (List.length (v2 :: r)) by (cbn; lia).
    apply (add_fan_loop v0 (v0 :: v1 :: v2 :: r) (v2 :: r) 0 v1); reflexivity.
  Qed.
End Fan.
