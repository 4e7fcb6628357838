(** * Proofs about the binary format *)
From Coq Require Import List Arith Bool NArith ZArith QArith Lia.
From Coq.Strings Require Import Byte.
From Verif Require Import Model_base Proof_base Model_soup Model_binary Spec_binary.
Import ListNotations.
Local Open Scope N_scope.

(** ** Bytes *)
Lemma to_N_byte_of : forall n, n < 256 -> Byte.to_N (byte_of n) = n.
Proof.
  intros n H. unfold byte_of. destruct (Byte.of_N n) as [b | ] eqn:E.
  - apply Byte.to_of_N. exact E.
  - apply Byte.of_N_None_iff in E. lia.
Qed.

Lemma byte_of_to_N : forall b, byte_of (Byte.to_N b) = b.
Proof. intro b. unfold byte_of. rewrite Byte.of_to_N. reflexivity. Qed.

Lemma length_le_bytes : forall k n, length (le_bytes k n) = k.
Proof. induction k as [ | k IH]; intro n; cbn [le_bytes length]; auto. Qed.

Lemma le_value_bytes : forall k n, n < 256 ^ N.of_nat k -> le_value (le_bytes k n) = n.
Proof.
  induction k as [ | k IH]; intros n H; cbn [le_bytes le_value].
  - cbn in H. lia.
  - rewrite Nat2N.inj_succ, N.pow_succ_r' in H. rewrite IH.
    + rewrite to_N_byte_of by (apply N.mod_lt; lia). pose proof (N.div_mod n 256). lia.
    + apply N.div_lt_upper_bound; lia.
Qed.

Lemma be_value_app : forall l b, be_value (l ++ [b]) = 256 * be_value l + Byte.to_N b.
Proof. intros l b. unfold be_value. rewrite fold_left_app. reflexivity. Qed.

Lemma be_value_rev : forall l, be_value (rev l) = le_value l.
Proof.
  induction l as [ | b l IH]; [ reflexivity | ]. cbn [rev le_value]. rewrite be_value_app, IH. lia.
Qed.

Lemma be_value_magnitude : forall b n, be_value (magnitude b n) = n.
Proof.
  intros b [ | p]; [ destruct b; reflexivity | ].
  assert (E : magnitude b (Npos p) = rev (le_bytes (N.to_nat ((N.size (Npos p) + 7) / 8)) (Npos p)))
    by (destruct b; reflexivity).
  rewrite E, be_value_rev. apply le_value_bytes. rewrite N2Nat.id.
  pose proof (N.size_gt (Npos p)) as H.
  eapply N.lt_le_trans; [ exact H | ]. change 256 with (2 ^ 8). rewrite <- N.pow_mul_r.
  apply N.pow_le_mono_r; [ lia | ].
  pose proof (N.div_mod (N.size (Npos p) + 7) 8). pose proof (N.mod_lt (N.size (Npos p) + 7) 8). lia.
Qed.

Lemma le_value_bound : forall l, le_value l < 256 ^ N.of_nat (length l).
Proof.
  induction l as [ | b l IH]; [ cbn; lia | ]. cbn [le_value length].
  rewrite Nat2N.inj_succ, N.pow_succ_r'. pose proof (Byte.to_N_bounded b). lia.
Qed.

Lemma le_value_prefix : forall l j k, le_value (firstn j l ++ repeat x00 k) <= le_value l.
Proof.
  induction l as [ | b l IH]; intros j k.
  - rewrite firstn_nil. cbn [app]. induction k as [ | k IHk]; cbn [repeat le_value]; [ lia | ].
    change (Byte.to_N x00) with 0. cbn [le_value] in IHk. lia.
  - destruct j as [ | j]; cbn [firstn app].
    + assert (Z : forall k, le_value (repeat x00 k) = 0).
      { clear. induction k as [ | k IHk]; cbn [repeat le_value]; [ reflexivity | ].
        change (Byte.to_N x00) with 0. lia. }
      rewrite Z. lia.
    + cbn [le_value]. pose proof (IH j k). lia.
Qed.

(** ** Readers *)
Definition roundtrips {A} (r : reader A) (bs : list byte) (a : A) : Prop :=
  forall rest buf, exists buf', r (open (bs ++ rest) buf) = Ok (a, open rest buf').
Definition local {A} (r : reader A) : Prop :=
  forall s a s' more, r s = Ok (a, s') -> good s' = true ->
    good s = true /\ r (extend s more) = Ok (a, extend s' more).
Definition dead {A} (r : reader A) : Prop :=
  forall buf, exists a buf', r (mk_rstate [] false buf) = Ok (a, mk_rstate [] false buf').
Definition harmless {A} (r : reader A) (bs : list byte) : Prop :=
  forall p more buf, bs = p ++ more -> more <> [] ->
    exists a buf', r (open p buf) = Ok (a, mk_rstate [] false buf').

Lemma rt_ret : forall A (a : A), roundtrips (rret a) [] a.
Proof. intros A a rest buf. exists buf. reflexivity. Qed.
Lemma rt_bind : forall A B (m : reader A) (k : A -> reader B) bs bs' a b,
  roundtrips m bs a -> roundtrips (k a) bs' b -> roundtrips (rbind m k) (bs ++ bs') b.
Proof.
  intros A B m k bs bs' a b H H' rest buf. unfold rbind. rewrite <- app_assoc.
  destruct (H (bs' ++ rest) buf) as [buf1 ->]. cbn [bind fst snd]. apply H'.
Qed.
Lemma rt_bind_nil : forall A B (m : reader A) (k : A -> reader B) bs a b,
  roundtrips m bs a -> roundtrips (k a) [] b -> roundtrips (rbind m k) bs b.
Proof. intros A B m k bs a b H H'. rewrite <- (app_nil_r bs). eapply rt_bind; eassumption. Qed.

Lemma local_ret : forall A (a : A), local (rret a).
Proof. intros A a s x s' more H Hg. injection H as <- <-. auto. Qed.
Lemma local_bind : forall A B (m : reader A) (k : A -> reader B),
  local m -> (forall a, local (k a)) -> local (rbind m k).
Proof.
  intros A B m k Hm Hk s b s' more H Hg. unfold rbind in *. destruct (m s) as [ [a s1] | | ] eqn:E; try discriminate.
  cbn [bind fst snd] in H. destruct (Hk a s1 b s' more H Hg) as [G1 E1].
  destruct (Hm s a s1 more E G1) as [G0 E0]. split; [ exact G0 | ].
  rewrite E0. cbn [bind fst snd]. exact E1.
Qed.
Lemma local_fail : forall A (r : res A), local (rfail r).
Proof.
  intros A r s a s' more H Hg. unfold rfail in *. destruct r; try discriminate.
  cbn [bind] in *. injection H as <- <-. auto.
Qed.

Lemma dead_ret : forall A (a : A), dead (rret a).
Proof. intros A a buf. exists a, buf. reflexivity. Qed.
Lemma dead_bind : forall A B (m : reader A) (k : A -> reader B), dead m -> (forall a, dead (k a)) -> dead (rbind m k).
Proof.
  intros A B m k Hm Hk buf. unfold rbind. destruct (Hm buf) as (a & buf1 & ->). cbn [bind fst snd]. apply Hk.
Qed.

Lemma harmless_nil : forall A (r : reader A), harmless r [].
Proof.
  intros A r p more buf E N. exfalso. apply N. destruct p, more; try discriminate; reflexivity.
Qed.
Lemma harmless_bind : forall A B (m : reader A) (k : A -> reader B) bs bs' a,
  harmless m bs -> roundtrips m bs a -> (forall a, dead (k a)) -> harmless (k a) bs' ->
  harmless (rbind m k) (bs ++ bs').
Proof.
  intros A B m k bs bs' a Hm Hr Hd Hk p more buf E N. unfold rbind.
  destruct (le_lt_dec (length bs) (length p)) as [L | L].
  - assert (Ep : p = bs ++ skipn (length bs) p).
    { rewrite <- (firstn_skipn (length bs) p) at 1. f_equal.
      assert (X : firstn (length bs) (bs ++ bs') = firstn (length bs) (p ++ more)) by (rewrite E; reflexivity).
      rewrite firstn_app, firstn_all, Nat.sub_diag, firstn_O, app_nil_r in X.
      rewrite firstn_app in X. replace (length bs - length p)%nat with 0%nat in X by lia.
      rewrite firstn_O, app_nil_r in X. symmetry. exact X. }
    set (p' := skipn (length bs) p) in *. rewrite Ep in *. rewrite <- app_assoc in E.
    apply app_inv_head in E. destruct (Hr p' buf) as [buf1 ->]. cbn [bind fst snd].
    exact (Hk p' more buf1 E N).
  - assert (Eb : bs = p ++ firstn (length bs - length p) more).
    { assert (X : firstn (length bs) (bs ++ bs') = firstn (length bs) (p ++ more)) by (rewrite E; reflexivity).
      rewrite firstn_app, firstn_all, Nat.sub_diag, firstn_O, app_nil_r in X.
      rewrite firstn_app in X. rewrite firstn_all2 in X by lia. exact X. }
    assert (N' : firstn (length bs - length p) more <> []).
    { intro X. rewrite X, app_nil_r in Eb. subst. lia. }
    destruct (Hm p _ buf Eb N') as (a' & buf1 & ->). cbn [bind fst snd]. apply Hd.
Qed.
Lemma harmless_bind_nil : forall A B (m : reader A) (k : A -> reader B) bs,
  harmless m bs -> (forall a, dead (k a)) -> harmless (rbind m k) bs.
Proof.
  intros A B m k bs Hm Hd p more buf E N. unfold rbind.
  destruct (Hm p more buf E N) as (a & buf1 & ->). cbn [bind fst snd]. apply Hd.
Qed.

(** ** The primitive readers *)
Lemma raw_roundtrip : forall old bs, length bs = length old -> roundtrips (read_raw old) bs bs.
Proof.
  intros old bs E rest buf. exists buf. unfold read_raw, open. cbn [good input buffer].
  rewrite app_length, <- E. destruct (Nat.leb_spec (length bs) (length bs + length rest)); [ | lia ].
  rewrite firstn_app, firstn_all, Nat.sub_diag, firstn_O, app_nil_r.
  rewrite skipn_app, skipn_all, Nat.sub_diag. reflexivity.
Qed.

Lemma raw_local : forall old, local (read_raw old).
Proof.
  intros old s a s' more H Hg. unfold read_raw in *. destruct (good s) eqn:G.
  - destruct (Nat.leb_spec (length old) (length (input s))) as [L | L].
    + injection H as <- <-. split; [ reflexivity | ]. unfold extend at 1. cbn [good]. rewrite G.
      unfold extend. cbn [input good buffer]. rewrite app_length.
      destruct (Nat.leb_spec (length old) (length (input s) + length more)); [ | lia ].
      rewrite firstn_app, skipn_app. replace (length old - length (input s))%nat with 0%nat by lia.
      rewrite firstn_O, app_nil_r. reflexivity.
    + injection H as <- <-. discriminate.
  - injection H as <- <-. congruence.
Qed.

Lemma raw_dead : forall old, dead (read_raw old).
Proof. intros old buf. exists old, buf. reflexivity. Qed.

(** A short read stores a prefix. *)
Lemma raw_cut : forall old bs p more buf, length bs = length old -> bs = p ++ more -> more <> [] ->
  read_raw old (open p buf) = Ok (firstn (length p) bs ++ skipn (length p) old, mk_rstate [] false buf).
Proof.
  intros old bs p more buf E -> N. unfold read_raw, open. cbn [good input buffer].
  rewrite app_length in E. assert (length more <> 0)%nat by (destruct more; [ congruence | discriminate ]).
  destruct (Nat.leb_spec (length old) (length p)); [ lia | ].
  rewrite firstn_app, firstn_all, Nat.sub_diag, firstn_O, app_nil_r. reflexivity.
Qed.

Lemma raw_harmless : forall old bs, length bs = length old -> harmless (read_raw old) bs.
Proof. intros old bs E p more buf Eb N. rewrite (raw_cut old bs p more buf E Eb N). eauto. Qed.

Lemma le_roundtrip : forall k n, n < 256 ^ N.of_nat k -> roundtrips (read_le k) (le_bytes k n) n.
Proof.
  intros k n H. unfold read_le. eapply rt_bind_nil.
  - apply raw_roundtrip. rewrite length_le_bytes, repeat_length. reflexivity.
  - rewrite le_value_bytes by exact H. apply rt_ret.
Qed.
Lemma le_local : forall k, local (read_le k).
Proof. intro k. apply local_bind; [ apply raw_local | intro; apply local_ret ]. Qed.
Lemma le_dead : forall k, dead (read_le k).
Proof. intro k. apply dead_bind; [ apply raw_dead | intro; apply dead_ret ]. Qed.
Lemma le_harmless : forall k n, harmless (read_le k) (le_bytes k n).
Proof.
  intros k n. apply harmless_bind_nil; [ apply raw_harmless | intro; apply dead_ret ].
  rewrite length_le_bytes, repeat_length. reflexivity.
Qed.

Lemma bool_roundtrip : forall b, roundtrips read_bool (write_bool b) b.
Proof.
  intro b. unfold read_bool. eapply rt_bind_nil.
  - assert (E : write_bool b = le_bytes 1 (if b then 1 else 0)) by (destruct b; reflexivity).
    rewrite E. apply le_roundtrip. destruct b; reflexivity.
  - destruct b; apply rt_ret.
Qed.
Lemma bool_local : local read_bool.
Proof. apply local_bind; [ apply le_local | intro; apply local_ret ]. Qed.
Lemma bool_dead : dead read_bool.
Proof. apply dead_bind; [ apply le_dead | intro; apply dead_ret ]. Qed.
Lemma bool_harmless : forall b, harmless read_bool (write_bool b).
Proof.
  intro b. apply harmless_bind_nil; [ | intro; apply dead_ret ].
  assert (E : write_bool b = le_bytes 1 (if b then 1 else 0)) by (destruct b; reflexivity). rewrite E.
  apply le_harmless.
Qed.

Local Opaque write_bool le_bytes.

Lemma int32_ok : forall n bs, write_int32 n = Ok bs -> N.of_nat n < 2147483648 /\ bs = le_bytes 4 (N.of_nat n).
Proof.
  intros n bs H. unfold write_int32 in H. destruct (N.ltb_spec (N.of_nat n) 2147483648); [ | discriminate ].
  injection H as <-. auto.
Qed.
Lemma int32_roundtrip : forall n bs, write_int32 n = Ok bs -> roundtrips read_int32 bs n.
Proof.
  intros n bs H. apply int32_ok in H. destruct H as [H ->]. unfold read_int32. eapply rt_bind_nil.
  - apply le_roundtrip. change (256 ^ N.of_nat 4) with 4294967296. lia.
  - destruct (N.ltb_spec (N.of_nat n) 2147483648); [ | lia ]. rewrite Nat2N.id. apply rt_ret.
Qed.
Lemma int32_local : local read_int32.
Proof.
  apply local_bind; [ apply le_local | ]. intro x. destruct (x <? 2147483648); [ apply local_ret | apply local_fail ].
Qed.
Lemma int32_dead : dead read_int32.
Proof. intro buf. exists 0%nat, buf. reflexivity. Qed.
Lemma int32_harmless : forall n bs, write_int32 n = Ok bs -> harmless read_int32 bs.
Proof.
  intros n bs H p more buf E N. apply int32_ok in H. destruct H as [H Eb].
  unfold read_int32, read_le, rbind.
  assert (L : length bs = length (repeat x00 4)) by (rewrite Eb, length_le_bytes, repeat_length; reflexivity).
  rewrite (raw_cut _ bs p more buf L E N). cbn [bind fst snd rret].
  set (v := le_value _). assert (Hv : v < 2147483648).
  { assert (Sk : skipn (length p) (repeat x00 4) = repeat x00 (4 - length p)).
    { destruct (length p) as [ | [ | [ | [ | [ | k] ] ] ] ]; reflexivity. }
    unfold v. rewrite Sk. eapply N.le_lt_trans; [ apply le_value_prefix | ]. rewrite Eb.
    rewrite le_value_bytes; [ exact H | ]. change (256 ^ N.of_nat 4) with 4294967296. lia. }
  destruct (N.ltb_spec v 2147483648); [ | lia ]. unfold rret. eauto.
Qed.

(** ** Integers and rationals *)
Lemma length_resize : forall n buf, length (resize n buf) = n.
Proof. intros n buf. unfold resize. rewrite app_length, firstn_length, repeat_length. lia. Qed.

Lemma integer_roundtrip : forall b n bs, write_integer b n = Ok bs -> roundtrips read_integer bs n.
Proof.
  intros b n bs H. unfold write_integer in H. apply bind_ok in H. destruct H as (c & Hc & H). injection H as <-.
  unfold read_integer. eapply rt_bind; [ apply int32_roundtrip; exact Hc | ].
  intros rest buf. exists (magnitude b n). unfold rbind at 1. cbn [bind fst snd open buffer].
  unfold rbind at 1.
  destruct (raw_roundtrip (resize (length (magnitude b n)) buf) (magnitude b n)
    (eq_sym (length_resize _ _)) rest buf) as [buf1 Er]. unfold open in Er.
  unfold open. rewrite Er. cbn [bind fst snd rbind input good rret]. rewrite be_value_magnitude. reflexivity.
Qed.
Lemma integer_local : local read_integer.
Proof.
  unfold read_integer. apply local_bind; [ exact int32_local | ]. intro count.
  apply local_bind; [ | intro buf; apply local_bind; [ apply raw_local | intro l; apply local_bind ] ].
  - intros s a s' more H Hg. injection H as <- <-. auto.
  - intros s a s' more H Hg. injection H as <- <-. cbn in Hg |- *. auto.
  - intro. apply local_ret.
Qed.

Lemma rational_roundtrip : forall b q bs, Qred q = q -> write_rational b q = Ok bs ->
  roundtrips (read_rational b) bs q.
Proof.
  intros b q bs Hq H. unfold write_rational in H. apply bind_ok in H. destruct H as (n & Hn & H).
  apply bind_ok in H. destruct H as (d & Hd & H). injection H as <-. unfold read_rational.
  eapply rt_bind; [ apply bool_roundtrip | ]. eapply rt_bind; [ eapply integer_roundtrip; exact Hn | ].
  eapply rt_bind_nil; [ eapply integer_roundtrip; exact Hd | ]. cbv beta iota zeta.
  destruct q as [qn qd]. cbn [Qnum Qden]. destruct (Z.ltb_spec qn 0) as [L | L].
  - assert (E : Qopp (Qred (Z.of_N (Z.abs_N qn) # qd)) = qn # qd).
    { rewrite N2Z.inj_abs_N, Z.abs_neq by lia. rewrite <- Qred_opp. unfold Qopp. cbn [Qnum Qden].
      rewrite Z.opp_involutive. exact Hq. }
    rewrite E. apply rt_ret.
  - rewrite N2Z.inj_abs_N, Z.abs_eq by lia. rewrite Hq. apply rt_ret.
Qed.
Lemma rational_local : forall b, local (read_rational b).
Proof.
  intro b. unfold read_rational. apply local_bind; [ exact bool_local | intro neg ].
  apply local_bind; [ exact integer_local | intro num ]. apply local_bind; [ exact integer_local | intro den ].
  destruct den; [ apply local_fail | apply local_ret ].
Qed.

(** ** Points *)
Section Codec.
  Context {D : Type}.
  Variable b : backend.
  Variable d0 : D.
  Variable write_data : D -> res (list byte).
  Variable read_data : reader D.
  Variable to_interval : Q -> interval.
  Hypothesis Hcodec : good_codec write_data read_data.

  Definition read_back (p : lazy_point) : lazy_point :=
    let '(ax, ay, az) := approx p in let '(x, y, z) := exact p in
    if is_point ax && is_point ay && is_point az then point_of_doubles (fst ax) (fst ay) (fst az)
    else point_of_rationals to_interval x y z.

  Lemma point_roundtrip : forall p bs, valid_point p -> write_point b p = Ok bs ->
    roundtrips (read_point b to_interval) bs (read_back p).
  Proof.
    intros [ [ [ax ay] az] [ [x y] z] ] bs Hv H. unfold valid_point in Hv. cbn [approx exact] in Hv.
    destruct Hv as [ (Bx & _ & Rx & _) [ (By & _ & Ry & _) (Bz & _ & Rz & _) ] ].
    unfold write_point, read_back in *. cbn [approx exact] in *. unfold read_point.
    destruct (is_point ax && is_point ay && is_point az).
    - injection H as <-. eapply rt_bind; [ apply bool_roundtrip | ]. cbv beta iota.
      change (2 ^ 64) with (256 ^ N.of_nat 8) in *. unfold write_double.
      eapply rt_bind; [ apply le_roundtrip; exact Bx | ].
      eapply rt_bind; [ apply le_roundtrip; exact By | ].
      eapply rt_bind_nil; [ apply le_roundtrip; exact Bz | ]. apply rt_ret.
    - apply bind_ok in H. destruct H as (wx & Hx & H). apply bind_ok in H. destruct H as (wy & Hy & H).
      apply bind_ok in H. destruct H as (wz & Hz & H). injection H as <-.
      eapply rt_bind; [ apply bool_roundtrip | ]. cbv beta iota.
      eapply rt_bind; [ apply (rational_roundtrip b x); assumption | ].
      eapply rt_bind; [ apply (rational_roundtrip b y); assumption | ].
      eapply rt_bind_nil; [ apply (rational_roundtrip b z); assumption | ]. apply rt_ret.
  Qed.

  Lemma read_back_same : forall p, valid_point p -> same_point p (read_back p).
  Proof.
    intros [ [ [ax ay] az] [ [x y] z] ] Hv. unfold valid_point in Hv. cbn [approx exact] in Hv.
    destruct Hv as [ (_ & _ & _ & Vx) [ (_ & _ & _ & Vy) (_ & _ & _ & Vz) ] ].
    unfold same_point, all_doubles, read_back. cbn [approx exact].
    destruct (is_point ax) eqn:Ex, (is_point ay) eqn:Ey, (is_point az) eqn:Ez; cbn [andb];
      try (split; [ repeat split; reflexivity | intros (A & B & C); discriminate ]).
    split; [ | intros _; reflexivity ]. cbn [point_of_doubles exact approx]. unfold exact_of.
    destruct (Vx eq_refl) as (vx & -> & Hx). destruct (Vy eq_refl) as (vy & -> & Hy).
    destruct (Vz eq_refl) as (vz & -> & Hz).
    repeat split; rewrite Qred_correct; symmetry; assumption.
  Qed.

  Lemma point_local : local (read_point b to_interval).
  Proof.
    unfold read_point. apply local_bind; [ exact bool_local | intros [ | ] ].
    - repeat (apply local_bind; [ apply rational_local | intro ]). apply local_ret.
    - repeat (apply local_bind; [ apply le_local | intro ]). apply local_ret.
  Qed.

  (** ** The loops *)
  Lemma repeat_roundtrip : forall A S (f : S -> reader S) (w : A -> res (list byte)) (g : S -> A -> S) l bs s,
    write_all w l = Ok bs ->
    (forall s x bs, In x l -> w x = Ok bs -> roundtrips (f s) bs (g s x)) ->
    roundtrips (repeat_read (length l) f s) bs (fold_left g l s).
  Proof.
    intros A S f w g l. induction l as [ | x l IH]; intros bs s H Hf.
    - injection H as <-. apply rt_ret.
    - cbn [write_all] in H. apply bind_ok in H. destruct H as (b1 & H1 & H).
      apply bind_ok in H. destruct H as (b2 & H2 & H). injection H as <-.
      cbn [length repeat_read fold_left]. eapply rt_bind.
      + apply (Hf s x b1); [ left; reflexivity | exact H1 ].
      + apply IH; [ exact H2 | ]. intros; apply Hf; [ right; assumption | assumption ].
  Qed.

  (** The same with an invariant of the state. *)
  Lemma repeat_roundtrip_inv : forall A S (I : S -> Prop) (f : S -> reader S) (w : A -> res (list byte)) (g : S -> A -> S) l bs s,
    write_all w l = Ok bs -> I s -> (forall s x, I s -> I (g s x)) ->
    (forall s x bs, I s -> In x l -> w x = Ok bs -> roundtrips (f s) bs (g s x)) ->
    roundtrips (repeat_read (length l) f s) bs (fold_left g l s).
  Proof.
    intros A S I f w g l. induction l as [ | x l IH]; intros bs s H HI Hg Hf.
    - injection H as <-. apply rt_ret.
    - cbn [write_all] in H. apply bind_ok in H. destruct H as (b1 & H1 & H).
      apply bind_ok in H. destruct H as (b2 & H2 & H). injection H as <-.
      cbn [length repeat_read fold_left]. eapply rt_bind.
      + apply (Hf s x b1); [ exact HI | left; reflexivity | exact H1 ].
      + apply IH; [ exact H2 | apply Hg; exact HI | exact Hg | ].
        intros; apply Hf; [ assumption | right; assumption | assumption ].
  Qed.

  Lemma repeat_local : forall S (f : S -> reader S) n s, (forall s, local (f s)) -> local (repeat_read n f s).
  Proof.
    intros S f n. induction n as [ | n IH]; intros s H; cbn [repeat_read]; [ apply local_ret | ].
    apply local_bind; [ apply H | intro; apply IH; exact H ].
  Qed.

  Lemma repeat_dead : forall S (I : S -> Prop) (f : S -> reader S) n s, I s ->
    (forall s buf, I s -> exists a buf', f s (mk_rstate [] false buf) = Ok (a, mk_rstate [] false buf') /\ I a) ->
    forall buf, exists a buf', repeat_read n f s (mk_rstate [] false buf) = Ok (a, mk_rstate [] false buf') /\ I a.
  Proof.
    intros S I f n. induction n as [ | n IH]; intros s HI H buf; cbn [repeat_read].
    - exists s, buf. auto.
    - unfold rbind. destruct (H s buf HI) as (a & buf1 & -> & Ha). cbn [bind fst snd]. apply IH; assumption.
  Qed.

  (** ** Faces *)
  Definition equal_lengths (s : soup lazy_point D) : Prop := length (face_data s) = length (faces s).
  Definition push_face (s : soup lazy_point D) (f : face) (d : D) : soup lazy_point D :=
    mk_soup (points s) (faces s ++ [f]) (face_data s ++ [d]).

  Lemma add_set : forall s f d, equal_lengths s ->
    (let (fi, s') := add_face d0 s f in set_data s' fi d) = Ok (push_face s f d).
  Proof.
    intros s f d E. unfold add_face, set_data, vec_set. cbn [face_data faces points num_faces].
    unfold num_faces. cbn [faces]. rewrite !app_length. cbn [length]. unfold equal_lengths in E. rewrite E.
    destruct (Nat.ltb_spec (length (faces s) + 1 - 1) (length (faces s) + 1)); [ | lia ]. cbn [bind].
    replace (length (faces s) + 1 - 1)%nat with (length (face_data s)) by lia.
    rewrite list_set_app_last. reflexivity.
  Qed.

  Lemma face_roundtrip : forall s f d i j k w, equal_lengths s ->
    write_int32 (fst (fst f)) = Ok i -> write_int32 (snd (fst f)) = Ok j -> write_int32 (snd f) = Ok k ->
    write_data d = Ok w ->
    roundtrips (read_face d0 read_data s) (i ++ j ++ k ++ w) (push_face s f d).
  Proof.
    intros s [ [fi fj] fk] d i j k w E Hi Hj Hk Hw. cbn [fst snd] in *. unfold read_face.
    eapply rt_bind; [ apply int32_roundtrip; exact Hi | ].
    eapply rt_bind; [ apply int32_roundtrip; exact Hj | ].
    eapply rt_bind; [ apply int32_roundtrip; exact Hk | ].
    eapply rt_bind_nil; [ intros rest buf; apply (gc_round _ _ Hcodec); exact Hw | ].
    pose proof (add_set s (fi, fj, fk) d E) as A. destruct (add_face d0 s (fi, fj, fk)) as [fi' s'].
    rewrite A. intros rest buf. exists buf. reflexivity.
  Qed.

  Lemma face_local : forall s, local (read_face d0 read_data s).
  Proof.
    intro s. unfold read_face. repeat (apply local_bind; [ apply int32_local | intro ]).
    apply local_bind; [ exact (gc_local _ _ Hcodec) | intro d ].
    destruct (add_face d0 s (a, a0, a1)) as [fi s']. apply local_fail.
  Qed.

  (** ** Soups and regions *)
  Definition joined (t s : soup lazy_point D) : soup lazy_point D :=
    mk_soup (points t ++ map read_back (points s)) (faces t ++ faces s) (face_data t ++ face_data s).

  Lemma fold_vertices : forall l t,
    fold_left (fun s p => snd (add_vertex (D := D) s (read_back p))) l t =
    mk_soup (points t ++ map read_back l) (faces t) (face_data t).
  Proof.
    induction l as [ | p l IH]; intro t; cbn [fold_left map].
    - rewrite app_nil_r. destruct t; reflexivity.
    - rewrite IH. cbn [add_vertex snd points faces face_data]. rewrite <- app_assoc. reflexivity.
  Qed.

  Lemma faces_roundtrip : forall s, equal_lengths s -> forall fs ds pre t bs,
    faces s = pre ++ fs -> length pre = (length (faces s) - length fs)%nat -> face_data s = firstn (length pre) (face_data s) ++ ds ->
    equal_lengths t ->
    write_all (write_face write_data s) (seq (length pre) (length fs)) = Ok bs ->
    roundtrips (repeat_read (length fs) (read_face d0 read_data) t) bs
      (mk_soup (points t) (faces t ++ fs) (face_data t ++ ds)).
  Proof.
    intros s E fs. induction fs as [ | f fs IH]; intros ds pre t bs Ef Lp Ed Et H.
    - injection H as <-. cbn [length repeat_read].
      assert (Ld : length ds = 0%nat).
      { assert (X : length (face_data s) = length (firstn (length pre) (face_data s) ++ ds)) by (rewrite <- Ed; reflexivity).
        rewrite app_length, firstn_length in X. unfold equal_lengths in E. rewrite E in X.
        rewrite Ef, app_nil_r in X. lia. }
      destruct ds; [ | discriminate ]. rewrite !app_nil_r. destruct t; apply rt_ret.
    - cbn [length seq write_all] in H. apply bind_ok in H. destruct H as (b1 & H1 & H).
      apply bind_ok in H. destruct H as (b2 & H2 & H). injection H as <-.
      assert (Ld : length (face_data s) = (length pre + S (length fs))%nat).
      { unfold equal_lengths in E. rewrite E, Ef, app_length. reflexivity. }
      destruct ds as [ | d ds].
      { exfalso. assert (X : length (face_data s) = length (firstn (length pre) (face_data s) ++ [])) by (rewrite <- Ed; reflexivity).
        rewrite app_nil_r, firstn_length in X. lia. }
      unfold write_face, soup_face, soup_data, vec_at in H1.
      assert (Nf : nth_error (faces s) (length pre) = Some f).
      { rewrite Ef, nth_error_app2, Nat.sub_diag by lia. reflexivity. }
      assert (Nd : nth_error (face_data s) (length pre) = Some d).
      { rewrite Ed. rewrite nth_error_app2; rewrite firstn_length; [ | lia ].
        replace (length pre - Nat.min (length pre) (length (face_data s)))%nat with 0%nat by lia. reflexivity. }
      rewrite Nf, Nd in H1. cbn [bind] in H1.
      apply bind_ok in H1. destruct H1 as (wi & Hi & H1). apply bind_ok in H1. destruct H1 as (wj & Hj & H1).
      apply bind_ok in H1. destruct H1 as (wk & Hk & H1). apply bind_ok in H1. destruct H1 as (wd & Hd & H1).
      injection H1 as <-. cbn [length repeat_read]. eapply rt_bind.
      + apply (face_roundtrip t f d wi wj wk wd Et); assumption.
      + replace (mk_soup (points t) (faces t ++ f :: fs) (face_data t ++ d :: ds))
          with (mk_soup (points (push_face t f d)) (faces (push_face t f d) ++ fs) (face_data (push_face t f d) ++ ds)).
        2: { cbn [push_face points faces face_data]. rewrite <- !app_assoc. reflexivity. }
        apply (IH ds (pre ++ [f])).
        * rewrite Ef, <- app_assoc. reflexivity.
        * rewrite app_length. cbn [length]. rewrite Ef, app_length. cbn [length]. lia.
        * rewrite app_length. cbn [length].
          assert (F : firstn (length pre + 1) (face_data s) = firstn (length pre) (face_data s) ++ [d]).
          { rewrite Ed at 1. rewrite firstn_app, firstn_firstn, firstn_length.
            replace (Nat.min (length pre + 1) (length pre)) with (length pre) by lia.
            replace (length pre + 1 - Nat.min (length pre) (length (face_data s)))%nat with 1%nat by lia. reflexivity. }
          rewrite F, <- app_assoc. exact Ed.
        * unfold equal_lengths. cbn [push_face faces face_data]. rewrite !app_length. cbn [length]. unfold equal_lengths in Et. lia.
        * rewrite app_length. cbn [length]. rewrite Nat.add_1_r. exact H2.
  Qed.

  Lemma soup_roundtrip : forall s t bs, Forall valid_point (points s) -> equal_lengths s -> equal_lengths t ->
    write_soup b write_data s = Ok bs ->
    roundtrips (read_soup b d0 read_data to_interval t) bs (joined t s).
  Proof.
    intros s t bs Hv Es Et H. unfold write_soup in H. apply bind_ok in H. destruct H as (nv & Hnv & H).
    apply bind_ok in H. destruct H as (nf & Hnf & H). apply bind_ok in H. destruct H as (ps & Hps & H).
    apply bind_ok in H. destruct H as (fs & Hfs & H). injection H as <-. unfold read_soup.
    eapply rt_bind; [ apply int32_roundtrip; exact Hnv | ].
    eapply rt_bind; [ apply int32_roundtrip; exact Hnf | ].
    eapply rt_bind.
    - unfold num_vertices. apply (repeat_roundtrip _ _ _ _ (fun s p => snd (add_vertex (D := D) s (read_back p))) _ ps t Hps).
      intros s' p bs' Hin Hw. unfold read_vertex. eapply rt_bind_nil; [ | apply rt_ret ].
      apply point_roundtrip; [ | exact Hw ]. rewrite Forall_forall in Hv. apply Hv. exact Hin.
    - rewrite fold_vertices. unfold num_faces in *. unfold joined.
      set (t' := mk_soup (points t ++ map read_back (points s)) (faces t) (face_data t)).
      replace (mk_soup (points t ++ map read_back (points s)) (faces t ++ faces s) (face_data t ++ face_data s))
        with (mk_soup (points t') (faces t' ++ faces s) (face_data t' ++ face_data s)) by reflexivity.
      apply (faces_roundtrip s Es (faces s) (face_data s) []); auto.
      cbn. lia.
  Qed.

  Lemma soup_local : forall t, local (read_soup b d0 read_data to_interval t).
  Proof.
    intro t. unfold read_soup. repeat (apply local_bind; [ apply int32_local | intro ]).
    apply local_bind; [ apply repeat_local | intro; apply repeat_local; intro; apply face_local ].
    intro s. apply local_bind; [ exact point_local | intro; apply local_ret ].
  Qed.

  Lemma region_roundtrip : forall r t bs, valid_region r -> equal_lengths (stored_soup t) ->
    write_kigumi_region b write_data r = Ok bs ->
    roundtrips (read_region b d0 read_data to_interval t) bs
      (mk_stored (stored_kind r) (joined (stored_soup t) (stored_soup r))).
  Proof.
    intros r t bs [Hv Es] Et H. unfold write_kigumi_region in H. apply bind_ok in H.
    destruct H as (ws & Hs & H). injection H as <-. unfold read_region.
    change (stored_kind r :: ws) with ([stored_kind r] ++ ws). eapply rt_bind.
    - assert (X : [stored_kind r] = le_bytes 1 (Byte.to_N (stored_kind r))).
      { Local Transparent le_bytes. cbn [le_bytes]. pose proof (Byte.to_N_bounded (stored_kind r)).
        rewrite N.mod_small by lia. rewrite byte_of_to_N. reflexivity. }
      rewrite X. apply le_roundtrip. change (256 ^ N.of_nat 1) with 256.
      pose proof (Byte.to_N_bounded (stored_kind r)). lia.
    - eapply rt_bind_nil; [ apply soup_roundtrip; eassumption | ]. rewrite byte_of_to_N. apply rt_ret.
  Qed.

  Lemma region_local : forall t, local (read_region b d0 read_data to_interval t).
  Proof.
    intro t. apply local_bind; [ apply le_local | intro k ]. apply local_bind; [ apply soup_local | intro; apply local_ret ].
  Qed.

  (** ** Everything that fits can be written *)
  Lemma int32_writes : forall n, small n -> exists bs, write_int32 n = Ok bs.
  Proof.
    intros n H. unfold write_int32, small in *. destruct (N.ltb_spec (N.of_nat n) 2147483648); [ eauto | lia ].
  Qed.

  Lemma rational_writes : forall q, small_rational b q -> exists bs, write_rational b q = Ok bs.
  Proof.
    intros q [H1 H2]. unfold write_rational, write_integer.
    destruct (int32_writes _ H1) as [c1 ->]. cbn [bind]. destruct (int32_writes _ H2) as [c2 ->]. cbn [bind]. eauto.
  Qed.

  Lemma write_all_ok : forall A (f : A -> res (list byte)) l, Forall (fun x => exists bs, f x = Ok bs) l ->
    exists bs, write_all f l = Ok bs.
  Proof.
    intros A f l H. induction H as [ | x l [bs Hx] H [bs' IH] ]; cbn [write_all]; [ eauto | ].
    rewrite Hx, IH. cbn [bind]. eauto.
  Qed.

  Lemma region_writes : forall r, valid_region r -> fits b write_data r ->
    exists bs, write_kigumi_region b write_data r = Ok bs.
  Proof.
    intros r [Hv Hd] [F1 F2 F3 F4 F5]. unfold write_kigumi_region, write_soup.
    destruct (int32_writes _ F1) as [nv ->]. cbn [bind]. destruct (int32_writes _ F2) as [nf ->]. cbn [bind].
    destruct (write_all_ok _ (write_point b) (points (stored_soup r))) as [ps ->].
    { eapply Forall_impl; [ | exact F3 ]. intros [ [ [ax ay] az] [ [x y] z] ] H. unfold write_point. cbn [approx exact].
      unfold all_doubles in H. cbn [approx exact] in H.
      destruct H as [ (Ex & Ey & Ez) | (Hx & Hy & Hz) ].
      - rewrite Ex, Ey, Ez. cbn [andb]. eauto.
      - destruct (is_point ax && is_point ay && is_point az); [ eauto | ].
        destruct (rational_writes x Hx) as [wx ->]. destruct (rational_writes y Hy) as [wy ->].
        destruct (rational_writes z Hz) as [wz ->]. cbn [bind]. eauto. }
    cbn [bind]. destruct (write_all_ok _ (write_face write_data (stored_soup r)) (seq 0 (num_faces (stored_soup r)))) as [fs ->].
    { apply Forall_forall. intros fi Hfi. apply in_seq in Hfi. unfold num_faces in Hfi.
      unfold write_face, soup_face, soup_data, vec_at.
      destruct (nth_error (faces (stored_soup r)) fi) as [f | ] eqn:Ef; [ | apply nth_error_None in Ef; lia ].
      destruct (nth_error (face_data (stored_soup r)) fi) as [d | ] eqn:Ed; [ | apply nth_error_None in Ed; lia ].
      cbn [bind]. rewrite Forall_forall in F4, F5.
      pose proof (F4 f (nth_error_In _ _ Ef)) as G. destruct f as [ [i j] k]. destruct G as (G1 & G2 & G3).
      cbn [fst snd]. destruct (int32_writes _ G1) as [w1 ->]. destruct (int32_writes _ G2) as [w2 ->].
      destruct (int32_writes _ G3) as [w3 ->]. destruct (F5 d (nth_error_In _ _ Ed)) as [wd ->]. cbn [bind]. eauto. }
    cbn [bind]. eauto.
  Qed.

  (** ** Cut files of points made of doubles *)
  Hypothesis Hquiet : quiet_codec write_data read_data.

  Lemma doubles_dead : dead (do x <- read_le 8; do y <- read_le 8; do z <- read_le 8; rret (point_of_doubles x y z)).
  Proof. repeat (apply dead_bind; [ apply le_dead | intro ]). apply dead_ret. Qed.

  Lemma point_dead : dead (read_point b to_interval).
  Proof. intro buf. apply doubles_dead. Qed.

  Lemma point_harmless : forall p bs, all_doubles p -> write_point b p = Ok bs -> harmless (read_point b to_interval) bs.
  Proof.
    intros [ [ [ax ay] az] [ [x y] z] ] bs (Ex & Ey & Ez) H. unfold write_point in H. cbn [approx exact] in *.
    rewrite Ex, Ey, Ez in H. cbn [andb] in H. injection H as <-.
    intros p more buf E N. destruct p as [ | c p].
    - cbn [app] in E. assert (G : read_bool (open [] buf) = Ok (false, mk_rstate [] false buf)) by reflexivity.
      unfold read_point. unfold rbind at 1. rewrite G. cbn [bind fst snd]. apply doubles_dead.
    - destruct (bool_roundtrip false p buf) as [buf1 G].
      Local Transparent write_bool.
      unfold write_bool in E at 1. cbn [app] in E. injection E as Ec E. unfold write_bool in G. cbn [app] in G.
      rewrite Ec in G.
      unfold read_point. unfold rbind at 1. rewrite G. cbn [bind fst snd].
      assert (Hh : harmless (do x <- read_le 8; do y <- read_le 8; do z <- read_le 8; rret (point_of_doubles x y z))
        (write_double (fst ax mod 2 ^ 64) ++ write_double (fst ay mod 2 ^ 64) ++ write_double (fst az mod 2 ^ 64))).
      { change (2 ^ 64) with (256 ^ N.of_nat 8). unfold write_double.
        eapply harmless_bind; [ apply le_harmless | apply le_roundtrip; apply N.mod_lt; discriminate | | ].
        { intro. repeat (apply dead_bind; [ apply le_dead | intro ]). apply dead_ret. }
        eapply harmless_bind; [ apply le_harmless | apply le_roundtrip; apply N.mod_lt; discriminate | | ].
        { intro. repeat (apply dead_bind; [ apply le_dead | intro ]). apply dead_ret. }
        apply harmless_bind_nil; [ apply le_harmless | intro; apply dead_ret ]. }
      assert (Hm : forall n, le_bytes 8 (n mod 2 ^ 64) = le_bytes 8 n).
      { assert (G' : forall k n, le_bytes k (n mod 256 ^ N.of_nat k) = le_bytes k n).
        { clear. induction k as [ | k IH]; intro n; [ reflexivity | ]. cbn [le_bytes].
          rewrite Nat2N.inj_succ, N.pow_succ_r'.
          assert (P : 256 ^ N.of_nat k <> 0) by (apply N.pow_nonzero; lia).
          rewrite N.mod_mul_r by lia. f_equal.
          - f_equal. rewrite N.mul_comm, N.mod_add by lia. apply N.mod_mod. lia.
          - rewrite N.mul_comm, N.div_add by lia. rewrite (N.div_small (n mod 256)) by (apply N.mod_lt; lia).
            cbn [N.add]. apply IH. }
        intro n. change (2 ^ 64) with (256 ^ N.of_nat 8). apply G'. }
      unfold write_double in Hh, E. rewrite !Hm in Hh. exact (Hh p more buf1 E N).
  Qed.

  Lemma face_dead : forall s buf, equal_lengths s ->
    exists a buf', read_face d0 read_data s (mk_rstate [] false buf) = Ok (a, mk_rstate [] false buf') /\ equal_lengths a.
  Proof.
    intros s buf Es. unfold read_face.
    unfold rbind at 1. destruct (int32_dead buf) as (i & b1 & ->). cbn [bind fst snd].
    unfold rbind at 1. destruct (int32_dead b1) as (j & b2 & ->). cbn [bind fst snd].
    unfold rbind at 1. destruct (int32_dead b2) as (k & b3 & ->). cbn [bind fst snd].
    unfold rbind at 1. destruct (qc_failed _ _ Hquiet b3) as (d & b4 & ->). cbn [bind fst snd].
    pose proof (add_set s (i, j, k) d Es) as A. destruct (add_face d0 s (i, j, k)) as [fi s']. rewrite A.
    exists (push_face s (i, j, k) d), b4. split; [ reflexivity | ].
    unfold equal_lengths in *. cbn [push_face faces face_data]. rewrite !app_length. cbn [length]. lia.
  Qed.

  Lemma dead_face' : forall s, equal_lengths s -> dead (read_face d0 read_data s).
  Proof. intros s Es buf. destruct (face_dead s buf Es) as (a & b' & E & _). eauto. Qed.

  (** Loops cut off somewhere. *)
  Lemma repeat_harmless : forall A S (I : S -> Prop) (f : S -> reader S) (w : A -> res (list byte)) (g : S -> A -> S) l bs s,
    write_all w l = Ok bs -> I s -> (forall s x, I s -> I (g s x)) ->
    (forall s x bs, I s -> In x l -> w x = Ok bs -> roundtrips (f s) bs (g s x)) ->
    (forall s x bs p more buf, I s -> In x l -> w x = Ok bs -> bs = p ++ more -> more <> [] ->
       exists a buf', f s (open p buf) = Ok (a, mk_rstate [] false buf') /\ I a) ->
    (forall s buf, I s -> exists a buf', f s (mk_rstate [] false buf) = Ok (a, mk_rstate [] false buf') /\ I a) ->
    forall p more buf, bs = p ++ more -> more <> [] ->
      exists a buf', repeat_read (length l) f s (open p buf) = Ok (a, mk_rstate [] false buf') /\ I a.
  Proof.
    intros A S I f w g l. induction l as [ | x l IH]; intros bs s H HI Hg Hr Hh Hd p more buf E N.
    - injection H as <-. exfalso. apply N. destruct p, more; try discriminate; reflexivity.
    - cbn [write_all] in H. apply bind_ok in H. destruct H as (b1 & H1 & H).
      apply bind_ok in H. destruct H as (b2 & H2 & H). injection H as <-.
      cbn [length repeat_read]. unfold rbind.
      destruct (le_lt_dec (length b1) (length p)) as [L | L].
      + assert (Ep : p = b1 ++ skipn (length b1) p).
        { rewrite <- (firstn_skipn (length b1) p) at 1. f_equal.
          assert (X : firstn (length b1) (b1 ++ b2) = firstn (length b1) (p ++ more)) by (rewrite E; reflexivity).
          rewrite firstn_app, firstn_all, Nat.sub_diag, firstn_O, app_nil_r in X.
          rewrite firstn_app in X. replace (length b1 - length p)%nat with 0%nat in X by lia.
          rewrite firstn_O, app_nil_r in X. symmetry. exact X. }
        set (p' := skipn (length b1) p) in *. rewrite Ep in *. rewrite <- app_assoc in E. apply app_inv_head in E.
        destruct (Hr s x b1 HI (or_introl eq_refl) H1 p' buf) as [buf1 ->]. cbn [bind fst snd].
        apply (IH b2 (g s x) H2 (Hg s x HI) Hg) with (more := more); auto.
        * intros; apply Hr; auto. right; assumption.
        * intros; eapply Hh; eauto. right; assumption.
      + assert (Eb : b1 = p ++ firstn (length b1 - length p) more).
        { assert (X : firstn (length b1) (b1 ++ b2) = firstn (length b1) (p ++ more)) by (rewrite E; reflexivity).
          rewrite firstn_app, firstn_all, Nat.sub_diag, firstn_O, app_nil_r in X.
          rewrite firstn_app in X. rewrite firstn_all2 in X by lia. exact X. }
        assert (N' : firstn (length b1 - length p) more <> []).
        { intro X. rewrite X, app_nil_r in Eb. subst. lia. }
        destruct (Hh s x b1 p _ buf HI (or_introl eq_refl) H1 Eb N') as (a & buf1 & -> & Ia). cbn [bind fst snd].
        apply repeat_dead; assumption.
  Qed.

  Lemma face_harmless : forall s f d i j k w, equal_lengths s ->
    write_int32 (fst (fst f)) = Ok i -> write_int32 (snd (fst f)) = Ok j -> write_int32 (snd f) = Ok k ->
    write_data d = Ok w -> harmless (read_face d0 read_data s) (i ++ j ++ k ++ w).
  Proof.
    intros s [ [fi fj] fk] d i j k w Es Hi Hj Hk Hw. cbn [fst snd] in *. unfold read_face.
    assert (Dend : forall fi fj fk, dead (do d <- read_data; let (fi', s') := add_face d0 s (fi, fj, fk) in rfail (set_data s' fi' d))).
    { intros x y z. apply dead_bind; [ exact (qc_failed _ _ Hquiet) | ]. intros d' buf.
      pose proof (add_set s (x, y, z) d' Es) as A. destruct (add_face d0 s (x, y, z)) as [fi' s']. rewrite A.
      unfold rfail. cbn [bind]. eauto. }
    eapply harmless_bind; [ eapply int32_harmless; exact Hi | eapply int32_roundtrip; exact Hi | | ].
    { intro x. apply dead_bind; [ apply int32_dead | intro y ]. apply dead_bind; [ apply int32_dead | intro z ]. apply Dend. }
    eapply harmless_bind; [ eapply int32_harmless; exact Hj | eapply int32_roundtrip; exact Hj | | ].
    { intro y. apply dead_bind; [ apply int32_dead | intro z ]. apply Dend. }
    eapply harmless_bind; [ eapply int32_harmless; exact Hk | eapply int32_roundtrip; exact Hk | | ].
    { intro z. apply Dend. }
    apply harmless_bind_nil.
    - intros p more buf E N. exact (qc_cut _ _ Hquiet d w p more buf Hw E N).
    - intros d' buf. pose proof (add_set s (fi, fj, fk) d' Es) as A. destruct (add_face d0 s (fi, fj, fk)) as [fi' s'].
      rewrite A. unfold rfail. cbn [bind]. eauto.
  Qed.

  (** What is read keeps as many data as faces. *)
  Lemma read_face_lengths : forall s st a st', equal_lengths s -> read_face d0 read_data s st = Ok (a, st') -> equal_lengths a.
  Proof.
    intros s st a st' Es H. unfold read_face, rbind in H.
    apply bind_ok in H. destruct H as ( [i s1] & H1 & H). cbn [fst snd] in H.
    apply bind_ok in H. destruct H as ( [j s2] & H2 & H). cbn [fst snd] in H.
    apply bind_ok in H. destruct H as ( [k s3] & H3 & H). cbn [fst snd] in H.
    apply bind_ok in H. destruct H as ( [d s4] & H4 & H). cbn [fst snd] in H.
    pose proof (add_set s (i, j, k) d Es) as A. destruct (add_face d0 s (i, j, k)) as [fi s']. rewrite A in H.
    cbn [rfail bind] in H. injection H as <- <-. unfold equal_lengths in *. cbn [push_face faces face_data].
    rewrite !app_length. cbn [length]. lia.
  Qed.

  Definition write_pair (fd : face * D) : res (list byte) :=
    let '(f, d) := fd in
    let* i := write_int32 (fst (fst f)) in
    let* j := write_int32 (snd (fst f)) in
    let* k := write_int32 (snd f) in
    let* w := write_data d in
    Ok (i ++ j ++ k ++ w).

  Lemma write_faces_pairs : forall s, equal_lengths s -> forall n,
    write_all (write_face write_data s) (seq n (length (faces s) - n)) =
    write_all write_pair (skipn n (combine (faces s) (face_data s))).
  Proof.
    intros s Es n. remember (length (faces s) - n)%nat as k eqn:Ek. revert n Ek.
    induction k as [ | k IH]; intros n Ek.
    - cbn [seq write_all]. rewrite skipn_all2; [ reflexivity | ]. rewrite combine_length. lia.
    - cbn [seq write_all]. unfold equal_lengths in Es.
      destruct (nth_error (faces s) n) as [f | ] eqn:Ef; [ | apply nth_error_None in Ef; lia ].
      destruct (nth_error (face_data s) n) as [d | ] eqn:Ed; [ | apply nth_error_None in Ed; lia ].
      assert (X : skipn n (combine (faces s) (face_data s)) = (f, d) :: skipn (S n) (combine (faces s) (face_data s))).
      { clear - Ef Ed. revert n Ef Ed. generalize (face_data s) as ds. generalize (faces s) as fs.
        induction fs as [ | f' fs IH]; intros ds n Ef Ed; [ destruct n; discriminate | ].
        destruct ds as [ | d' ds]; [ destruct n; discriminate | ].
        destruct n as [ | n]; cbn [nth_error] in *.
        - injection Ef as ->. injection Ed as ->. reflexivity.
        - cbn [combine skipn]. apply IH; assumption. }
      rewrite X. cbn [write_all]. rewrite <- (IH (S n)) by lia.
      unfold write_face at 1, soup_face, soup_data, vec_at. rewrite Ef, Ed. reflexivity.
  Qed.

  Lemma soup_harmless : forall s t bs, Forall valid_point (points s) -> Forall all_doubles (points s) ->
    equal_lengths s -> equal_lengths t -> write_soup b write_data s = Ok bs ->
    harmless (read_soup b d0 read_data to_interval t) bs.
  Proof.
    intros s t bs Hv Hd Es Et H. unfold write_soup in H. apply bind_ok in H. destruct H as (nv & Hnv & H).
    apply bind_ok in H. destruct H as (nf & Hnf & H). apply bind_ok in H. destruct H as (ps & Hps & H).
    apply bind_ok in H. destruct H as (fs & Hfs & H). injection H as <-. unfold read_soup.
    assert (VD : forall s buf, equal_lengths s ->
      exists a buf', read_vertex b to_interval s (mk_rstate [] false buf) = Ok (a, mk_rstate [] false buf') /\ equal_lengths a).
    { intros s' buf E'. unfold read_vertex, rbind. destruct (point_dead buf) as (p & b1 & ->). cbn [bind fst snd rret].
      exists (snd (add_vertex s' p)), b1. split; [ reflexivity | exact E' ]. }
    assert (FD : forall n s, equal_lengths s -> dead (repeat_read n (read_face d0 read_data) s)).
    { intros n s' E' buf. destruct (repeat_dead _ equal_lengths (read_face d0 read_data) n s' E' face_dead buf) as (a & b1 & E1 & _).
      eauto. }
    assert (VFD : forall n m, dead (do t' <- repeat_read n (read_vertex b to_interval) t; repeat_read m (read_face d0 read_data) t')).
    { intros n m buf. unfold rbind.
      destruct (repeat_dead _ equal_lengths _ n t Et VD buf) as (a & b1 & -> & Ea). cbn [bind fst snd]. apply FD. exact Ea. }
    eapply harmless_bind; [ eapply int32_harmless; exact Hnv | eapply int32_roundtrip; exact Hnv | | ].
    { intro n. apply dead_bind; [ apply int32_dead | intro m ]. apply VFD. }
    eapply harmless_bind; [ eapply int32_harmless; exact Hnf | eapply int32_roundtrip; exact Hnf | | ].
    { intro m. apply VFD. }
    intros p more buf E N. unfold rbind.
    assert (VR : forall (s0 : soup lazy_point D) x bs0, In x (points s) -> write_point b x = Ok bs0 ->
      roundtrips (read_vertex b to_interval s0) bs0 (snd (add_vertex s0 (read_back x)))).
    { intros s0 x bs0 Hin Hw. unfold read_vertex. eapply rt_bind_nil; [ | apply rt_ret ].
      apply point_roundtrip; [ | exact Hw ]. rewrite Forall_forall in Hv. apply Hv. exact Hin. }
    destruct (le_lt_dec (length ps) (length p)) as [L | L].
    - assert (Ep : p = ps ++ skipn (length ps) p).
      { rewrite <- (firstn_skipn (length ps) p) at 1. f_equal.
        assert (X : firstn (length ps) (ps ++ fs) = firstn (length ps) (p ++ more)) by (rewrite E; reflexivity).
        rewrite firstn_app, firstn_all, Nat.sub_diag, firstn_O, app_nil_r in X.
        rewrite firstn_app in X. replace (length ps - length p)%nat with 0%nat in X by lia.
        rewrite firstn_O, app_nil_r in X. symmetry. exact X. }
      set (p' := skipn (length ps) p) in *. rewrite Ep in *. rewrite <- app_assoc in E. apply app_inv_head in E.
      destruct (repeat_roundtrip _ _ (read_vertex b to_interval) (write_point b)
        (fun s p => snd (add_vertex (D := D) s (read_back p))) (points s) ps t Hps (fun s0 x bs0 => VR s0 x bs0) p' buf) as [buf1 Er].
      unfold num_vertices. rewrite Er. cbn [bind fst snd]. rewrite fold_vertices.
      pose proof (write_faces_pairs s Es 0) as W. rewrite Nat.sub_0_r in W. cbn [skipn] in W.
      unfold num_faces in Hfs. rewrite W in Hfs.
      assert (Ln : num_faces s = length (combine (faces s) (face_data s))).
      { rewrite combine_length. unfold equal_lengths in Es. unfold num_faces. lia. }
      rewrite Ln.
      destruct (repeat_harmless _ _ equal_lengths (read_face d0 read_data) write_pair
        (fun s fd => push_face s (fst fd) (snd fd)) (combine (faces s) (face_data s)) fs
        (mk_soup (points t ++ map read_back (points s)) (faces t) (face_data t)) Hfs) with (p := p') (more := more) (buf := buf1)
        as (a & b2 & Ea & _).
      + exact Et.
      + intros s0 [f d] E0. unfold equal_lengths in *. cbn [push_face faces face_data fst snd]. rewrite !app_length. cbn [length]. lia.
      + intros s0 [f d] bs0 E0 Hin Hw. unfold write_pair in Hw.
        apply bind_ok in Hw. destruct Hw as (wi & Hi & Hw). apply bind_ok in Hw. destruct Hw as (wj & Hj & Hw).
        apply bind_ok in Hw. destruct Hw as (wk & Hk & Hw). apply bind_ok in Hw. destruct Hw as (wd & Hdw & Hw).
        injection Hw as <-. cbn [fst snd]. apply (face_roundtrip s0 f d wi wj wk wd E0); assumption.
      + intros s0 [f d] bs0 q more0 buf0 E0 Hin Hw Eq Nq. unfold write_pair in Hw.
        apply bind_ok in Hw. destruct Hw as (wi & Hi & Hw). apply bind_ok in Hw. destruct Hw as (wj & Hj & Hw).
        apply bind_ok in Hw. destruct Hw as (wk & Hk & Hw). apply bind_ok in Hw. destruct Hw as (wd & Hdw & Hw).
        injection Hw as Hw. rewrite <- Hw in Eq.
        destruct (face_harmless s0 f d wi wj wk wd E0 Hi Hj Hk Hdw q more0 buf0 Eq Nq) as (a & b2 & Ea).
        exists a, b2. split; [ exact Ea | ]. exact (read_face_lengths s0 _ a _ E0 Ea).
      + exact face_dead.
      + exact E.
      + exact N.
      + eauto.
    - assert (Eb : ps = p ++ firstn (length ps - length p) more).
      { assert (X : firstn (length ps) (ps ++ fs) = firstn (length ps) (p ++ more)) by (rewrite E; reflexivity).
        rewrite firstn_app, firstn_all, Nat.sub_diag, firstn_O, app_nil_r in X.
        rewrite firstn_app in X. rewrite firstn_all2 in X by lia. exact X. }
      assert (N' : firstn (length ps - length p) more <> []).
      { intro X. rewrite X, app_nil_r in Eb. subst. lia. }
      destruct (repeat_harmless _ _ equal_lengths (read_vertex b to_interval) (write_point b)
        (fun s p => snd (add_vertex (D := D) s (read_back p))) (points s) ps t Hps) with (p := p)
        (more := firstn (length ps - length p) more) (buf := buf) as (a & b2 & Ea & Ia); auto.
      + intros s0 x bs0 q more0 buf0 E0 Hin Hw Eq Nq. unfold read_vertex, rbind.
        rewrite Forall_forall in Hd.
        destruct (point_harmless x bs0 (Hd x Hin) Hw q more0 buf0 Eq Nq) as (pt & b2 & ->). cbn [bind fst snd rret].
        exists (snd (add_vertex s0 pt)), b2. split; [ reflexivity | exact E0 ].
      + unfold num_vertices. rewrite Ea. cbn [bind fst snd]. apply FD. exact Ia.
  Qed.

  Lemma region_harmless : forall r t bs, valid_region r -> Forall all_doubles (points (stored_soup r)) ->
    equal_lengths (stored_soup t) -> write_kigumi_region b write_data r = Ok bs ->
    forall p more buf, bs = p ++ more -> more <> [] ->
    exists a buf', read_region b d0 read_data to_interval t (open p buf) = Ok (a, mk_rstate [] false buf').
  Proof.
    intros r t bs [Hv Es] Hd Et H. unfold write_kigumi_region in H. apply bind_ok in H.
    destruct H as (ws & Hs & H). injection H as <-. intros p more buf E N. unfold read_region.
    destruct p as [ | c p].
    - unfold rbind at 1. assert (K1 : read_le 1 (open [] buf) = Ok (0, mk_rstate [] false buf)) by reflexivity. rewrite K1. cbn [bind fst snd].
      unfold read_soup, rbind.
      assert (E1' : read_int32 (mk_rstate [] false buf) = Ok (0%nat, mk_rstate [] false buf)) by reflexivity.
      rewrite E1'. cbn [bind fst snd]. rewrite E1'. cbn [bind fst snd repeat_read]. unfold rret. cbn [bind fst snd]. do 2 eexists. reflexivity.
    - cbn [app] in E. injection E as <- E.
      assert (X : [stored_kind r] = le_bytes 1 (Byte.to_N (stored_kind r))).
      { cbn [le_bytes]. pose proof (Byte.to_N_bounded (stored_kind r)).
        rewrite N.mod_small by lia. rewrite byte_of_to_N. reflexivity. }
      assert (R : roundtrips (read_le 1) [stored_kind r] (Byte.to_N (stored_kind r))).
      { rewrite X. apply le_roundtrip. change (256 ^ N.of_nat 1) with 256.
        pose proof (Byte.to_N_bounded (stored_kind r)). lia. }
      destruct (R p buf) as [b1 Eb]. cbn [app] in Eb. unfold rbind at 1. rewrite Eb. cbn [bind fst snd].
      unfold rbind. destruct (soup_harmless _ (stored_soup t) ws Hv Hd Es Et Hs p more b1 E N) as (a & b2 & ->).
      unfold rret. cbn [bind fst snd]. do 2 eexists. reflexivity.
  Qed.
End Codec.
