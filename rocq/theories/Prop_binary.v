(** * C25-C27: the binary region format *)
From Coq Require Import List Arith Bool NArith ZArith QArith Lia.
From Coq.Strings Require Import Byte.
From Verif Require Import Model_base Proof_base Model_soup Model_binary Spec_binary Proof_binary.
Import ListNotations.
Local Open Scope nat_scope.

(** Reading back what was written into a fresh region gives the same region, and
    consumes exactly what was written.  Whatever follows in the stream ([rest]) and
    whatever was left in the buffer of this thread do not matter. *)
Theorem C25_round_trip : forall D b (d0 : D) write_data read_data to_interval (r : stored) bytes rest buf,
  good_codec write_data read_data -> valid_region r ->
  write_kigumi_region b write_data r = Ok bytes ->
  exists r' buf',
    read_kigumi_region b d0 read_data to_interval fresh (open (bytes ++ rest) buf) =
      Ok ((true, r'), open rest buf') /\
    same_region r r'.
Proof.
  intros D b d0 wd rd ti r bytes rest buf Hc Hv Hw.
  destruct (region_roundtrip b d0 wd rd ti Hc r fresh bytes Hv eq_refl Hw rest buf) as [buf' E].
  exists (mk_stored (stored_kind r) (joined ti (stored_soup fresh) (stored_soup r))), buf'. split.
  - unfold read_kigumi_region. cbn [open good]. unfold rbind. unfold open in E. unfold open. rewrite E.
    cbn [bind fst snd good]. reflexivity.
  - destruct Hv as [Hv Hd]. constructor; cbn [stored_kind stored_soup joined points faces face_data fresh empty_soup app];
      try reflexivity.
    induction Hv as [ | p l Hp Hl IH]; cbn [map]; constructor; auto. apply read_back_same. exact Hp.
Qed.
Print Assumptions C25_round_trip.

(** Everything that fits in the format can be written. *)
Theorem C25_writable : forall D b (write_data : D -> res (list byte)) r,
  valid_region r -> fits b write_data r ->
  exists bytes, write_kigumi_region b write_data r = Ok bytes.
Proof. intros D b wd r Hv Hf. exact (region_writes b wd r Hv Hf). Qed.
Print Assumptions C25_writable.

(** The three kinds keep their meaning. *)
Theorem C25_kinds : forall D (r r' : region lazy_point D),
  same_region (stored_of r) (stored_of r') -> kind r = kind r'.
Proof.
  intros D [k s] [k' s'] [H _ _ _]. cbn in *. destruct k, k'; cbn in H; congruence.
Qed.
Print Assumptions C25_kinds.

(** ** C26 *)

(** No proper prefix of a file is accepted. *)
Theorem C26_prefix_not_accepted : forall D b (d0 : D) write_data read_data to_interval r bytes cut more buf t r' s',
  good_codec write_data read_data -> valid_region r ->
  length (face_data (stored_soup t)) = length (faces (stored_soup t)) ->
  write_kigumi_region b write_data r = Ok bytes ->
  bytes = cut ++ more -> more <> [] ->
  read_kigumi_region b d0 read_data to_interval t (open cut buf) <> Ok ((true, r'), s').
Proof.
  intros D b d0 wd rd ti r bytes cut more buf t r' s' Hc Hv Ht Hw E N H.
  unfold read_kigumi_region, open in H. cbn [good] in H. unfold rbind in H.
  destruct (read_region b d0 rd ti t (mk_rstate cut true buf)) as [ [a s1] | | ] eqn:R; try discriminate.
  cbn [bind fst snd] in H.
  change (Ok (good s1, a, s1) = Ok (true, r', s')) in H. injection H as G <- <-.
  destruct (region_local b d0 wd rd ti Hc t _ a s1 more R G) as [_ R'].
  unfold extend in R' at 1. cbn [input good buffer] in R'. rewrite <- E in R'.
  destruct (region_roundtrip b d0 wd rd ti Hc r t bytes Hv Ht Hw [] buf) as [buf' R2].
  rewrite app_nil_r in R2. unfold open in R2. rewrite R2 in R'. injection R' as _ E1 _ _.
  destruct (input s1); destruct more; try discriminate. congruence.
Qed.
Print Assumptions C26_prefix_not_accepted.

(** If the points are made of doubles, a cut file is reported by returning false. *)
Theorem C26_doubles_return_false : forall D b (d0 : D) write_data read_data to_interval r bytes cut more buf t,
  good_codec write_data read_data -> quiet_codec write_data read_data -> valid_region r ->
  Forall all_doubles (points (stored_soup r)) ->
  length (face_data (stored_soup t)) = length (faces (stored_soup t)) ->
  write_kigumi_region b write_data r = Ok bytes ->
  bytes = cut ++ more -> more <> [] ->
  exists r' s', read_kigumi_region b d0 read_data to_interval t (open cut buf) = Ok ((false, r'), s').
Proof.
  intros D b d0 wd rd ti r bytes cut more buf t Hc Hq Hv Hd Ht Hw E N.
  destruct (region_harmless b d0 wd rd ti Hc Hq r t bytes Hv Hd Ht Hw cut more buf E N) as (a & buf' & R).
  unfold read_kigumi_region. cbn [open good]. unfold rbind. unfold open in R. unfold open. rewrite R.
  cbn [bind fst snd good]. eauto.
Qed.
Print Assumptions C26_doubles_return_false.

(** A point with an exact coordinate 1/3. *)
Definition third : lazy_point :=
  mk_lazy ((4599676419421066581, 4599676419421066582), (0, 0), (0, 0))%N ((1 # 3)%Q, 0%Q, 0%Q).
Definition ex_soup : soup lazy_point unit := mk_soup [third] [(0, 0, 0)] [tt].
Definition ex_region : @stored unit := mk_stored x02 ex_soup.

(** Otherwise it is not always: cut inside an exact number, reading divides by zero,
    which kills the process (GMP) or throws (Boost). *)
Theorem C26_returns_false_refuted : forall b to_interval, exists r bytes cut more,
  valid_region r /\ write_kigumi_region b write_null r = Ok bytes /\ bytes = cut ++ more /\ more <> [] /\
  read_kigumi_region b tt read_null to_interval fresh (open cut []) =
    (match b with GMP => UB | BOOST => Throw RuntimeError end).
Proof.
  intros b ti. exists ex_region.
  assert (Hv : valid_region ex_region).
  { constructor; [ | reflexivity ]. constructor; [ | constructor ].
    unfold valid_point, valid_coordinate. cbn [approx exact third fst snd].
    repeat split; try reflexivity; try (vm_compute; discriminate).
    - vm_compute. eauto.
    - vm_compute. eauto. }
  destruct b.
  - eexists. exists [x02; x01; x00; x00; x00; x01; x00; x00; x00; x01; x00; x01; x00; x00; x00; x01].
    eexists. split; [ exact Hv | ]. split; [ vm_compute; reflexivity | ]. split; [ reflexivity | ].
    split; [ discriminate | ]. vm_compute. reflexivity.
  - eexists. exists [x02; x01; x00; x00; x00; x01; x00; x00; x00; x01; x00; x01; x00; x00; x00; x01].
    eexists. split; [ exact Hv | ]. split; [ vm_compute; reflexivity | ]. split; [ reflexivity | ].
    split; [ discriminate | ]. vm_compute. reflexivity.
Qed.
Print Assumptions C26_returns_false_refuted.

(** ** C27 *)

(** Reading into a region that is not fresh appends to it: its own points and faces
    stay, the faces read keep the numbers of the file, and the kind is replaced. *)
Theorem C27_reading_appends : forall D b (d0 : D) write_data read_data to_interval (t r : stored) bytes rest buf,
  good_codec write_data read_data -> valid_region r ->
  length (face_data (stored_soup t)) = length (faces (stored_soup t)) ->
  write_kigumi_region b write_data r = Ok bytes ->
  exists r' buf' ps,
    read_kigumi_region b d0 read_data to_interval t (open (bytes ++ rest) buf) =
      Ok ((true, r'), open rest buf') /\
    stored_kind r' = stored_kind r /\
    points (stored_soup r') = points (stored_soup t) ++ ps /\ Forall2 same_point (points (stored_soup r)) ps /\
    faces (stored_soup r') = faces (stored_soup t) ++ faces (stored_soup r) /\
    face_data (stored_soup r') = face_data (stored_soup t) ++ face_data (stored_soup r).
Proof.
  intros D b d0 wd rd ti t r bytes rest buf Hc Hv Ht Hw.
  destruct (region_roundtrip b d0 wd rd ti Hc r t bytes Hv Ht Hw rest buf) as [buf' E].
  exists (mk_stored (stored_kind r) (joined ti (stored_soup t) (stored_soup r))), buf',
    (map (read_back ti) (points (stored_soup r))). split; [ | split; [ reflexivity | split; [ reflexivity | ] ] ].
  - unfold read_kigumi_region. cbn [open good]. unfold rbind. unfold open in E. unfold open. rewrite E.
    cbn [bind fst snd good]. reflexivity.
  - split; [ | split; reflexivity ]. destruct Hv as [Hv _].
    induction Hv as [ | p l Hp Hl IH]; cbn [map]; constructor; auto. apply read_back_same. exact Hp.
Qed.
Print Assumptions C27_reading_appends.

(** So it replaces the target only if the target has no points and no faces. *)
Theorem C27_replaces_iff_blank : forall D b (d0 : D) write_data read_data to_interval (t r : stored) bytes rest buf r' s',
  good_codec write_data read_data -> valid_region r ->
  length (face_data (stored_soup t)) = length (faces (stored_soup t)) ->
  write_kigumi_region b write_data r = Ok bytes ->
  read_kigumi_region b d0 read_data to_interval t (open (bytes ++ rest) buf) = Ok ((true, r'), s') ->
  (same_region r r' <-> points (stored_soup t) = [] /\ faces (stored_soup t) = []).
Proof.
  intros D b d0 wd rd ti t r bytes rest buf r' s' Hc Hv Ht Hw H.
  destruct (C27_reading_appends D b d0 wd rd ti t r bytes rest buf Hc Hv Ht Hw)
    as (r2 & buf' & ps & E & Ek & Ep & Hps & Ef & Ed).
  rewrite H in E. injection E as -> _. split.
  - intros [_ Sp Sf _]. apply Forall2_len in Sp. apply Forall2_len in Hps.
    rewrite Ep, app_length in Sp. rewrite Ef in Sf.
    assert (L : length (faces (stored_soup r)) = length (faces (stored_soup t) ++ faces (stored_soup r)))
      by (rewrite <- Sf; reflexivity).
    rewrite app_length in L. split.
    + apply length_zero_iff_nil. lia.
    + apply length_zero_iff_nil. lia.
  - intros [Zp Zf]. assert (Zd : face_data (stored_soup t) = []).
    { apply length_zero_iff_nil. rewrite Ht, Zf. reflexivity. }
    rewrite Zp in Ep. rewrite Zf in Ef. rewrite Zd in Ed. cbn [app] in Ep, Ef, Ed.
    constructor; [ symmetry; exact Ek | rewrite Ep; exact Hps | symmetry; exact Ef | symmetry; exact Ed ].
Qed.
Print Assumptions C27_replaces_iff_blank.

Theorem C27_replaces_refuted : forall b to_interval, exists (t r : @stored unit) bytes r' s',
  valid_region t /\ valid_region r /\ write_kigumi_region b write_null r = Ok bytes /\
  read_kigumi_region b tt read_null to_interval t (open bytes []) = Ok ((true, r'), s') /\
  ~ same_region r r'.
Proof.
  intros b ti. exists ex_region, (mk_stored x01 empty_soup). do 3 eexists.
  split; [ | split; [ | split; [ | split ] ] ].
  - constructor; [ | reflexivity ]. constructor; [ | constructor ].
    unfold valid_point, valid_coordinate. cbn [approx exact third fst snd].
    repeat split; try reflexivity; try (vm_compute; discriminate).
    + vm_compute. eauto.
    + vm_compute. eauto.
  - constructor; [ constructor | reflexivity ].
  - vm_compute. reflexivity.
  - vm_compute. reflexivity.
  - intros [_ H _ _]. inversion H.
Qed.
Print Assumptions C27_replaces_refuted.

(** Faces and kinds are not checked: a file is accepted that declares a kind of
    region that does not exist and a face with a vertex that does not exist. *)
Theorem C27_accepts_invalid_refuted : forall b to_interval, exists bytes (r' : @stored unit) s',
  read_kigumi_region b tt read_null to_interval fresh (open bytes []) = Ok ((true, r'), s') /\
  stored_kind r' = x07 /\ (forall k, kind_byte k <> stored_kind r') /\
  num_vertices (stored_soup r') = 0 /\ faces (stored_soup r') = [(5, 6, 7)].
Proof.
  intros b ti.
  exists [x07; x00; x00; x00; x00; x01; x00; x00; x00; x05; x00; x00; x00; x06; x00; x00; x00; x07; x00; x00; x00].
  do 2 eexists. split; [ vm_compute; reflexivity | ]. split; [ reflexivity | ].
  split; [ intros [ | | ]; discriminate | ]. split; reflexivity.
Qed.
Print Assumptions C27_accepts_invalid_refuted.

(** ** Examples *)
Example C25_null_codec : good_codec write_null read_null.
Proof.
  constructor.
  - intros [ ] bs rest buf H. injection H as <-. exists buf. reflexivity.
  - intros s [ ] s' more H G. injection H as <-. auto.
Qed.
Example C26_null_quiet : quiet_codec write_null read_null.
Proof.
  constructor.
  - intros d bs p more buf H E N. injection H as <-. destruct p, more; try discriminate. congruence.
  - intro buf. exists tt, buf. reflexivity.
Qed.

(** Face data that takes space: a number below 2^31. *)
Example C25_int_codec : good_codec write_int32 read_int32.
Proof.
  constructor.
  - intros d bs rest buf H. exact (int32_roundtrip d bs H rest buf).
  - exact int32_local.
Qed.
Example C26_int_quiet : quiet_codec write_int32 read_int32.
Proof.
  constructor.
  - intros d bs p more buf H E N. exact (int32_harmless d bs H p more buf E N).
  - exact int32_dead.
Qed.

(** A region with a point of doubles (one of them -0.0), a point with an exact
    coordinate and face data. *)
Definition ex_full : @stored nat :=
  mk_stored x02 (mk_soup
    [mk_lazy ((9223372036854775808, 9223372036854775808), (4602678819172646912, 4602678819172646912),
              (13835058055282163712, 13835058055282163712))%N (0%Q, (1 # 2)%Q, (-2 # 1)%Q);
     mk_lazy ((4599676419421066581, 4599676419421066582), (0, 0), (0, 0))%N ((1 # 3)%Q, 0%Q, 0%Q)]
    [(0, 1, 0); (1, 0, 1)] [300; 7]).
Example C25_example : forall b, valid_region ex_full /\ fits b write_int32 ex_full /\
  exists bytes, write_kigumi_region b write_int32 ex_full = Ok bytes.
Proof.
  intro b.
  assert (Hv : valid_region ex_full).
  { constructor; [ | reflexivity ].
    assert (V : forall i x, (fst i < 2 ^ 64)%N -> (snd i < 2 ^ 64)%N -> Qred x = x ->
        match double_value (fst i) with Some v => Qeq_bool v x = true | None => False end \/ is_point i = false ->
        valid_coordinate i x).
    { intros i x Ha Hb Hx H. repeat split; auto. intro Hp. destruct H as [H | H]; [ | congruence ].
      destruct (double_value (fst i)) as [v | ]; [ | contradiction ]. exists v. split; [ reflexivity | ].
      apply Qeq_bool_iff. exact H. }
    repeat (apply Forall_cons; [ repeat split; apply V; try (vm_compute; reflexivity);
      solve [ left; vm_compute; reflexivity | right; vm_compute; reflexivity ] | ]).
    apply Forall_nil. }
  assert (Hf : fits b write_int32 ex_full).
  { constructor; try reflexivity; cbn [ex_full stored_soup points faces face_data].
    - apply Forall_cons; [ left; repeat split; vm_compute; reflexivity | ].
      apply Forall_cons; [ right; destruct b; repeat split; vm_compute; reflexivity | apply Forall_nil ].
    - repeat (apply Forall_cons; [ repeat split; vm_compute; reflexivity | ]). apply Forall_nil.
    - repeat (apply Forall_cons; [ eexists; vm_compute; reflexivity | ]). apply Forall_nil. }
  split; [ exact Hv | ]. split; [ exact Hf | ]. apply C25_writable; assumption.
Qed.
