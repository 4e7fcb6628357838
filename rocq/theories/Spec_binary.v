(** * Files of regions *)
From Coq Require Import List Arith Bool NArith ZArith QArith.
From Coq.Strings Require Import Byte.
From Verif Require Import Model_base Model_soup Model_binary.
Import ListNotations.

(** What the kernel guarantees of a coordinate: the interval consists of two
    doubles, the exact value is in lowest terms, and if the interval is a single
    double then that double is the exact value. *)
Definition valid_coordinate (i : interval) (x : Q) : Prop :=
  (fst i < 2 ^ 64)%N /\ (snd i < 2 ^ 64)%N /\ Qred x = x /\
  (is_point i = true -> exists v, double_value (fst i) = Some v /\ (v == x)%Q).
Definition valid_point (p : lazy_point) : Prop :=
  let '(ax, ay, az) := approx p in let '(x, y, z) := exact p in
  valid_coordinate ax x /\ valid_coordinate ay y /\ valid_coordinate az z.

(** All three coordinates are single doubles. *)
Definition all_doubles (p : lazy_point) : Prop :=
  let '(ax, ay, az) := approx p in is_point ax = true /\ is_point ay = true /\ is_point az = true.

(** The same point: the same exact value, and a point that consists of doubles
    still consists of the same doubles, bit for bit. *)
Definition same_point (p q : lazy_point) : Prop :=
  (let '(x, y, z) := exact p in let '(x', y', z') := exact q in (x == x' /\ y == y' /\ z == z')%Q) /\
  (all_doubles p ->
   let '(ax, ay, az) := approx p in
   approx q = ((fst ax, fst ax), (fst ay, fst ay), (fst az, fst az))).

Record same_region {D} (a b : @stored D) : Prop := {
  sr_kind : stored_kind a = stored_kind b;
  sr_points : Forall2 same_point (points (stored_soup a)) (points (stored_soup b));
  sr_faces : faces (stored_soup a) = faces (stored_soup b);
  sr_data : face_data (stored_soup a) = face_data (stored_soup b)
}.

Record valid_region {D} (r : @stored D) : Prop := {
  vr_points : Forall valid_point (points (stored_soup r));
  vr_data : length (face_data (stored_soup r)) = length (faces (stored_soup r))
}.

(** What fits in the file format. *)
Definition small (n : nat) : Prop := (N.of_nat n < 2147483648)%N.
Definition small_rational (b : backend) (q : Q) : Prop :=
  small (length (magnitude b (Z.abs_N (Qnum q)))) /\ small (length (magnitude b (Npos (Qden q)))).
Record fits {D} (b : backend) (write_data : D -> res (list byte)) (r : @stored D) : Prop := {
  ft_vertices : small (num_vertices (stored_soup r));
  ft_faces : small (num_faces (stored_soup r));
  ft_points : Forall (fun p => all_doubles p \/
      let '(x, y, z) := exact p in small_rational b x /\ small_rational b y /\ small_rational b z)
    (points (stored_soup r));
  ft_indices : Forall (fun f : face => let '(i, j, k) := f in small i /\ small j /\ small k)
    (faces (stored_soup r));
  ft_data : Forall (fun d => exists bs, write_data d = Ok bs) (face_data (stored_soup r))
}.

(** The same stream with more bytes at its end. *)
Definition extend (s : rstate) (more : list byte) : rstate := mk_rstate (input s ++ more) (good s) (buffer s).

(** A codec of face data that reads back what it wrote, and that behaves as a
    reader of a stream should: what it reads successfully does not depend on what
    follows, and it does not repair a stream that has failed. *)
Record good_codec {D} (write_data : D -> res (list byte)) (read_data : reader D) : Prop := {
  gc_round : forall d bs rest buf, write_data d = Ok bs ->
    exists buf', read_data (open (bs ++ rest) buf) = Ok (d, open rest buf');
  gc_local : forall s d s' more, read_data s = Ok (d, s') -> good s' = true ->
    good s = true /\ read_data (extend s more) = Ok (d, extend s' more)
}.
(** ... and that never throws when the data is cut off or the stream has failed. *)
Record quiet_codec {D} (write_data : D -> res (list byte)) (read_data : reader D) : Prop := {
  qc_cut : forall d bs p more buf, write_data d = Ok bs -> bs = p ++ more -> more <> [] ->
    exists d' buf', read_data (open p buf) = Ok (d', mk_rstate [] false buf');
  qc_failed : forall buf, exists d buf', read_data (mk_rstate [] false buf) = Ok (d, mk_rstate [] false buf')
}.
