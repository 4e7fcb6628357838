(** * The binary region format

    Models include/kigumi/io.h, the Read/Write specialisations of
    Mesh_indices.h:69-80, Null_data.h, Triangle_soup.h:152-232 and
    Region.h:21-36,100-116, and Region_io.h.

    Files are lists of bytes.  Output streams always accept what is written
    (simplification: a full disk is not modelled).  Input streams are modelled
    with their error state, partial reads included. *)
From Coq Require Import List Arith Bool NArith ZArith QArith.
From Coq.Strings Require Import Byte.
From Verif Require Import Model_base Model_soup.
Import ListNotations.
Local Open Scope N_scope.

(** ** Bytes and numbers *)

Definition byte_of (n : N) : byte := match Byte.of_N n with Some b => b | None => x00 end.

(** [k] bytes of a number, least significant first; io.h:27-29 and 38-39 with
    boost::endian (the bytes of a T in little endian order, whatever the host). *)
Fixpoint le_bytes (k : nat) (n : N) : list byte :=
  match k with
  | O => []
  | S k => byte_of (n mod 256) :: le_bytes k (n / 256)
  end.
Fixpoint le_value (l : list byte) : N :=
  match l with
  | [] => 0
  | b :: r => Byte.to_N b + 256 * le_value r
  end.

(** Most significant byte first, as mpz_export(.., order 1, size 1, ..) and
    export_bits(.., 8) write and mpz_import and import_bits read. *)
Definition be_value (l : list byte) : N := fold_left (fun a b => 256 * a + Byte.to_N b) l 0.

(** The two number libraries of io.h (CGAL_USE_BOOST_MP 82-130, CGAL_USE_GMPXX 134-188). *)
Inductive backend : Type := GMP | BOOST.

(** The magnitude of an integer: io.h:93,98 and 148-149,153-154.  Of zero, mpz_export
    writes no byte and export_bits one. *)
Definition magnitude (b : backend) (n : N) : list byte :=
  match n, b with
  | 0, GMP => []
  | 0, BOOST => [x00]
  | _, _ => rev (le_bytes (N.to_nat ((N.size n + 7) / 8)) n)
  end.

(** ** Writing *)

(** io.h:13-20 and 48-51: [kigumi_write<std::int32_t>(out, n)] of a std::size_t. *)
Definition write_int32 (n : nat) : res (list byte) :=
  if N.of_nat n <? 2147483648 then Ok (le_bytes 4 (N.of_nat n)) else Throw RuntimeError.

(** io.h:65-70. *)
Definition write_bool (b : bool) : list byte := [byte_of (if b then 1 else 0)].

(** A double is its 64 bits; io.h:22-31. *)
Definition write_double (bits : N) : list byte := le_bytes 8 bits.

(** io.h:85-102, 139-158; a rational number is kept in lowest terms. *)
Definition write_integer (b : backend) (n : N) : res (list byte) :=
  let buf := magnitude b n in
  let* count := write_int32 (length buf) in
  Ok (count ++ buf).
Definition write_rational (b : backend) (q : Q) : res (list byte) :=
  let* num := write_integer b (Z.abs_N (Qnum q)) in
  let* den := write_integer b (Npos (Qden q)) in
  Ok (write_bool (Qnum q <? 0)%Z ++ num ++ den).

(** ** Points

    A point of the lazy kernel: for each coordinate the approximating interval
    (two doubles) and the exact value. *)
Definition interval : Type := N * N.
Record lazy_point : Type := mk_lazy {
  approx : interval * interval * interval;
  exact : Q * Q * Q
}.

(** The value of a finite double. *)
Definition double_value (bits : N) : option Q :=
  let m := (bits mod 2 ^ 52)%N in
  let e := ((bits / 2 ^ 52) mod 2 ^ 11)%N in
  let s := (bits / 2 ^ 63)%N in
  if e =? 2047 then None
  else
    let mag : Q :=
      if e =? 0 then ((Z.of_N m # 1) * Qpower (2 # 1) (-1074))%Q
      else ((Z.of_N (2 ^ 52 + m) # 1) * Qpower (2 # 1) (Z.of_N e - 1075))%Q in
    Some (if (s =? 0)%N then mag else (- mag)%Q).

(** [operator==(double, double)] *)
Definition double_eqb (a b : N) : bool :=
  match double_value a, double_value b with
  | Some x, Some y => Qeq_bool x y
  | None, None => (a =? b) && (a mod 2 ^ 52 =? 0)
  | _, _ => false
  end.

(** Interval_nt::is_point *)
Definition is_point (i : interval) : bool := double_eqb (fst i) (snd i).

(** Triangle_soup.h:158-172. *)
Definition write_point (b : backend) (p : lazy_point) : res (list byte) :=
  let '(ax, ay, az) := approx p in
  let '(x, y, z) := exact p in
  if is_point ax && is_point ay && is_point az then
    Ok (write_bool false ++ write_double (fst ax) ++ write_double (fst ay) ++ write_double (fst az))
  else
    let* x := write_rational b x in
    let* y := write_rational b y in
    let* z := write_rational b z in
    Ok (write_bool true ++ x ++ y ++ z).

(** A loop that writes. *)
Fixpoint write_all {A} (f : A -> res (list byte)) (l : list A) : res (list byte) :=
  match l with
  | [] => Ok []
  | x :: r =>
      let* a := f x in
      let* b := write_all f r in
      Ok (a ++ b)
  end.

Section Writing.
  Context {D : Type}.
  Variable b : backend.
  (** Write<FaceData> *)
  Variable write_data : D -> res (list byte).

  (** Triangle_soup.h:175-182. *)
  Definition write_face (s : soup lazy_point D) (fi : nat) : res (list byte) :=
    let* f := soup_face s fi in
    let* d := soup_data s fi in
    let* i := write_int32 (fst (fst f)) in
    let* j := write_int32 (snd (fst f)) in
    let* k := write_int32 (snd f) in
    let* d := write_data d in
    Ok (i ++ j ++ k ++ d).

  (** Triangle_soup.h:152-184. *)
  Definition write_soup (s : soup lazy_point D) : res (list byte) :=
    let* nv := write_int32 (num_vertices s) in
    let* nf := write_int32 (num_faces s) in
    let* ps := write_all (write_point b) (points s) in
    let* fs := write_all (write_face s) (seq 0 (num_faces s)) in
    Ok (nv ++ nf ++ ps ++ fs).

  (** Region.h:12-16: the underlying value of a Region_kind. *)
  Definition kind_byte (k : region_kind) : byte :=
    match k with EMPTY => x00 | FULL => x01 | BOUNDARY_DEFINED => x02 end.

  (** A region as the binary format sees it: kind_ can hold any byte. *)
  Record stored : Type := mk_stored { stored_kind : byte; stored_soup : soup lazy_point D }.
  Definition stored_of (r : region lazy_point D) : stored := mk_stored (kind_byte (kind r)) (boundary r).

  (** Region.h:21-26, 100-106; Region_io.h:33-40. *)
  Definition write_kigumi_region (r : stored) : res (list byte) :=
    let* s := write_soup (stored_soup r) in
    Ok (stored_kind r :: s).
End Writing.
Arguments mk_stored {D}.
Arguments stored_kind {D}.
Arguments stored_soup {D}.

(** ** Reading *)

(** A std::istream (what is left to read and whether it is good()), and the
    thread_local buffer of Read<Exact_rational> (io.h:107 and 163). *)
Record rstate : Type := mk_rstate { input : list byte; good : bool; buffer : list byte }.

Definition reader (A : Type) : Type := rstate -> res (A * rstate).
Definition rret {A} (a : A) : reader A := fun s => Ok (a, s).
Definition rbind {A B} (m : reader A) (k : A -> reader B) : reader B :=
  fun s => let* x := m s in k (fst x) (snd x).
Definition rfail {A} (r : res A) : reader A := fun s => let* x := r in Ok (x, s).
Notation "'do' x <- m ';' k" := (rbind m (fun x => k))
  (at level 200, x name, m at level 100, k at level 200, right associativity).

(** [in.read(p, n)] where the [n] bytes at [p] are [old]: a stream that is not good
    reads nothing; a short read stores what there is and sets eofbit and failbit. *)
Definition read_raw (old : list byte) : reader (list byte) := fun s =>
  let n := length old in
  if good s then
    if (n <=? length (input s))%nat then
      Ok (firstn n (input s), mk_rstate (skipn n (input s)) true (buffer s))
    else Ok (input s ++ skipn (length (input s)) old, mk_rstate [] false (buffer s))
  else Ok (old, s).

(** io.h:33-41, into a value-initialised T of [k] bytes. *)
Definition read_le (k : nat) : reader N :=
  do l <- read_raw (repeat x00 k);
  rret (le_value l).

(** io.h:72-79. *)
Definition read_bool : reader bool :=
  do x <- read_le 1;
  rret (negb (x =? 0)).

(** io.h:58-63 with U = std::int32_t and T = std::size_t: negative numbers throw. *)
Definition read_int32 : reader nat :=
  do x <- read_le 4;
  if x <? 2147483648 then rret (N.to_nat x) else rfail (Throw RuntimeError).

(** [buf.resize(count)] *)
Definition resize (count : nat) (buf : list byte) : list byte :=
  firstn count buf ++ repeat x00 (count - length buf).

(** io.h:115-118, 120-123, 171-174, 176-179. *)
Definition read_integer : reader N :=
  do count <- read_int32;
  do buf <- (fun s => Ok (resize count (buffer s), s));
  do buf <- read_raw buf;
  do _ <- (fun s => Ok (tt, mk_rstate (input s) (good s) buf));
  rret (be_value buf).

(** io.h:104-130, 160-188.  Dividing by zero kills the process with GMP, and
    throws std::overflow_error (a std::runtime_error) with Boost. *)
Definition read_rational (b : backend) : reader Q :=
  do neg <- read_bool;
  do num <- read_integer;
  do den <- read_integer;
  match den with
  | 0 => rfail (match b with GMP => UB | BOOST => Throw RuntimeError end)
  | Npos d =>
      let q := Qred (Z.of_N num # d) in
      rret (if neg then Qopp q else q)
  end.

Section Reading.
  Context {D : Type}.
  Variable b : backend.
  (** FaceData{} and Read<FaceData> *)
  Variable d0 : D.
  Variable read_data : reader D.
  (** The intervals that the constructor of Lazy_exact_nt gives to an exact number. *)
  Variable to_interval : Q -> interval.

  (** Points made of doubles: the intervals are single doubles; the exact value is
      computed when it is needed.  (The exact value of a double that is not finite
      does not exist; 0 stands for it.) *)
  Definition exact_of (bits : N) : Q := match double_value bits with Some q => Qred q | None => 0%Q end.
  Definition point_of_doubles (x y z : N) : lazy_point :=
    mk_lazy ((x, x), (y, y), (z, z)) (exact_of x, exact_of y, exact_of z).
  Definition point_of_rationals (x y z : Q) : lazy_point :=
    mk_lazy (to_interval x, to_interval y, to_interval z) (x, y, z).

  (** Triangle_soup.h:194-217. *)
  Definition read_point : reader lazy_point :=
    do is_exact <- read_bool;
    if (is_exact : bool) then
      do x <- read_rational b;
      do y <- read_rational b;
      do z <- read_rational b;
      rret (point_of_rationals x y z)
    else
      do x <- read_le 8;
      do y <- read_le 8;
      do z <- read_le 8;
      rret (point_of_doubles x y z).
  Definition read_vertex (s : soup lazy_point D) : reader (soup lazy_point D) :=
    do p <- read_point;
    rret (snd (add_vertex s p)).

  (** Triangle_soup.h:219-230. *)
  Definition read_face (s : soup lazy_point D) : reader (soup lazy_point D) :=
    do i <- read_int32;
    do j <- read_int32;
    do k <- read_int32;
    do d <- read_data;
    let (fi, s') := add_face d0 s (i, j, k) in
    rfail (set_data s' fi d).

  (** A loop that reads [n] times. *)
  Fixpoint repeat_read {S} (n : nat) (f : S -> reader S) (s : S) : reader S :=
    match n with
    | O => rret s
    | S n => do s' <- f s; repeat_read n f s'
    end.

  (** Triangle_soup.h:186-232: reads into [t]. *)
  Definition read_soup (t : soup lazy_point D) : reader (soup lazy_point D) :=
    do nv <- read_int32;
    do nf <- read_int32;
    do t <- repeat_read nv read_vertex t;
    repeat_read nf read_face t.

  (** Region.h:28-36, 108-116. *)
  Definition read_region (t : stored) : reader stored :=
    do k <- read_le 1;
    do s <- read_soup (stored_soup t);
    rret (mk_stored (byte_of k) s).

  (** Region_io.h:13-20: reads into [t]; the result is the return value and the
      region. *)
  Definition read_kigumi_region (t : stored) : reader (bool * stored) := fun s =>
    if good s then
      (do r <- read_region t; fun s' => Ok ((good s', r), s')) s
    else Ok ((false, t), s).
End Reading.

(** Null_data.h: nothing is written or read. *)
Definition write_null (_ : unit) : res (list byte) := Ok [].
Definition read_null : reader unit := rret tt.

(** A freshly constructed region (Region.h:96-97), and a stream on a file. *)
Definition fresh {D} : @stored D := mk_stored x00 empty_soup.
Definition open (bytes : list byte) (buf : list byte) : rstate := mk_rstate bytes true buf.
