(** * The text formats: OBJ, OFF and PLY

    Models include/kigumi/io/ascii.h, obj.h, off.h, ply.h.

    Character streams are modelled with their remaining characters, eofbit and
    failbit (badbit, i.e. a device that fails while reading or writing, is not
    modelled).  Conversion between doubles and text (std::to_chars,
    fast_float::from_chars) and between points and doubles (CGAL) are parameters.
    A double is its 64 bits.  Messages to std::cerr are omitted. *)
From Coq Require Import Ascii String.
From Coq Require Import List Arith Bool NArith ZArith.
From Verif Require Import Model_base Model_soup.
Import ListNotations.
Local Open Scope list_scope.

Definition text : Type := list ascii.
Definition txt (s : string) : text := list_ascii_of_string s.
Fixpoint text_eqb (a b : text) : bool :=
  match a, b with
  | [], [] => true
  | x :: a, y :: b => Ascii.eqb x y && text_eqb a b
  | _, _ => false
  end.

Definition newline : ascii := "010"%char.
(** std::isspace in the C locale. *)
Definition is_space (c : ascii) : bool :=
  let n := N_of_ascii c in (n =? 32)%N || ((9 <=? n)%N && (n <=? 13)%N).
Definition is_digit (c : ascii) : bool :=
  let n := N_of_ascii c in (48 <=? n)%N && (n <=? 57)%N.

(** Splits off the longest prefix of characters with a property. *)
Fixpoint span (p : ascii -> bool) (l : text) : text * text :=
  match l with
  | [] => ([], [])
  | c :: r => if p c then let (a, b) := span p r in (c :: a, b) else ([], l)
  end.
Definition skip_space (l : text) : text := snd (span is_space l).

(** [while (std::getline(is, line))] *)
Fixpoint lines (l : text) : list text :=
  match l with
  | [] => []
  | c :: r =>
      if Ascii.eqb c newline then [] :: lines r
      else match lines r with
           | [] => [[c]]
           | h :: t => (c :: h) :: t
           end
  end.

(** ** Numbers *)

Definition digit (n : N) : ascii := ascii_of_N (48 + n).
Definition digit_value (c : ascii) : N := (N_of_ascii c - 48)%N.
Definition digits_value (l : text) : N := fold_left (fun a c => 10 * a + digit_value c)%N l 0%N.
Fixpoint digits_of (fuel : nat) (n : N) : text :=
  match fuel with
  | O => []
  | S fuel => if (n <? 10)%N then [digit n] else digits_of fuel (n / 10)%N ++ [digit (n mod 10)%N]
  end.
(** [os << n] for unsigned and signed integers. *)
Definition decimal (n : N) : text := digits_of (S (N.size_nat n)) n.
Definition decimal_Z (z : Z) : text :=
  if (z <? 0)%Z then "-"%char :: decimal (Z.abs_N z) else decimal (Z.abs_N z).
Definition decimal_nat (n : nat) : text := decimal (N.of_nat n).

(** A std::size_t. *)
Definition wrap64 (z : Z) : Z := (z mod 2 ^ 64)%Z.
(** static_cast<std::ptrdiff_t> *)
Definition as_signed (z : Z) : Z := if (wrap64 z <? 2 ^ 63)%Z then wrap64 z else (wrap64 z - 2 ^ 64)%Z.

(** ** Streams *)

Record stream : Type := mk_stream { rest : text; eofb : bool; failb : bool }.
Definition good (s : stream) : bool := negb (eofb s) && negb (failb s).
Definition set_fail (s : stream) : stream := mk_stream (rest s) (eofb s) true.
Definition clear_bits (s : stream) : stream := mk_stream (rest s) false false.
Definition is_nil (l : text) : bool := match l with [] => true | _ => false end.
(** [std::istringstream iss{line}] *)
Definition open_line (l : text) : stream := mk_stream l false false.

(** The sentry of a formatted extraction: skips white space; fails if the stream is
    not good or nothing is left. *)
Definition sentry (s : stream) : bool * stream :=
  if good s then
    let r := skip_space (rest s) in
    if is_nil r then (false, mk_stream [] true true) else (true, mk_stream r false false)
  else (false, set_fail s).

(** [in >> s] for a string.  (On failure the string keeps its value; it is not used then.) *)
Definition get_word (s : stream) : text * stream :=
  let (ok, s) := sentry s in
  if ok then
    let (w, r) := span (fun c => negb (is_space c)) (rest s) in
    (w, mk_stream r (is_nil r) false)
  else ([], s).

(** [in >> n] for an integer, decimal: an optional sign, digits up to the first other
    character; fails without digits or if the value does not fit ([conv]). *)
Definition get_integer (conv : bool -> N -> option Z) (s : stream) : Z * stream :=
  let (ok, s) := sentry s in
  if ok then
    let '(neg, r) :=
      match rest s with
      | c :: t => if Ascii.eqb c "-" then (true, t) else if Ascii.eqb c "+" then (false, t) else (false, rest s)
      | [] => (false, [])
      end in
    let (ds, r) := span is_digit r in
    match (if is_nil ds then None else conv neg (digits_value ds)) with
    | Some z => (z, mk_stream r (is_nil r) false)
    | None => (0%Z, mk_stream r (is_nil r) true)
    end
  else (0%Z, s).
(** std::ptrdiff_t *)
Definition signed64 (neg : bool) (n : N) : option Z :=
  if neg then (if (n <=? 2 ^ 63)%N then Some (- Z.of_N n)%Z else None)
  else (if (n <? 2 ^ 63)%N then Some (Z.of_N n) else None).
(** std::size_t; a minus sign is accepted, and the value wraps. *)
Definition unsigned64 (neg : bool) (n : N) : option Z :=
  if (n <? 2 ^ 64)%N then Some (if neg then wrap64 (- Z.of_N n) else Z.of_N n) else None.
Definition get_ptrdiff : stream -> Z * stream := get_integer signed64.
Definition get_size (s : stream) : nat * stream :=
  let (z, s) := get_integer unsigned64 s in (Z.to_nat z, s).

(** std::ws *)
Definition get_ws (s : stream) : stream :=
  if good s then
    let r := skip_space (rest s) in mk_stream r (is_nil r) false
  else set_fail s.

(** ascii.h:45-55. *)
Definition get_eof (s : stream) : stream :=
  if eofb s then s
  else
    let s := get_ws s in
    if eofb s then s else set_fail s.

(** ascii.h:61-75. *)
Definition get_opt_hash_comment_eof (s : stream) : stream :=
  if failb s then s
  else
    let s := get_eof s in
    if negb (failb s) then s
    else
      let s := clear_bits s in
      match rest s with
      | c :: _ => if Ascii.eqb c "#" then mk_stream [] true false else set_fail s
      | [] => mk_stream [] true true
      end.

(** ascii.h:85-93. *)
Definition get_const (str : text) (s : stream) : stream :=
  let (w, s) := get_word s in
  if negb (failb s) && text_eqb w str then s else set_fail s.

Section Text.
  Context {P D : Type}.
  (** FaceData{} *)
  Variable d0 : D.
  (** fast_float::from_chars, if it consumes everything and succeeds. *)
  Variable parse : text -> option N.
  (** std::to_chars *)
  Variable print : N -> text.
  (** Point{x, y, z} and CGAL::to_double of the coordinates. *)
  Variable point_of : N * N * N -> P.
  Variable coords : P -> N * N * N.

  (** ascii.h:18-32. *)
  Definition get_double (s : stream) : N * stream :=
    let (w, s) := get_word s in
    if failb s then (0%N, s)
    else
      let first := match w with
                   | c :: t => if Ascii.eqb c "+" then t else w
                   | [] => w
                   end in
      match parse first with
      | Some x => (x, s)
      | None => (0%N, set_fail s)
      end.
  Definition get_doubles (s : stream) : N * N * N * stream :=
    let (x, s) := get_double s in
    let (y, s) := get_double s in
    let (z, s) := get_double s in
    (x, y, z, s).

  (** obj.h:82-86, off.h:152-156, ply.h:259-263. *)
  Definition add_fan (s : soup P D) (face : list nat) : res (soup P D) :=
    if 3 <=? List.length face then
      foldM (fun s i =>
          let* a := vec_at face 0 in
          let* b := vec_at face (i + 1) in
          let* c := vec_at face (i + 2) in
          Ok (snd (add_face d0 s (a, b, c))))
        s (seq 0 (List.length face - 2))
    else Ok s.

  (** ** OBJ *)

  (** obj.h:75-80: [peek] on a stream that is not good fails. *)
  Definition skip_suffix (s : stream) : stream :=
    if good s then
      let r := snd (span (fun c => negb (is_space c)) (rest s)) in mk_stream r (is_nil r) false
    else set_fail s.

  (** obj.h:66-81; [None]: an index 0. *)
  Fixpoint obj_refs (fuel : nat) (nv : nat) (s : stream) (face : list nat) : res (option (list nat)) :=
    match fuel with
    | O => Throw Diverges
    | S fuel =>
        let (v, s) := get_ptrdiff s in
        if failb s then Ok (Some face)
        else if (0 <? v)%Z then obj_refs fuel nv (skip_suffix s) (face ++ [Z.to_nat (v - 1)])
        else if (v <? 0)%Z then
          obj_refs fuel nv (skip_suffix s) (face ++ [Z.to_nat (wrap64 (Z.of_nat nv + v))])
        else Ok None
    end.

  (** obj.h:46-87, one line; [None]: return false. *)
  Definition obj_line (line : text) (soup : soup P D) : res (option (Model_soup.soup P D)) :=
    let s := get_opt_hash_comment_eof (open_line line) in
    if negb (failb s) then Ok (Some soup)
    else
      let s := clear_bits s in
      let (w, s) := get_word s in
      if text_eqb w (txt "v") then
        let '(x, y, z, s) := get_doubles s in
        if failb s then Ok None
        else Ok (Some (snd (add_vertex soup (point_of (x, y, z)))))
      else if text_eqb w (txt "f") then
        let* o := obj_refs (S (List.length (rest s))) (num_vertices soup) s [] in
        match o with
        | None => Ok None
        | Some face => let* soup := add_fan soup face in Ok (Some soup)
        end
      else Ok (Some soup).

  Fixpoint obj_lines (ls : list text) (soup : soup P D) : res (option (Model_soup.soup P D)) :=
    match ls with
    | [] => Ok (Some soup)
    | l :: ls =>
        let* o := obj_line l soup in
        match o with
        | None => Ok None
        | Some soup => obj_lines ls soup
        end
    end.

  (** obj.h:30-92: returns the return value and the soup passed by reference. *)
  Definition read_obj (file : text) (target : soup P D) : res (bool * soup P D) :=
    let* o := obj_lines (lines file) empty_soup in
    Ok (match o with None => (false, target) | Some soup => (true, soup) end).

  Definition space : text := txt " ".
  (** [p.exact()] and the three calls of CGAL::to_double, written with a space between
      them and a line feed at the end. *)
  Definition write_coords (p : P) : text :=
    let '(x, y, z) := coords p in
    print x ++ space ++ print y ++ space ++ print z ++ [newline].

  (** obj.h:122-130: an index of a written face. *)
  Definition obj_ref (negative : bool) (nv : nat) (i : nat) : text :=
    if negative then decimal_Z (- as_signed (Z.of_nat nv - Z.of_nat i))%Z
    else decimal (N.of_nat i + 1).
  Definition write_obj_face (negative : bool) (nv : nat) (f : face) : text :=
    let '(i, j, k) := f in
    txt "f " ++ obj_ref negative nv i ++ space ++ obj_ref negative nv j ++ space ++
    obj_ref negative nv k ++ [newline].

  (** obj.h:104-134. *)
  Definition write_obj (negative : bool) (s : soup P D) : text :=
    concat (map (fun p => txt "v " ++ write_coords p) (points s)) ++
    concat (map (write_obj_face negative (num_vertices s)) (faces s)).

  (** ** OFF *)

  Definition starts_with (p s : text) : bool := text_eqb (firstn (List.length p) s) p.
  Definition drop_prefix (p s : text) : text := if starts_with p s then skipn (List.length p) s else s.

  (** off.h:23-56: whether the signature says BINARY, and the stream. *)
  Definition get_off_signature (s : stream) : bool * stream :=
    let (w, s) := get_word s in
    if failb s then (false, s)
    else
      let w := drop_prefix (txt "ST") w in
      let w := drop_prefix (txt "C") w in
      let w := drop_prefix (txt "N") w in
      if negb (text_eqb w (txt "OFF")) then (false, set_fail s)
      else
        let s := get_opt_hash_comment_eof s in
        if negb (failb s) then (false, s)
        else
          let s := clear_bits s in
          let s := get_const (txt "BINARY") s in
          (negb (failb s), get_opt_hash_comment_eof s).

  (** off.h:58-64. *)
  Inductive off_state : Type := READING_SIGNATURE | READING_NUMBERS | READING_VERTICES | READING_FACES | END.
  Record off_reader : Type := mk_off { ost : off_state; onv : nat; onf : nat; osoup : soup P D }.

  (** off.h:143-147, ply.h:240-244. *)
  Fixpoint get_indices (n : nat) (s : stream) : list nat * stream :=
    match n with
    | O => ([], s)
    | S n =>
        let (v, s) := get_size s in
        let (l, s) := get_indices n s in
        (v :: l, s)
    end.

  (** off.h:86-166, one line; [None]: return false. *)
  Definition off_line (line : text) (o : off_reader) : res (option off_reader) :=
    let s := get_opt_hash_comment_eof (open_line line) in
    if negb (failb s) then Ok (Some o)
    else
      let s := clear_bits s in
      match ost o with
      | READING_SIGNATURE =>
          let (binary, s) := get_off_signature s in
          if failb s then Ok None
          else if binary then Ok None
          else Ok (Some (mk_off READING_NUMBERS (onv o) (onf o) (osoup o)))
      | READING_NUMBERS =>
          let (nv, s) := get_size s in
          let (nf, s) := get_size s in
          if failb s then Ok None
          else
            let st := if nv =? 0 then (if nf =? 0 then END else READING_FACES) else READING_VERTICES in
            Ok (Some (mk_off st nv nf (osoup o)))
      | READING_VERTICES =>
          let '(x, y, z, s) := get_doubles s in
          if failb s then Ok None
          else
            let soup := snd (add_vertex (osoup o) (point_of (x, y, z))) in
            let nv := onv o - 1 in
            let st := if nv =? 0 then (if onf o =? 0 then END else READING_FACES) else READING_VERTICES in
            Ok (Some (mk_off st nv (onf o) soup))
      | READING_FACES =>
          let (count, s) := get_size s in
          let (face, s) := get_indices count s in
          if failb s then Ok None
          else
            let* soup := add_fan (osoup o) face in
            let nf := onf o - 1 in
            Ok (Some (mk_off (if nf =? 0 then END else READING_FACES) (onv o) nf soup))
      | END => Ok None
      end.
  Fixpoint off_lines (ls : list text) (o : off_reader) : res (option off_reader) :=
    match ls with
    | [] => Ok (Some o)
    | l :: ls =>
        let* r := off_line l o in
        match r with
        | None => Ok None
        | Some o => off_lines ls o
        end
    end.

  (** off.h:66-176. *)
  Definition read_off (file : text) (target : soup P D) : res (bool * soup P D) :=
    let* r := off_lines (lines file) (mk_off READING_SIGNATURE 0 0 empty_soup) in
    Ok (match r with
        | Some o => match ost o with END => (true, osoup o) | _ => (false, target) end
        | None => (false, target)
        end).

  (** off.h:208-211, ply.h:319-322. *)
  Definition write_triangle (f : face) : text :=
    let '(i, j, k) := f in
    txt "3 " ++ decimal_nat i ++ space ++ decimal_nat j ++ space ++ decimal_nat k ++ [newline].

  (** off.h:188-214. *)
  Definition write_off (s : soup P D) : text :=
    txt "OFF" ++ [newline] ++
    decimal_nat (num_vertices s) ++ space ++ decimal_nat (num_faces s) ++ txt " 0" ++ [newline] ++
    concat (map write_coords (points s)) ++
    concat (map write_triangle (faces s)).

  (** ** PLY *)

  (** ply.h:18-36; the types of properties other than "list" are not used. *)
  Inductive ply_state : Type := PLY_SIGNATURE | PLY_VERSION | PLY_ELEMENTS | PLY_BODY.
  Record ply_property : Type := mk_property { is_list : bool; property_name : text }.
  Record ply_element : Type := mk_element { element_name : text; count : nat; properties : list ply_property }.

  (** [elements.back().properties.push_back(p)] *)
  Fixpoint push_property (p : ply_property) (es : list ply_element) : list ply_element :=
    match es with
    | [] => []
    | [e] => [mk_element (element_name e) (count e) (properties e ++ [p])]
    | e :: es => e :: push_property p es
    end.

  (** ply.h:55-128, one line of the header; [None]: return false. *)
  Definition ply_header_line (line : text) (st : ply_state) (es : list ply_element) :
      option (ply_state * list ply_element) :=
    let s := get_eof (open_line line) in
    if negb (failb s) then Some (st, es)
    else
      let (w, s) := get_word (clear_bits s) in
      if text_eqb w (txt "comment") then Some (st, es)
      else
        match st with
        | PLY_SIGNATURE =>
            if text_eqb w (txt "ply") && negb (failb (get_eof s)) then Some (PLY_VERSION, es) else None
        | PLY_VERSION =>
            if negb (text_eqb w (txt "format")) then None
            else
              let s := get_eof (get_const (txt "1.0") (get_const (txt "ascii") s)) in
              if failb s then None else Some (PLY_ELEMENTS, es)
        | PLY_ELEMENTS =>
            if text_eqb w (txt "element") then
              let (name, s) := get_word s in
              let (n, s) := get_size s in
              if failb (get_eof s) then None else Some (PLY_ELEMENTS, es ++ [mk_element name n []])
            else if text_eqb w (txt "property") then
              match es with
              | [] => None
              | _ =>
                  let (type, s) := get_word s in
                  if failb s then None
                  else if text_eqb type (txt "list") then
                    let (_, s) := get_word s in
                    let (_, s) := get_word s in
                    let (name, s) := get_word s in
                    if failb (get_eof s) then None
                    else Some (PLY_ELEMENTS, push_property (mk_property true name) es)
                  else
                    let (name, s) := get_word s in
                    if failb (get_eof s) then None
                    else Some (PLY_ELEMENTS, push_property (mk_property false name) es)
              end
            else if text_eqb w (txt "end_header") then Some (PLY_BODY, es)
            else None
        | PLY_BODY => Some (st, es)
        end.

  (** ply.h:54-139: the elements and the lines that follow the header. *)
  Fixpoint ply_header (ls : list text) (st : ply_state) (es : list ply_element) :
      option (list ply_element * list text) :=
    match ls with
    | [] => None
    | l :: ls =>
        match ply_header_line l st es with
        | None => None
        | Some (PLY_BODY, es) => Some (es, ls)
        | Some (st, es) => ply_header ls st es
        end
    end.

  (** std::find_if as an index. *)
  Fixpoint find_index {A} (p : A -> bool) (l : list A) : option nat :=
    match l with
    | [] => None
    | x :: l => if p x then Some 0 else option_map S (find_index p l)
    end.

  (** ply.h:141-162. *)
  Definition find_element (name : text) (es : list ply_element) : option nat :=
    find_index (fun e => text_eqb (element_name e) name) es.
  Definition find_property (e : ply_element) (names : list text) (list : bool) : option nat :=
    find_index (fun p => existsb (text_eqb (property_name p)) names && Bool.eqb (is_list p) list) (properties e).

  (** [for (i < count) iss >> s] *)
  Fixpoint skip_words (n : nat) (s : stream) : stream :=
    match n with
    | O => s
    | S n => skip_words n (snd (get_word s))
    end.
  (** ply.h:219-227, 245-253: a property that is not used. *)
  Definition skip_property (p : ply_property) (s : stream) : stream :=
    if is_list p then let (n, s) := get_size s in skip_words n s
    else snd (get_word s).

  (** ply.h:212-228: the properties of a vertex, from number [i] on. *)
  Fixpoint ply_vertex (xi yi zi : nat) (i : nat) (ps : list ply_property) (x y z : N) (s : stream) :
      N * N * N * stream :=
    match ps with
    | [] => (x, y, z, s)
    | p :: ps =>
        if i =? xi then let (x, s) := get_double s in ply_vertex xi yi zi (S i) ps x y z s
        else if i =? yi then let (y, s) := get_double s in ply_vertex xi yi zi (S i) ps x y z s
        else if i =? zi then let (z, s) := get_double s in ply_vertex xi yi zi (S i) ps x y z s
        else ply_vertex xi yi zi (S i) ps x y z (skip_property p s)
    end.
  (** ply.h:236-254: the properties of a face. *)
  Fixpoint ply_face (vi : nat) (i : nat) (ps : list ply_property) (face : list nat) (s : stream) :
      list nat * stream :=
    match ps with
    | [] => (face, s)
    | p :: ps =>
        if i =? vi then
          let (n, s) := get_size s in
          let (l, s) := get_indices n s in
          ply_face vi (S i) ps (face ++ l) s
        else ply_face vi (S i) ps face (skip_property p s)
    end.

  (** ply.h:195-198 and 267-269: the first element at or after [k] that has lines left. *)
  Fixpoint next_element (fuel : nat) (es : list ply_element) (k : nat) : nat :=
    match fuel with
    | O => k
    | S fuel =>
        match nth_error es k with
        | Some e => if count e =? 0 then next_element fuel es (S k) else k
        | None => k
        end
    end.
  (** [--element_it->count] *)
  Definition take_line (es : list ply_element) (k : nat) : list ply_element :=
    match nth_error es k with
    | Some e => list_set es k (mk_element (element_name e) (count e - 1) (properties e))
    | None => es
    end.

  Record ply_layout : Type := mk_layout {
    vertex_at : nat; x_at : nat; y_at : nat; z_at : nat; face_at : nat; index_at : nat
  }.
  (** ply.h:164-189; [None]: return false. *)
  Definition ply_find_layout (es : list ply_element) : option ply_layout :=
    match find_element (txt "vertex") es with
    | None => None
    | Some v =>
        match nth_error es v with
        | None => None
        | Some ve =>
            match find_property ve [txt "x"] false, find_property ve [txt "y"] false,
                  find_property ve [txt "z"] false with
            | Some x, Some y, Some z =>
                match find_element (txt "face") es with
                | None => None
                | Some f =>
                    match nth_error es f with
                    | None => None
                    | Some fe =>
                        match find_property fe [txt "vertex_index"; txt "vertex_indices"] true with
                        | None => None
                        | Some i => Some (mk_layout v x y z f i)
                        end
                    end
                end
            | _, _, _ => None
            end
        end
    end.

  (** ply.h:205-264, one line of the body that belongs to element [k]; [None]: return false. *)
  Definition ply_body_line (lay : ply_layout) (k : nat) (e : ply_element) (line : text) (soup : soup P D) :
      res (option (Model_soup.soup P D)) :=
    let s := open_line line in
    if k =? vertex_at lay then
      let '(x, y, z, s) := ply_vertex (x_at lay) (y_at lay) (z_at lay) 0 (properties e) 0%N 0%N 0%N s in
      if failb s then Ok None
      else Ok (Some (snd (add_vertex soup (point_of (x, y, z)))))
    else if k =? face_at lay then
      let (face, s) := ply_face (index_at lay) 0 (properties e) [] s in
      if failb s then Ok None
      else let* soup := add_fan soup face in Ok (Some soup)
    else Ok (Some soup).

  (** ply.h:195-275. *)
  Fixpoint ply_body (lay : ply_layout) (ls : list text) (es : list ply_element) (k : nat) (soup : soup P D) :
      res (option (Model_soup.soup P D)) :=
    match ls with
    | [] => Ok (if k =? List.length es then Some soup else None)
    | l :: ls =>
        match nth_error es k with
        | None => Ok None
        | Some e =>
            let* r := ply_body_line lay k e l soup in
            match r with
            | None => Ok None
            | Some soup =>
                let es := take_line es k in
                ply_body lay ls es (next_element (List.length es - k) es k) soup
            end
        end
    end.

  (** ply.h:38-279. *)
  Definition read_ply (file : text) (target : soup P D) : res (bool * soup P D) :=
    match ply_header (lines file) PLY_SIGNATURE [] with
    | None => Ok (false, target)
    | Some (es, ls) =>
        match ply_find_layout es with
        | None => Ok (false, target)
        | Some lay =>
            let* r := ply_body lay ls es (next_element (List.length es) es 0) empty_soup in
            Ok (match r with None => (false, target) | Some soup => (true, soup) end)
        end
    end.

  Definition line_of (s : string) : text := txt s ++ [newline].
  (** ply.h:291-325. *)
  Definition write_ply (s : soup P D) : text :=
    line_of "ply" ++ line_of "format ascii 1.0" ++
    txt "element vertex " ++ decimal_nat (num_vertices s) ++ [newline] ++
    line_of "property float x" ++ line_of "property float y" ++ line_of "property float z" ++
    txt "element face " ++ decimal_nat (num_faces s) ++ [newline] ++
    line_of "property list uchar int vertex_index" ++
    line_of "end_header" ++
    concat (map write_coords (points s)) ++
    concat (map write_triangle (faces s)).
End Text.
