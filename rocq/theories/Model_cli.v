(** * The command line program

    Models cli/main.cc, cli/utility.h, cli/boolean_command.cc, cli/convert_command.cc,
    cli/defects_command.cc and the functions on file names of Region_io.h, Triangle_soup_io.h and io/. *)
From Coq Require Import Ascii String NArith List Arith Bool.
From Coq Require Import Init.Byte QArith.
From Verif Require Import Model_base Model_soup Model_boolean Model_binary Model_text.
Import ListNotations.
Local Open Scope nat_scope.

Definition bytes_of (t : text) : list byte := map byte_of_ascii t.
Definition text_of (bs : list byte) : text := map ascii_of_byte bs.

(** std::string::ends_with *)
Definition ends_with (s suffix : text) : bool :=
  text_eqb (skipn (List.length s - List.length suffix) s) suffix.

(** Regions as the program holds them (see Model_binary). *)
Definition cli_region : Type := @stored unit.
(** Region.h:82-86: only the bytes of EMPTY and FULL are distinguished. *)
Definition region_of_stored (r : cli_region) : region lazy_point unit :=
  mk_region (match stored_kind r with x00 => EMPTY | x01 => FULL | _ => BOUNDARY_DEFINED end) (stored_soup r).

(** What happens when a file is written: it cannot be opened; only [n] bytes get into
    it, which the stream has noticed when good() is called or not (it is noticed only
    when the buffer has to be emptied, at the latest by the destructor of the
    ofstream, whose failure is ignored); or everything gets into it. *)
Inductive write_outcome : Type :=
| CannotOpen
| Stops (n : nat) (noticed : bool)
| Writes.

(** Files, the number of attempts to write files, and the thread_local buffer of the
    binary reader. *)
Record world : Type := mk_world {
  files : text -> option (list byte);
  attempts : nat;
  buf : list byte
}.
Definition cmd (A : Type) : Type := world -> res A * world.
Definition ret {A} (a : A) : cmd A := fun w => (Ok a, w).
Definition throw {A} (e : exn) : cmd A := fun w => (Throw e, w).
Definition lift {A} (r : res A) : cmd A := fun w => (r, w).
Definition seq_cmd {A B} (m : cmd A) (k : A -> cmd B) : cmd B := fun w =>
  match m w with
  | (Ok a, w') => k a w'
  | (Throw e, w') => (Throw e, w')
  | (UB, w') => (UB, w')
  end.
Notation "'run' x <- m ;; k" := (seq_cmd m (fun x => k)) (at level 60, right associativity, x name).

(** boolean_command.cc:40-47. *)
Record boolean_options : Type := mk_options {
  first : text;
  second : text;
  output_int : option text;
  output_dif : option text;
  output_sym : option text;
  output_uni : option text
}.

Section Cli.
  Variable b : backend.
  Variable to_interval : Q -> interval.
  (** std::from_chars, std::to_chars (see Model_text) and CGAL::to_double. *)
  Variable parse : text -> option N.
  Variable print : N -> text.
  Variable to_doubles : lazy_point -> N * N * N.
  (** boost::program_options: the options, or an exception. *)
  Variable parse_boolean : list text -> option boolean_options.
  Variable parse_convert : list text -> option (text * text).
  Variable parse_defects : list text -> option text.
  (** Mix (Mix.h) and Find_defects, whose results are printed. *)
  Variable mix : soup lazy_point unit -> soup lazy_point unit -> res (soup lazy_point (mixed_data unit) * N).
  Variable find_defects : soup lazy_point unit -> res unit.
  (** The [k]-th attempt to write a file. *)
  Variable device : nat -> text -> write_outcome.

  (** Region_io.h:22-30; the stream of the opened file. *)
  Definition read_kigumi_file (name : text) (region : cli_region) : cmd (bool * cli_region) := fun w =>
    match files w name with
    | None => (Ok (false, region), w)
    | Some bytes =>
        match read_kigumi_region b tt read_null to_interval region (open bytes (buf w)) with
        | Ok (x, s) => (Ok x, mk_world (files w) (attempts w) (buffer s))
        | Throw e => (Throw e, w)
        | UB => (UB, w)
        end
    end.

  (** Triangle_soup_io.h:12-25, obj.h:94-102, off.h:178-186, ply.h:281-289. *)
  Definition read_triangle_soup (name : text) (soup : soup lazy_point unit) :
      cmd (bool * Model_soup.soup lazy_point unit) := fun w =>
    let with_file (read : text -> Model_soup.soup lazy_point unit -> res (bool * Model_soup.soup lazy_point unit)) :=
      match files w name with
      | None => (Ok (false, soup), w)
      | Some bytes => (read (text_of bytes) soup, w)
      end in
    let point_of (c : N * N * N) := let '(x, y, z) := c in point_of_doubles x y z in
    if ends_with name (txt ".obj") then with_file (read_obj tt parse point_of)
    else if ends_with name (txt ".off") then with_file (read_off tt parse point_of)
    else if ends_with name (txt ".ply") then with_file (read_ply tt parse point_of)
    else (Ok (false, soup), w).

  (** utility.h:11-38. *)
  Definition read_region (name : text) (region : cli_region) : cmd (bool * cli_region) :=
    if text_eqb name (txt ":empty:") then ret (true, stored_of region_empty)
    else if text_eqb name (txt ":full:") then ret (true, stored_of region_full)
    else if ends_with name (txt ".kigumi") then read_kigumi_file name region
    else
      run r <- read_triangle_soup name empty_soup;;
      if fst r : bool then
        run boundary <- lift (region_of_soup (snd r));;
        ret (true, stored_of boundary)
      else ret (false, region).

  (** Region_io.h:42-50, obj.h:136-144, off.h:216-224, ply.h:327-335.  If the content cannot be computed
      because of an exception, what was written before is left in the file; the empty file stands for it. *)
  Definition write_file (name : text) (content : res (list byte)) : cmd bool := fun w =>
    let store bytes :=
      mk_world (fun f => if text_eqb f name then Some bytes else files w f) (attempts w + 1) (buf w) in
    match device (attempts w) name with
    | CannotOpen => (Ok false, mk_world (files w) (attempts w + 1) (buf w))
    | o =>
        match content with
        | Ok bytes =>
            match o with
            | Stops n noticed => (Ok (negb noticed), store (firstn n bytes))
            | _ => (Ok true, store bytes)
            end
        | Throw e => (Throw e, store [])
        | UB => (UB, store [])
        end
    end.

  (** utility.h:40-49, Triangle_soup_io.h:27-40: the content for a file name, if the format is known. *)
  Definition content_for (name : text) (region : cli_region) : option (res (list byte)) :=
    if ends_with name (txt ".kigumi") then Some (write_kigumi_region b write_null region)
    else if ends_with name (txt ".obj") then Some (Ok (bytes_of (write_obj print to_doubles false (stored_soup region))))
    else if ends_with name (txt ".off") then Some (Ok (bytes_of (write_off print to_doubles (stored_soup region))))
    else if ends_with name (txt ".ply") then Some (Ok (bytes_of (write_ply print to_doubles (stored_soup region))))
    else None.
  Definition write_region (name : text) (region : cli_region) : cmd bool :=
    match content_for name region with
    | Some content => write_file name content
    | None => ret false
    end.

  (** boolean_command.cc:122-127 *)
  Definition outputs (o : boolean_options) : list (boolean_operator * option text) :=
    [(op_INTERSECTION, output_int o); (op_UNION, output_uni o);
     (op_DIFFERENCE, output_dif o); (op_SYMMETRIC_DIFFERENCE, output_sym o)].

  (** boolean_command.cc:129-136; the argument prefer_first has its default. *)
  Fixpoint write_outputs (bd : builder) (l : list (boolean_operator * option text)) : cmd unit :=
    match l with
    | [] => ret tt
    | (op, None) :: l => write_outputs bd l
    | (op, Some file) :: l =>
        run region <- lift (Model_boolean.run tt bd op true);;
        run written <- write_region file (stored_of region);;
        if (written : bool) then write_outputs bd l else throw RuntimeError
    end.

  (** boolean_command.cc:58-137: printing is not modelled; a default-constructed region is [fresh]. *)
  Definition boolean_command (args : list text) : cmd unit :=
    match parse_boolean args with
    | None => throw InvalidArgument
    | Some o =>
        run r1 <- read_region (first o) fresh;;
        if negb (fst r1) then throw RuntimeError
        else
          run r2 <- read_region (second o) fresh;;
          if negb (fst r2) then throw RuntimeError
          else
            run bd <- lift (build mix (region_of_stored (snd r1)) (region_of_stored (snd r2)));;
            write_outputs bd (outputs o)
    end.

  (** convert_command.cc:30-65. *)
  Definition convert_command (args : list text) : cmd unit :=
    match parse_convert args with
    | None => throw InvalidArgument
    | Some (input, output) =>
        run r <- read_region input fresh;;
        if negb (fst r) then throw RuntimeError
        else
          run written <- write_region output (snd r);;
          if (written : bool) then ret tt else throw RuntimeError
    end.

  (** defects_command.cc:31-103; the output is not modelled. *)
  Definition defects_command (args : list text) : cmd unit :=
    match parse_defects args with
    | None => throw InvalidArgument
    | Some input =>
        run r <- read_region input fresh;;
        if negb (fst r) then throw RuntimeError
        else lift (find_defects (stored_soup (snd r)))
    end.

  (** main.cc:10-47: the exit status. *)
  Definition exit_status (m : cmd unit) : cmd nat := fun w =>
    match m w with
    | (Ok _, w') => (Ok 0, w')
    | (Throw _, w') => (Ok 1, w')
    | (UB, w') => (UB, w')
    end.
  Definition main (args : list text) : cmd nat :=
    match args with
    | [] => ret 1
    | command :: args =>
        if text_eqb command (txt "boolean") then exit_status (boolean_command args)
        else if text_eqb command (txt "convert") then exit_status (convert_command args)
        else if text_eqb command (txt "defects") then exit_status (defects_command args)
        else ret 1
    end.
End Cli.
