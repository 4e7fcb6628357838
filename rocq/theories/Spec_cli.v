(** * What the command line program should do *)
From Coq Require Import Ascii String NArith List Arith Bool.
From Verif Require Import Model_base Model_soup Model_boolean Model_binary Model_text Model_cli.
Import ListNotations.

(** The outputs asked for by the options, in the order in which they are written. *)
Definition requests (o : boolean_options) : list (boolean_operator * text) :=
  (match output_int o with Some f => [(op_INTERSECTION, f)] | None => [] end) ++
  (match output_uni o with Some f => [(op_UNION, f)] | None => [] end) ++
  (match output_dif o with Some f => [(op_DIFFERENCE, f)] | None => [] end) ++
  (match output_sym o with Some f => [(op_SYMMETRIC_DIFFERENCE, f)] | None => [] end).

(** A write failure never goes unnoticed until the file is closed. *)
Definition reported (device : nat -> text -> write_outcome) : Prop :=
  forall k f n, device k f <> Stops n false.
(** The stream is good when it is asked. *)
Definition looks_good (o : write_outcome) : Prop := o = Writes \/ exists n, o = Stops n false.

Section Specification.
  Variable b : backend.
  Variable to_interval : QArith_base.Q -> interval.
  Variable parse : text -> option N.
  Variable print : N -> text.
  Variable to_doubles : lazy_point -> N * N * N.
  Variable mix : soup lazy_point unit -> soup lazy_point unit -> res (soup lazy_point (mixed_data unit) * N).

  (** Both operands can be read and combined. *)
  Definition operands (o : boolean_options) (w : world) (bd : @builder lazy_point unit) : Prop :=
    exists r1 w1 r2 w2,
      read_region b to_interval parse (first o) fresh w = (Ok (true, r1), w1) /\
      read_region b to_interval parse (second o) fresh w1 = (Ok (true, r2), w2) /\
      build mix (region_of_stored r1) (region_of_stored r2) = Ok bd.

  (** [bytes] is the content of a file named [f] for the result of an operator. *)
  Definition result_file (bd : @builder lazy_point unit) (op : boolean_operator) (f : text) (bytes : list Init.Byte.byte) : Prop :=
    exists r, Model_boolean.run tt bd op true = Ok r /\
      content_for b print to_doubles f (stored_of r) = Some (Ok bytes).
End Specification.
