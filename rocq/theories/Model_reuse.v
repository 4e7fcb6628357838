(** * Thread-local intersection objects and the point lists they refer to

    Models the lifetimes behind
      [thread_local Face_face_intersection face_face_intersection{points_};]
    in Corefine.h:67 (points_ is a member of the Corefine object, line 295) and
      [thread_local Face_face_intersection face_face_intersection{points};]
    in Find_defects.h:305 (points is a local variable of the function, line 295), and of the
    reference [const Point_list& points_] they keep (Face_face_intersection.h:27 and its
    member).  The intersection object of a thread is constructed when the thread passes the
    declaration for the first time and lives as long as the thread. *)
From Coq Require Import List Arith Bool.
Import ListNotations.

(** The two declarations. *)
Inductive site : Type := InCorefine | InFindDefects.

(** One execution of the surrounding code: a Corefine constructor (Corefine.h:42-205) or a call
    of overlapping_faces (Find_defects.h:284-360): the application thread that executes
    it, the length of the range given to parallel_do (face pairs; faces) and the number of
    threads of the context. *)
Record computation : Type := mk_computation {
  c_site : site;
  c_caller : nat;
  c_length : nat;
  c_threads : nat
}.

(** Application threads, and the [k]-th thread created by parallel_do in computation [c]
    (parallel_do.h:38-40). *)
Inductive thread : Type := App (t : nat) | Worker (c k : nat).

Section Reuse.
  (** The computations of the history, by number. *)
  Variable comps : nat -> computation.

  (** parallel_do.h:23-30: one thread means the calling thread. *)
  Definition workers (c : nat) : nat := Nat.min (c_threads (comps c)) (c_length (comps c)).
  Definition runs_on (c : nat) (th : thread) : Prop :=
    c_length (comps c) <> 0 /\
    (if workers c =? 1 then th = App (c_caller (comps c))
     else exists k, k < workers c /\ th = Worker c k).

  (** Corefine.h:67, Find_defects.h:305: what exists at a moment: the computations that have started, the
      address of the point list of each computation in progress, and the address each
      thread's intersection object refers to. *)
  Record state : Type := mk_state {
    started : list nat;
    lists : nat -> option nat;
    slots : site -> thread -> option nat
  }.
  Definition initial : state := mk_state [] (fun _ => None) (fun _ _ => None).

  Inductive event : Type :=
  | Begin (c addr : nat)                            (* the point list is constructed *)
  | Body (c : nat) (th : thread) (used : option nat)  (* the body runs; it reads the list of computation [used], or of none *)
  | End (c : nat).                                  (* the point list is destroyed *)

  Definition site_eqb (a b : site) : bool :=
    match a, b with InCorefine, InCorefine | InFindDefects, InFindDefects => true | _, _ => false end.
  Definition thread_eqb (a b : thread) : bool :=
    match a, b with
    | App t, App u => t =? u
    | Worker c k, Worker d l => (c =? d) && (k =? l)
    | _, _ => false
    end.

  (** The point list that lives at an address: in C++, a reference to a destroyed object
      refers to a new object of the same type in the same place, and is dangling if there
      is none. *)
  Inductive lives_at (s : state) (a : nat) : option nat -> Prop :=
  | lives : forall c, lists s c = Some a -> lives_at s a (Some c)
  | nothing_lives : (forall c, lists s c <> Some a) -> lives_at s a None.

  Inductive step : state -> event -> state -> Prop :=
  | step_begin : forall s c a,
      ~ In c (started s) ->
      (forall c', lists s c' <> Some a) ->
      (forall c' a', lists s c' = Some a' -> c_caller (comps c') <> c_caller (comps c)) ->
      step s (Begin c a)
        (mk_state (c :: started s) (fun x => if x =? c then Some a else lists s x) (slots s))
  | step_body : forall s c a th b used,
      lists s c = Some a -> runs_on c th ->
      (* the address the thread's object has been given, or is given now *)
      b = match slots s (c_site (comps c)) th with Some b => b | None => a end ->
      lives_at s b used ->
      step s (Body c th used)
        (mk_state (started s) (lists s)
          (fun si t => if (site_eqb si (c_site (comps c)) && thread_eqb t th)%bool then Some b else slots s si t))
  | step_end : forall s c a,
      lists s c = Some a ->
      step s (End c) (mk_state (started s) (fun x => if x =? c then None else lists s x) (slots s)).

  Inductive history : state -> list event -> state -> Prop :=
  | history_nil : forall s, history s [] s
  | history_cons : forall s e s1 es s2, step s e s1 -> history s1 es s2 -> history s (e :: es) s2.
End Reuse.
