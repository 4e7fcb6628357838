(** * Classification by threads that overlap

    Models include/kigumi/Classify_faces_locally.h, Propagate_face_tags.h,
    Classify_faces_globally.h:29-53 and Mix.h:31-76, one access to the tag of a face at a
    time, under every schedule of the threads of parallel_do.h:15-76.

    Simplification: the accesses take effect one after another, in an order that agrees
    with the order in each thread (sequential consistency).  The code uses plain
    [std::uint8_t] tags, so C++ itself calls some of these executions data races. *)
From Coq Require Import List Arith NArith Bool QArith.
From Verif Require Import Model_base Model_geometry Model_soup Model_mesh Model_classify Model_local Model_region Model_aabb Model_corefine Model_mix.
Import ListNotations.
Local Open Scope nat_scope.

(** ** Programs that access the data of the faces *)
Section Programs.
  Context {D : Type}.

  (** What a thread still has to do.  Only tags are ever assigned, so a read of
      [from_left], which happens with a read of the tag, is no access of its own. *)
  Inductive prog (A : Type) : Type :=
  | Done (r : res A)
  | Read (f : nat) (k : mixed_data D -> prog A)
  | Write (f : nat) (t : face_tag) (k : prog A).
  Arguments Done {A} r.
  Arguments Read {A} f k.
  Arguments Write {A} f t k.

  Fixpoint pbind {A B} (p : prog A) (k : A -> prog B) : prog B :=
    match p with
    | Done (Ok a) => k a
    | Done (Throw e) => Done (Throw e)
    | Done UB => Done UB
    | Read f k' => Read f (fun d => pbind (k' d) k)
    | Write f t p' => Write f t (pbind p' k)
    end.

  (** A computation that looks at no tag. *)
  Definition pure {A B} (r : res A) (k : A -> prog B) : prog B := pbind (Done r) k.

  (** A loop [for (x : l) st = body(st, x)]. *)
  Fixpoint pfold {A S} (f : S -> A -> prog S) (s : S) (l : list A) : prog S :=
    match l with
    | [] => Done (Ok s)
    | x :: r => pbind (f s x) (fun s' => pfold f s' r)
    end.

  (** *** Propagate_face_tags.h *)

  (** Propagate_face_tags.h:30-40.  The state is the queue and the warnings.  Each of the
      two comparisons reads the tag. *)
  Definition p_visit (left : bool) (t : face_tag) (st : list nat * warnings) (fi2 : nat) : prog (list nat * warnings) :=
    let '(q, w) := st in
    Read fi2 (fun d =>
      if face_tag_eqb (tag d) UNKNOWN then Write fi2 t (Done (Ok (q ++ [fi2], w)))
      else Read fi2 (fun d' =>
        if negb (face_tag_eqb (tag d') t) then Done (Ok (q, warn_or w (partial_warning left)))
        else Done (Ok (q, w)))).

  (** Propagate_face_tags.h:25-43. *)
  Fixpoint p_loop {P} (fuel : nat) (m : mesh P (mixed_data D)) (border : list edge)
      (left : bool) (t : face_tag) (st : list nat * warnings) : prog warnings :=
    let '(q, w) := st in
    match q with
    | [] => Done (Ok w)
    | fi :: q' =>
        match fuel with
        | 0 => Done (Throw Diverges)
        | S fuel' =>
            pure (faces_around_face m fi border) (fun adj =>
              pbind (pfold (p_visit left t) (q', w) adj) (fun st' =>
                p_loop fuel' m border left t st'))
        end
    end.

  (** Propagate_face_tags.h:17-46.  Of [m] only what is never assigned is used. *)
  Definition p_propagate {P} (m : mesh P (mixed_data D)) (border : list edge) (seed : nat) : prog warnings :=
    Read seed (fun d => p_loop (S (length (m_faces m))) m border (from_left d) (tag d) ([seed], no_warnings)).

  (** *** Classify_faces_locally.h *)

  (** Classify_faces_locally.h:28-37. *)
  Fixpoint p_has_untagged (l : list nat) : prog bool :=
    match l with
    | [] => Done (Ok false)
    | f :: r => Read f (fun d => if face_tag_eqb (tag d) UNKNOWN then Done (Ok true) else p_has_untagged r)
    end.

  (** Classify_faces_locally.h:73-87. *)
  Definition p_overlap (fs : list around) (_ : unit) (i : nat) : prog unit :=
    let j := (i + 1) mod (length fs) in
    pure (vec_at fs i) (fun f =>
    pure (vec_at fs j) (fun g =>
      if vi_r f =? vi_r g then
        let t := if orientation_eqb (orient f) (orient g) then COPLANAR else OPPOSITE in
        Write (fi f) t (Write (fi g) t (Done (Ok tt)))
      else Done (Ok tt))).

  Definition p_overlaps (fs : list around) : prog unit := pfold (p_overlap fs) tt (seq 0 (length fs)).

  (** Classify_faces_locally.h:99-100: [x.tag == COPLANAR || x.tag == OPPOSITE]. *)
  Definition p_is_overlap {A} (f : nat) (yes no : prog A) : prog A :=
    Read f (fun d => if face_tag_eqb (tag d) COPLANAR then yes
                     else Read f (fun d' => if face_tag_eqb (tag d') OPPOSITE then yes else no)).

  (** Classify_faces_locally.h:89-119; the state is as in Model_local.v. *)
  Definition p_pair (fs : list around) (k : option nat) (i : nat) : prog (option nat) :=
    let j := (i + 1) mod (length fs) in
    pure (vec_at fs i) (fun f =>
    pure (vec_at fs j) (fun g =>
      p_is_overlap (fi f) (Done (Ok k)) (p_is_overlap (fi g) (Done (Ok k))
        (if orientation_eqb (orient f) (orient g) then
           let '(t1, t2) :=
             match orient f with
             | COUNTERCLOCKWISE => (INTERIOR, EXTERIOR)
             | CLOCKWISE => (EXTERIOR, INTERIOR)
             end in
           Write (fi f) t1 (Write (fi g) t2 (Done (Ok (Some j))))
         else Done (Ok k))))).

  Definition p_pairs (fs : list around) : prog (option nat) := pfold (p_pair fs) None (seq 0 (length fs)).

  (** Classify_faces_locally.h:140-158: [f_data.tag] is read anew in every comparison. *)
  Definition p_walk_step (fs : list around) (dry_run : bool) (st : face_tag * orientation * bool) (i : nat)
      : prog (face_tag * orientation * bool) :=
    let '(t, o, consistent) := st in
    if negb consistent then Done (Ok st)
    else
      pure (vec_at fs (i mod length fs)) (fun f =>
        let t' := if orientation_eqb (orient f) o then flip_tag t else t in
        let fine := Done (Ok (t', orient f, true)) in
        let compare := Read (fi f) (fun d => if negb (face_tag_eqb (tag d) t') then Done (Ok (t', orient f, false)) else fine) in
        Read (fi f) (fun d =>
          if face_tag_eqb (tag d) UNKNOWN then
            if dry_run then fine else Write (fi f) t' fine
          else Read (fi f) (fun d =>
            if face_tag_eqb (tag d) EXTERIOR then compare
            else Read (fi f) (fun d => if face_tag_eqb (tag d) INTERIOR then compare else fine)))).

  (** Classify_faces_locally.h:137-158. *)
  Definition p_walk (fs : list around) (k : nat) (dry_run : bool) : prog bool :=
    pure (vec_at fs k) (fun f =>
      Read (fi f) (fun d =>
        pbind (pfold (p_walk_step fs dry_run) (tag d, orient f, true) (seq (k + 1) (length fs)))
          (fun st => Done (Ok (snd st))))).

  (** Classify_faces_locally.h:121-165. *)
  Definition p_rest (fs : list around) (k : option nat) : prog unit :=
    match k with
    | None => Done (Ok tt)
    | Some k =>
        pbind (p_walk fs k true) (fun consistent =>
          if (consistent : bool) then pbind (p_walk fs k false) (fun _ => Done (Ok tt)) else Done (Ok tt))
    end.

  (** Classify_faces_locally.h:73-165. *)
  Definition p_around (fs : list around) : prog unit :=
    pbind (p_overlaps fs) (fun _ => pbind (p_pairs fs) (p_rest fs)).

  (** Classify_faces_locally.h:171-176. *)
  Definition p_propagate_step {P} (m : mesh P (mixed_data D)) (border : list edge) (w : warnings) (f : around) : prog warnings :=
    Read (fi f) (fun d =>
      if face_tag_eqb (tag d) UNKNOWN then Done (Ok w)
      else pbind (p_propagate m border (fi f)) (fun lw => Done (Ok (warn_or w lw)))).

  (** Classify_faces_locally.h:26-179. *)
  Definition p_locally (base1 base2 : vec3 -> vec3) (sort : list around -> list around)
      (m : mesh vec3 (mixed_data D)) (border : list edge) (e : edge) : prog warnings :=
    pure (faces_around_edge m e) (fun l =>
      pbind (p_has_untagged l) (fun untagged =>
        if negb untagged then Done (Ok no_warnings)
        else
          pure (vec_at (m_points m) (fst e)) (fun p =>
          pure (vec_at (m_points m) (snd e)) (fun q =>
            let n := vsub q p in
            pure (mapM (face_around m e p (base1 n) (base2 n)) l) (fun fs =>
              let fs := sort fs in
              pbind (p_around fs) (fun _ => pfold (p_propagate_step m border) no_warnings fs)))))).

  (** *** Classify_faces_globally.h *)

  (** Classify_faces_globally.h:37-49. *)
  Definition p_rep {P} (centroid : P -> P -> P -> P) (side_left side_right : P -> res oriented_side)
      (m : mesh P (mixed_data D)) (border : list edge) (fi : nat) : prog warnings :=
    Read fi (fun d =>
      pure (vec_at (m_faces m) fi) (fun f =>
      let '(a, b, c) := f in
      pure (vec_at (m_points m) a) (fun pa =>
      pure (vec_at (m_points m) b) (fun pb =>
      pure (vec_at (m_points m) c) (fun pc =>
      let p := centroid pa pb pc in
      pure (if from_left d then side_right p else side_left p) (fun side =>
        if oriented_side_eqb side ON_BOUNDARY then Done (Throw RuntimeError)
        else
          let t := if oriented_side_eqb side POSITIVE_SIDE then EXTERIOR else INTERIOR in
          Write fi t (p_propagate m border fi))))))).

  (** ** Threads *)

  (** The next access of a thread; [m.data(fi)] throws if there is no such face. *)
  Definition access {A} (p : prog A) (ds : list (mixed_data D)) : option (prog A * list (mixed_data D)) :=
    match p with
    | Done _ => None
    | Read f k => match vec_at ds f with Ok d => Some (k d, ds) | Throw e => Some (Done (Throw e), ds) | UB => Some (Done UB, ds) end
    | Write f t k => match set_tag ds f t with Ok ds' => Some (k, ds') | Throw e => Some (Done (Throw e), ds) | UB => Some (Done UB, ds) end
    end.

  (** Some thread performs its next access.  One program per call of the body; parallel_do
      runs a body to its end before the same worker takes the next one, which leaves it
      fewer schedules (property C15: every body is run once). *)
  Inductive step {A} : list (prog A) * list (mixed_data D) -> list (prog A) * list (mixed_data D) -> Prop :=
  | step_thread : forall ps ds i p p' ds',
      nth_error ps i = Some p -> access p ds = Some (p', ds') -> step (ps, ds) (list_set ps i p', ds').

  Inductive steps {A} : list (prog A) * list (mixed_data D) -> list (prog A) * list (mixed_data D) -> Prop :=
  | steps_refl : forall c, steps c c
  | steps_next : forall c c' c'', step c c' -> steps c' c'' -> steps c c''.

  (** parallel_do.h:15-76 with the warnings of the bodies combined in [post] (Mix.h:60-68,
      Classify_faces_globally.h:34-51): all the bodies return, or one of them throws and the
      others may not even have started. *)
  Inductive parallel (ps : list (prog warnings)) (ds : list (mixed_data D)) : res (list (mixed_data D) * warnings) -> Prop :=
  | par_ok : forall ps' ds' ws, steps (ps, ds) (ps', ds') -> ps' = map (fun w => Done (Ok w)) ws ->
      parallel ps ds (Ok (ds', fold_left warn_or ws no_warnings))
  | par_fails : forall ps' ds' r o, steps (ps, ds) (ps', ds') -> In (Done r) ps' -> fails r o -> parallel ps ds o.
End Programs.
Arguments prog : clear implicits.
Arguments Done {D A} r.
Arguments Read {D A} f k.
Arguments Write {D A} f t k.

(** ** Mix.h *)
Section MixSchedules.
  Context {P D : Type}.
  (** As in Model_mix.v. *)
  Variable P_eqb : P -> P -> bool.
  Variable coords : P -> vec3.
  Variable pbox : P -> box.
  Variable longest_axis : option box -> nat.
  Variable sort_by : nat -> list (box * nat) -> list (box * nat).
  Variable nth_element_by : nat -> nat -> list (box * nat) -> list (box * nat).
  Variable construct_ll : P -> P -> P -> P -> P.
  Variable construct_pl : P -> P -> P -> P -> P -> P.
  Variable cdt_accepts : triangulation P -> nat -> nat -> bool.
  Variable cdt_faces : triangulation P -> list (nat * nat * nat).
  Variables base1 base2 : vec3 -> vec3.
  Variable sort_around : list around -> list around.
  Variable centroid : P -> P -> P -> P.
  Variable side_of : soup P D -> P -> res oriented_side.
  Variable num_threads : nat.

  (** Mix.h:60-66. *)
  Definition p_edge (m : mesh P (mixed_data D)) (border : list edge) (e : edge) : prog D warnings :=
    p_locally base1 base2 sort_around (located coords m) border e.

  (** Mix.h:56-73.  [order] is the vector [intersecting_edges]. *)
  Inductive classifies (border : list edge) (left right : soup P D) (m : mesh P (mixed_data D)) (order : list edge)
    : res (mesh P (mixed_data D) * warnings) -> Prop :=
  | cl_ok : forall ds w reps ds' w',
      parallel (map (p_edge m border) order) (m_data m) (Ok (ds, w)) ->
      find_unclassified (with_data m ds) border = Ok reps ->
      parallel (map (p_rep centroid (side_of left) (side_of right) m border) reps) ds (Ok (ds', w')) ->
      classifies border left right m order (Ok (with_data m ds', warn_or w w'))
  | cl_local : forall r o,
      parallel (map (p_edge m border) order) (m_data m) r -> fails r o -> classifies border left right m order o
  | cl_find : forall ds w o,
      parallel (map (p_edge m border) order) (m_data m) (Ok (ds, w)) ->
      fails (find_unclassified (with_data m ds) border) o -> classifies border left right m order o
  | cl_global : forall ds w reps r o,
      parallel (map (p_edge m border) order) (m_data m) (Ok (ds, w)) ->
      find_unclassified (with_data m ds) border = Ok reps ->
      parallel (map (p_rep centroid (side_of left) (side_of right) m border) reps) ds r -> fails r o ->
      classifies border left right m order o.

  Notation corefine_ := (corefine P_eqb coords pbox longest_axis sort_by nth_element_by construct_ll construct_pl cdt_accepts num_threads).
  (** Mix.h:31-76. *)
  Inductive mixes_scheduled (left right : soup P D) : res (soup P (mixed_data D) * warnings) -> Prop :=
  | ms_ok : forall cf m border order m' w,
      corefine_ left right (Ok cf) -> mixed_mesh cdt_faces cf left right = Ok m ->
      get_intersecting_edges cf = Ok border -> set_elements border order ->
      classifies border left right m order (Ok (m', w)) ->
      mixes_scheduled left right (Ok (take_soup m', w))
  | ms_corefine : forall cf r, corefine_ left right cf -> fails cf r -> mixes_scheduled left right r
  | ms_mesh : forall cf r,
      corefine_ left right (Ok cf) -> fails (mixed_mesh cdt_faces cf left right) r -> mixes_scheduled left right r
  | ms_edges : forall cf m r,
      corefine_ left right (Ok cf) -> mixed_mesh cdt_faces cf left right = Ok m ->
      fails (get_intersecting_edges cf) r -> mixes_scheduled left right r
  | ms_classify : forall cf m border order o r,
      corefine_ left right (Ok cf) -> mixed_mesh cdt_faces cf left right = Ok m ->
      get_intersecting_edges cf = Ok border -> set_elements border order ->
      classifies border left right m order o -> fails o r -> mixes_scheduled left right r.
End MixSchedules.
