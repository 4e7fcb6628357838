(** * What the text formats mean

    Files are looked at as lists of lines, and lines as lists of words. *)
From Coq Require Import Ascii String.
From Coq Require Import List Arith Bool NArith ZArith.
From Verif Require Import Model_base Model_soup Model_text.
Import ListNotations.
Local Open Scope list_scope.

(** The words of a line: its maximal pieces without white space. *)
Fixpoint words (l : text) : list text :=
  match l with
  | [] => []
  | c :: r =>
      if is_space c then words r
      else match r with
           | [] => [[c]]
           | d :: _ =>
               if is_space d then [c] :: words r
               else match words r with
                    | [] => [[c]]
                    | w :: ws => (c :: w) :: ws
                    end
           end
  end.

Definition comment (w : text) : Prop := exists r, w = "#"%char :: r.
(** A line that is neither blank nor a comment. *)
Definition significant (l : text) : bool :=
  match words l with
  | [] => false
  | (c :: _) :: _ => negb (Ascii.eqb c "#")
  | [] :: _ => true
  end.

(** The word [w] is the number [x]; a plus sign is allowed. *)
Definition number_word (parse : text -> option N) (w : text) (x : N) : Prop :=
  match w with
  | c :: r => if Ascii.eqb c "+" then parse r = Some x else parse w = Some x
  | [] => parse w = Some x
  end.

(** What is asked of the conversions between doubles and text, for the doubles
    that are [valid] (finite): the text is not empty, has no white space, starts
    with a digit or a minus sign, and is read back as the same double. *)
Record faithful (parse : text -> option N) (print : N -> text) (valid : N -> Prop) : Prop := {
  fa_parse : forall x, valid x -> parse (print x) = Some x;
  fa_words : forall x c, valid x -> In c (print x) -> is_space c = false;
  fa_first : forall x, valid x -> exists c r, print x = c :: r /\ (c = "-"%char \/ is_digit c = true)
}.

(** A polygon cut into triangles from its first vertex. *)
Fixpoint fan_from (v0 prev : nat) (r : list nat) : list face :=
  match r with
  | [] => []
  | v :: r => (v0, prev, v) :: fan_from v0 v r
  end.
Definition fan (polygon : list nat) : list face :=
  match polygon with
  | v0 :: v1 :: r => fan_from v0 v1 r
  | _ => []
  end.

(** ** OBJ *)

(** The word [w] of a face line refers to the vertex [i] when [nv] vertices have been
    read: a positive number counts from 1, a negative number counts back from the
    last vertex; what follows the number (texture and normal) does not matter. *)
Definition refers (nv : nat) (w : text) (i : nat) : Prop :=
  exists v suffix, w = decimal_Z v ++ suffix /\
    match suffix with c :: _ => is_digit c = false | [] => True end /\
    ((0 < v < 2 ^ 63 /\ v = Z.of_nat i + 1) \/
     (- 2 ^ 63 <= v < 0 /\ Z.of_nat i = Z.of_nat nv + v /\ Z.of_nat i < 2 ^ 64))%Z.

(** [obj_means parse vs ls vs' ps]: after the vertices [vs], the lines [ls] declare
    the polygons [ps], and [vs'] are all the vertices in the end. *)
Inductive obj_means (parse : text -> option N) :
    list (N * N * N) -> list text -> list (N * N * N) -> list (list nat) -> Prop :=
| obj_end : forall vs, obj_means parse vs [] vs []
| obj_vertex : forall vs l ls vs' ps a b c more x y z,
    words l = txt "v" :: a :: b :: c :: more ->
    number_word parse a x -> number_word parse b y -> number_word parse c z ->
    obj_means parse (vs ++ [(x, y, z)]) ls vs' ps -> obj_means parse vs (l :: ls) vs' ps
| obj_face : forall vs l ls vs' ps ws p,
    words l = txt "f" :: ws -> Forall2 (refers (List.length vs)) ws p ->
    obj_means parse vs ls vs' ps -> obj_means parse vs (l :: ls) vs' (p :: ps)
| obj_other : forall vs l ls vs' ps,
    (forall w ws, words l = w :: ws -> w <> txt "v" /\ w <> txt "f") ->
    obj_means parse vs ls vs' ps -> obj_means parse vs (l :: ls) vs' ps.

(** ** OFF *)

Definition size (n : nat) : Prop := (N.of_nat n < 2 ^ 64)%N.

(** A line that starts with three numbers. *)
Definition vertex_line (parse : text -> option N) (l : text) (v : N * N * N) : Prop :=
  let '(x, y, z) := v in
  exists a b c more, words l = a :: b :: c :: more /\
    number_word parse a x /\ number_word parse b y /\ number_word parse c z.
(** A line that starts with the number of vertices of a polygon and its vertices. *)
Definition polygon_line (l : text) (p : list nat) : Prop :=
  Forall size p /\ size (List.length p) /\
  exists more, words l = decimal_nat (List.length p) :: map decimal_nat p ++ more.

(** OFF, COFF, NOFF, CNOFF, STOFF, ... *)
Definition off_signature (w : text) : Prop :=
  exists st c n, w = st ++ c ++ n ++ txt "OFF" /\
    (st = [] \/ st = txt "ST") /\ (c = [] \/ c = txt "C") /\ (n = [] \/ n = txt "N").

Definition off_means (parse : text -> option N) (ls : list text) (vs : list (N * N * N)) (ps : list (list nat)) : Prop :=
  exists signature counts vertex_lines face_lines w more1 more2,
    filter significant ls = signature :: counts :: vertex_lines ++ face_lines /\
    (words signature = w :: more1 /\ off_signature w /\ match more1 with [] => True | c :: _ => comment c end) /\
    (words counts = decimal_nat (List.length vs) :: decimal_nat (List.length ps) :: more2 /\
     size (List.length vs) /\ size (List.length ps)) /\
    Forall2 (vertex_line parse) vertex_lines vs /\
    Forall2 polygon_line face_lines ps.

(** ** PLY *)

(** A property as declared: whether it is a list, and its name. *)
Definition declares_property (l : text) (p : ply_property) : Prop :=
  if is_list p then exists t1 t2, words l = [txt "property"; txt "list"; t1; t2; property_name p]
  else exists t, t <> txt "list" /\ words l = [txt "property"; t; property_name p].
Inductive declares_elements : list text -> list ply_element -> Prop :=
| de_nil : declares_elements [] []
| de_cons : forall l ls pls e es,
    words l = [txt "element"; element_name e; decimal_nat (count e)] -> size (count e) ->
    Forall2 declares_property pls (properties e) ->
    declares_elements ls es ->
    declares_elements (l :: pls ++ ls) (e :: es).
(** A line of the header that is neither blank nor a comment. *)
Definition ply_significant (l : text) : bool :=
  match words l with
  | [] => false
  | w :: _ => negb (text_eqb w (txt "comment"))
  end.
Definition ply_header_means (ls : list text) (es : list ply_element) : Prop :=
  exists l1 l2 decls l3 more,
    filter ply_significant ls = l1 :: l2 :: decls ++ [l3] /\
    words l1 = [txt "ply"] /\ words l2 = [txt "format"; txt "ascii"; txt "1.0"] /\
    declares_elements decls es /\ words l3 = txt "end_header" :: more /\
    (exists ls', ls = ls' ++ [l3]).

(** The words of one property on a line of the body: one word, or a list with its length. *)
Definition value_words (p : ply_property) (ws : list text) : Prop :=
  if is_list p then
    exists items, size (List.length items) /\ ws = decimal_nat (List.length items) :: items
  else exists w, ws = [w].
(** The values on a line, one for each property. *)
Definition values (e : ply_element) (l : text) (vals : list (list text)) : Prop :=
  Forall2 value_words (properties e) vals /\ exists more, words l = concat vals ++ more.
(** The value of the first property with one of the names. *)
Inductive value_of (names : list text) (list : bool) :
    List.list ply_property -> List.list (List.list text) -> List.list text -> Prop :=
| vo_here : forall p ps v vs, In (property_name p) names -> is_list p = list ->
    value_of names list (p :: ps) (v :: vs) v
| vo_later : forall p ps v vs r, ~ (In (property_name p) names /\ is_list p = list) ->
    value_of names list ps vs r -> value_of names list (p :: ps) (v :: vs) r.

Definition ply_vertex_line (parse : text -> option N) (e : ply_element) (l : text) (v : N * N * N) : Prop :=
  let '(x, y, z) := v in
  exists vals a b c, values e l vals /\
    value_of [txt "x"] false (properties e) vals [a] /\ number_word parse a x /\
    value_of [txt "y"] false (properties e) vals [b] /\ number_word parse b y /\
    value_of [txt "z"] false (properties e) vals [c] /\ number_word parse c z.
Definition ply_polygon_line (e : ply_element) (l : text) (p : list nat) : Prop :=
  Forall size p /\ size (List.length p) /\
  exists vals, values e l vals /\
    value_of [txt "vertex_index"; txt "vertex_indices"] true (properties e) vals
      (decimal_nat (List.length p) :: map decimal_nat p).

(** The first element called vertex has x, y and z; after it, the first element called face has
    vertex_index or vertex_indices; other elements may come
    before, between and after.  Their lines can be anything. *)
Definition ply_means (parse : text -> option N) (file : text) (vs : list (N * N * N)) (ps : list (list nat)) : Prop :=
  exists header es1 ve es2 fe es3 body1 vlines body2 flines body3,
    lines file = header ++ body1 ++ vlines ++ body2 ++ flines ++ body3 /\
    ply_header_means header (es1 ++ [ve] ++ es2 ++ [fe] ++ es3) /\
    (forall e, In e (es1 ++ es2) -> element_name e <> txt "vertex" /\ element_name e <> txt "face") /\
    element_name ve = txt "vertex" /\ element_name fe = txt "face" /\
    (forall n, In n [txt "x"; txt "y"; txt "z"] ->
       exists p, In p (properties ve) /\ is_list p = false /\ property_name p = n) /\
    (exists p, In p (properties fe) /\ is_list p = true /\
       In (property_name p) [txt "vertex_index"; txt "vertex_indices"]) /\
    List.length body1 = list_sum (map count es1) /\
    List.length vlines = count ve /\ List.length body2 = list_sum (map count es2) /\
    List.length flines = count fe /\ List.length body3 = list_sum (map count es3) /\
    Forall2 (ply_vertex_line parse ve) vlines vs /\
    Forall2 (ply_polygon_line fe) flines ps.
