(** * Boolean operators, extraction and the region builder

    Models include/kigumi/Boolean_operator.h, Extract.h and
    Boolean_region_builder.h. *)
From Coq Require Import List Arith Bool NArith.
From Verif Require Import Model_base Model_soup.
Import ListNotations.

(** Boolean_operator.h:33-57 (Bochenski notation). *)
Inductive boolean_operator : Type :=
| opV | opA | opB | opC | opD | opE | opF | opG
| opH | opI | opJ | opK | opL | opM | opX | opO.

(** Boolean_operator.h:53-56 (aliases). *)
Definition op_UNION := opA.
Definition op_SYMMETRIC_DIFFERENCE := opJ.
Definition op_INTERSECTION := opK.
Definition op_DIFFERENCE := opL.

(** Boolean_operator.h:59-73: [Mask] is a set of four bits. *)
Definition mask := N.
Definition m_NONE : mask := 0%N.
Definition m_A : mask := 1%N.
Definition m_B : mask := 2%N.
Definition m_A_INV : mask := 4%N.
Definition m_B_INV : mask := 8%N.
Definition mask_or : mask -> mask -> mask := N.lor.
Definition mask_and : mask -> mask -> mask := N.land.

(** Boolean_operator.h:75-98. *)
Definition union_mask (op : boolean_operator) : mask :=
  match op with
  | opI | opL => m_A
  | opH | opM => m_B
  | opA | opJ => mask_or m_A m_B
  | opC | opF => m_A_INV
  | opB | opG => m_B_INV
  | opE | opX => mask_or m_A_INV m_B_INV
  | _ => m_NONE
  end.

(** Boolean_operator.h:100-123. *)
Definition intersection_mask (op : boolean_operator) : mask :=
  match op with
  | opB | opI => m_A
  | opC | opH => m_B
  | opE | opK => mask_or m_A m_B
  | opF | opM => m_A_INV
  | opG | opL => m_B_INV
  | opD | opJ => mask_or m_A_INV m_B_INV
  | _ => m_NONE
  end.

(** Boolean_operator.h:125-140. *)
Definition coplanar_mask (op : boolean_operator) (prefer_a : bool) : mask :=
  match op with
  | opA | opH | opI | opK => if prefer_a then m_A else m_B
  | opD | opF | opG | opX => if prefer_a then m_A_INV else m_B_INV
  | _ => m_NONE
  end.

(** Boolean_operator.h:142-157. *)
Definition opposite_mask (op : boolean_operator) (prefer_a : bool) : mask :=
  match op with
  | opB | opG | opI | opL => if prefer_a then m_A else m_B_INV
  | opC | opF | opH | opM => if prefer_a then m_A_INV else m_B
  | _ => m_NONE
  end.

Definition mask_has (m bit : mask) : bool := negb (N.eqb (mask_and m bit) m_NONE).

(** Extract.h:31-53: the decision for one face, [(output_id, output_inv)]. *)
Definition face_output (op : boolean_operator) (prefer_first : bool)
    (t : face_tag) (left : bool) : bool * bool :=
  let mask :=
    match t with
    | EXTERIOR => union_mask op
    | INTERIOR => intersection_mask op
    | COPLANAR => coplanar_mask op prefer_first
    | OPPOSITE => opposite_mask op prefer_first
    | UNKNOWN => m_NONE
    end in
  let output_id := if left then mask_has mask m_A else mask_has mask m_B in
  let output_inv := if left then mask_has mask m_A_INV else mask_has mask m_B_INV in
  (output_id, output_inv).

Section Extract.
  Context {P D : Type}.
  (** [FaceData{}] *)
  Variable d0 : D.

  Definition mixed_soup := soup P (mixed_data D).

  (** State of the loop: the vertex map (Extract.h:23; an unset entry
      [Vertex_index{}] is [None]) and the soup under construction. *)
  Definition extract_state : Type := list (option nat) * soup P D.

  (** Extract.h:61-67: mapping one vertex. *)
  Definition map_vertex (m : mixed_soup) (st : extract_state) (vi : nat)
    : res (nat * extract_state) :=
    let '(map, s) := st in
    let* cur := vec_at map vi in
    match cur with
    | Some n => Ok (n, st)
    | None =>
        let* p := soup_point m vi in
        let '(n, s') := add_vertex s p in
        let* map' := vec_set map vi (Some n) in
        Ok (n, (map', s'))
    end.

  (** Extract.h:30-76: one iteration of the loop over the faces. *)
  Definition extract_step (m : mixed_soup) (op : boolean_operator) (prefer_first : bool)
      (st : extract_state) (fi : nat) : res extract_state :=
    let* fd := soup_data m fi in
    let '(output_id, output_inv) := face_output op prefer_first (tag fd) (from_left fd) in
    if negb output_id && negb output_inv then Ok st
    else
      let* f := soup_face m fi in
      let '(v0, v1, v2) := f in
      let* (n0, st0) := map_vertex m st v0 in
      let* (n1, st1) := map_vertex m st0 v1 in
      let* (n2, st2) := map_vertex m st1 v2 in
      let new_f := if output_inv then (n0, n2, n1) else (n0, n1, n2) in
      let '(new_fi, s') := add_face d0 (snd st2) new_f in
      let* s'' := set_data s' new_fi (data fd) in
      Ok (fst st2, s'').

  (** Extract.h:20-79. *)
  Definition extract (m : mixed_soup) (op : boolean_operator) (prefer_first : bool)
    : res (soup P D) :=
    let* st := foldM (extract_step m op prefer_first)
                     (repeat None (num_vertices m), empty_soup)
                     (seq 0 (num_faces m)) in
    Ok (snd st).

  (** Boolean_region_builder.h:133-170: [apply]; the [default] branch is
      unreachable for the sixteen enumerators. *)
  Definition apply (op : boolean_operator) (a b : bool) : bool :=
    match op with
    | opV => true
    | opA => a || b
    | opB => a || negb b
    | opC => negb a || b
    | opD => negb a || negb b
    | opE => eqb a b
    | opF => negb a
    | opG => negb b
    | opH => b
    | opI => a
    | opJ => negb (eqb a b)
    | opK => a && b
    | opL => a && negb b
    | opM => negb a && b
    | opX => negb a && negb b
    | opO => false
    end.

  (** Boolean_region_builder.h:172-175: the members. [warnings] is kept
      abstract ([N], the bit set of Warnings.h). *)
  Record builder : Type := mk_builder {
    first_kind : region_kind;
    second_kind : region_kind;
    mixed : mixed_soup;
    warnings : N
  }.

  (** Boolean_region_builder.h:30-76: the constructor.  [mix] stands for
      [Mix{}] (Mix.h), modelled in Model_mix.v. *)
  Definition build (mix : soup P D -> soup P D -> res (mixed_soup * N))
      (a b : region P D) : res builder :=
    if is_empty_or_full a && is_empty_or_full b then
      Ok (mk_builder (kind a) (kind b) empty_soup 0%N)
    else if is_empty_or_full a || is_empty_or_full b then
      let pts := points (boundary a) ++ points (boundary b) in
      let fs := faces (boundary a) ++ faces (boundary b) in
      let '(first_tag, second_tag) :=
        if is_empty a || is_full b then (INTERIOR, EXTERIOR) else (EXTERIOR, INTERIOR) in
      let fds := map (mk_mixed true first_tag) (face_data (boundary a)) ++
                 map (mk_mixed false second_tag) (face_data (boundary b)) in
      Ok (mk_builder (kind a) (kind b) (mk_soup pts fs fds) 0%N)
    else
      let* (m, w) := mix (boundary a) (boundary b) in
      Ok (mk_builder (kind a) (kind b) m w).

  (** [std::all_of(m_.faces_begin(), ..., [&](fi) { return m_.data(fi).tag == t; })] *)
  Definition all_tags (m : mixed_soup) (t : face_tag) : res bool :=
    foldM (fun acc fi => if (acc : bool) then
                           let* fd := soup_data m fi in Ok (face_tag_eqb (tag fd) t)
                         else Ok false) true (seq 0 (num_faces m)).

  Definition special (b : bool) : region P D := if b then region_full else region_empty.

  (** Boolean_region_builder.h:78-128: [operator()].  The final [throw] is
      "input meshes are inconsistently oriented". *)
  Definition run (bd : builder) (op : boolean_operator) (prefer_first : bool)
    : res (region P D) :=
    let* s := extract (mixed bd) op prefer_first in
    if negb (num_faces s =? 0) then region_of_soup s
    else if region_kind_eqb (first_kind bd) EMPTY || region_kind_eqb (second_kind bd) EMPTY then
      Ok (special (apply op (negb (region_kind_eqb (first_kind bd) EMPTY))
                            (negb (region_kind_eqb (second_kind bd) EMPTY))))
    else if region_kind_eqb (first_kind bd) FULL || region_kind_eqb (second_kind bd) FULL then
      Ok (special (apply op (region_kind_eqb (first_kind bd) FULL)
                            (region_kind_eqb (second_kind bd) FULL)))
    else
      match op with
      | opV | opA | opB | opC | opD => Ok region_full
      | opK | opL | opM | opX | opO => Ok region_empty
      | opE | opJ =>
          let* cop := all_tags (mixed bd) COPLANAR in
          if (cop : bool) then Ok (special (apply op false false))
          else
            let* opp := all_tags (mixed bd) OPPOSITE in
            if (opp : bool) then Ok (special (apply op false true))
            else Throw RuntimeError
      | opF | opG | opH | opI => Throw RuntimeError
      end.
End Extract.
