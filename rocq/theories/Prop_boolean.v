(** * Properties C01-C05: Boolean operators, extraction, region builder *)
From Coq Require Import List Arith Bool Lia NArith Sorted.
From Verif Require Import Model_base Model_soup Model_boolean Spec_boolean
  Proof_base Proof_extract Proof_builder Proof_special.
Import ListNotations.

(** ** C01 *)

(** The decision taken for a face is the one required by the memberships on
    its two sides. *)
Theorem C01_face_output_is_required : forall op prefer_first t left,
  face_output op prefer_first t left =
  match required op prefer_first t left with
  | Drop => (false, false)
  | Keep => (true, false)
  | Reverse => (false, true)
  end.
Proof. intros op pf t l; destruct op, pf, t, l; reflexivity. Qed.
Print Assumptions C01_face_output_is_required.

(** Unfolded for a face lying strictly outside or inside the other operand. *)
Theorem C01_strict_faces : forall op prefer_first t left n p,
  t = EXTERIOR \/ t = INTERIOR ->
  side left t true = Some n -> side left t false = Some p ->
  face_output op prefer_first t left =
    (member op n && negb (member op p), negb (member op n) && member op p).
Proof.
  intros op pf t l n p [-> | ->] Hn Hp; destruct l; injection Hn as <-; injection Hp as <-;
    destruct op, pf; reflexivity.
Qed.
Print Assumptions C01_strict_faces.

(** Overlapping faces: the copy of the operand that is not preferred is never
    output; the preferred one is output iff the result changes across it. *)
Theorem C01_one_copy : forall op prefer_first t n p,
  t = COPLANAR \/ t = OPPOSITE ->
  side prefer_first t true = Some n -> side prefer_first t false = Some p ->
  face_output op prefer_first t (negb prefer_first) = (false, false) /\
  face_output op prefer_first t prefer_first =
    (member op n && negb (member op p), negb (member op n) && member op p).
Proof.
  intros op pf t n p [-> | ->] Hn Hp; destruct pf; injection Hn as <-; injection Hp as <-;
    destruct op; split; reflexivity.
Qed.
Print Assumptions C01_one_copy.

Theorem C01_aliases : forall A B : nat -> bool, forall x,
  denotes op_UNION A B x = A x || B x /\
  denotes op_INTERSECTION A B x = A x && B x /\
  denotes op_DIFFERENCE A B x = A x && negb (B x) /\
  denotes op_SYMMETRIC_DIFFERENCE A B x = xorb (A x) (B x).
Proof. intros A B x; repeat split; cbv; destruct (A x), (B x); reflexivity. Qed.
Print Assumptions C01_aliases.

Example C01_example :
  face_output opL true OPPOSITE true = (true, false) /\
  face_output opL false OPPOSITE false = (false, true) /\
  face_output opL true INTERIOR false = (false, true).
Proof. repeat split. Qed.

(** ** C02 *)
Theorem C02_extract_faithful : forall P D (d0 : D) (m : soup P (mixed_data D)) op prefer_first,
  wf_mixed m ->
  exists s, extract d0 m op prefer_first = Ok s /\
    wf_soup s /\
    tris s = required_tris op prefer_first m /\
    (forall v, v < length (points s) -> exists f, In f (faces s) /\ uses f v) /\
    (exists src, NoDup src /\
       Forall2 (fun v p => nth_error (points m) v = Some p) src (points s)).
Proof. exact @extract_correct. Qed.
Print Assumptions C02_extract_faithful.

(** Two triangles sharing an edge, one of A (kept), one of B (reversed). *)
Definition ex_mixed : soup nat (mixed_data nat) :=
  mk_soup [10; 11; 12; 13; 14] [(4, 1, 2); (2, 1, 0); (0, 3, 4)]
    [mk_mixed true EXTERIOR 7; mk_mixed false INTERIOR 8; mk_mixed false EXTERIOR 9].

Example C02_example :
  wf_mixed ex_mixed /\
  extract 0 ex_mixed opL true =
    Ok (mk_soup [14; 11; 12; 10] [(0, 1, 2); (2, 3, 1)] [7; 8]).
Proof.
  split; [|reflexivity]. split; [reflexivity|].
  repeat constructor; simpl; lia.
Qed.

(** ** C03 *)
Theorem C03_result_is_the_set : forall P D C (d0 : D) (m : soup P (mixed_data D))
    (inA inB : C -> bool) (neg pos : nat -> C),
  arrangement m inA inB neg pos ->
  forall w op prefer_first,
  exists r,
    run d0 (mk_builder BOUNDARY_DEFINED BOUNDARY_DEFINED m w) op prefer_first = Ok r /\
    match kind r with
    | EMPTY => r = region_empty /\ forall c, inR inA inB op c = false
    | FULL => r = region_full /\ forall c, inR inA inB op c = true
    | BOUNDARY_DEFINED =>
        wf_region r /\
        exists sel, consists_of m (boundary r) sel /\ StronglySorted lt (map fst sel) /\
          (forall i rv, In (i, rv) sel ->
             inR inA inB op (if rv then pos i else neg i) = true /\
             inR inA inB op (if rv then neg i else pos i) = false) /\
          (forall i, i < length (faces m) -> inR inA inB op (neg i) <> inR inA inB op (pos i) ->
             exists j rv, In (j, rv) sel /\ (j = i \/ overlaps m neg pos i j)) /\
          (forall i rv md, In (i, rv) sel -> nth_error (face_data m) i = Some md ->
             tag md = COPLANAR \/ tag md = OPPOSITE -> from_left md = prefer_first)
    end.
Proof. exact @builder_correct. Qed.
Print Assumptions C03_result_is_the_set.

(** Two overlapping solids: four cells, four boundary pieces. *)
Inductive ex_cell := Out | OnlyA | Both | OnlyB.

Definition ex_neg (i : nat) : ex_cell :=
  match i with 0 => OnlyA | 1 => Both | 2 => OnlyB | _ => Both end.
Definition ex_pos (i : nat) : ex_cell :=
  match i with 0 => Out | 1 => OnlyB | 2 => Out | _ => OnlyA end.
Definition ex_inA (c : ex_cell) := match c with OnlyA | Both => true | _ => false end.
Definition ex_inB (c : ex_cell) := match c with OnlyB | Both => true | _ => false end.
Definition ex_arr : soup nat (mixed_data nat) :=
  mk_soup [10; 11; 12; 13; 14; 15] [(0, 1, 2); (1, 2, 3); (2, 3, 4); (3, 4, 5)]
    [mk_mixed true EXTERIOR 1; mk_mixed true INTERIOR 2; mk_mixed false EXTERIOR 3; mk_mixed false INTERIOR 4].

Example C03_example : arrangement ex_arr ex_inA ex_inB ex_neg ex_pos.
Proof.
  constructor.
  - split; [reflexivity|]. repeat constructor; simpl; lia.
  - intros i md H. do 4 (destruct i as [|i]; [injection H as <-; repeat split|]). destruct i; discriminate.
  - intros i md H [T|T]; do 4 (destruct i as [|i]; [injection H as <-; discriminate T|]); destruct i; discriminate.
  - exists 0. eexists. split; reflexivity.
  - exists 2. eexists. split; reflexivity.
  - assert (L : 0 < length (faces ex_arr) /\ 1 < length (faces ex_arr) /\
                2 < length (faces ex_arr) /\ 3 < length (faces ex_arr)) by (simpl; lia).
    destruct L as (L0 & L1 & L2 & L3).
    assert (ToOut : forall c c', reachable ex_arr ex_neg ex_pos Out c' -> reachable ex_arr ex_neg ex_pos c c').
    { intros c c' H. destruct c; auto.
      - apply (reach_out ex_arr ex_neg ex_pos 0); auto.
      - apply (reach_out ex_arr ex_neg ex_pos 1); auto. apply (reach_out ex_arr ex_neg ex_pos 2); auto.
      - apply (reach_out ex_arr ex_neg ex_pos 2); auto. }
    intros c c'. apply ToOut. destruct c'.
    + constructor.
    + apply (reach_in ex_arr ex_neg ex_pos 0); auto. constructor.
    + apply (reach_in ex_arr ex_neg ex_pos 2); auto. apply (reach_in ex_arr ex_neg ex_pos 1); auto. constructor.
    + apply (reach_in ex_arr ex_neg ex_pos 2); auto. constructor.
Qed.

(** Two identical solids: the symmetric difference is empty. *)
Definition ex_same : soup nat (mixed_data nat) :=
  mk_soup [10; 11; 12] [(0, 1, 2); (0, 1, 2)]
    [mk_mixed true COPLANAR 1; mk_mixed false COPLANAR 2].

Example C03_example_same :
  arrangement ex_same (fun c : bool => c) (fun c => c) (fun _ => true) (fun _ => false) /\
  run 0 (mk_builder BOUNDARY_DEFINED BOUNDARY_DEFINED ex_same 0%N) opJ true = Ok region_empty.
Proof.
  split; [|reflexivity].
  constructor.
  - split; [reflexivity|]. repeat constructor; simpl; lia.
  - intros i md H. do 2 (destruct i as [|i]; [injection H as <-; repeat split|]). destruct i; discriminate.
  - intros i md H _. destruct i as [|[|i]].
    + exists 1. do 2 eexists. do 4 (split; [reflexivity|]). left. auto.
    + exists 0. do 2 eexists. do 4 (split; [reflexivity|]). left. auto.
    + destruct i; discriminate.
  - exists 0. eexists. split; reflexivity.
  - exists 1. eexists. split; reflexivity.
  - intros [] [].
    + constructor.
    + apply (reach_out ex_same (fun _ => true) (fun _ => false) 0); simpl; auto. constructor.
    + apply (reach_in ex_same (fun _ => true) (fun _ => false) 0); simpl; auto. constructor.
    + constructor.
Qed.

(** ** C04 *)
Theorem C04_both_special : forall P D (d0 : D) mix (a b : region P D) va vb op prefer_first,
  constant_of a = Some va -> constant_of b = Some vb ->
  exists bd, build mix a b = Ok bd /\ warnings bd = 0%N /\
    run d0 bd op prefer_first = Ok (if member op (va, vb) then region_full else region_empty).
Proof. exact @special_both. Qed.
Print Assumptions C04_both_special.

Theorem C04_first_special : forall P D (d0 : D) mix (a b : region P D) va op prefer_first,
  wf_region a -> wf_region b -> constant_of a = Some va -> constant_of b = None ->
  exists bd r', build mix a b = Ok bd /\ warnings bd = 0%N /\
    run d0 bd op prefer_first = Ok r' /\
    is_image (fun in_b => member op (va, in_b)) b r'.
Proof. exact @special_left. Qed.
Print Assumptions C04_first_special.

Theorem C04_second_special : forall P D (d0 : D) mix (a b : region P D) vb op prefer_first,
  wf_region a -> wf_region b -> constant_of a = None -> constant_of b = Some vb ->
  exists bd r', build mix a b = Ok bd /\ warnings bd = 0%N /\
    run d0 bd op prefer_first = Ok r' /\
    is_image (fun in_a => member op (in_a, vb)) a r'.
Proof. exact @special_right. Qed.
Print Assumptions C04_second_special.

Definition ex_region : region nat nat :=
  mk_region BOUNDARY_DEFINED (mk_soup [5; 6; 7; 8] [(0, 1, 2); (0, 2, 3)] [1; 2]).

Example C04_example :
  wf_region ex_region /\ wf_region (@region_full nat nat) /\
  constant_of (@region_full nat nat) = Some true /\ constant_of ex_region = None /\
  (let* bd := build (fun _ _ => Throw RuntimeError) region_full ex_region in run 0 bd opL true)
  = Ok (mk_region BOUNDARY_DEFINED (mk_soup [5; 6; 7; 8] [(0, 2, 1); (0, 3, 2)] [1; 2])).
Proof.
  repeat split; try reflexivity; simpl; try discriminate. repeat constructor; simpl; lia.
Qed.

(** ** C05 *)
Theorem C05_complement : forall P D (d0 : D) (bd : @builder P D) op op' prefer_first,
  wf_mixed (mixed bd) -> complementary op op' ->
  match run d0 bd op prefer_first with
  | Ok r => exists r', run d0 bd op' prefer_first = Ok r' /\ opposite_region r r'
  | Throw e => run d0 bd op' prefer_first = Throw e
  | UB => False
  end.
Proof. exact @complement_law. Qed.
Print Assumptions C05_complement.

Theorem C05_swap : forall P D (d0 : D) (bd : @builder P D) op op' prefer_first,
  wf_mixed (mixed bd) -> mirrored op op' ->
  match run d0 bd op prefer_first with
  | Ok r => exists r', run d0 (swap_operands bd) op' (negb prefer_first) = Ok r' /\ same_region r r'
  | Throw e => run d0 (swap_operands bd) op' (negb prefer_first) = Throw e
  | UB => False
  end.
Proof. exact @swap_law. Qed.
Print Assumptions C05_swap.

Theorem C05_preference : forall P D (d0 : D) (bd : @builder P D) op prefer_first,
  wf_mixed (mixed bd) ->
  (forall t, t = COPLANAR \/ t = OPPOSITE ->
     forall l, (exists md, In md (face_data (mixed bd)) /\ tag md = t /\ from_left md = l) ->
               (exists md, In md (face_data (mixed bd)) /\ tag md = t /\ from_left md = negb l)) ->
  match run d0 bd op prefer_first with
  | Ok r => exists r', run d0 bd op (negb prefer_first) = Ok r' /\ kind r' = kind r /\
              (kind r <> BOUNDARY_DEFINED -> r' = r)
  | Throw e => run d0 bd op (negb prefer_first) = Throw e
  | UB => False
  end.
Proof. exact @prefer_law. Qed.
Print Assumptions C05_preference.

(** Every operator has a complement and a mirror image. *)
Example C05_example :
  (forall op, exists op', complementary op op') /\ (forall op, exists op', mirrored op op') /\
  complementary opA opX /\ mirrored opL opM.
Proof.
  split; [|split; [|split]].
  - intros [];
      [exists opO|exists opX|exists opM|exists opL|exists opK|exists opJ|exists opI|exists opH
      |exists opG|exists opF|exists opE|exists opD|exists opC|exists opB|exists opA|exists opV];
      intros [[] []]; reflexivity.
  - intros [];
      [exists opV|exists opA|exists opC|exists opB|exists opD|exists opE|exists opG|exists opF
      |exists opI|exists opH|exists opJ|exists opK|exists opM|exists opL|exists opX|exists opO];
      intros [] []; reflexivity.
  - intros [[] []]; reflexivity.
  - intros [] []; reflexivity.
Qed.
