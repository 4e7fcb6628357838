(** * dense_undirected_graph

    Models include/kigumi/Dense_undirected_graph.h.  Sizes are [nat]; the number of
    edges between two vertices and degrees are [unsigned] and wrap modulo 2^32. *)
From Coq Require Import List Arith Bool NArith.
From Verif Require Import Model_base.
Import ListNotations.

(** Dense_undirected_graph.h:11, 102-103. *)
Definition wrap32 (n : N) : N := (n mod 2 ^ 32)%N.
Record graph : Type := mk_graph { order : nat; cells : list N }.

(** Dense_undirected_graph.h:14. *)
Definition new_graph (n : nat) : graph := mk_graph n (repeat 0%N (n * (n + 1) / 2)).

(** The index in lines 86 and 99, after the swap of lines 83-85 and 96-98. *)
Definition cell_index (n i j : nat) : nat :=
  if j <? i then n * j + i - j * (j + 1) / 2 else n * i + j - i * (i + 1) / 2.

(** Dense_undirected_graph.h:89-100. *)
Definition graph_at (g : graph) (i j : nat) : res N :=
  if order g <=? i then Throw OutOfRange
  else if order g <=? j then Throw OutOfRange
  else vec_at (cells g) (cell_index (order g) i j).

(** Dense_undirected_graph.h:16, 76-87. *)
Definition add_edge (g : graph) (i j : nat) : res graph :=
  let* c := graph_at g i j in
  let* cs := vec_set (cells g) (cell_index (order g) i j) (wrap32 (c + 1)) in
  Ok (mk_graph (order g) cs).

(** Dense_undirected_graph.h:18-24. *)
Definition degree (g : graph) (i : nat) : res N :=
  foldM (fun d j => let* c := graph_at g i j in Ok (wrap32 (d + c))) 0%N (seq 0 (order g)).

(** Dense_undirected_graph.h:26. *)
Definition has_edge (g : graph) (i j : nat) : res bool :=
  let* c := graph_at g i j in Ok (negb (c =? 0)%N).

(** Dense_undirected_graph.h:36-45: the loop; the head of the list is the top of the stack. *)
Fixpoint search (fuel : nat) (g : graph) (visited : list bool) (stack : list nat) : res (list bool) :=
  match stack with
  | [] => Ok visited
  | i :: stack =>
      match fuel with
      | O => Throw Diverges
      | S fuel =>
          let* visited := vec_set visited i true in
          let* stack := foldM (fun st j =>
              let* e := has_edge g i j in
              if negb e then Ok st
              else
                let* v := vec_at visited j in
                if v then Ok st else Ok (j :: st)) stack (seq 0 (order g)) in
          search fuel g visited stack
      end
  end.

(** Dense_undirected_graph.h:28-50.  C35 shows that the fuel is enough. *)
Definition is_connected (g : graph) : res bool :=
  let* visited := search (order g * (order g + 1) + 1) g (repeat false (order g)) [0] in
  Ok (negb (existsb negb visited)).

(** Dense_undirected_graph.h:52-66.  (The early returns do not matter for the result:
    nothing can throw.) *)
Definition is_simple (g : graph) : res bool :=
  foldM (fun ok i =>
      if negb ok then Ok false
      else
        let* c := graph_at g i i in
        if negb (c =? 0)%N then Ok false
        else
          foldM (fun ok j =>
              if negb ok then Ok false
              else let* c := graph_at g i j in Ok (c <=? 1)%N)
            true (seq (i + 1) (order g - (i + 1))))
    true (seq 0 (order g)).

(** Dense_undirected_graph.h:68-74. *)
Definition max_degree (g : graph) : res N :=
  foldM (fun d i => let* e := degree g i in Ok (N.max d e)) 0%N (seq 0 (order g)).

(** A graph built by adding edges one after the other. *)
Definition add_edges (g : graph) (es : list (nat * nat)) : res graph :=
  foldM (fun g e => add_edge g (fst e) (snd e)) g es.
