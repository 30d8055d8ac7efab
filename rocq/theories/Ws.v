(** The Watts-Strogatz ensemble. *)
From Verif Require Import Base Containers Graph Rng.
From Coq Require Import QArith.
Set Implicit Arguments.
Local Open Scope nat_scope.

(** /repo/src/watts_strogatz/ws_container.rs 40-48, [swap_direction], [set_origin_false]. *)
Definition oe_swap (e : original_edge) : original_edge := mk_oe (oe_to e) (oe_from e) (oe_at_origin e).
Definition oe_moved (e : original_edge) : original_edge := mk_oe (oe_from e) (oe_to e) false.

(** /repo/src/watts_strogatz/ensemble.rs 42-48.  The generator is threaded separately. *)
Record ws_ensemble (T : Type) := mk_wse {
  ws_graph : graph (ws_container T);
  ws_rewire_prob : Q;
  ws_distance : nat
}.

(** /repo/src/watts_strogatz/ensemble.rs 79-88. *)
Inductive ws_error := ImpossibleRingRequest | ImpossibleEdgeRequest.

Section Model.
Context {T : Type}.
Let G := graph (ws_container T).

(** The graph with other vertices. *)
Definition ws_with (g : G) (vs : list (ws_container T)) : G :=
  mk_graph (next_id g) (edge_count g) vs.

(** /repo/src/watts_strogatz/ensemble.rs 138-159: the drawing loop of
    [add_random_edge], on fuel. *)
Fixpoint ws_find_pair (fuel : nat) (g : G) (o : original_edge) (rs : rng)
  : outcome (nat * nat * rng) :=
  match fuel with
  | 0 => NoFuel
  | S f =>
      do ' (first, rs1) <- gen_range (vertex_count g) rs;
      do ' (second, rs2) <- gen_range (vertex_count g) rs1;
      if (first =? second)
         || ((first =? oe_from o) && (second =? oe_to o))
         || ((first =? oe_to o) && (second =? oe_from o))
      then ws_find_pair f g o rs2
      else
        do c <- vget (vertices g) first;
        if contains (wc_to c) second then ws_find_pair f g o rs2
        else Done (first, second, rs2)
  end.

(** /repo/src/watts_strogatz/ensemble.rs 161-176, the closure [create_edge]. *)
Definition wc_append (c : ws_container T) (to : nat) (o : original_edge) : ws_container T :=
  mk_wc (wc_id c) (wc_node c) (wc_to c ++ [to]) (wc_original c ++ [o]).
Definition ws_create_edge (p : profile) (g : G) (from to : nat) (o : original_edge) : outcome G :=
  let o' := oe_moved o in
  do ' (a, b) <- get_2_mut p g from to;
  Done (ws_with g (put_2 (vertices g) from to (wc_append a to o') (wc_append b from (oe_swap o')))).

(** /repo/src/watts_strogatz/ensemble.rs 136-184, [add_random_edge].  A round of the
    loop takes two draws, so the fuel given here never runs out before the draws. *)
Definition ws_add_random_edge (p : profile) (s : G * rng) (o : original_edge) : outcome (G * rng) :=
  let '(g, rs) := s in
  do ' (first, second, rs1) <- ws_find_pair (S (length rs)) g o rs;
  do g' <- (if (first =? oe_to o) || (second =? oe_from o)
            then ws_create_edge p g second first (oe_swap o)
            else ws_create_edge p g first second o);
  Done (g', rs1).

(** /repo/src/watts_strogatz/ensemble.rs 238-248: the edges of one vertex, last one first.
    The state is the two lists of the vertex and the edges to be rewired. *)
Definition ws_pick (q : Q) (s : list nat * list original_edge * list original_edge * rng) (j : nat)
  : outcome (list nat * list original_edge * list original_edge * rng) :=
  let '(to, orig, rewire, rs) := s in
  do e <- vget orig j;
  if oe_at_origin e then
    do ' (x, rs1) <- gen_f64 rs;
    if Qle_bool x q then
      do orig' <- swap_remove orig j;
      do to' <- swap_remove to j;
      Done (to', orig', rewire ++ [e], rs1)
    else Done (to, orig, rewire, rs1)
  else Done (to, orig, rewire, rs).

(** /repo/src/watts_strogatz/ensemble.rs 251-260: the other end of an edge. *)
Definition ws_remove_other (g : G) (e : original_edge) : outcome G :=
  do c <- vget (vertices g) (oe_to e);
  do c' <- wc_swap_remove_elem c (oe_from e);
  Done (ws_with g (upd (vertices g) (oe_to e) c')).

(** /repo/src/watts_strogatz/ensemble.rs 229-266: the body of the loop of [randomize]. *)
Definition ws_randomize_vertex (p : profile) (q : Q) (s : G * rng) (i : nat) : outcome (G * rng) :=
  let '(g, rs) := s in
  do c <- vget (vertices g) i;
  let len := length (wc_original c) in
  do _ <- match p with
          | Debug => if len =? length (wc_to c) then Done tt else Panic
          | Release => Done tt
          end;
  do ' (to, orig, rewire, rs1) <-
    foldM (ws_pick q) (wc_to c, wc_original c, [], rs) (rev (seq 0 len));
  let g1 := ws_with g (upd (vertices g) i (mk_wc (wc_id c) (wc_node c) to orig)) in
  do g2 <- foldM ws_remove_other g1 rewire;
  foldM (ws_add_random_edge p) (g2, rs1) rewire.

(** /repo/src/watts_strogatz/ensemble.rs 224-267, [randomize]. *)
Definition ws_randomize (p : profile) (e : ws_ensemble T) (rs : rng)
  : outcome (ws_ensemble T * rng) :=
  do ' (r, g) <- init_ring p (ws_graph e) (ws_distance e);
  do _ <- unwrap r;
  do ' (g', rs') <- foldM (ws_randomize_vertex p (ws_rewire_prob e)) (g, rs)
                          (seq 0 (vertex_count g));
  Done (mk_wse g' (ws_rewire_prob e) (ws_distance e), rs').

(** /repo/src/watts_strogatz/ensemble.rs 101-129, [new]; [d] is not zero in the code. *)
Definition ws_new (p : profile) (mk : nat -> T) (n d : nat) (q : Q) (rs : rng)
  : outcome (result (ws_ensemble T * rng) ws_error) :=
  if n <? 1 + 2 * d then Done (Err ImpossibleRingRequest)
  else
    do ' (r, g) <- init_ring p (graph_new mk n) d;
    match r with
    | Err _ => Done (Err ImpossibleEdgeRequest)
    | Ok _ => do x <- ws_randomize p (mk_wse g q d) rs; Done (Ok x)
    end.

End Model.
