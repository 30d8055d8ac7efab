(** Small-world graphs and the small-world ensemble. *)
From Verif Require Import Base Containers Graph Traversal Components Rng.
From Coq Require Import QArith.
Set Implicit Arguments.
Local Open Scope nat_scope.

(** /repo/src/sw.rs 30-43, [SwChangeState]. *)
Inductive sw_state :=
| Sw_InvalidAdjecency
| Sw_BlockedByExistingEdge
| Sw_Nothing
| Sw_Rewire (root old_to new_to : nat)
| Sw_Reset (root old_to new_to : nat)
| Sw_GError (e : graph_error).

(** /repo/src/sw.rs 70-79, [is_valid]. *)
Definition sw_is_valid (s : sw_state) : bool :=
  match s with
  | Sw_Rewire _ _ _ | Sw_Reset _ _ _ | Sw_Nothing | Sw_BlockedByExistingEdge => true
  | Sw_InvalidAdjecency | Sw_GError _ => false
  end.

(** [debug_assert!(b)]. *)
Definition debug_assert (p : profile) (b : bool) : outcome unit :=
  match p, b with
  | Debug, false => Panic
  | _, _ => Done tt
  end.

(** [v.get_unchecked(i)] behind a checked assertion [i < v.len()]. *)
Definition vget_asserted {X} (l : list X) (i : nat) : outcome X := vget l i.

Section Container.
Context {T : Type}.
Let SC := sw_container T.

(** The container with another adjacency list. *)
Definition sc_with (c : SC) (l : list sw_edge) : SC := mk_sc (sc_id c) l (sc_node c).

(** /repo/src/sw_graph.rs 341-348, [push_single]. *)
Definition sc_push_single (p : profile) (c : SC) (other : nat) : outcome SC :=
  do _ <- debug_assert p (negb (sc_is_adjacent c other));
  Done (sc_with c (sc_adj c ++ [mk_se other None])).

(** /repo/src/sw_graph.rs 323-328, [count_root]. *)
Definition sc_count_root (c : SC) : nat := length (filter se_is_root (sc_adj c)).

(** /repo/src/sw_graph.rs 350-392, [rewire]: the state and the three containers. *)
Definition sc_rewire (p : profile) (c0 c1 c2 : SC) : outcome (sw_state * (SC * SC * SC)) :=
  match sc_adj_position c0 (sc_id c1) with
  | None => Done (Sw_InvalidAdjecency, (c0, c1, c2))
  | Some k =>
      if sc_is_adjacent c0 (sc_id c2) then Done (Sw_BlockedByExistingEdge, (c0, c1, c2))
      else
        do e <- vget (sc_adj c0) k;
        do _ <- debug_assert p (se_is_root e);
        do k1 <- expect (sc_adj_position c1 (sc_id c0));
        do l1 <- swap_remove (sc_adj c1) k1;
        Done (Sw_Rewire (sc_id c0) (sc_id c1) (sc_id c2),
              (sc_with c0 (upd (sc_adj c0) k (se_rewire e (sc_id c2))),
               sc_with c1 l1,
               sc_with c2 (sc_adj c2 ++ [mk_se (sc_id c0) None])))
  end.

(** /repo/src/sw_graph.rs 398-442, [reset]: [Err] carries the state and leaves both
    containers as they are. *)
Definition sc_reset (p : profile) (c0 c1 : SC) : outcome (result (nat * SC * SC) sw_state) :=
  match sc_adj_position c0 (sc_id c1) with
  | None => Done (Err (Sw_GError EdgeDoesNotExist))
  | Some k0 =>
      do k1 <- expect (sc_adj_position c1 (sc_id c0));
      do e0 <- vget_asserted (sc_adj c0) k0;
      do e1 <- vget_asserted (sc_adj c1) k1;
      do _ <- debug_assert p (negb (se_is_root e1));
      if se_is_at_root e0 then Done (Err Sw_Nothing)
      else
        do o <- expect (se_orig e0);
        if sc_is_adjacent c0 o then Done (Err Sw_BlockedByExistingEdge)
        else
          do e0' <- se_reset e0;
          do l1 <- swap_remove (sc_adj c1) k1;
          Done (Ok (se_to e0', sc_with c0 (upd (sc_adj c0) k0 e0'), sc_with c1 l1))
  end.

End Container.

Section GraphModel.
Context {T : Type}.
Let G := graph (sw_container T).

(** The graph with other vertices. *)
Definition with_vertices (g : G) (vs : list (sw_container T)) : G :=
  mk_graph (next_id g) (edge_count g) vs.

(** /repo/src/generic_graph/generic_graph.rs 408-436, [get_3_mut], as [get_2_mut]. *)
Definition get_3_mut (p : profile) (g : G) (i j k : nat)
  : outcome (sw_container T * sw_container T * sw_container T) :=
  let distinct := negb (i =? j) && negb (j =? k) && negb (k =? i) in
  match p, (i <? next_id g) && (j <? next_id g) && (k <? next_id g) && distinct with
  | Debug, false => Panic
  | _, _ =>
      match nth_error (vertices g) i, nth_error (vertices g) j, nth_error (vertices g) k with
      | Some a, Some b, Some c => if distinct then Done (a, b, c) else UB
      | _, _, _ => UB
      end
  end.

(** /repo/src/sw_graph.rs 453-468, [reset_edge]. *)
Definition sw_reset_edge (p : profile) (g : G) (i0 i1 : nat) : outcome (sw_state * G) :=
  do ' (c0, c1) <- get_2_mut p g i0 i1;
  do r <- sc_reset p c0 c1;
  match r with
  | Err s => Done (s, g)
  | Ok (v, c0', c1') =>
      let g1 := with_vertices g (put_2 (vertices g) i0 i1 c0' c1') in
      do c2 <- vget (vertices g1) v;
      do c2' <- sc_push_single p c2 i0;
      Done (Sw_Reset i0 i1 v, with_vertices g1 (upd (vertices g1) v c2'))
  end.

(** /repo/src/sw_graph.rs 476-483, [rewire_edge]. *)
Definition sw_rewire_edge (p : profile) (g : G) (i0 i1 i2 : nat) : outcome (sw_state * G) :=
  if i1 =? i2 then Done (Sw_Nothing, g)
  else
    do ' (c0, c1, c2) <- get_3_mut p g i0 i1 i2;
    do ' (s, (c0', c1', c2')) <- sc_rewire p c0 c1 c2;
    Done (s, with_vertices g (upd (upd (upd (vertices g) i0 c0') i1 c1') i2 c2')).

(** /repo/src/sw_graph.rs 488-492, [init_ring_2]. *)
Definition sw_init_ring_2 (p : profile) (g : G) : outcome G :=
  do ' (r, g') <- init_ring p g 2;
  do _ <- unwrap r;
  Done g'.

(** /repo/src/sw_graph.rs 499-520, [count_nodes_with_long_ranging_edges]. *)
Definition count_nodes_with_long_ranging_edges (g : G) : outcome nat :=
  do marks <- foldM (fun marks ic =>
      foldM (fun marks e =>
        do marks1 <- vset marks (fst ic) true;
        vset marks1 (se_to e) true)
        marks (filter se_is_long_ranging_root (sc_adj (snd ic))))
    (repeat false (vertex_count g)) (enumerate (vertices g));
  Done (length (filter (fun b => b) marks)).

(** /repo/src/sw_graph.rs 535-546, [count_long_ranging_edges]. *)
Definition count_long_ranging_edges (g : G) : nat :=
  length (filter se_is_long_ranging_root (flat_map (@sc_adj T) (vertices g))).

(** /repo/src/sw_graph.rs 525-530, 550-554: the fractions, as pairs (numerator,
    denominator). *)
Definition frac_nodes_wlre (g : G) : outcome (nat * nat) :=
  do n <- count_nodes_with_long_ranging_edges g; Done (n, vertex_count g).
Definition frac_long_ranging_edges (g : G) : nat * nat :=
  (count_long_ranging_edges g, edge_count g).

End GraphModel.

(** /repo/src/sw.rs 198-203.  The generator is threaded separately. *)
Record sw_ensemble (T : Type) := mk_swe {
  sw_graph : graph (sw_container T);
  sw_r_prob : Q
}.

(** /repo/src/sw.rs 288-296, [draw_remaining]. *)
Definition draw_remaining (index high : nat) (rs : rng) : outcome (nat * rng) :=
  do ' (num, rs') <- gen_range high rs;
  Done (if num <? index then num else num + 1, rs').

Section Ensemble.
Context {T : Type}.
Let E := sw_ensemble T.

Definition sw_set (e : E) (g : graph (sw_container T)) : E := mk_swe g (sw_r_prob e).

(** /repo/src/sw.rs 299-309, [randomize_edge]. *)
Definition sw_randomize_edge (p : profile) (e : E) (i0 i1 : nat) (rs : rng)
  : outcome (sw_state * E * rng) :=
  do ' (x, rs1) <- gen_f64 rs;
  if Qle_bool x (sw_r_prob e) then
    do h <- usub p (vertex_count (sw_graph e)) 1;
    do ' (k, rs2) <- draw_remaining i0 h rs1;
    do ' (s, g) <- sw_rewire_edge p (sw_graph e) i0 i1 k;
    Done (s, sw_set e g, rs2)
  else
    do ' (s, g) <- sw_reset_edge p (sw_graph e) i0 i1;
    Done (s, sw_set e g, rs1).

(** /repo/src/sw.rs 312-318 and its use: [debug_assert!(Self::debug_error_check(state))]. *)
Definition debug_error_check (p : profile) (s : sw_state) : outcome unit :=
  match p, s with
  | Debug, (Sw_GError _ | Sw_InvalidAdjecency) => Panic
  | _, _ => Done tt
  end.

(** /repo/src/sw.rs 325-343, [draw_edge]. *)
Definition sw_draw_edge (e : E) (rs : rng) : outcome (nat * nat * rng) :=
  do ' (r, rs') <- gen_range (edge_count (sw_graph e)) rs;
  let v_index := Nat.div r 2 in
  let e_index := Nat.modulo r 2 in
  do c <- container (sw_graph e) v_index;
  do x <- expect (nth_error (filter se_is_root (sc_adj c)) e_index);
  Done (v_index, se_to x, rs').

(** /repo/src/sw.rs 463-487, [randomize]: the body of the loop, and the loop. *)
Definition sw_randomize_vertex (p : profile) (s : E * rng) (i : nat) : outcome (E * rng) :=
  let '(e, rs) := s in
  do c <- vget (vertices (sw_graph e)) i;
  let roots := map se_to (filter se_is_root (sc_adj c)) in
  do first <- expect (nth_error roots 0);
  do second <- expect (nth_error roots 1);
  do _ <- debug_assert p (length roots <=? 2);
  do ' (s1, e1, rs1) <- sw_randomize_edge p e i first rs;
  do _ <- debug_error_check p s1;
  do ' (s2, e2, rs2) <- sw_randomize_edge p e1 i second rs1;
  do _ <- debug_error_check p s2;
  Done (e2, rs2).

Definition sw_randomize (p : profile) (e : E) (rs : rng) : outcome (E * rng) :=
  foldM (sw_randomize_vertex p) (e, rs) (seq 0 (vertex_count (sw_graph e))).

(** /repo/src/sw.rs 214-225, [new]; [mk] is [T::new_from_index]. *)
Definition sw_new (p : profile) (mk : nat -> T) (n : nat) (r_prob : Q) (rs : rng)
  : outcome (E * rng) :=
  do g <- sw_init_ring_2 p (graph_new mk n);
  sw_randomize p (mk_swe g r_prob) rs.

(** /repo/src/sw.rs 234-245, [new_with_distance]; [distance] is not zero in the code. *)
Definition sw_new_with_distance (p : profile) (mk : nat -> T) (n distance : nat) (r_prob : Q)
  (rs : rng) : outcome (result (E * rng) graph_error) :=
  do ' (r, g) <- init_ring p (graph_new mk n) distance;
  match r with
  | Err err => Done (Err err)
  | Ok _ => do x <- sw_randomize p (mk_swe g r_prob) rs; Done (Ok x)
  end.

(** /repo/src/sw.rs 501-504, [m_step]. *)
Definition sw_m_step (p : profile) (e : E) (rs : rng) : outcome (sw_state * E * rng) :=
  do ' (i0, i1, rs1) <- sw_draw_edge e rs;
  sw_randomize_edge p e i0 i1 rs1.

(** /repo/src/sw.rs 514-523, [undo_step]. *)
Definition sw_undo_step (p : profile) (e : E) (step : sw_state) : outcome (sw_state * E) :=
  match step with
  | Sw_Rewire root old_to new_to | Sw_Reset root old_to new_to =>
      do ' (s, g) <- sw_rewire_edge p (sw_graph e) root new_to old_to;
      Done (s, sw_set e g)
  | _ => Done (step, e)
  end.

(** /repo/src/sw.rs 532-547, [undo_step_quiet]. *)
Definition sw_undo_step_quiet (p : profile) (e : E) (step : sw_state) : outcome E :=
  match step with
  | Sw_Rewire root old_to new_to | Sw_Reset root old_to new_to =>
      do ' (s, g) <- sw_rewire_edge p (sw_graph e) root new_to old_to;
      if sw_is_valid s then Done (sw_set e g) else Panic
  | Sw_Nothing | Sw_BlockedByExistingEdge => Done e
  | Sw_InvalidAdjecency | Sw_GError _ => Panic
  end.

(** Minimum of two labels; [None] is the label -1. *)
Definition label_min (a b : option nat) : option nat :=
  match a, b with
  | Some x, Some y => Some (Nat.min x y)
  | _, _ => None
  end.

Definition label_eqb (a b : option nat) : bool :=
  match a, b with
  | Some x, Some y => x =? y
  | None, None => true
  | _, _ => false
  end.

(** /repo/src/sw.rs 262-280: the body of the loop over the vertices.  Indexing with the
    label -1 panics. *)
Definition sw_connect_vertex (p : profile) (n : nat) (ids : list (option nat))
  (s : graph (sw_container T) * list bool) (index : nat)
  : outcome (graph (sw_container T) * list bool) :=
  let '(g, new_connection) := s in
  let next := Nat.modulo (index + 1) n in
  do a <- vget ids index;
  do b <- vget ids next;
  do m <- expect (label_min a b);
  do done <- vget new_connection m;
  if negb done && negb (label_eqb a b) then
    do new_connection' <- vset new_connection m true;
    do c <- vget (vertices g) index;
    do x <- expect (find (fun x => match se_orig x with Some o => o =? next | None => false end)
                         (sc_adj c));
    do ' (_, g') <- sw_reset_edge p g index (se_to x);
    Done (g', new_connection')
  else Done (g, new_connection).

(** /repo/src/sw.rs 255-285, [make_connected]: the [while] loop on fuel. *)
Fixpoint sw_connect (p : profile) (fuel : nat) (g : graph (sw_container T))
  : outcome (graph (sw_container T)) :=
  match fuel with
  | 0 => NoFuel
  | S f =>
      do c <- is_connected g;
      match c with
      | None | Some true => Done g
      | Some false =>
          do ' (num, ids) <- connected_components_ids g;
          do ' (g', _) <- foldM (sw_connect_vertex p (vertex_count g) ids)
                            (g, repeat false num) (seq 0 (vertex_count g));
          sw_connect p f g'
      end
  end.

Definition sw_make_connected (p : profile) (fuel : nat) (e : E) : outcome E :=
  do g <- sw_connect p fuel (sw_graph e);
  Done (sw_set e g).

End Ensemble.
