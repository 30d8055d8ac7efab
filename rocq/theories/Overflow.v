(** Integers of limited size.  The other files have [usize] and [isize] values without a
    bound; here sums and products that do not fit panic in [Debug] and wrap in [Release]. *)
From Verif Require Import Base Containers Graph Traversal Components Transitivity Rng ErC ErM Ws Config.
From Coq Require Import ZArith QArith.
Set Implicit Arguments.
Local Open Scope nat_scope.

(** [a + b] and [a * b] on [usize]. *)
Definition ufit (p : profile) (x : nat) : outcome nat :=
  if x <? usize_modulus tt then Done x
  else match p with
       | Debug => Panic
       | Release => Done (Nat.modulo x (usize_modulus tt))
       end.
Definition uadd (p : profile) (a b : nat) : outcome nat := ufit p (a + b).
Definition umul (p : profile) (a b : nat) : outcome nat := ufit p (a * b).

(** [a + 1] on a signed integer with [w] bits besides the sign: [i32] is 31, [isize] 63. *)
Definition isucc (w : Z) (p : profile) (a : Z) : outcome Z :=
  if (a + 1 <? 2 ^ w)%Z then Done (a + 1)%Z
  else match p with
       | Debug => Panic
       | Release => Done (- 2 ^ w)%Z
       end.

Section Generic.
Context {T A : Type} {C : AdjContainer T A}.

(** /repo/src/generic_graph/generic_graph.rs 487-492, [add_edge]. *)
Definition add_edge_usize (p : profile) (g : graph A) (i j : nat)
  : outcome (result unit graph_error * graph A) :=
  do ' (r1, r2) <- get_2_mut p g i j;
  do r <- ac_push r1 r2;
  match r with
  | Err e => Done (Err e, g)
  | Ok (r1', r2') =>
      do ec <- uadd p (edge_count g) 1;
      Done (Ok tt, mk_graph (next_id g) ec (put_2 (vertices g) i j r1' r2'))
  end.

(** /repo/src/generic_graph/generic_graph.rs 151-169, [init_ring]: the two nested loops
    visit [ring_steps]. *)
Definition ring_steps (n distance : nat) : list (nat * nat) :=
  flat_map (fun i => map (pair i) (seq 1 distance)) (seq 0 n).
Fixpoint ring_try (p : profile) (n : nat) (g : graph A) (l : list (nat * nat))
  : outcome (result unit graph_error * graph A) :=
  match l with
  | [] => Done (Ok tt, g)
  | (i, add) :: t =>
      do sum <- uadd p i add;
      let index2 := if n <=? sum then sum - n else sum in
      do ' (r, g') <- add_edge_usize p g i index2;
      match r with
      | Err e => Done (Err e, g')
      | Ok _ => ring_try p n g' t
      end
  end.
Definition init_ring_usize (p : profile) (g : graph A) (distance : nat)
  : outcome (result unit graph_error * graph A) :=
  let g0 := clear_edges g in
  ring_try p (vertex_count g0) g0 (ring_steps (vertex_count g0) distance).

(** /repo/src/generic_graph/generic_graph.rs 357-359, [average_degree]: numerator and
    denominator. *)
Definition average_degree_usize (p : profile) (g : graph A) : outcome (nat * nat) :=
  do a <- umul p 2 (edge_count g);
  Done (a, vertex_count g).

(** /repo/src/generic_graph/generic_graph.rs 1414-1439, [transitivity]: the two counters. *)
Definition transitivity_inner_usize (p : profile) (g : graph A) (source : nat) (acc : nat * nat) (n2 : nat)
  : outcome (nat * nat) :=
  let (closed, paths) := acc in
  do c <- container g n2;
  do closed' <- (if ac_is_adjacent c source then uadd p closed 1 else Done closed);
  do paths' <- uadd p paths 1;
  Done (closed', paths').
Definition transitivity_middle_usize (p : profile) (g : graph A) (source : nat) (acc : nat * nat) (n1 : nat)
  : outcome (nat * nat) :=
  do c <- container g n1;
  foldM (transitivity_inner_usize p g source) acc (filter (fun i => negb (i =? source)) (ac_neighbors c)).
Definition transitivity_usize (p : profile) (g : graph A) : outcome (nat * nat) :=
  foldM (fun (acc : nat * nat) (source : nat) =>
           do c <- container g source;
           foldM (transitivity_middle_usize p g source) acc (ac_neighbors c))
        (0, 0) (seq 0 (vertex_count g)).

(** /repo/src/generic_graph/generic_graph.rs 1387-1403, [closeness_centrality].  The depths
    are those of [Bfs], which are less than the number of vertices. *)
Definition closeness_add_usize (p : profile) (c : list nat) (item : nat * T * nat) : outcome (list nat) :=
  let '(index, _, depth) := item in
  do old <- vget c index;
  do new <- uadd p old depth;
  vset c index new.
Definition closeness_pass_usize (p : profile) (g : graph A) (acc : list nat * bfs) (i : nat)
  : outcome (list nat * bfs) :=
  let (count, b) := acc in
  do b1 <- bfs_reuse g b i;
  do ' (items, b2) <- drain_by_ref (bfs_next g) (S (vertex_count g)) b1;
  do count' <- foldM (closeness_add_usize p) count items;
  Done (count', b2).
Definition closeness_usize (p : profile) (g : graph A) : outcome (list (nat * nat)) :=
  do ' (count, _) <- foldM (closeness_pass_usize p g) (repeat 0 (vertex_count g), bfs_new g 0)
                           (seq 0 (vertex_count g));
  do val <- usub p (vertex_count g) 1;
  Done (map (fun c => (val, c)) count).

(** /repo/src/generic_graph/generic_graph.rs 855-878, [connected_components_ids], with [w] = 63,
    and 912-932, [suggest_connections], with [w] = 31: the ids with the value -1 for none. *)
Definition label_component_int (g : graph A) (ids : list Z) (i : nat) (cur : Z) : outcome (list Z) :=
  do items <- dfs_index_all g i;
  foldM (fun (c : list Z) (jt : nat * T) => vset c (fst jt) cur) ids items.
Definition suggest_pass_int (w : Z) (p : profile) (g : graph A) (acc : list nat * list Z * Z) (i : nat)
  : outcome (list nat * list Z * Z) :=
  let '(sugg, ids, cur) := acc in
  do c <- vget ids i;
  if (c =? -1)%Z then
    do ids' <- label_component_int g ids i cur;
    do cur' <- isucc w p cur;
    Done (sugg ++ [i], ids', cur')
  else Done (sugg, ids, cur).
Definition suggest_connections_i32 (p : profile) (g : graph A) : outcome (list nat) :=
  do ' (sugg, _, _) <- foldM (suggest_pass_int 31 p g) ([], repeat (-1)%Z (vertex_count g), 0%Z)
                             (seq 0 (vertex_count g));
  Done sugg.
Definition ids_pass_int (w : Z) (p : profile) (g : graph A) (acc : list Z * Z) (i : nat)
  : outcome (list Z * Z) :=
  let (ids, cur) := acc in
  do c <- vget ids i;
  if (c =? -1)%Z then
    do ids' <- label_component_int g ids i cur;
    do cur' <- isucc w p cur;
    Done (ids', cur')
  else Done (ids, cur).
Definition connected_components_ids_isize (p : profile) (g : graph A) : outcome (nat * list Z) :=
  do ' (ids, cur) <- foldM (ids_pass_int 63 p g) (repeat (-1)%Z (vertex_count g), 0%Z) (seq 0 (vertex_count g));
  if (cur <? 0)%Z then Panic else Done (Z.to_nat cur, ids).

End Generic.

Section Ensembles.
Context {T : Type}.

(** /repo/src/watts_strogatz/ensemble.rs 224-267, [randomize]. *)
Definition ws_randomize_usize (p : profile) (e : ws_ensemble T) (rs : rng)
  : outcome (ws_ensemble T * rng) :=
  do ' (r, g) <- init_ring_usize p (ws_graph e) (ws_distance e);
  do _ <- unwrap r;
  do ' (g', rs') <- foldM (ws_randomize_vertex p (ws_rewire_prob e)) (g, rs)
                          (seq 0 (vertex_count g));
  Done (mk_wse g' (ws_rewire_prob e) (ws_distance e), rs').

(** /repo/src/watts_strogatz/ensemble.rs 101-129, [new]; [d] is not zero in the code. *)
Definition ws_new_usize (p : profile) (mk : nat -> T) (n d : nat) (q : Q) (rs : rng)
  : outcome (result (ws_ensemble T * rng) ws_error) :=
  do d2 <- umul p 2 d;
  do minimum_n <- uadd p 1 d2;
  if n <? minimum_n then Done (Err ImpossibleRingRequest)
  else
    do ' (r, g) <- init_ring_usize p (graph_new mk n) d;
    match r with
    | Err _ => Done (Err ImpossibleEdgeRequest)
    | Ok _ => do x <- ws_randomize_usize p (mk_wse g q d) rs; Done (Ok x)
    end.

(** /repo/src/er_m.rs 245-278, [new].  The edges are counted by [push] and [add_edge] in
    [randomize], see [add_edge_usize]. *)
Definition erm_new_usize (p : profile) (mk : nat -> T) (n m : nat) (rs : rng)
  : outcome (er_m T * rng) :=
  do k <- usub p n 1;
  do nk <- umul p n k;
  let p_edges := Nat.div nk 2 in
  if m <=? p_edges then
    erm_randomize p (mk_erm (graph_new mk n) m (er_pairs n)
      (repeat (0, 0) (p_edges - m)) (repeat (0, 0) m)) rs
  else Panic.

(** /repo/src/configuration_model.rs 144-160, [degree_vec_is_valid]. *)
Definition degree_vec_is_valid_usize (p : profile) (v : list nat) : outcome bool :=
  if length v <=? 1 then Done false
  else if negb (forallb (fun d => d <? length v - 1) v) then Done false
  else do sum <- foldM (uadd p) 0 v; Done (Nat.even sum).

(** /repo/src/configuration_model.rs 112-120, [from_vec]. *)
Definition cm_from_vec_usize (p : profile) (mk : nat -> T) (v : list nat) (rs : rng)
  : outcome (option (config T * rng)) :=
  do b <- degree_vec_is_valid_usize p v;
  if b : bool then do x <- cm_from_vec_unchecked p mk v rs; Done (Some x)
  else Done None.

(** /repo/src/configuration_model.rs 62-74, [from_const]; [||] does not evaluate the
    product if the first condition holds. *)
Definition cm_from_const_usize (p : profile) (mk : nat -> T) (constant size : nat) (rs : rng)
  : outcome (option (config T * rng)) :=
  do s <- usub p size 1;
  if s <=? constant then Done None
  else
    do sc <- umul p size constant;
    if negb (Nat.even sc) then Done None
    else do x <- cm_from_vec_unchecked p mk (repeat constant size) rs; Done (Some x).

End Ensembles.
