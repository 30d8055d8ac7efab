(** [GenericGraph]: construction, edges, accessors. *)
From Verif Require Import Base Containers.
Set Implicit Arguments.

(** /repo/src/generic_graph/generic_graph.rs 33-39.  The [PhantomData] field is
    dropped. *)
Record graph (A : Type) := mk_graph {
  next_id : nat;
  edge_count : nat;
  vertices : list A
}.

Section Generic.
Context {T A : Type} {C : AdjContainer T A}.

(** /repo/src/generic_graph/generic_graph.rs 46-58, [new].  [mk] is
    [T::new_from_index]. *)
Definition graph_new (mk : nat -> T) (size : nat) : graph A :=
  mk_graph size 0 (map (fun i => ac_new i (mk i)) (seq 0 size)).

(** The numbering done by [iter().enumerate()]. *)
Fixpoint enumerate_from {X} (k : nat) (l : list X) : list (nat * X) :=
  match l with
  | [] => []
  | x :: t => (k, x) :: enumerate_from (S k) t
  end.
Definition enumerate {X} (l : list X) : list (nat * X) := enumerate_from 0 l.

(** /repo/src/generic_graph/generic_graph.rs 116-129, [from_vec]. *)
Definition from_vec (contained : list T) : graph A :=
  let vs := map (fun it => ac_new (fst it) (snd it)) (enumerate contained) in
  mk_graph (length vs) 0 vs.

(** /repo/src/generic_graph/generic_graph.rs 351-353. *)
Definition vertex_count (g : graph A) : nat := next_id g.

(** /repo/src/generic_graph/generic_graph.rs 139-146, [clear_edges]. *)
Definition clear_edges (g : graph A) : graph A :=
  if edge_count g =? 0 then g
  else mk_graph (next_id g) 0 (map ac_clear_edges (vertices g)).

(** /repo/src/generic_graph/generic_graph.rs 178-182, [sort_adj]. *)
Definition sort_adj (g : graph A) : outcome (graph A) :=
  do vs <- mapM ac_sort_adj (vertices g);
  Done (mk_graph (next_id g) (edge_count g) vs).

(** /repo/src/generic_graph/generic_graph.rs 200-203, [shuffle_adj]; [p] is the
    permutation chosen by the generator. *)
Definition shuffle_adj (g : graph A) (p : list nat) (index : nat) : outcome (graph A) :=
  do c <- vget (vertices g) index;
  do c' <- ac_shuffle_adj p c;
  Done (mk_graph (next_id g) (edge_count g) (upd (vertices g) index c')).

(** /repo/src/generic_graph/generic_graph.rs 187-194, [shuffle_adjs]; [ps i] is
    the permutation chosen for vertex [i]. *)
Definition shuffle_adjs (g : graph A) (ps : nat -> list nat) : outcome (graph A) :=
  do vs <- mapM (fun ic => ac_shuffle_adj (ps (fst ic)) (snd ic)) (enumerate (vertices g));
  Done (mk_graph (next_id g) (edge_count g) vs).

(** /repo/src/generic_graph/generic_graph.rs 208-218, [container] and
    [container_checked]. *)
Definition container (g : graph A) (index : nat) : outcome A := vget (vertices g) index.
Definition container_checked (g : graph A) (index : nat) : option A :=
  nth_error (vertices g) index.

(** /repo/src/generic_graph/generic_graph.rs 329-331 [at] (a keyword-free name)
    and 336-340, 439-444 [at_checked], [get_contained]. *)
Definition at_ (g : graph A) (index : nat) : outcome T :=
  do c <- container g index; Done (ac_contained c).
Definition get_contained (g : graph A) (index : nat) : option T :=
  option_map ac_contained (nth_error (vertices g) index).

(** /repo/src/generic_graph/generic_graph.rs 346-348, [*at_mut(index) = t]. *)
Definition at_mut_set (g : graph A) (index : nat) (t : T) : outcome (graph A) :=
  do c <- container g index;
  Done (mk_graph (next_id g) (edge_count g) (upd (vertices g) index (ac_set_contained c t))).

(** /repo/src/generic_graph/generic_graph.rs 357-359, [average_degree], as the
    pair (numerator, denominator) of the quotient. *)
Definition average_degree (g : graph A) : nat * nat := (2 * edge_count g, vertex_count g).

(** /repo/src/generic_graph/generic_graph.rs 371-402, [get_2_mut].  Without the
    debug assertions an out-of-bounds pointer, or two live mutable references to
    the same element, is undefined behaviour. *)
Definition get_2_mut (p : profile) (g : graph A) (i j : nat) : outcome (A * A) :=
  match p, (i <? next_id g) && (j <? next_id g) && negb (i =? j) with
  | Debug, false => Panic
  | _, _ =>
      match nth_error (vertices g) i, nth_error (vertices g) j with
      | Some a, Some b => if i =? j then UB else Done (a, b)
      | _, _ => UB
      end
  end.

(** Write the two containers obtained from [get_2_mut] back. *)
Definition put_2 (vs : list A) (i j : nat) (a b : A) : list A := upd (upd vs i a) j b.

(** /repo/src/generic_graph/generic_graph.rs 487-492, [add_edge]. *)
Definition add_edge (p : profile) (g : graph A) (i j : nat)
  : outcome (result unit graph_error * graph A) :=
  do ' (r1, r2) <- get_2_mut p g i j;
  do r <- ac_push r1 r2;
  match r with
  | Err e => Done (Err e, g)
  | Ok (r1', r2') =>
      Done (Ok tt, mk_graph (next_id g) (edge_count g + 1) (put_2 (vertices g) i j r1' r2'))
  end.

(** /repo/src/generic_graph/generic_graph.rs 503-508, [remove_edge]. *)
Definition remove_edge (p : profile) (g : graph A) (i j : nat)
  : outcome (result unit graph_error * graph A) :=
  do ' (r1, r2) <- get_2_mut p g i j;
  do r <- ac_remove r1 r2;
  match r with
  | Err e => Done (Err e, g)
  | Ok (r1', r2') =>
      do ec <- usub p (edge_count g) 1;
      Done (Ok tt, mk_graph (next_id g) ec (put_2 (vertices g) i j r1' r2'))
  end.

(** Repeated [self.add_edge(i, j)?]: stops at the first error. *)
Fixpoint add_edges_try (p : profile) (g : graph A) (l : list (nat * nat))
  : outcome (result unit graph_error * graph A) :=
  match l with
  | [] => Done (Ok tt, g)
  | (i, j) :: t =>
      do ' (r, g') <- add_edge p g i j;
      match r with
      | Err e => Done (Err e, g')
      | Ok _ => add_edges_try p g' t
      end
  end.

(** /repo/src/generic_graph/generic_graph.rs 151-169, [init_ring]: the pairs
    visited by the two nested loops, and the loop. *)
Definition ring_pairs (n distance : nat) : list (nat * nat) :=
  flat_map (fun i =>
    map (fun add => let sum := i + add in (i, if n <=? sum then sum - n else sum))
        (seq 1 distance))
    (seq 0 n).

Definition init_ring (p : profile) (g : graph A) (distance : nat)
  : outcome (result unit graph_error * graph A) :=
  let g0 := clear_edges g in
  add_edges_try p g0 (ring_pairs (vertex_count g0) distance).

(** /repo/src/generic_graph/generic_graph.rs 517-524, 528-543, 935-940:
    [degree], [degree_iter]/[degree_vec], [leaf_count]. *)
Definition degree (g : graph A) (index : nat) : option nat :=
  option_map ac_degree (nth_error (vertices g) index).
Definition degree_vec (g : graph A) : list nat := map ac_degree (vertices g).
Definition leaf_count (g : graph A) : nat :=
  length (filter (fun a => ac_degree a =? 1) (vertices g)).

(** /repo/src/generic_graph/generic_graph.rs 549-587, [degree_histogram].  The
    external type [HistUsizeFast] is its lower border and its list of counters,
    [count_val] adds one to the counter of a value inside the borders. *)
Definition hist_count (lo : nat) (h : list nat) (v : nat) : outcome (list nat) :=
  if v <? lo then Panic
  else do c <- vget h (v - lo); vset h (v - lo) (c + 1).

Definition degree_histogram (g : graph A) : outcome (nat * list nat) :=
  match degree_vec g with
  | [] => Panic
  | first :: rest =>
      let '(lo, hi) :=
        fold_left (fun '(lo, hi) v =>
          if v <? lo then (v, hi) else if hi <? v then (lo, v) else (lo, hi))
          rest (first, first) in
      do h <- foldM (hist_count lo) (repeat 0 (hi + 1 - lo)) (degree_vec g);
      Done (lo, h)
  end.

(** /repo/src/generic_graph/generic_graph.rs 63-87, [clone_topology]; [f] is
    the argument [map]. *)
Definition clone_topology {T2} (f : T -> T2) (g : graph A) : graph (node_container T2) :=
  let nodes := map (fun ic => mk_nc (fst ic) (ac_neighbors (snd ic)) (f (ac_contained (snd ic))))
                   (enumerate (vertices g)) in
  mk_graph (length nodes) (edge_count g) nodes.

(** /repo/src/graph.rs 370-391, [Graph::from(&GenericGraph)].  [clone] of the
    payload is the identity. *)
Definition graph_from (g : graph A) : graph (node_container T) :=
  mk_graph (next_id g) (edge_count g)
    (map (fun c => mk_nc (ac_id c) (ac_neighbors c) (ac_contained c)) (vertices g)).

End Generic.

(** ** Functions of [Graph<T> = GenericGraph<T, NodeContainer<T>>] *)

(** /repo/src/graph.rs 311-326, [FromIterator]. *)
Definition from_iter {T} (l : list T) : graph (node_container T) :=
  let vs := map (fun it => mk_nc (fst it) [] (snd it)) (enumerate l) in
  mk_graph (length vs) 0 vs.

(** /repo/src/graph.rs 332-356, [complete_graph].  For [n = 0] the expression
    [n*(n - 1) / 2] underflows: panic in debug; in release [n - 1] wraps and is
    multiplied by 0. *)
Definition complete_graph {T} (p : profile) (mk : nat -> T) (n : nat)
  : outcome (graph (node_container T)) :=
  let vs := map (fun i => mk_nc i (seq 0 i ++ seq (i + 1) (n - (i + 1))) (mk i)) (seq 0 n) in
  match n, p with
  | 0, Debug => Panic
  | 0, Release => Done (mk_graph 0 0 vs)
  | _, _ => Done (mk_graph n (Nat.div (n * (n - 1)) 2) vs)
  end.

(** /repo/src/graph.rs 358-367, [reset_from_graph]. *)
Definition reset_from_graph {T} (g other : graph (node_container T))
  : outcome (graph (node_container T)) :=
  if vertex_count other <=? vertex_count g then
    let g0 := clear_edges g in
    do vs <- foldM (fun vs i =>
               do c <- vget vs i;
               do o <- vget (vertices other) i;
               Done (upd vs i (mk_nc (nc_id c) (nc_adj c ++ nc_adj o) (nc_node c))))
               (vertices g0) (seq 0 (vertex_count other));
    Done (mk_graph (next_id g0) (edge_count other) vs)
  else Panic.
