(** Two graphs joined by cross edges. *)
From Verif Require Import Base Containers Graph Traversal.
Set Implicit Arguments.

(** /repo/src/dual_graph/dual_graph.rs 273-280, [WhichGraph]. *)
Inductive which (X : Type) := Graph1 (x : X) | Graph2 (x : X).
Arguments Graph1 {X} x.
Arguments Graph2 {X} x.

(** /repo/src/dual_graph/dual_graph.rs 282-314: [deref], [into_inner]. *)
Definition into_inner {X} (w : which X) : X :=
  match w with Graph1 x => x | Graph2 x => x end.

(** /repo/src/dual_graph/dual_graph.rs 750, [DualIndex]. *)
Notation dual_index := (which nat).

(** /repo/src/dual_graph/dual_graph.rs 675-683, [AdjTrait]. *)
Class AdjTrait (J : Type) := {
  at_new : J;
  at_is_adjacent : J -> nat -> bool;
  at_add_edge : J -> nat -> J * bool;
  at_slice : J -> list nat
}.

(** /repo/src/dual_graph/dual_graph.rs 640-673, [Adj]: any number of cross edges. *)
Record adj_multi := mk_multi { multi_adj : list nat }.

Definition multi_is_adjacent (a : adj_multi) (j : nat) : bool :=
  existsb (Nat.eqb j) (multi_adj a).

Definition multi_add_edge (a : adj_multi) (j : nat) : adj_multi * bool :=
  if multi_is_adjacent a j then (a, false) else (mk_multi (multi_adj a ++ [j]), true).

#[export] Instance adj_multi_trait : AdjTrait adj_multi := {|
  at_new := mk_multi [];
  at_is_adjacent := multi_is_adjacent;
  at_add_edge := multi_add_edge;
  at_slice := multi_adj
|}.

(** /repo/src/dual_graph/dual_graph.rs 685-746, [AdjSingle]: at most one cross edge. *)
Inductive adj_single := Nothing | Something (j : nat).

Definition is_nothing (a : adj_single) : bool :=
  match a with Nothing => true | Something _ => false end.

Definition single_is_adjacent (a : adj_single) (j : nat) : bool :=
  match a with Something s => s =? j | Nothing => false end.

Definition single_add_edge (a : adj_single) (j : nat) : adj_single * bool :=
  if is_nothing a then (Something j, true) else (a, false).

#[export] Instance adj_single_trait : AdjTrait adj_single := {|
  at_new := Nothing;
  at_is_adjacent := single_is_adjacent;
  at_add_edge := single_add_edge;
  at_slice := fun a => match a with Nothing => [] | Something j => [j] end
|}.

(** /repo/src/dual_graph/dual_graph.rs 752-756, [AddEdgeError]. *)
Inductive add_edge_error := IndexOutOfBounds | EdgeExists.

(** /repo/src/dual_graph/dual_graph.rs 18-26, [DualGraph]. *)
Record dual (J A1 A2 : Type) := mk_dual {
  graph_1 : graph A1; graph_2 : graph A2; adj_1 : list J; adj_2 : list J
}.

Section Dual.
Context {J T1 A1 T2 A2 : Type} {AT : AdjTrait J}.
Context {C1 : AdjContainer T1 A1} {C2 : AdjContainer T2 A2}.

(** /repo/src/dual_graph/dual_graph.rs 30-49, [new]. *)
Definition dual_new (g1 : graph A1) (g2 : graph A2) : dual J A1 A2 :=
  mk_dual g1 g2 (repeat at_new (length (vertices g1))) (repeat at_new (length (vertices g2))).

(** /repo/src/dual_graph/dual_graph.rs 61-69: assigning through [graph_1_mut] and
    [graph_2_mut]. *)
Definition graph_1_mut_set (d : dual J A1 A2) (g : graph A1) : dual J A1 A2 :=
  mk_dual g (graph_2 d) (adj_1 d) (adj_2 d).
Definition graph_2_mut_set (d : dual J A1 A2) (g : graph A2) : dual J A1 A2 :=
  mk_dual (graph_1 d) g (adj_1 d) (adj_2 d).

(** /repo/src/dual_graph/dual_graph.rs 81-87, [size]. *)
Definition dual_size (d : dual J A1 A2) : nat * nat :=
  (length (vertices (graph_1 d)), length (vertices (graph_2 d))).

(** /repo/src/dual_graph/dual_graph.rs 118-121, [total_vertices]. *)
Definition total_vertices (d : dual J A1 A2) : nat :=
  length (vertices (graph_1 d)) + length (vertices (graph_2 d)).

(** /repo/src/dual_graph/dual_graph.rs 89-116, [add_edge].  The indices were checked, so
    [get_unchecked_mut] is [nth_error].  Simplification: the state after the panic of
    [unreachable!()] (with the first half of the edge already stored) is not
    returned. *)
Definition dual_add_edge (d : dual J A1 A2) (i j : nat)
  : outcome (result unit add_edge_error * dual J A1 A2) :=
  if (length (adj_1 d) <=? i) || (length (adj_2 d) <=? j) then Done (Err IndexOutOfBounds, d)
  else
    match nth_error (adj_1 d) i with
    | None => UB
    | Some a =>
        let (a', ok) := at_add_edge a j in
        if negb ok then
          Done (Err EdgeExists, mk_dual (graph_1 d) (graph_2 d) (upd (adj_1 d) i a') (adj_2 d))
        else
          match nth_error (adj_2 d) j with
          | None => UB
          | Some b =>
              let (b', ok') := at_add_edge b i in
              if negb ok' then Panic
              else Done (Ok tt, mk_dual (graph_1 d) (graph_2 d)
                                  (upd (adj_1 d) i a') (upd (adj_2 d) j b'))
          end
    end.

(** /repo/src/dual_graph/dual_graph.rs 129-144: [degree_1], [degree_2]. *)
Definition degree_1 (d : dual J A1 A2) (index : nat) : outcome nat :=
  do c <- container (graph_1 d) index;
  do a <- vget (adj_1 d) index;
  Done (ac_degree c + length (at_slice a)).
Definition degree_2 (d : dual J A1 A2) (index : nat) : outcome nat :=
  do c <- container (graph_2 d) index;
  do a <- vget (adj_2 d) index;
  Done (ac_degree c + length (at_slice a)).

(** ** Depth first *)

(** The two vectors of flags of the iterators. *)
Notation marks := (list bool * list bool)%type.

Definition flag (m : marks) (v : dual_index) : outcome bool :=
  match v with Graph1 i => vget (fst m) i | Graph2 i => vget (snd m) i end.
Definition set_flag (b : bool) (m : marks) (v : dual_index) : outcome marks :=
  match v with
  | Graph1 i => do h <- vset (fst m) i b; Done (h, snd m)
  | Graph2 i => do h <- vset (snd m) i b; Done (fst m, h)
  end.

(** The two loops over the neighbours of [index], first those in the same graph and
    then those in the other graph, for a way of marking vertices; the vertices pushed,
    in this order. *)
Definition dual_loops (marked : marks -> dual_index -> outcome bool)
  (mark : marks -> dual_index -> outcome marks) (d : dual J A1 A2) (m : marks)
  (index : dual_index) : outcome (marks * list dual_index) :=
  match index with
  | Graph1 idx =>
      do c <- vget (vertices (graph_1 d)) idx;
      do ' (m1, new1) <- mark_new marked mark m (map Graph1 (ac_neighbors c));
      do a <- vget (adj_1 d) idx;
      do ' (m2, new2) <- mark_new marked mark m1 (map Graph2 (at_slice a));
      Done (m2, new1 ++ new2)
  | Graph2 idx =>
      do c <- vget (vertices (graph_2 d)) idx;
      do ' (m1, new1) <- mark_new marked mark m (map Graph2 (ac_neighbors c));
      do a <- vget (adj_2 d) idx;
      do ' (m2, new2) <- mark_new marked mark m1 (map Graph1 (at_slice a));
      Done (m2, new1 ++ new2)
  end.

(** /repo/src/dual_graph/dual_graph_iterators.rs 10-21, 111-121: fields of
    [DfsDualIndex], [DfsDualContained]; top of the stack first. *)
Record ddfs := mk_ddfs { ddfs_handled : marks; ddfs_stack : list dual_index }.

(** /repo/src/dual_graph/dual_graph_iterators.rs 24-58, 124-157: [new]. *)
Definition ddfs_new (d : dual J A1 A2) (index : dual_index) : ddfs :=
  let h1 := repeat false (length (vertices (graph_1 d))) in
  let h2 := repeat false (length (vertices (graph_2 d))) in
  match index with
  | Graph1 idx => if idx <? length h1 then mk_ddfs (upd h1 idx true, h2) [index]
                  else mk_ddfs (h1, h2) []
  | Graph2 idx => if idx <? length h2 then mk_ddfs (h1, upd h2 idx true) [index]
                  else mk_ddfs (h1, h2) []
  end.

(** /repo/src/dual_graph/dual_graph_iterators.rs 68-107, [DfsDualIndex::next]. *)
Definition ddfs_next (d : dual J A1 A2) (s : ddfs) : outcome (option (dual_index * ddfs)) :=
  match ddfs_stack s with
  | [] => Done None
  | index :: rest =>
      do ' (h, new) <- dual_loops flag (set_flag true) d (ddfs_handled s) index;
      Done (Some (index, mk_ddfs h (rev new ++ rest)))
  end.

(** /repo/src/dual_graph/dual_graph.rs 152-177: [dfs_index], [dfs_1_index],
    [dfs_2_index], iterated to the end. *)
Definition dual_dfs_index (d : dual J A1 A2) (index : dual_index) : outcome (list dual_index) :=
  drain (ddfs_next d) (S (total_vertices d)) (ddfs_new d index).
Definition dual_dfs_1_index (d : dual J A1 A2) (index : nat) := dual_dfs_index d (Graph1 index).
Definition dual_dfs_2_index (d : dual J A1 A2) (index : nat) := dual_dfs_index d (Graph2 index).

(** ** Breadth first *)

(** /repo/src/dual_graph/dual_graph_iterators.rs 266-279: fields of [BfsDualIndex]; the
    flags say which vertices are {e not} handled. *)
Record dbfs := mk_dbfs {
  dbfs_todo : marks; dbfs_q0 : list dual_index; dbfs_q1 : list dual_index; dbfs_depth : nat
}.

(** /repo/src/dual_graph/dual_graph_iterators.rs 283-321, [new]. *)
Definition dbfs_new (d : dual J A1 A2) (index : dual_index) : dbfs :=
  let h1 := repeat true (length (vertices (graph_1 d))) in
  let h2 := repeat true (length (vertices (graph_2 d))) in
  match index with
  | Graph1 i => if i <? length (vertices (graph_1 d)) then mk_dbfs (upd h1 i false, h2) [index] [] 0
                else mk_dbfs (h1, h2) [] [] 0
  | Graph2 i => if i <? length (vertices (graph_2 d)) then mk_dbfs (h1, upd h2 i false) [index] [] 0
                else mk_dbfs (h1, h2) [] [] 0
  end.

(** /repo/src/dual_graph/dual_graph_iterators.rs 323-345, [reuse]. *)
Definition dbfs_reuse (d : dual J A1 A2) (s : dbfs) (index : dual_index) : outcome dbfs :=
  let h1 := map (fun _ => true) (fst (dbfs_todo s)) in
  let h2 := map (fun _ => true) (snd (dbfs_todo s)) in
  match index with
  | Graph1 i => if i <? length (vertices (graph_1 d))
                then do h <- vset h1 i false; Done (mk_dbfs (h, h2) [index] [] 0)
                else Done (mk_dbfs (h1, h2) [] [] 0)
  | Graph2 i => if i <? length (vertices (graph_2 d))
                then do h <- vset h2 i false; Done (mk_dbfs (h1, h) [index] [] 0)
                else Done (mk_dbfs (h1, h2) [] [] 0)
  end.

(** /repo/src/dual_graph/dual_graph_iterators.rs 356-399, [next]; the recursive call
    after the swap is merged as in [bfs_next]. *)
Definition dbfs_visit (d : dual J A1 A2) (h : marks) (index : dual_index)
  (q0 q1 : list dual_index) (depth : nat) : outcome (option ((dual_index * nat) * dbfs)) :=
  do ' (h', new) <- dual_loops (fun m v => do b <- flag m v; Done (negb b)) (set_flag false) d h index;
  Done (Some ((index, depth), mk_dbfs h' q0 (q1 ++ new) depth)).

Definition dbfs_next (d : dual J A1 A2) (s : dbfs) : outcome (option ((dual_index * nat) * dbfs)) :=
  match dbfs_q0 s with
  | index :: q0 => dbfs_visit d (dbfs_todo s) index q0 (dbfs_q1 s) (dbfs_depth s)
  | [] =>
      match dbfs_q1 s with
      | [] => Done None
      | index :: q0 => dbfs_visit d (dbfs_todo s) index q0 [] (S (dbfs_depth s))
      end
  end.

(** /repo/src/dual_graph/dual_graph.rs 179-182, [bfs_index], iterated to the end. *)
Definition dual_bfs_index (d : dual J A1 A2) (index : dual_index)
  : outcome (list (dual_index * nat)) :=
  drain (dbfs_next d) (S (total_vertices d)) (dbfs_new d index).

(** /repo/src/dual_graph/dual_graph.rs 184-205, [is_connected]. *)
Definition dual_is_connected (d : dual J A1 A2) : outcome bool :=
  let v1 := vertex_count (graph_1 d) =? 0 in
  let v2 := vertex_count (graph_2 d) =? 0 in
  if v1 && v2 then Done true
  else if v1 && negb v2 then
    do r <- is_connected (graph_2 d);
    match r with Some b => Done b | None => UB end
  else if negb v1 && v2 then
    do r <- is_connected (graph_1 d);
    match r with Some b => Done b | None => UB end
  else do l <- dual_dfs_1_index d 0; Done (length l =? total_vertices d).

(** /repo/src/dual_graph/dual_graph.rs 209-267, [diameter]. *)
Definition dual_diameter_pass (p : profile) (d : dual J A1 A2) (acc : nat * dbfs)
  (index : dual_index) : outcome (nat * dbfs) :=
  let (max_depth, b) := acc in
  do b1 <- dbfs_reuse d b index;
  do ' (items, b2) <- drain_by_ref (dbfs_next d) (S (total_vertices d)) b1;
  match rev items with
  | (_, depth) :: _ => Done (Nat.max max_depth depth, b2)
  | [] => match p with Debug => Panic | Release => UB end
  end.

Definition dual_diameter (p : profile) (d : dual J A1 A2) : outcome (option nat) :=
  let search :=
    do s1 <- foldM (dual_diameter_pass p d) (0, dbfs_new d (Graph1 0))
                   (map Graph1 (seq 0 (vertex_count (graph_1 d))));
    do ' (max_depth, _) <- foldM (dual_diameter_pass p d) s1
                             (map Graph2 (seq 1 (vertex_count (graph_2 d) - 1)));
    Done (Some max_depth) in
  if total_vertices d =? 0 then Done None
  else
    do c <- dual_is_connected d;
    if negb c then Done None else search.

End Dual.

(** ** Both graphs with the same payload *)

Section Contained.
Context {J T A1 A2 : Type} {AT : AdjTrait J}.
Context {C1 : AdjContainer T A1} {C2 : AdjContainer T A2}.

(** /repo/src/dual_graph/dual_graph_iterators.rs 168-209, [DfsDualContained::next]. *)
Definition ddfs_contained_next (d : dual J A1 A2) (s : ddfs) : outcome (option (T * ddfs)) :=
  match ddfs_stack s with
  | [] => Done None
  | index :: rest =>
      do ' (h, new) <- dual_loops flag (set_flag true) d (ddfs_handled s) index;
      do t <- match index with
              | Graph1 idx => at_ (graph_1 d) idx
              | Graph2 idx => at_ (graph_2 d) idx
              end;
      Done (Some (t, mk_ddfs h (rev new ++ rest)))
  end.

(** /repo/src/dual_graph/dual_graph.rs 624-637: [dfs_contained], [dfs_1_contained],
    [dfs_2_contained], iterated to the end. *)
Definition dual_dfs_contained (d : dual J A1 A2) (index : dual_index) : outcome (list T) :=
  drain (ddfs_contained_next d) (S (total_vertices d)) (ddfs_new d index).
Definition dual_dfs_1_contained (d : dual J A1 A2) (index : nat) := dual_dfs_contained d (Graph1 index).
Definition dual_dfs_2_contained (d : dual J A1 A2) (index : nat) := dual_dfs_contained d (Graph2 index).

(** /repo/src/dual_graph/dual_graph.rs 596-622: [contained_iter_neighbors_1] and
    [contained_iter_neighbors_2], iterated to the end: the neighbours in the same
    graph, then [NContainedIter2] (dual_graph_iterators.rs 212-264). *)
Definition contained_iter_neighbors_1 (d : dual J A1 A2) (index : nat) : outcome (list T) :=
  do c <- container (graph_1 d) index;
  do a <- vget (adj_1 d) index;
  do own <- mapM (at_ (graph_1 d)) (ac_neighbors c);
  do other <- mapM (at_ (graph_2 d)) (at_slice a);
  Done (own ++ other).
Definition contained_iter_neighbors_2 (d : dual J A1 A2) (index : nat) : outcome (list T) :=
  do c <- container (graph_2 d) index;
  do a <- vget (adj_2 d) index;
  do own <- mapM (at_ (graph_2 d)) (ac_neighbors c);
  do other <- mapM (at_ (graph_1 d)) (at_slice a);
  Done (own ++ other).

End Contained.

Section Single.
Context {T A1 A2 : Type}.
Context {C1 : AdjContainer T A1} {C2 : AdjContainer T A2}.
Notation sdual := (dual adj_single A1 A2).

(** The container at a raw pointer offset behind a [debug_assert!]. *)
Definition raw_container {A} (p : profile) (g : graph A) (index : nat) : outcome A :=
  match nth_error (vertices g) index with
  | Some c => Done c
  | None => match p with Debug => Panic | Release => UB end
  end.

(** The only cross neighbour, [slice[0]], if there is one. *)
Definition first_of {X} (f : nat -> outcome X) (a : adj_single) : outcome (list X) :=
  match at_slice a with
  | [] => Done []
  | j :: _ => do x <- f j; Done [x]
  end.

(** /repo/src/dual_graph/dual_graph.rs 371-402, 404-435: [graph_1_contained_iter] and
    [graph_2_contained_iter], iterated to the end.  [edges] of the containers that are
    allowed here is [ac_neighbors]. *)
Definition graph_1_contained_iter (p : profile) (d : sdual) (index : nat) : outcome (list T) :=
  do c <- raw_container p (graph_1 d) index;
  do a <- vget (adj_1 d) index;
  do other <- first_of (at_ (graph_2 d)) a;
  do own <- mapM (at_ (graph_1 d)) (ac_neighbors c);
  Done (own ++ other).
Definition graph_2_contained_iter (p : profile) (d : sdual) (index : nat) : outcome (list T) :=
  do c <- raw_container p (graph_2 d) index;
  do a <- vget (adj_2 d) index;
  do other <- first_of (at_ (graph_1 d)) a;
  do own <- mapM (at_ (graph_2 d)) (ac_neighbors c);
  Done (own ++ other).

(** A mutable reference to the payload of a vertex, reached through a raw pointer as in
    [NContainedIterMut::next] (/repo/src/iter.rs 524-535). *)
Definition raw_at {A} {C : AdjContainer T A} (p : profile) (g : graph A) (i : nat) : outcome T :=
  do c <- raw_container p g i; Done (ac_contained c).

(** /repo/src/dual_graph/dual_graph.rs 320-336:
    [graph_1_contained_iter_neighbors_in_other_graph_mut] and its mirror image: the
    payloads that the references point to, with the indices of the vertices. *)
Definition graph_1_other_mut (p : profile) (d : sdual) (index : nat) : outcome (list (nat * T)) :=
  do a <- vget (adj_1 d) index;
  mapM (fun j => do t <- raw_at p (graph_2 d) j; Done (j, t)) (at_slice a).
Definition graph_2_other_mut (p : profile) (d : sdual) (index : nat) : outcome (list (nat * T)) :=
  do a <- vget (adj_2 d) index;
  mapM (fun j => do t <- raw_at p (graph_1 d) j; Done (j, t)) (at_slice a).

(** /repo/src/dual_graph/dual_graph.rs 437-468 and 533-568:
    [graph_1_contained_iter_mut_which_graph_with_index] and its mirror image (with an
    [assert!] in place of the [debug_assert!]). *)
Definition graph_1_mut_with_index (p : profile) (d : sdual) (index : nat)
  : outcome (list (which (nat * T))) :=
  do c <- vget (vertices (graph_1 d)) index;
  do a <- vget (adj_1 d) index;
  do other <- first_of (fun j => do t <- at_ (graph_2 d) j; Done (Graph2 (j, t))) a;
  do own <- mapM (raw_at p (graph_1 d)) (ac_neighbors c);
  Done (map Graph1 (combine (ac_neighbors c) own) ++ other).
Definition graph_2_mut_with_index (p : profile) (d : sdual) (index : nat)
  : outcome (list (which (nat * T))) :=
  do c <- vget (vertices (graph_2 d)) index;
  do a <- vget (adj_2 d) index;
  do other <- first_of (fun j => do t <- at_ (graph_1 d) j; Done (Graph1 (j, t))) a;
  do own <- mapM (raw_at p (graph_2 d)) (ac_neighbors c);
  Done (map Graph2 (combine (ac_neighbors c) own) ++ other).

(** /repo/src/dual_graph/dual_graph.rs 470-531: [graph_1_contained_iter_mut_which_graph]
    and its mirror image. *)
Definition graph_1_mut_which (p : profile) (d : sdual) (index : nat) : outcome (list (which T)) :=
  do c <- vget (vertices (graph_1 d)) index;
  do a <- vget (adj_1 d) index;
  do other <- first_of (fun j => do t <- at_ (graph_2 d) j; Done (Graph2 t)) a;
  do own <- mapM (raw_at p (graph_1 d)) (ac_neighbors c);
  Done (map Graph1 own ++ other).
Definition graph_2_mut_which (p : profile) (d : sdual) (index : nat) : outcome (list (which T)) :=
  do c <- vget (vertices (graph_2 d)) index;
  do a <- vget (adj_2 d) index;
  do other <- first_of (fun j => do t <- at_ (graph_1 d) j; Done (Graph1 t)) a;
  do own <- mapM (raw_at p (graph_2 d)) (ac_neighbors c);
  Done (map Graph2 own ++ other).

(** /repo/src/dual_graph/dual_graph.rs 338-369, [graph_1_contained_iter_mut]. *)
Definition graph_1_contained_iter_mut (p : profile) (d : sdual) (index : nat) : outcome (list T) :=
  do c <- raw_container p (graph_1 d) index;
  do a <- vget (adj_1 d) index;
  do other <- first_of (at_ (graph_2 d)) a;
  do own <- mapM (raw_at p (graph_1 d)) (ac_neighbors c);
  Done (own ++ other).

End Single.
