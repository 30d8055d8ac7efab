(** The traversal iterators of [GenericGraph]. *)
From Verif Require Import Base Containers Graph.
Set Implicit Arguments.

(** The loop [for &i in neighbors { if !handled[i] { handled[i] = true; push(i) } }]
    found in every iterator.  It returns the new marks and the pushed vertices in
    the order of the pushes.  Simplification: the caller appends them to its
    stack or queue after the loop; the loop itself never reads the stack or queue. *)
Section Marks.
Context {M V : Type} (is_marked : M -> V -> outcome bool) (mark : M -> V -> outcome M).
Fixpoint mark_new (m : M) (l : list V) : outcome (M * list V) :=
  match l with
  | [] => Done (m, [])
  | i :: t =>
      do b <- is_marked m i;
      if b then mark_new m t
      else
        do m1 <- mark m i;
        do ' (m2, new) <- mark_new m1 t;
        Done (m2, i :: new)
  end.
End Marks.

(** [handled[i]] and [handled[i] = true]. *)
Definition handle_new : list bool -> list nat -> outcome (list bool * list nat) :=
  mark_new (fun h i => vget h i) (fun h i => vset h i true).

Section Generic.
Context {T A : Type} {C : AdjContainer T A}.

(** ** Depth first *)

(** /repo/src/generic_graph/iterators.rs 14-22, 147-155: fields of [Dfs] and
    [DfsWithIndex] (the borrowed vertices are an argument of [next]).  The top of the
    stack is the head of the list. *)
Record dfs := mk_dfs { dfs_handled : list bool; dfs_stack : list nat }.

(** /repo/src/generic_graph/iterators.rs 29-46, 100-117, 162-180: [new], the same in
    [Dfs], [DfsMut], [DfsWithIndex]. *)
Definition dfs_new (g : graph A) (index : nat) : dfs :=
  let handled := repeat false (vertex_count g) in
  if index <? length handled then mk_dfs (upd handled index true) [index]
  else mk_dfs handled [].

(** /repo/src/generic_graph/iterators.rs 55-65, [Dfs::next]. *)
Definition dfs_next (g : graph A) (s : dfs) : outcome (option (T * dfs)) :=
  match dfs_stack s with
  | [] => Done None
  | index :: rest =>
      do c <- vget (vertices g) index;
      do ' (h, new) <- handle_new (dfs_handled s) (ac_neighbors c);
      Done (Some (ac_contained c, mk_dfs h (rev new ++ rest)))
  end.

(** /repo/src/generic_graph/iterators.rs 67-69, [Dfs::size_hint]. *)
Definition dfs_size_hint (s : dfs) : nat * option nat :=
  (length (dfs_stack s), Some (length (dfs_handled s))).

(** /repo/src/generic_graph/iterators.rs 188-198, [DfsWithIndex::next]. *)
Definition dfs_index_next (g : graph A) (s : dfs) : outcome (option ((nat * T) * dfs)) :=
  match dfs_stack s with
  | [] => Done None
  | index :: rest =>
      do c <- vget (vertices g) index;
      do ' (h, new) <- handle_new (dfs_handled s) (ac_neighbors c);
      Done (Some ((index, ac_contained c), mk_dfs h (rev new ++ rest)))
  end.

(** /repo/src/generic_graph/iterators.rs 200-202, [DfsWithIndex::size_hint]. *)
Definition dfs_index_size_hint (g : graph A) (s : dfs) : nat * option nat :=
  (length (dfs_stack s), Some (length (vertices g))).

(** /repo/src/generic_graph/iterators.rs 126-143, [DfsMut::next].  The vertices are
    reached through a raw pointer, so an index out of range is undefined
    behaviour.  The item is the reference to the payload of [index], modelled by
    the index together with the current payload. *)
Definition dfs_mut_next (g : graph A) (s : dfs) : outcome (option ((nat * T) * dfs)) :=
  match dfs_stack s with
  | [] => Done None
  | index :: rest =>
      match nth_error (vertices g) index with
      | None => UB
      | Some c =>
          do ' (h, new) <- handle_new (dfs_handled s) (ac_neighbors c);
          Done (Some ((index, ac_contained c), mk_dfs h (rev new ++ rest)))
      end
  end.

(** A caller's loop [for t in graph.dfs_mut(index) { .. }] whose body is [f]: it has
    its own state and overwrites the payload it is given. *)
Fixpoint dfs_mut_loop {S} (f : S -> T -> S * T) (fuel : nat) (st : S) (g : graph A) (s : dfs)
  : outcome (S * graph A) :=
  match fuel with
  | 0 => NoFuel
  | Datatypes.S fu =>
      do r <- dfs_mut_next g s;
      match r with
      | None => Done (st, g)
      | Some ((index, t), s') =>
          let (st', t') := f st t in
          do g' <- at_mut_set g index t';
          dfs_mut_loop f fu st' g' s'
      end
  end.

(** ** Breadth first *)

(** /repo/src/generic_graph/iterators.rs 208-218, 295-305, 369-379: fields of [Bfs],
    [BfsMut], [BfsFiltered]. *)
Record bfs := mk_bfs {
  bfs_handled : list bool; bfs_q0 : list nat; bfs_q1 : list nat; bfs_depth : nat
}.

(** /repo/src/generic_graph/iterators.rs 224-242, 311-330: [Bfs::new], [BfsMut::new]. *)
Definition bfs_new (g : graph A) (index : nat) : bfs :=
  let handled := repeat false (vertex_count g) in
  if index <? vertex_count g then mk_bfs (upd handled index true) [index] [] 0
  else mk_bfs handled [] [] 0.

(** /repo/src/generic_graph/iterators.rs 244-256, [Bfs::reuse]. *)
Definition bfs_reuse (g : graph A) (s : bfs) (index : nat) : outcome bfs :=
  let handled := map (fun _ => false) (bfs_handled s) in
  if index <? length (vertices g) then
    do h <- vset handled index true;
    Done (mk_bfs h [index] [] 0)
  else Done (mk_bfs handled [] [] 0).

(** /repo/src/generic_graph/iterators.rs 266-285, [Bfs::next].  The branch that swaps
    the queues calls [next] once more with a queue that is not empty; the two
    calls are merged. *)
Definition bfs_visit (g : graph A) (h : list bool) (index : nat) (q0 q1 : list nat) (d : nat)
  : outcome (option ((nat * T * nat) * bfs)) :=
  do c <- vget (vertices g) index;
  do ' (h', new) <- handle_new h (ac_neighbors c);
  Done (Some ((index, ac_contained c, d), mk_bfs h' q0 (q1 ++ new) d)).

Definition bfs_next (g : graph A) (s : bfs) : outcome (option ((nat * T * nat) * bfs)) :=
  match bfs_q0 s with
  | index :: q0 => bfs_visit g (bfs_handled s) index q0 (bfs_q1 s) (bfs_depth s)
  | [] =>
      match bfs_q1 s with
      | [] => Done None
      | index :: q0 => bfs_visit g (bfs_handled s) index q0 [] (S (bfs_depth s))
      end
  end.

(** /repo/src/generic_graph/iterators.rs 287-289, 492-494: [size_hint] of [Bfs] and
    [BfsFiltered]. *)
Definition bfs_size_hint (g : graph A) (s : bfs) : nat * option nat :=
  (length (bfs_q0 s) + length (bfs_q1 s), Some (length (vertices g))).

(** /repo/src/generic_graph/iterators.rs 361-363, [BfsMut::size_hint]. *)
Definition bfs_mut_size_hint (s : bfs) : nat * option nat :=
  (length (bfs_q0 s) + length (bfs_q1 s), Some (length (bfs_handled s))).

(** /repo/src/generic_graph/iterators.rs 339-359, [BfsMut::next]; raw pointer as in
    [DfsMut]. *)
Definition bfs_mut_visit (g : graph A) (h : list bool) (index : nat) (q0 q1 : list nat) (d : nat)
  : outcome (option ((nat * T * nat) * bfs)) :=
  match nth_error (vertices g) index with
  | None => UB
  | Some c =>
      do ' (h', new) <- handle_new h (ac_neighbors c);
      Done (Some ((index, ac_contained c, d), mk_bfs h' q0 (q1 ++ new) d))
  end.

Definition bfs_mut_next (g : graph A) (s : bfs) : outcome (option ((nat * T * nat) * bfs)) :=
  match bfs_q0 s with
  | index :: q0 => bfs_mut_visit g (bfs_handled s) index q0 (bfs_q1 s) (bfs_depth s)
  | [] =>
      match bfs_q1 s with
      | [] => Done None
      | index :: q0 => bfs_mut_visit g (bfs_handled s) index q0 [] (S (bfs_depth s))
      end
  end.

(** A caller's loop over [bfs_index_depth_mut]. *)
Fixpoint bfs_mut_loop {S} (f : S -> nat -> nat -> T -> S * T) (fuel : nat) (st : S)
  (g : graph A) (s : bfs) : outcome (S * graph A) :=
  match fuel with
  | 0 => NoFuel
  | Datatypes.S fu =>
      do r <- bfs_mut_next g s;
      match r with
      | None => Done (st, g)
      | Some ((index, t, d), s') =>
          let (st', t') := f st index d t in
          do g' <- at_mut_set g index t';
          bfs_mut_loop f fu st' g' s'
      end
  end.

(** ** Breadth first with a filter *)

(** /repo/src/generic_graph/iterators.rs 386-416, [BfsFiltered::new].  The filter is a
    pure function (Rust allows a closure with state). *)
Definition bfs_filtered_new (g : graph A) (filter : T -> nat -> bool) (index : nat)
  : outcome (option bfs) :=
  if vertex_count g <=? index then Done None
  else
    do t <- at_ g index;
    if negb (filter t index) then Done None
    else
      let handled := map (fun ic => negb (filter (ac_contained (snd ic)) (fst ic)))
                         (enumerate (vertices g)) in
      do h <- vset handled index true;
      Done (Some (mk_bfs h [index] [] 0)).

(** /repo/src/generic_graph/iterators.rs 421-424, [is_handled]. *)
Definition bfs_is_handled (s : bfs) (index : nat) : outcome bool := vget (bfs_handled s) index.

(** /repo/src/generic_graph/iterators.rs 430-460, [BfsFiltered::reuse].  The loop that
    overwrites every entry of [handled] by [false] after the filter was applied is
    kept. *)
Definition bfs_filtered_reuse (g : graph A) (s : bfs) (index : nat) (filter : T -> nat -> bool)
  : outcome (result bfs bfs) :=
  let ok :=
    let filtered := map (fun iv => negb (filter (ac_contained (snd (snd iv))) (fst iv)))
                        (enumerate (combine (bfs_handled s) (vertices g))) in
    let handled := map (fun _ => false) filtered in
    do h <- vset handled index true;
    Done (Ok (mk_bfs h [index] [] 0)) in
  if length (vertices g) <? index then Done (Err s)
  else
    do c <- vget (vertices g) index;
    if negb (filter (ac_contained c) index) then Done (Err s) else ok.

(** /repo/src/generic_graph/iterators.rs 468-490, [BfsFiltered::next]. *)
Definition bfs_filtered_visit (g : graph A) (h : list bool) (index : nat) (q0 q1 : list nat) (d : nat)
  : outcome (option ((nat * T * nat) * bfs)) :=
  match nth_error (vertices g) index with
  | None => Done None
  | Some c =>
      do ' (h', new) <- handle_new h (ac_neighbors c);
      Done (Some ((index, ac_contained c, d), mk_bfs h' q0 (q1 ++ new) d))
  end.

Definition bfs_filtered_next (g : graph A) (s : bfs) : outcome (option ((nat * T * nat) * bfs)) :=
  match bfs_q0 s with
  | index :: q0 => bfs_filtered_visit g (bfs_handled s) index q0 (bfs_q1 s) (bfs_depth s)
  | [] =>
      match bfs_q1 s with
      | [] => Done None
      | index :: q0 => bfs_filtered_visit g (bfs_handled s) index q0 [] (S (bfs_depth s))
      end
  end.

(** ** Whole traversals *)

(** Running an iterator to its end; [S (vertex_count g)] calls of [next] are
    enough (theorems C11, C13, C14). *)
Definition dfs_all (g : graph A) (index : nat) : outcome (list T) :=
  drain (dfs_next g) (S (vertex_count g)) (dfs_new g index).
Definition dfs_index_all (g : graph A) (index : nat) : outcome (list (nat * T)) :=
  drain (dfs_index_next g) (S (vertex_count g)) (dfs_new g index).
Definition bfs_all (g : graph A) (index : nat) : outcome (list (nat * T * nat)) :=
  drain (bfs_next g) (S (vertex_count g)) (bfs_new g index).

(** /repo/src/generic_graph/generic_graph.rs 735-741, [is_connected]. *)
Definition is_connected (g : graph A) : outcome (option bool) :=
  if vertex_count g =? 0 then Done None
  else do l <- dfs_all g 0; Done (Some (length l =? vertex_count g)).

(** /repo/src/generic_graph/generic_graph.rs 1140-1144, [longest_shortest_path_from_index]:
    the depth of the last item. *)
Definition longest_shortest_path_from_index (g : graph A) (index : nat) : outcome (option nat) :=
  do l <- bfs_all g index;
  Done (match rev l with [] => None | (_, _, d) :: _ => Some d end).

(** A loop [for item in &mut iterator]: the items, and the iterator left behind. *)
Fixpoint drain_by_ref {S I} (next : S -> outcome (option (I * S))) (fuel : nat) (s : S)
  : outcome (list I * S) :=
  match fuel with
  | 0 => NoFuel
  | Datatypes.S f =>
      do r <- next s;
      match r with
      | None => Done ([], s)
      | Some (i, s') => do ' (t, e) <- drain_by_ref next f s'; Done (i :: t, e)
      end
  end.

(** /repo/src/generic_graph/generic_graph.rs 1116-1136, [diameter]. *)
Definition diameter_pass (g : graph A) (acc : nat * bfs) (index : nat) : outcome (nat * bfs) :=
  let (max, b) := acc in
  do b1 <- bfs_reuse g b index;
  do ' (items, b2) <- drain_by_ref (bfs_next g) (S (vertex_count g)) b1;
  let depth := fold_left (fun _ item => snd item) items 0 in
  Done (Nat.max max depth, b2).

Definition diameter (g : graph A) : outcome (option nat) :=
  do c <- is_connected g;
  match c with
  | None => Done None
  | Some false => Done None
  | Some true =>
      do ' (max, _) <- foldM (diameter_pass g) (0, bfs_new g 0) (seq 1 (vertex_count g - 1));
      Done (Some max)
  end.

(** /repo/src/generic_graph/generic_graph.rs 1387-1403, [closeness_centrality].  Entry
    [(a, b)] stands for the floating point quotient [a / b]. *)
Definition closeness_pass (g : graph A) (acc : list nat * bfs) (i : nat) : outcome (list nat * bfs) :=
  let (count, b) := acc in
  do b1 <- bfs_reuse g b i;
  do ' (items, b2) <- drain_by_ref (bfs_next g) (S (vertex_count g)) b1;
  do count' <- foldM (fun (c : list nat) (item : nat * T * nat) =>
                        let '(index, _, depth) := item in
                        do old <- vget c index; vset c index (old + depth)) count items;
  Done (count', b2).

Definition closeness_centrality (p : profile) (g : graph A) : outcome (list (nat * nat)) :=
  do ' (count, _) <- foldM (closeness_pass g) (repeat 0 (vertex_count g), bfs_new g 0)
                           (seq 0 (vertex_count g));
  do val <- usub p (vertex_count g) 1;
  Done (map (fun c => (val, c)) count).

End Generic.
