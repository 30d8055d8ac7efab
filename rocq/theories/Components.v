(** Connected components and the q-core. *)
From Verif Require Import Base Containers Graph Traversal.
Set Implicit Arguments.

Section Generic.
Context {T A : Type} {C : AdjContainer T A}.

(** /repo/src/generic_graph/generic_graph.rs 867-869, 925-927: the inner loop
    [for (j, _) in self.dfs_with_index(i) { component_id[j] = current_id }].  An
    id is [None] for the value -1 and [Some k] for [k]; overflow of the [isize] and
    [i32] ids is in Overflow.v. *)
Definition label_component (g : graph A) (ids : list (option nat)) (i cur : nat)
  : outcome (list (option nat)) :=
  do items <- dfs_index_all g i;
  foldM (fun (c : list (option nat)) (jt : nat * T) => vset c (fst jt) (Some cur)) ids items.

(** /repo/src/generic_graph/generic_graph.rs 855-878, [connected_components_ids]. *)
Definition ids_pass (g : graph A) (acc : list (option nat) * nat) (i : nat)
  : outcome (list (option nat) * nat) :=
  let (ids, cur) := acc in
  do c <- vget ids i;
  match c with
  | Some _ => Done (ids, cur)
  | None => do ids' <- label_component g ids i cur; Done (ids', S cur)
  end.

Definition connected_components_ids (g : graph A) : outcome (nat * list (option nat)) :=
  do ' (ids, cur) <- foldM (ids_pass g) (repeat None (vertex_count g), 0) (seq 0 (vertex_count g));
  Done (cur, ids).

(** /repo/src/generic_graph/generic_graph.rs 886-907, [connected_components].
    [usize::try_from(-1)] fails, so the value [None] panics. *)
Definition connected_components (g : graph A) : outcome (list nat) :=
  do ' (num, ids) <- connected_components_ids g;
  do result <- foldM (fun (r : list nat) (i : option nat) =>
                        do k <- expect i;
                        do old <- vget r k;
                        vset r k (old + 1)) (repeat 0 num) ids;
  Done (sort_desc result).

(** /repo/src/generic_graph/generic_graph.rs 912-932, [suggest_connections]. *)
Definition suggest_pass (g : graph A) (acc : list nat * list (option nat) * nat) (i : nat)
  : outcome (list nat * list (option nat) * nat) :=
  let '(sugg, ids, cur) := acc in
  do c <- vget ids i;
  match c with
  | Some _ => Done (sugg, ids, cur)
  | None => do ids' <- label_component g ids i cur; Done (sugg ++ [i], ids', S cur)
  end.

Definition suggest_connections (g : graph A) : outcome (list nat) :=
  do ' (sugg, _, _) <- foldM (suggest_pass g) ([], repeat None (vertex_count g), 0)
                             (seq 0 (vertex_count g));
  Done sugg.

(** ** q-core: /repo/src/generic_graph/generic_graph.rs 779-849 *)

(** Lines 800-808: the effect of removing a vertex on its neighbours. *)
Definition core_lower (degree : list nat) (n : nat) : outcome (list nat) :=
  do d <- vget degree n;
  if 0 <? d then vset degree n (d - 1) else Done degree.

(** Lines 795-811: one [i] of the [for] loop. *)
Definition core_visit (g : graph A) (q : nat) (acc : list nat * bool) (i : nat)
  : outcome (list nat * bool) :=
  let (degree, changed) := acc in
  do d <- vget degree i;
  if d =? 0 then Done (degree, changed)
  else if d <? q then
    do c <- vget (vertices g) i;
    do degree1 <- foldM core_lower degree (ac_neighbors c);
    do degree2 <- vset degree1 i 0;
    Done (degree2, true)
  else Done (degree, changed).

(** Lines 793-813: [while something_changed]. *)
Fixpoint core_peel (g : graph A) (q : nat) (fuel : nat) (degree : list nat) : outcome (list nat) :=
  match fuel with
  | 0 => NoFuel
  | S fu =>
      do ' (degree', changed) <- foldM (core_visit g q) (degree, false) (seq 0 (vertex_count g));
      if changed then core_peel g q fu degree' else Done degree'
  end.

(** Lines 831-845: one round of [while let Some(index) = stack.pop()]; the marks
    are the entries 0 of [degree].  The top of the stack is the head of the list. *)
Definition core_next (g : graph A) (s : list nat * list nat)
  : outcome (option (unit * (list nat * list nat))) :=
  let (degree, stack) := s in
  match stack with
  | [] => Done None
  | index :: rest =>
      do c <- container g index;
      do ' (degree', new) <- mark_new (fun d j => do x <- vget d j; Done (x =? 0))
                                      (fun d j => vset d j 0) degree (ac_neighbors c);
      Done (Some (tt, (degree', rev new ++ rest)))
  end.

(** Lines 820-847: one [i] of the second [for] loop; [counter] is the number of
    rounds. *)
Definition core_component (g : graph A) (acc : nat * list nat) (i : nat)
  : outcome (nat * list nat) :=
  let (result, degree) := acc in
  do d <- vget degree i;
  if d =? 0 then Done (result, degree)
  else
    do degree1 <- vset degree i 0;
    do ' (rounds, (degree2, _)) <- drain_by_ref (core_next g) (S (vertex_count g)) (degree1, [i]);
    Done (Nat.max result (length rounds), degree2).

Definition q_core (g : graph A) (q : nat) : outcome (option nat) :=
  if (q <? 2) || (vertex_count g =? 0) then Done None
  else
    let degree := map ac_degree (vertices g) in
    do degree' <- core_peel g q (S (vertex_count g)) degree;
    do ' (result, _) <- foldM (core_component g) (0, degree') (seq 0 (vertex_count g));
    Done (Some result).

End Generic.
