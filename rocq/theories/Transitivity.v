(** [transitivity]. *)
From Verif Require Import Base Containers Graph.
Set Implicit Arguments.

Section Generic.
Context {T A : Type} {C : AdjContainer T A}.

(** /repo/src/generic_graph/generic_graph.rs 1414-1439, [transitivity].  The result is
    the pair (closed_path_count, path_count), of which the code returns the
    floating point quotient.  [transitivity_inner] is the body of the innermost
    loop. *)
Definition transitivity_inner (g : graph A) (source : nat) (acc : nat * nat) (n2 : nat)
  : outcome (nat * nat) :=
  let (closed, paths) := acc in
  do c <- container g n2;
  Done (if ac_is_adjacent c source then closed + 1 else closed, paths + 1).

Definition transitivity_middle (g : graph A) (source : nat) (acc : nat * nat) (n1 : nat)
  : outcome (nat * nat) :=
  do c <- container g n1;
  foldM (transitivity_inner g source) acc (filter (fun i => negb (i =? source)) (ac_neighbors c)).

Definition transitivity (g : graph A) : outcome (nat * nat) :=
  foldM (fun (acc : nat * nat) (source : nat) =>
           do c <- container g source;
           foldM (transitivity_middle g source) acc (ac_neighbors c))
        (0, 0) (seq 0 (vertex_count g)).

End Generic.
