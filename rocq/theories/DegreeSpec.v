(** Vocabulary for the distribution of degrees and numbers of edges. *)
From Verif Require Import Base Containers Graph Rng.
Set Implicit Arguments.

(** The binomial coefficient, by Pascal's rule. *)
Fixpoint choose (n k : nat) : nat :=
  match n, k with
  | _, 0 => 1
  | 0, S _ => 0
  | S n, S k => choose n k + choose n (S k)
  end.

(** [degree] of the vertex [v] answers [k]. *)
Definition degree_is {T A} {C : AdjContainer T A} (k v : nat) (g : graph A) : bool :=
  match degree g v with Some d => d =? k | None => false end.

(** The answer of [degree] for [v], added over all samples. *)
Definition degrees_total {T A S} {C : AdjContainer T A} (graph_of : S -> graph A) (v : nat)
  (sample : rng -> outcome (S * rng)) (draws : list (list nat)) : nat :=
  list_sum (map (fun d => match sample d with
                     | Done (s, _) => match degree (graph_of s) v with Some k => k | None => 0 end
                     | _ => 0
                     end) draws).
