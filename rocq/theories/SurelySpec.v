(** Vocabulary: programs that return with probability one. *)
From Verif Require Import Base GraphSpec Rng UniformSpec.
Set Implicit Arguments.

(** The program has not returned a value with the draws it was given. *)
Definition unfinished {X} (o : outcome X) : bool := match o with Done _ => false | _ => true end.

(** The number of sequences of [k] draws, each below [h], with which [f] has not returned. *)
Definition waiting {X} (h : nat) (f : rng -> outcome X) (k : nat) : nat :=
  count (fun ds => unfinished (f ds)) (rolls (repeat h k)).

(** The draws are independent and uniform on the numbers below [h].  The share of the sequences of
    [k] draws with which [f] has not returned gets smaller than every fraction as [k] grows. *)
Definition ends_surely {X} (h : nat) (f : rng -> outcome X) : Prop :=
  forall N, exists k0, forall k, k0 <= k -> N * waiting h f k <= length (rolls (repeat h k)).

(** The mean of the number of draws taken is at most [c]: it is the sum over all [j] of the
    probability that [j] draws are not enough, and every partial sum is at most [c].  Both sides
    are multiplied by the number of sequences of [k] draws. *)
Definition mean_draws_at_most {X} (c h : nat) (f : rng -> outcome X) : Prop :=
  forall k, list_sum (map (fun j => waiting h f j * length (rolls (repeat h (k - j)))) (seq 0 k))
            <= c * length (rolls (repeat h k)).

(** Whatever is drawn, it does not return. *)
Definition never_ends {X} (f : rng -> outcome X) : Prop := forall ds, f ds = NoFuel.

(** With some probability it never returns: however many draws there are, it has not returned with
    at least one in [c] of their sequences. *)
Definition may_hang {X} (h : nat) (f : rng -> outcome X) : Prop :=
  exists c k0, forall k, k0 <= k -> length (rolls (repeat h k)) <= c * waiting h f k.
