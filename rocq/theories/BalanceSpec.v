(** Vocabulary for the distribution of the graphs after sampling and some steps. *)
From Verif Require Import Base Containers Graph GraphSpec Rng Markov UniformSpec.
Set Implicit Arguments.

(** All lists of [k] values from [coins].  The values are thought of as equally likely. *)
Fixpoint words (k : nat) (coins : list nat) : list (list nat) :=
  match k with
  | 0 => [[]]
  | S k => flat_map (fun c => map (cons c) (words k coins)) coins
  end.

(** The draws for one step: two vertices, and the number that is compared with the probability. *)
Definition pair_draws (n : nat) (coins : list nat) : list (list nat) :=
  flat_map (fun x => flat_map (fun y => map (fun z => [x; y; z]) coins) (seq 0 (n - 1))) (seq 0 n).

(** The draws for a sample followed by [k] steps. *)
Fixpoint chain_draws (n k : nat) (coins : list nat) : list (list nat) :=
  match k with
  | 0 => words (length (pairs_below n)) coins
  | S k => flat_map (fun d => map (app d) (pair_draws n coins)) (chain_draws n k coins)
  end.

(** The same with a fixed number [m] of edges: the draws of a shuffle of all pairs, and for each step an edge
    and a pair that is not joined. *)
Fixpoint fixed_draws (n m k : nat) : list (list nat) :=
  match k with
  | 0 => rolls (down (n * (n - 1) / 2))
  | S k => flat_map (fun d => map (app d) (rolls [m; n * (n - 1) / 2 - m])) (fixed_draws n m k)
  end.

Definition prod_over {X} (f : X -> nat) (l : list X) : nat := fold_right (fun x a => f x * a) 1 l.

(** Exactly the pairs of [t] are joined. *)
Definition joins {T A} {C : AdjContainer T A} (n : nat) (t : nat -> nat -> bool) (g : graph A) : bool :=
  forallb (fun ij => Bool.eqb (adjb g (fst ij) (snd ij)) (t (fst ij) (snd ij))) (pairs_below n).

(** How many of the values are accepted, or not. *)
Definition verdicts (acc : nat -> bool) (coins : list nat) (v : bool) : nat :=
  count (fun z => Bool.eqb (acc z) v) coins.

(** A sample and [k] steps. *)
Definition sample_and_steps {S R} (randomize : S -> rng -> outcome (S * rng))
  (m_step : S -> rng -> outcome (R * S * rng)) (k : nat) (s : S) (rs : rng) : outcome (S * rng) :=
  do ' (s1, rs1) <- randomize s rs;
  do ' (_, s2, rs2) <- m_steps m_step k s1 rs1;
  Done (s2, rs2).

(** Whether it uses up the draws and the result satisfies [f]. *)
Definition ends {S} (f : S -> bool) (r : outcome (S * rng)) : bool :=
  match r with Done (s, []) => f s | _ => false end.
