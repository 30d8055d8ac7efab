(** Vocabulary for how far the graphs after some Markov steps are from sampled ones. *)
From Verif Require Import Base Rng Markov GraphSpec UniformSpec BalanceSpec FairSpec ConvergeSpec.
Set Implicit Arguments.

(** [f] only looks at which of the pairs [i < j < n] are joined. *)
Definition looks_at (n : nat) (f : (nat -> nat -> bool) -> bool) : Prop :=
  forall A B : nat -> nat -> bool, (forall i j, i < j -> j < n -> A i j = B i j) -> f A = f B.

(** All draws of [D] for a step are equally likely, and so are all of [draws] for [sample].  The probability that the
    state after [k] steps from [s] satisfies [P] differs by at most [a / b] from the probability that the
    sampled state does. *)
Definition differs_by {S R} (a b : nat) (m_step : S -> rng -> outcome (R * S * rng)) (D : list (list nat)) (k : nat) (s : S)
  (sample : rng -> outcome (S * rng)) (draws : list (list nat)) (P : S -> bool) : Prop :=
  b * distance (length draws * arrivals m_step D s P k) (count (fun d => ends P (sample d)) draws * length (powers k D)) <=
  a * (length draws * length (powers k D)).
