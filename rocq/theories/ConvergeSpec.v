(** Vocabulary for the distribution after many Markov steps. *)
From Verif Require Import Base GraphSpec Rng Markov UniformSpec FairSpec.
From Coq Require QArith.
Set Implicit Arguments.

(** All draws for [k] steps, if [D] are all draws for one step. *)
Fixpoint powers (k : nat) (D : list (list nat)) : list (list nat) :=
  match k with
  | 0 => [[]]
  | S k => flat_map (fun d => map (app d) (powers k D)) D
  end.

(** The steps use up the draws and the state they lead to satisfies [P]. *)
Definition arrives {S R} (P : S -> bool) (r : outcome (R * S * rng)) : bool :=
  match r with Done (_, s, []) => P s | _ => false end.

(** With how many draws for [k] steps from [s] the state they lead to satisfies [P]. *)
Definition arrivals {S R} (m_step : S -> rng -> outcome (R * S * rng)) (D : list (list nat)) (s : S)
  (P : S -> bool) (k : nat) : nat :=
  count (fun ds => arrives P (m_steps m_step k s ds)) (powers k D).

(** All draws of [D] are equally likely.  As the number of steps from [s] grows, the probability that
    the state satisfies [P] tends to [num / den]: it comes closer to it than every [1 / N]. *)
Definition tends_to {S R} (num den : nat) (m_step : S -> rng -> outcome (R * S * rng)) (D : list (list nat)) (s : S)
  (P : S -> bool) : Prop :=
  0 < den /\ forall N, exists k0, forall k, k0 <= k ->
    N * distance (den * arrivals m_step D s P k) (num * length (powers k D)) <= den * length (powers k D).

(** As the number of steps from [s] grows, the probabilities of [P] and [Q] get into the ratio
    of [v] to [w]. *)
Definition tends_to_ratio {S R} (v w : nat) (m_step : S -> rng -> outcome (R * S * rng)) (D : list (list nat)) (s : S)
  (P Q : S -> bool) : Prop :=
  forall N, exists k0, forall k, k0 <= k ->
    N * distance (w * arrivals m_step D s P k) (v * arrivals m_step D s Q k) <= length (powers k D).

(** As the number of steps grows, the starts [s] and [t] are forgotten: the probability that the state satisfies
    [P] is the same. *)
Definition forgets {S R} (m_step : S -> rng -> outcome (R * S * rng)) (D : list (list nat)) (s t : S)
  (P : S -> bool) : Prop :=
  forall N, exists k0, forall k, k0 <= k ->
    N * distance (arrivals m_step D s P k) (arrivals m_step D t P k) <= length (powers k D).

(** The draws of a step of the small-world ensemble as they are used up: the edge, the number that decides
    about rewiring and, if it does so, the target.  The list of draws without a target has each of them as often as
    there are targets, so that all members of the list are equally likely. *)
Definition rewiring_draws (q : QArith_base.Q) (n : nat) (coins : list nat) : list (list nat) :=
  flat_map (fun r => flat_map (fun c =>
    if QArith_base.Qle_bool (Rng.unit_float c) q then map (fun t => [r; c; t]) (seq 0 (n - 1)) else repeat [r; c] (n - 1)) coins)
    (seq 0 (2 * n)).

(** The draws with which a step is made and that it uses up. *)
Definition taken {S R} (m_step : S -> rng -> outcome (R * S * rng)) (s : S) (draws : list (list nat)) : list (list nat) :=
  filter (fun d => match m_step s d with Done (_, _, []) => true | _ => false end) draws.

Fixpoint sublists {X} (l : list X) : list (list X) :=
  match l with
  | [] => [[]]
  | x :: l => map (cons x) (sublists l) ++ sublists l
  end.

(** The number of edges at a vertex in a list of edges. *)
Definition edges_at (l : list (nat * nat)) (i : nat) : nat := count (fun ij => (fst ij =? i) || (snd ij =? i)) l.

(** All sets of edges with which the degrees are the given ones. *)
Definition realizations (v : list nat) : list (list (nat * nat)) :=
  filter (fun l => forallb (fun i => edges_at l i =? nth i v 0) (seq 0 (length v))) (sublists (pairs_below (length v))).
