(** Sequences of Markov steps and their undoing. *)
From Verif Require Import Base Rng.
Set Implicit Arguments.

Section Markov.
Context {S R U : Type}.
Variable m_step : S -> rng -> outcome (R * S * rng).
Variable undo_step : S -> R -> outcome (U * S).
Variable undo_step_quiet : S -> R -> outcome S.

(** Default method [m_steps] of the trait [MarkovChain] in the crate [sampling]: the
    records of the steps in the order of the steps. *)
Fixpoint m_steps (k : nat) (s : S) (rs : rng) : outcome (list R * S * rng) :=
  match k with
  | 0 => Done ([], s, rs)
  | Datatypes.S k =>
      do ' (r, s1, rs1) <- m_step s rs;
      do ' (l, s2, rs2) <- m_steps k s1 rs1;
      Done (r :: l, s2, rs2)
  end.

(** Default methods [undo_steps] and [undo_steps_quiet] there: the last step first. *)
Fixpoint undo_in_order (s : S) (l : list R) : outcome (list U * S) :=
  match l with
  | [] => Done ([], s)
  | r :: t =>
      do ' (u, s1) <- undo_step s r;
      do ' (us, s2) <- undo_in_order s1 t;
      Done (u :: us, s2)
  end.
Definition undo_steps (s : S) (l : list R) : outcome (list U * S) := undo_in_order s (rev l).
Definition undo_steps_quiet (s : S) (l : list R) : outcome S :=
  foldM undo_step_quiet s (rev l).

End Markov.
