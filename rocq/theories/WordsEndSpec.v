(** Vocabulary: calls on independent and uniform words of the generator. *)
From Verif Require Import Base Rng SurelySpec.
From Coq Require Import NArith.
Set Implicit Arguments.
Unset Strict Implicit.
Local Open Scope nat_scope.

(** The number of words of 64 bits. *)
Definition word_count : nat := N.to_nat (2 ^ 64).

(** A call on words, with the numbers below [word_count] for the words. *)
Definition on_words {Y} (w : list N -> outcome Y) (ds : list nat) : outcome Y := w (map N.of_nat ds).

(** The words are independent and uniform.  The call returns with probability one, and the number
    of words it takes has a mean. *)
Definition ends_on_words {Y} (w : list N -> outcome Y) : Prop :=
  ends_surely word_count (on_words w) /\ exists c, mean_draws_at_most c word_count (on_words w).
