(** Vocabulary for the words of the generator. *)
From Verif Require Import Base Rng DrawsSpec Words.
From Coq Require Import NArith.
Set Implicit Arguments.
Unset Strict Implicit.
Local Open Scope nat_scope.

(** A call on the words of the generator and a call on draws have the same runs.  What the one does
    on some words, the other does on some draws, and the other way round, and the other needs no
    more draws than there are words, nor more words than there are draws.  Each takes what it uses
    from the front, and what is behind has no part in it.  Where the words have run out, so have
    the draws, and no more words are missing than draws, nor more draws than words. *)
Record same_runs {X} (w : list N -> outcome (X * list N)) (f : list nat -> outcome (X * list nat)) : Prop := {
  words_return : forall ws x rest, w ws = Done (x, rest) ->
    (exists used, ws = used ++ rest /\ forall others, w (used ++ others) = Done (x, others)) /\
    exists rs, length rs + length rest <= length ws /\ forall others, f (rs ++ others) = Done (x, others);
  words_panic : forall ws, w ws = Panic -> exists rs, f rs = Panic;
  words_undefined : forall ws, w ws = UB -> exists rs, f rs = UB;
  words_wait : forall ws, w ws = NoFuel -> exists rs, (forall x rest, f rs <> Done (x, rest)) /\
    forall more x, f (rs ++ more) = Done (x, []) ->
    exists ws', Forall (fun v => v < 2 ^ 64)%N ws' /\ length ws' <= length more /\
      forall others, w (ws ++ ws' ++ others) = Done (x, others);
  draws_return : forall rs x rest, f rs = Done (x, rest) ->
    exists ws, Forall (fun v => v < 2 ^ 64)%N ws /\ length ws + length rest <= length rs /\
      forall others, w (ws ++ others) = Done (x, others);
  draws_wait : forall rs, f rs = NoFuel -> exists ws, Forall (fun v => v < 2 ^ 64)%N ws /\
    (forall x rest, w ws <> Done (x, rest)) /\
    forall more x, w (ws ++ more) = Done (x, []) ->
    exists rs', length rs' <= length more /\ forall others, f (rs ++ rs' ++ others) = Done (x, others);
  draws_panic : forall rs, f rs = Panic -> exists ws, Forall (fun v => v < 2 ^ 64)%N ws /\ w ws = Panic;
  draws_undefined : forall rs, f rs = UB -> exists ws, Forall (fun v => v < 2 ^ 64)%N ws /\ w ws = UB;
  draws_settled : settled f
}.

(** A sampler takes an integer of [b] bits for the range below [n]: the lower half of the product
    is below [n * c]. *)
Definition takes (b n c v : N) : Prop := ((v * n) mod 2 ^ b < n * c)%N.
(** The value it gives. *)
Definition value (b n v : N) : N := ((v * n) / 2 ^ b)%N.
