(** Vocabulary for the order in which the words of the generator are read. *)
From Verif Require Import Base Rng Words WordsSpec.
From Coq Require Import NArith.
Set Implicit Arguments.
Unset Strict Implicit.
Local Open Scope nat_scope.

(** What a draw makes of words: a number below [n] from the first integer of [b] bits whose product with
    [n] has a lower half below [z]; or the upper [k] bits of a word. *)
Inductive kind := Below (b n z : N) | Upper (k : N).

Fixpoint read (q : kind) (ws : list N) : option (nat * list N) :=
  match ws with
  | [] => None
  | w :: t =>
      match q with
      | Below b n z =>
          if ((w mod 2 ^ b * n) mod 2 ^ b <? z)%N then Some (N.to_nat (value b n (w mod 2 ^ b)), t) else read q t
      | Upper k => Some (N.to_nat (w mod 2 ^ 64 / 2 ^ (64 - k)), t)
      end
  end.

(** A fair draw: an integer of 32 or 64 bits whose product has a lower half below a multiple of [n]
    that is at most 2 ^ b, so that every value has the same number of integers, and at least half of
    2 ^ b, so that at least half of the integers are taken; or 53 bits.  If [n] does not fit, every integer
    is taken. *)
Definition fair (q : kind) : Prop :=
  match q with
  | Below b n z => (b = 32 \/ b = 64)%N /\ (0 < n)%N /\ ((2 ^ b <= n)%N -> (2 ^ b <= z)%N) /\
      ((n < 2 ^ b)%N -> exists c, (0 < c /\ z = n * c /\ z <= 2 ^ b <= 2 * z)%N)
  | Upper k => k = 53%N
  end.

(** The draws [rs], each read from the words that the ones before left.  What kind the next is, [ask] says
    from the draws before; it does not see the words. *)
Inductive reads (ask : list nat -> kind) : list nat -> list N -> list nat -> list N -> Prop :=
| reads_none before ws : reads ask before ws [] ws
| reads_one before ws r ws1 rs rest :
    read (ask before) ws = Some (r, ws1) -> reads ask (before ++ [r]) ws1 rs rest ->
    reads ask before ws (r :: rs) rest.

Definition returns {X} (f : list nat -> outcome (X * list nat)) (rs : list nat) : Prop :=
  exists x rest, f rs = Done (x, rest).

(** [w] on words does what [f] does on the draws read from them one after the other: it returns the
    same and leaves the words that were not read; it panics where [f] panics; and it runs out of
    words where the next draw cannot be read. *)
Definition follows (ask : list nat -> kind) {X} (w : list N -> outcome (X * list N))
  (f : list nat -> outcome (X * list nat)) : Prop :=
  forall ws,
  match w ws with
  | Done (x, rest) => exists rs, reads ask [] ws rs rest /\ forall others, f (rs ++ others) = Done (x, others)
  | Panic => exists rs rest, reads ask [] ws rs rest /\ forall r others, f (rs ++ r :: others) = Panic
  | UB => exists rs rest, reads ask [] ws rs rest /\ forall r others, f (rs ++ r :: others) = UB
  | NoFuel => exists rs rest, reads ask [] ws rs rest /\
      ((read (ask rs) rest = None /\ ~ returns f rs) \/ forall others, ~ returns f (rs ++ others))
  end.

Definition in_order {X} (w : list N -> outcome (X * list N)) (f : list nat -> outcome (X * list nat)) : Prop :=
  exists ask, (forall before, fair (ask before)) /\ follows ask w f.
