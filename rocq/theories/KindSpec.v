(** Vocabulary for the kinds of the draws: how many bits, which numbers, which integers are taken. *)
From Verif Require Import Base Rng OrderSpec.
From Coq Require Import NArith QArith.
Set Implicit Arguments.
Unset Strict Implicit.
Local Open Scope nat_scope.

(** A number below [h] from integers of [b] bits, each number from 2 ^ (b - bits of h) of them. *)
Definition range_kind (b : N) (h : nat) : kind :=
  Below b (N.of_nat h) (N.of_nat h * 2 ^ (b - N.size (N.of_nat h))).

(** A number below [h], each from as many integers of [b] bits as possible. *)
Definition uniform_kind (b : N) (h : nat) : kind :=
  Below b (N.of_nat h) (N.of_nat h * (2 ^ b / N.of_nat h)).

(** An index below [h]: 32 bits if they suffice. *)
Definition index_kind (h : nat) : kind :=
  range_kind (if (N.of_nat h <? 2 ^ 32)%N then 32 else 64) h.

(** The kind of the draw number [i], counted from zero, is [ask i]. *)
Definition asks (ask : nat -> kind) {X} (w : list N -> outcome (X * list N))
  (f : list nat -> outcome (X * list nat)) : Prop :=
  follows (fun before => ask (length before)) w f.

(** Two different vertices out of [n], and then a float. *)
Definition step_kinds (n i : nat) : kind := if i <? 2 then range_kind 64 (n - i) else Upper 53.

(** An edge out of [m], a float, and one of the other vertices out of [n]. *)
Definition sw_kinds (n m i : nat) : kind :=
  match i with 0 => range_kind 64 m | 1 => Upper 53 | _ => range_kind 64 (n - 1) end.

(** The next draw for edges that are each moved with probability [q]: a float, and if it is at most [q],
    one of the other vertices out of [n]. *)
Fixpoint sw_next (q : Q) (n : nat) (before : list nat) : kind :=
  match before with
  | [] => Upper 53
  | r :: t =>
      if Qle_bool (unit_float r) q then
        match t with [] => range_kind 64 (n - 1) | _ :: t' => sw_next q n t' end
      else sw_next q n t
  end.
