(** Random draws.  The generator is a list of natural numbers that the code consumes
    from the front; theorems quantify over all lists.  Every draw is made from the next
    number by a map onto the range, so every sequence of outcomes is produced by some
    list.  An empty list gives [NoFuel]: the generator was stopped there. *)
From Verif Require Import Base.
From Coq Require Import ZArith QArith.
Set Implicit Arguments.
Local Open Scope nat_scope.

Notation rng := (list nat) (only parsing).

Definition draw (rs : rng) : outcome (nat * rng) :=
  match rs with
  | [] => NoFuel
  | r :: t => Done (r, t)
  end.

(** [rng.gen_range(0..high)]: panics for an empty range. *)
Definition gen_range (high : nat) (rs : rng) : outcome (nat * rng) :=
  if high =? 0 then Panic
  else do ' (r, t) <- draw rs; Done (Nat.modulo r high, t).

(** [rng.gen::<f64>()]: a multiple of 2^-53 in [0, 1), as the crate [rand] makes it. *)
Definition unit_float (r : nat) : Q :=
  Qmake (Z.modulo (Z.of_nat r) 9007199254740992) 9007199254740992.
Definition gen_f64 (rs : rng) : outcome (Q * rng) :=
  do ' (r, t) <- draw rs; Done (unit_float r, t).

(** [rng.gen::<bool>()]. *)
Definition gen_bool (rs : rng) : outcome (bool * rng) :=
  do ' (r, t) <- draw rs; Done (Nat.odd r, t).

(** [v.swap(i, j)]. *)
Definition swap {X} (l : list X) (i j : nat) : outcome (list X) :=
  do a <- vget l i;
  do b <- vget l j;
  Done (upd (upd l i b) j a).

(** [SliceRandom::shuffle] of the crate [rand]: for [i] from [len - 1] down to 1,
    [swap(i, gen_range(0..=i))]. *)
Fixpoint shuffle_down {X} (k : nat) (l : list X) (rs : rng) : outcome (list X * rng) :=
  match k with
  | 0 | 1 => Done (l, rs)
  | S i => do ' (j, t) <- gen_range (S i) rs;
           do l' <- swap l i j;
           shuffle_down i l' t
  end.
Definition shuffle {X} (l : list X) (rs : rng) : outcome (list X * rng) :=
  shuffle_down (length l) l rs.

(** A loop on fuel whose body either goes on with a new state or leaves with a value. *)
Fixpoint loop {St X} (fuel : nat) (body : St -> rng -> outcome ((St + X) * rng)) (s : St) (rs : rng)
  : outcome (X * rng) :=
  match fuel with
  | 0 => NoFuel
  | S f => do ' (r, rs1) <- body s rs;
           match r with
           | inl s' => loop f body s' rs1
           | inr x => Done (x, rs1)
           end
  end.

(** [SliceRandom::choose] of the crate [rand] and [unwrap]: panics for an empty slice. *)
Definition choose_unwrap {X} (l : list X) (rs : rng) : outcome (X * rng) :=
  do ' (k, rs1) <- gen_range (length l) rs;
  do x <- vget l k;
  Done (x, rs1).
