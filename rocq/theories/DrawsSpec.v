(** Vocabulary for the random numbers a call uses. *)
From Verif Require Import Base Rng.
From Coq Require Import QArith.
Set Implicit Arguments.
Unset Strict Implicit.
Local Open Scope nat_scope.

(** What [f] does is settled by the draws it uses, and these are the first ones: with the same
    first draws it returns the same and leaves all the others, whatever they are; and where it
    stops with a panic, further draws do not help. *)
Record settled {X} (f : rng -> outcome (X * rng)) : Prop := {
  settled_returns : forall rs x rest, f rs = Done (x, rest) ->
    exists used, rs = used ++ rest /\ forall others, f (used ++ others) = Done (x, others);
  settled_panics : forall rs, f rs = Panic -> forall more, f (rs ++ more) = Panic;
  settled_undefined_too : forall rs, f rs = UB -> forall more, f (rs ++ more) = UB
}.

(** [f] uses [k] draws whenever it returns. *)
Definition uses {X} (k : nat) (f : rng -> outcome (X * rng)) : Prop :=
  forall rs x rest, f rs = Done (x, rest) -> length rs = k + length rest.

(** The draws for one edge of the small world: one decides, and if the edge is moved, the next
    one says where. *)
Definition edge_draws (q : Q) (ds : list nat) : Prop :=
  match ds with
  | [r] => (q < unit_float r)%Q
  | [r; _] => (unit_float r <= q)%Q
  | _ => False
  end.
