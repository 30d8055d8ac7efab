(** Vocabulary for the statements about floating point numbers. *)
From Coq Require Import ZArith QArith Qpower Qabs SpecFloat.
Set Implicit Arguments.
Local Open Scope Q_scope.

(** Powers of two. *)
Definition p2 (e : Z) : Q := Qpower 2 e.

(** The value of a number; infinities and NaN have none. *)
Definition fval (x : spec_float) : option Q :=
  match x with
  | S754_zero _ => Some 0
  | S754_finite s m e => Some (inject_Z (if s then Zneg m else Zpos m) * p2 e)
  | _ => None
  end.

(** What the format with [prec] binary digits can hold, apart from the largest numbers. *)
Definition representable (prec emax : Z) (y : Q) : Prop :=
  exists n f, y == inject_Z n * p2 f /\ (Z.abs n < 2 ^ prec)%Z /\ (emin prec emax <= f)%Z.

(** [r] is [x] rounded: no number of the format is nearer to [x]. *)
Definition nearest (prec emax : Z) (x : Q) (r : spec_float) : Prop :=
  exists q, fval r = Some q /\ representable prec emax q /\
    forall y, representable prec emax y -> Qabs (q - x) <= Qabs (y - x).
