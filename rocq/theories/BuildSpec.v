(** Debug and release builds compared. *)
From Verif Require Import Base.
Set Implicit Arguments.

(** The debug build panics, or both builds do the same. *)
Definition builds_agree {X} (f : profile -> outcome X) : Prop :=
  f Debug = Panic \/ f Debug = f Release.
