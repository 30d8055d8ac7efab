(** Vocabulary: working with an ensemble by steps and undoing them, sorting in between. *)
From Verif Require Import Base Rng Markov.
Set Implicit Arguments.

Section Session.
Context {S R U : Type}.
Variable m_step : S -> rng -> outcome (R * S * rng).
Variable undo_step : S -> R -> outcome (U * S).
Variable undo_quiet : S -> R -> outcome S.
Variable sort : S -> outcome S.

(** From [e0] one can come to [e], with the steps [l] not yet undone, last one first.  Steps
    are undone last first, with or without a report; the lists of neighbours are sorted
    whenever one likes. *)
Inductive session (e0 : S) : S -> list R -> Prop :=
| ses_start : session e0 e0 []
| ses_step e l rs r e' rs' : session e0 e l ->
    m_step e rs = Done (r, e', rs') -> session e0 e' (r :: l)
| ses_undo e r l u e' : session e0 e (r :: l) ->
    undo_step e r = Done (u, e') -> session e0 e' l
| ses_undo_quiet e r l e' : session e0 e (r :: l) ->
    undo_quiet e r = Done e' -> session e0 e' l
| ses_sort e l e' : session e0 e l -> sort e = Done e' -> session e0 e' l.

(** What is left can be undone at any time: sorting returns, undoing all steps, last first, gives
    the reports [good] allows and an ensemble that is [like] the first one, and undoing quietly
    gives such an ensemble as well. *)
Definition recoverable (good : R -> U -> Prop) (like : S -> S -> Prop) (e0 e : S) (l : list R) : Prop :=
  (exists e', sort e = Done e') /\
  (exists us h, undo_steps undo_step e (rev l) = Done (us, h) /\ Forall2 good l us /\ like e0 h) /\
  exists h, undo_steps_quiet undo_quiet e (rev l) = Done h /\ like e0 h.

(** Two ensembles that are [like] each other make the same steps for the same draws, any number of
    them, and stay [like] each other. *)
Definition same_steps (ok : S -> Prop) (like : S -> S -> Prop) : Prop :=
  forall k e f rs l e' rs', ok e -> ok f -> like e f ->
  m_steps m_step k e rs = Done (l, e', rs') ->
  exists f', m_steps m_step k f rs = Done (l, f', rs') /\ like e' f'.

End Session.
