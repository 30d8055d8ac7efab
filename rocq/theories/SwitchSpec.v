(** Vocabulary for the statements about the Markov chain of the configuration model. *)
From Verif Require Import Base Containers Graph GraphSpec UniformSpec.
Set Implicit Arguments.

(** [x] and [y] are the ends of the edge [a]-[b]. *)
Definition joins (a b x y : nat) : bool := ((x =? a) && (y =? b)) || ((x =? b) && (y =? a)).

Section Switch.
Context {T A T' A' : Type} {C : AdjContainer T A} {C' : AdjContainer T' A'}.

(** Replacing the edges [a]-[b] and [c]-[d] of [g] by the new edges [a]-[c] and [b]-[d]
    gives [h]. *)
Definition switch (g : graph A) (h : graph A') (q : list nat) : bool :=
  match q with
  | [a; b; c; d] =>
      adjb g a b && adjb g c d && negb (a =? c) && negb (b =? d) &&
      negb (adjb g a c) && negb (adjb g b d) &&
      forallb (fun xy => let '(x, y) := xy in
          Bool.eqb (adjb h x y)
            ((adjb g x y && negb (joins a b x y) && negb (joins c d x y)) ||
             joins a c x y || joins b d x y))
        (pairs_below (vertex_count g))
  | _ => false
  end.

(** In how many ways two edges, each with a direction, can be chosen so that switching them
    makes [h] out of [g]. *)
Definition switches (g : graph A) (h : graph A') : nat :=
  let n := vertex_count g in count (switch g h) (rolls [n; n; n; n]).
End Switch.
