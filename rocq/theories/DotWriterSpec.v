(** Vocabulary for the statements about dot output into a writer. *)
From Coq Require Import String.
From Verif Require Import Base Dot.
Set Implicit Arguments.
Local Open Scope string_scope.

(** The whole text for given options, labels and edges. *)
Definition drawing (opts : string) (labels : list string) (E : list (nat * nat)) : string :=
  "graph G{" ++ nl ++ tab ++ opts ++ nl ++ tab ++
  cat (map (fun i => show i ++ " ") (seq 0 (length labels))) ++ ";" ++ nl ++
  cat (map (fun il => tab ++ quote ++ show (fst il) ++ quote ++ " [label=" ++ quote ++ snd il ++
                      quote ++ "];" ++ nl) (combine (seq 0 (length labels)) labels)) ++
  cat (map (fun e => tab ++ show (fst e) ++ " -- " ++ show (snd e) ++ nl) E) ++ "}".

(** A closure with a state, called once for each element of a list, in this order. *)
Fixpoint calls {F X Y} (f : F -> X -> outcome (F * Y)) (s : F) (l : list X) : outcome (F * list Y) :=
  match l with
  | [] => Done (s, [])
  | x :: t =>
      do ' (s1, y) <- f s x;
      do ' (s2, ys) <- calls f s1 t;
      Done (s2, y :: ys)
  end.

(** [content] is what was written so far: all of the text if writing goes well, the
    beginning of it otherwise. *)
Definition writer_law {W} (write : W -> string -> W * bool) (content : W -> string) : Prop :=
  forall w text,
  exists p q, text = p ++ q /\ content (fst (write w text)) = content w ++ p /\
    (snd (write w text) = true -> q = "").
