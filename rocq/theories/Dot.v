(** Dot output.  The text is built as a [string]; writers never fail. *)
From Coq Require Import String Ascii DecimalString.
From Verif Require Import Base Containers Graph.
Set Implicit Arguments.
Local Open Scope string_scope.

(** The newline, tab and double quote characters. *)
Definition nl : string := String "010" "".
Definition tab : string := String "009" "".
Definition quote : string := String "034" "".

(** Concatenation of the pieces written one after the other. *)
Fixpoint cat (l : list string) : string :=
  match l with
  | [] => ""
  | s :: t => s ++ cat t
  end.

(** [{}] of a [usize]: decimal digits. *)
Definition show (n : nat) : string := NilZero.string_of_uint (Nat.to_uint n).

Section Generic.
Context {T A : Type} {C : AdjContainer T A}.

(** The loop over all vertices and neighbours with a larger index, which occurs in each
    of the functions below:
    /repo/src/generic_graph/generic_graph.rs 958-964, 1543-1550, 1593-1600. *)
Definition edge_text (i j : nat) : string := tab ++ show i ++ " -- " ++ show j ++ nl.

Definition edges_text (g : graph A) : outcome string :=
  do ls <- mapM (fun i =>
             do c <- container g i;
             Done (cat (map (fun j => if Nat.ltb i j then edge_text i j else "") (ac_neighbors c))))
           (seq 0 (vertex_count g));
  Done (cat ls).

(** The loop [write!(writer, "{} ", i)] over all indices:
    /repo/src/generic_graph/generic_graph.rs 953-955, 1534-1536, 1584-1586. *)
Definition indices_text (n : nat) : string := cat (map (fun i => show i ++ " ") (seq 0 n)).

(** One label line: /repo/src/generic_graph/generic_graph.rs 1541, 1591. *)
Definition label_text (i : nat) (label : string) : string :=
  tab ++ quote ++ show i ++ quote ++ " [label=" ++ quote ++ label ++ quote ++ "];" ++ nl.

(** /repo/src/generic_graph/generic_graph.rs 950-967, [to_dot]. *)
Definition to_dot (g : graph A) : outcome string :=
  do e <- edges_text g;
  Done ("graph{" ++ nl ++ tab ++ indices_text (vertex_count g) ++ nl ++ e ++ "}").

(** /repo/src/generic_graph/generic_graph.rs 1523-1552,
    [dot_from_container_index].  The label function is pure. *)
Definition dot_from_container_index (g : graph A) (dot_options : string)
    (f : nat -> A -> string) : outcome string :=
  do e <- edges_text g;
  Done ("graph G{" ++ nl ++ tab ++ dot_options ++ nl ++ tab ++
        indices_text (vertex_count g) ++ ";" ++ nl ++
        cat (map (fun ic => label_text (fst ic) (f (fst ic) (snd ic)))
               (enumerate (vertices g))) ++
        e ++ "}").

(** /repo/src/generic_graph/generic_graph.rs 1554-1567,
    [dot_from_contained_index]. *)
Definition dot_from_contained_index (g : graph A) (dot_options : string)
    (f : nat -> T -> string) : outcome string :=
  dot_from_container_index g dot_options (fun i a => f i (ac_contained a)).

(** /repo/src/generic_graph/generic_graph.rs 1574-1602, [dot_from_indices]. *)
Definition dot_from_indices (g : graph A) (dot_options : string) (f : nat -> string)
  : outcome string :=
  do e <- edges_text g;
  Done ("graph G{" ++ nl ++ tab ++ dot_options ++ nl ++ tab ++
        indices_text (vertex_count g) ++ ";" ++ nl ++
        cat (map (fun i => label_text i (f i)) (seq 0 (vertex_count g))) ++
        e ++ "}").

(** /repo/src/traits/dot_traits.rs 171-186 and 204-218: [dot_with_indices], [dot]. *)
Definition dot_with_indices (g : graph A) (dot_options : string) : outcome string :=
  dot_from_indices g dot_options show.
Definition dot (g : graph A) (dot_options : string) : outcome string :=
  dot_from_indices g dot_options (fun _ => "").

End Generic.
