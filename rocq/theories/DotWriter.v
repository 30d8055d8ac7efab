(** Dot output into a writer that may fail, with labels from a closure that has a state. *)
From Coq Require Import String.
From Verif Require Import Base Containers Graph Dot Spacial.
Set Implicit Arguments.
Local Open Scope string_scope.

(** A writer is a state with one operation: write a text.  It returns the new state and
    whether all went well; a text that could not be written as a whole leaves [false].
    Simplification: [write!] with several pieces is one such operation. *)
Section Writer.
Context {W : Type} (write : W -> string -> W * bool).

(** A state of the writer and of the closure, and [true] for [Ok(())]. *)
Definition written (F : Type) := outcome (W * F * bool).

(** [m?; k] *)
Definition try_then {F} (m : written F) (k : W -> F -> written F) : written F :=
  do ' (w, s, ok) <- m;
  if ok : bool then k w s else Done (w, s, false).

Definition put {F} (w : W) (s : F) (text : string) : written F :=
  let '(w', ok) := write w text in Done (w', s, ok).

(** A loop whose body writes. *)
Fixpoint for_each {X F} (body : X -> W -> F -> written F) (l : list X) (w : W) (s : F) : written F :=
  match l with
  | [] => Done (w, s, true)
  | x :: t => try_then (body x w s) (for_each body t)
  end.

Section Generic.
Context {T A : Type} {C : AdjContainer T A}.

(** The loop over the edges: /repo/src/generic_graph/generic_graph.rs 1543-1550, 1593-1600. *)
Definition write_edges {F} (g : graph A) : W -> F -> written F :=
  for_each (fun i w s =>
    do c <- container g i;
    for_each (fun j w s => if Nat.ltb i j then put w s (edge_text i j) else Done (w, s, true))
      (ac_neighbors c) w s)
    (seq 0 (vertex_count g)).

(** The loop over the indices: /repo/src/generic_graph/generic_graph.rs 1532-1537, 1582-1587. *)
Definition write_head {F} (g : graph A) (dot_options : string) (w : W) (s : F) : written F :=
  try_then (put w s ("graph G{" ++ nl ++ tab ++ dot_options ++ nl ++ tab)) (fun w s =>
  try_then (for_each (fun i w s => put w s (show i ++ " ")) (seq 0 (vertex_count g)) w s) (fun w s =>
  put w s (";" ++ nl))).

(** /repo/src/generic_graph/generic_graph.rs 1523-1552, [dot_from_container_index]. *)
Definition w_dot_from_container_index {F} (g : graph A) (w : W) (dot_options : string)
    (f : F -> nat -> A -> outcome (F * string)) (s : F) : written F :=
  try_then (write_head g dot_options w s) (fun w s =>
  try_then (for_each (fun ic w s =>
      do ' (s', label) <- f s (fst ic) (snd ic);
      put w s' (label_text (fst ic) label)) (enumerate (vertices g)) w s) (fun w s =>
  try_then (write_edges g w s) (fun w s =>
  put w s "}"))).

(** /repo/src/generic_graph/generic_graph.rs 1554-1567, [dot_from_contained_index]. *)
Definition w_dot_from_contained_index {F} (g : graph A) (w : W) (dot_options : string)
    (f : F -> nat -> T -> outcome (F * string)) (s : F) : written F :=
  w_dot_from_container_index g w dot_options (fun s i a => f s i (ac_contained a)) s.

(** /repo/src/traits/dot_traits.rs 45-58 and 108-121: [dot_from_container],
    [dot_from_contained]. *)
Definition w_dot_from_container {F} (g : graph A) (w : W) (dot_options : string)
    (f : F -> A -> outcome (F * string)) (s : F) : written F :=
  w_dot_from_container_index g w dot_options (fun s _ a => f s a) s.
Definition w_dot_from_contained {F} (g : graph A) (w : W) (dot_options : string)
    (f : F -> T -> outcome (F * string)) (s : F) : written F :=
  w_dot_from_contained_index g w dot_options (fun s _ c => f s c) s.

(** /repo/src/generic_graph/generic_graph.rs 1574-1602, [dot_from_indices]; the [Dot]
    implementations of the ensembles forward to it: /repo/src/er_m.rs 345-399,
    /repo/src/er_c.rs 420-474, /repo/src/sw.rs 591-645. *)
Definition w_dot_from_indices {F} (g : graph A) (w : W) (dot_options : string)
    (f : F -> nat -> outcome (F * string)) (s : F) : written F :=
  try_then (write_head g dot_options w s) (fun w s =>
  try_then (for_each (fun i w s =>
      do ' (s', label) <- f s i;
      put w s' (label_text i label)) (seq 0 (vertex_count g)) w s) (fun w s =>
  try_then (write_edges g w s) (fun w s =>
  put w s "}"))).

(** /repo/src/traits/dot_traits.rs 180-195 and 212-224: [dot_with_indices], [dot]. *)
Definition w_dot_with_indices (g : graph A) (w : W) (dot_options : string) : written unit :=
  w_dot_from_indices g w dot_options (fun s i => Done (s, show i)) tt.
Definition w_dot (g : graph A) (w : W) (dot_options : string) : written unit :=
  w_dot_from_indices g w dot_options (fun s _ => Done (s, "")) tt.

End Generic.

(** /repo/src/spacial/spacial_ensemble.rs 257-283 and /repo/src/spacial/dog_networks.rs
    17-41, [dot_from_indices]: the label is followed by the position.  [fmt] stands for
    ["{:.2},{:.2}"] of the two coordinates times 100. *)
Definition w_spacial_dot_from_indices {T F} (fmt : option pos -> string) (g : sgraph T) (w : W)
    (dot_options : string) (f : F -> nat -> outcome (F * string)) (s : F) : written F :=
  w_dot_from_indices g w dot_options (fun s i =>
    do ' (s', label) <- f s i;
    do c <- container g i;
    Done (s', label ++ quote ++ " pos=" ++ quote ++ fmt (spc_pos c) ++ "!")) s.

End Writer.

(** [Vec<u8>] as a writer never fails. *)
Definition vec_write (w text : string) : string * bool := (w ++ text, true).

(** The [dot_string_...] functions: write into an empty vector, unwrap, and make a string
    of it.  [String::from_utf8] cannot fail on what was written. *)
Definition to_string {F} (m : string -> @written string F) : outcome (string * F) :=
  do ' (w, s, ok) <- m "";
  if ok : bool then Done (w, s) else Panic.

Section Strings.
Context {T A : Type} {C : AdjContainer T A}.

(** /repo/src/traits/dot_traits.rs 26-40, 61-75, 89-103, 124-138, 162-176, 198-207, 227-234. *)
Definition dot_string_from_container_index {F} (g : graph A) opts f (s : F) :=
  to_string (fun w => w_dot_from_container_index vec_write g w opts f s).
Definition dot_string_from_container {F} (g : graph A) opts f (s : F) :=
  to_string (fun w => w_dot_from_container vec_write g w opts f s).
Definition dot_string_from_contained_index {F} (g : graph A) opts f (s : F) :=
  to_string (fun w => w_dot_from_contained_index vec_write g w opts f s).
Definition dot_string_from_contained {F} (g : graph A) opts f (s : F) :=
  to_string (fun w => w_dot_from_contained vec_write g w opts f s).
Definition dot_string_from_indices {F} (g : graph A) opts f (s : F) :=
  to_string (fun w => w_dot_from_indices vec_write g w opts f s).
Definition dot_string_with_indices (g : graph A) opts :=
  to_string (fun w => w_dot_with_indices vec_write g w opts).
Definition dot_string (g : graph A) opts :=
  to_string (fun w => w_dot vec_write g w opts).

(** /repo/src/generic_graph/generic_graph.rs 1018-1034 and 1097-1113:
    [to_dot_with_labels_from_contained], [to_dot_with_labels_from_container].  The closure
    is a [Fn]; it has no state. *)
Definition to_dot_with_labels_from_contained (g : graph A) opts (f : T -> nat -> string)
  : outcome (string * unit) :=
  to_string (fun w => w_dot_from_contained_index vec_write g w opts
    (fun s i c => Done (s, f c i)) tt).
Definition to_dot_with_labels_from_container (g : graph A) opts (f : A -> nat -> string)
  : outcome (string * unit) :=
  to_string (fun w => w_dot_from_container_index vec_write g w opts
    (fun s i c => Done (s, f c i)) tt).

End Strings.
