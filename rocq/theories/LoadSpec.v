(** Vocabulary for the statements about [vertex_load]. *)
From Verif Require Import Base Containers Graph GraphSpec.
From Coq Require Import QArith.
Set Implicit Arguments.
Local Open Scope nat_scope.

Definition qsum {X} (f : X -> Q) (l : list X) : Q := fold_right (fun x a => f x + a)%Q 0%Q l.

Definition qnat (n : nat) : Q := inject_Z (Z.of_nat n).

Section Loads.
Context {T A : Type} {C : AdjContainer T A}.

(** [D s v] is the distance of [v] from [s], [None] when there is no path. *)
Definition distances (g : graph A) (D : nat -> nat -> option nat) : Prop :=
  forall s v d, s < vertex_count g -> (D s v = Some d <-> is_dist (adj g) s v d).

(** [u] is one step nearer to [s] than [w] is. *)
Definition nearer (D : nat -> nat -> option nat) (s u w : nat) : bool :=
  match D s u, D s w with
  | Some a, Some b => S a =? b
  | _, _ => false
  end.

(** The neighbours of [w] one step nearer to [s], and one step farther. *)
Definition inward (g : graph A) D (s w : nat) : list nat :=
  filter (fun u => nearer D s u w) (nbrs g w).
Definition outward (g : graph A) D (s v : nat) : list nat :=
  filter (fun w => nearer D s v w) (nbrs g v).

(** Every vertex that has a path to [s] has one unit of its own; it passes all that
    it has to its inward neighbours in equal shares.  [F s v] is what [v] then has. *)
Definition flow (g : graph A) D (F : nat -> nat -> Q) : Prop :=
  forall s v, s < vertex_count g -> D s v <> None ->
    (F s v == 1 + qsum (fun w => F s w / qnat (length (inward g D s w))) (outward g D s v))%Q.

(** What the flow to [s] adds to the load of [v]. *)
Definition through (D : nat -> nat -> option nat) (F : nat -> nat -> Q) (s v : nat) : Q :=
  if s =? v then 0%Q else match D s v with Some _ => F s v | None => 0%Q end.

(** [v] is another vertex with a path to [s]. *)
Definition other (D : nat -> nat -> option nat) (s v : nat) : bool :=
  negb (s =? v) && match D s v with Some _ => true | None => false end.

(** Sum of the distances over all ordered pairs that have one. *)
Definition distance_sum (D : nat -> nat -> option nat) (n : nat) : nat :=
  list_sum (map (fun s => list_sum (map (fun v => match D s v with Some d => d | None => 0 end)
                                        (seq 0 n))) (seq 0 n)).
End Loads.
