(** Vocabulary for the statements about Latin hypercube sampling and the dog ensemble. *)
From Verif Require Import Base Containers ContainerSpec ContainerFacts Graph GraphSpec Spacial SpacialSpec Dog.
From Coq Require Import QArith.
Set Implicit Arguments.
Local Open Scope nat_scope.

(** [x] lies in cell [k] of the unit interval cut into [n] cells. *)
Definition in_cell (n k : nat) (x : Q) : Prop :=
  (Z.of_nat k # Pos.of_nat n <= x)%Q /\ (x < Z.of_nat (S k) # Pos.of_nat n)%Q.

(** Every position is a point, and the cells of the points form a Latin hypercube: each
    column and each row is used once. *)
Definition latin (n : nat) (ps : list (option pos)) : Prop :=
  exists cells : list (nat * nat),
    Permutation (map fst cells) (seq 0 n) /\ Permutation (map snd cells) (seq 0 n) /\
    length ps = n /\
    forall i k l, nth_error cells i = Some (k, l) ->
      exists x y, nth_error ps i = Some (Some (x, y)) /\ in_cell n k x /\ in_cell n l y.

(** Whether the pair [(i, j)] is joined in the first phase if [r] is drawn. *)
Definition dog_accepts {T} (e : dog T) (i j r : nat) : bool :=
  dog_accept e (nth i (positions (dog_graph e)) None) (nth j (positions (dog_graph e)) None) (Rng.unit_float r).

(** A vertex that a further edge of [node] can lead to. *)
Definition dog_target {T} (g : sgraph T) (node k : nat) : Prop :=
  k < vertex_count g /\ k <> node /\ ~ adj g node k /\ nbrs g k <> [].

(** The draws of [k] calls of [next] with [m] samples left: two numbers in range each. *)
Fixpoint lhs_draws (k m : nat) (ds : list nat) : Prop :=
  match k, ds with
  | 0, [] => True
  | S k, a :: b :: t => a < m /\ b < m /\ lhs_draws k (m - 1) t
  | _, _ => False
  end.

(** [g'] is [g] with edges from [node] to the vertices of [new]. *)
Record dog_grown {T} (g : sgraph T) (node : nat) (new : list nat) (g' : sgraph T) : Prop := {
  dg_simple : simple_graph g';
  dg_count : vertex_count g' = vertex_count g;
  dg_payloads : payloads g' = payloads g;
  dg_positions : positions g' = positions g;
  dg_edges : edge_count g' = edge_count g + length new;
  dg_nodup : NoDup new;
  dg_target : forall k, In k new -> dog_target g node k;
  dg_adj : forall x y, adj g' x y <-> adj g x y \/ exists k, In k new /\
    (x = node /\ y = k \/ x = k /\ y = node)
}.
