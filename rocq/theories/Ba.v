(** The Barabasi-Albert ensemble. *)
From Verif Require Import Base Containers Graph Rng.
Set Implicit Arguments.

(** /repo/src/barabasi_albert.rs 26-35.  The generator is threaded separately. *)
Record ba (T : Type) := mk_ba {
  ba_source : graph (node_container T);
  ba_graph : graph (node_container T);
  ba_m : nat;
  ba_weights : list nat
}.

(** [WeightedIndex::new(weights).unwrap()] of the crate [rand]: the sum of the weights,
    which must not be zero. *)
Definition weighted_new (ws : list nat) : outcome nat :=
  if list_sum ws =? 0 then Panic else Done (list_sum ws).

(** [WeightedIndex::sample] for the uniform number [r] below the sum: the first index
    whose cumulated weight is larger than [r]. *)
Fixpoint weighted_pick (ws : list nat) (r : nat) : nat :=
  match ws with
  | [] => 0
  | w :: ws' => if r <? w then 0 else S (weighted_pick ws' (r - w))
  end.

Section Model.
Context {T : Type}.
Let G := graph (node_container T).

(** /repo/src/barabasi_albert.rs 216-221: one round of the [while] loop for vertex [i]. *)
Definition ba_attach (p : profile) (m : nat) (ws : list nat) (total i : nat) (g : G) (rs : rng)
  : outcome ((G + G) * rng) :=
  do c <- container g i;
  if ac_degree c <? m then
    do ' (r, rs1) <- gen_range total rs;
    do ' (_, g') <- add_edge p g i (weighted_pick ws r);
    Done (inl g', rs1)
  else Done (inr g, rs).

(** /repo/src/barabasi_albert.rs 224-227: the weights after vertex [i] was added. *)
Definition ba_update (g : G) (ws : list nat) (i : nat) : outcome (list nat) :=
  do c <- container g i;
  do ws1 <- vset ws i (ac_degree c);
  foldM (fun ws j => do w <- vget ws j; vset ws j (w + 1)) ws1 (ac_neighbors c).

(** /repo/src/barabasi_albert.rs 214-228: the body of the [for] loop. *)
Definition ba_insert (p : profile) (m : nat) (s : (G * list nat) * rng) (i : nat)
  : outcome ((G * list nat) * rng) :=
  let '((g, ws), rs) := s in
  do total <- weighted_new ws;
  do ' (g', rs1) <- loop (S (length rs)) (ba_attach p m ws total i) g rs;
  do ws' <- ba_update g' ws i;
  Done ((g', ws'), rs1).

(** /repo/src/barabasi_albert.rs 199-229, [randomize]. *)
Definition ba_randomize (p : profile) (e : ba T) (rs : rng) : outcome (ba T * rng) :=
  do g <- reset_from_graph (ba_graph e) (ba_source e);
  let s := vertex_count (ba_source e) in
  let n := vertex_count g in
  do ' (order, rs1) <- shuffle (seq s (n - s)) rs;
  do ws1 <- foldM (fun ws i => do c <- vget (vertices (ba_source e)) i; vset ws i (ac_degree c))
              (ba_weights e) (seq 0 s);
  do ws2 <- foldM (fun ws i => vset ws i 0) ws1 (seq s (n - s));
  do ' (g', ws', rs2) <- foldM (ba_insert p (ba_m e)) ((g, ws2), rs1) order;
  Done (mk_ba (ba_source e) g' (ba_m e) ws', rs2).

(** /repo/src/barabasi_albert.rs 89-103, [new]. *)
Definition ba_new (p : profile) (mk : nat -> T) (n m source_n : nat) (rs : rng)
  : outcome (ba T * rng) :=
  if negb (2 <=? source_n) then Panic
  else if negb (source_n <? n) then Panic
  else do source <- complete_graph p mk source_n;
       ba_randomize p (mk_ba source (graph_new mk n) m (repeat 0 n)) rs.

(** /repo/src/barabasi_albert.rs 118-121 and 149-152: copying the data of the source. *)
Definition ba_copy (g source : G) : outcome G :=
  foldM (fun g i => do t <- at_ source i; at_mut_set g i t) g (seq 0 (vertex_count source)).

(** /repo/src/barabasi_albert.rs 110-131, [new_from_graph]. *)
Definition ba_new_from_graph (p : profile) (mk : nat -> T) (n m : nat) (source : G) (rs : rng)
  : outcome (ba T * rng) :=
  if negb (forallb (fun c => 0 <? ac_degree c) (vertices source)) then Panic
  else if negb (vertex_count source <? n) then Panic
  else do g <- ba_copy (graph_new mk n) source;
       ba_randomize p (mk_ba source g m (repeat 0 n)) rs.

(** /repo/src/barabasi_albert.rs 138-163, [new_from_generic_graph]. *)
Definition ba_new_from_generic_graph {A2} {C2 : AdjContainer T A2} (p : profile) (mk : nat -> T)
  (n m : nat) (generic : graph A2) (rs : rng) : outcome (ba T * rng) :=
  if negb (forallb (fun c => 0 <? ac_degree c) (vertices generic)) then Panic
  else if negb (vertex_count generic <? n) then Panic
  else do g <- ba_copy (graph_new mk n) (graph_from generic);
       ba_randomize p (mk_ba (graph_from generic) g m (repeat 0 n)) rs.

(** /repo/src/barabasi_albert.rs 72-74, [sort_adj]. *)
Definition ba_sort_adj (e : ba T) : outcome (ba T) :=
  do g <- sort_adj (ba_graph e);
  Done (mk_ba (ba_source e) g (ba_m e) (ba_weights e)).

End Model.
