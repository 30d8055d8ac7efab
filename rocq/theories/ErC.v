(** The Erdős-Rényi ensemble with a target connectivity. *)
From Verif Require Import Base Containers Graph Components Rng.
From Coq Require Import QArith Qround.
Set Implicit Arguments.
Local Open Scope nat_scope.

(** /repo/src/er_c.rs 29-38, [ErStepC]. *)
Inductive er_step_c :=
| ErC_Nothing
| ErC_AddedEdge (e : nat * nat)
| ErC_RemovedEdge (e : nat * nat)
| ErC_GError (e : graph_error).

(** /repo/src/er_c.rs 72-80.  The generator is threaded separately.  [f64] values are
    rational numbers here; [Prob] has them as in the code. *)
Record er_c (T : Type) := mk_erc {
  erc_graph : graph (node_container T);
  erc_prob : Q;
  erc_c_target : Q
}.

(** /repo/src/er_c.rs 349-358, [draw_two_from_range]. *)
Definition draw_two_from_range (p : profile) (high : nat) (rs : rng)
  : outcome (nat * nat * rng) :=
  do ' (first, rs1) <- gen_range high rs;
  do h <- usub p high 1;
  do ' (second, rs2) <- gen_range h rs1;
  if second <? first then Done (first, second, rs2)
  else Done (first, second + 1, rs2).

Section Model.
Context {T : Type}.
Let G := graph (node_container T).

(** [self.graph.vertices[i].adj.push(j)]. *)
Definition adj_push (g : G) (i j : nat) : outcome G :=
  do c <- vget (vertices g) i;
  Done (mk_graph (next_id g) (edge_count g)
          (upd (vertices g) i (mk_nc (nc_id c) (nc_adj c ++ [j]) (nc_node c)))).

(** The unchecked insertion of /repo/src/er_c.rs 137-139. *)
Definition push_both (g : G) (i j : nat) : outcome G :=
  do g1 <- adj_push g i j;
  do g2 <- adj_push g1 j i;
  Done (mk_graph (next_id g2) (edge_count g2 + 1) (vertices g2)).

(** The pairs visited by the two nested loops of /repo/src/er_c.rs 131-132. *)
Definition er_pairs (n : nat) : list (nat * nat) :=
  flat_map (fun i => map (pair i) (seq (i + 1) (n - (i + 1)))) (seq 0 n).

(** /repo/src/er_c.rs 128-143, [randomize]. *)
Definition erc_randomize (e : er_c T) (rs : rng) : outcome (er_c T * rng) :=
  let g := clear_edges (erc_graph e) in
  do ' (g', rs') <- foldM (fun s ij =>
      let '(g, rs) := s in
      do ' (x, rs1) <- gen_f64 rs;
      if Qle_bool x (erc_prob e)
      then do g1 <- push_both g (fst ij) (snd ij); Done (g1, rs1)
      else Done (g, rs1)) (g, rs) (er_pairs (vertex_count g));
  Done (mk_erc g' (erc_prob e) (erc_c_target e), rs').

(** /repo/src/er_c.rs 154-174, [m_step]. *)
Definition erc_m_step (p : profile) (e : er_c T) (rs : rng)
  : outcome (er_step_c * er_c T * rng) :=
  let set g := mk_erc g (erc_prob e) (erc_c_target e) in
  do ' (a, b, rs1) <- draw_two_from_range p (vertex_count (erc_graph e)) rs;
  do ' (x, rs2) <- gen_f64 rs1;
  if Qle_bool x (erc_prob e) then
    do ' (r, g) <- add_edge p (erc_graph e) a b;
    match r with
    | Ok _ => Done (ErC_AddedEdge (a, b), set g, rs2)
    | Err _ => Done (ErC_Nothing, set g, rs2)
    end
  else
    do ' (r, g) <- remove_edge p (erc_graph e) a b;
    match r with
    | Ok _ => Done (ErC_RemovedEdge (a, b), set g, rs2)
    | Err _ => Done (ErC_Nothing, set g, rs2)
    end.

(** /repo/src/er_c.rs 182-201, [undo_step]. *)
Definition erc_undo_step (p : profile) (e : er_c T) (step : er_step_c)
  : outcome (er_step_c * er_c T) :=
  let set g := mk_erc g (erc_prob e) (erc_c_target e) in
  match step with
  | ErC_AddedEdge (a, b) =>
      do ' (r, g) <- remove_edge p (erc_graph e) a b;
      match r with
      | Err err => Done (ErC_GError err, set g)
      | Ok _ => Done (ErC_RemovedEdge (a, b), set g)
      end
  | ErC_RemovedEdge (a, b) =>
      do ' (r, g) <- add_edge p (erc_graph e) a b;
      match r with
      | Err err => Done (ErC_GError err, set g)
      | Ok _ => Done (ErC_AddedEdge (a, b), set g)
      end
  | ErC_Nothing | ErC_GError _ => Done (step, e)
  end.

(** /repo/src/er_c.rs 209-225, [undo_step_quiet], with 47-59 [valid_or_panic_msg]. *)
Definition erc_undo_step_quiet (p : profile) (e : er_c T) (step : er_step_c)
  : outcome (er_c T) :=
  let set g := mk_erc g (erc_prob e) (erc_c_target e) in
  match step with
  | ErC_AddedEdge (a, b) =>
      do ' (r, g) <- remove_edge p (erc_graph e) a b;
      match r with Err _ => Panic | Ok _ => Done (set g) end
  | ErC_RemovedEdge (a, b) =>
      do ' (r, g) <- add_edge p (erc_graph e) a b;
      match r with Err _ => Panic | Ok _ => Done (set g) end
  | ErC_Nothing => Done e
  | ErC_GError _ => Panic
  end.

(** [c_target / (n - 1) as f64] as a rational number; see [Prob] for the rounding. *)
Definition erc_probability (p : profile) (n : nat) (c : Q) : outcome Q :=
  do m <- usub p n 1;
  Done (Qdiv c (inject_Z (Z.of_nat m))).

(** /repo/src/er_c.rs 239-250, [new]; [mk] is [T::new_from_index]. *)
Definition erc_new (p : profile) (mk : nat -> T) (n : nat) (c_target : Q) (rs : rng)
  : outcome (er_c T * rng) :=
  do prob <- erc_probability p n c_target;
  erc_randomize (mk_erc (graph_new mk n) prob c_target) rs.

(** /repo/src/er_c.rs 261-268, [make_connected]: the loop over the suggestions from
    the last to the first. *)
Fixpoint connect_loop (p : profile) (g : G) (last : nat) (l : list nat) : outcome G :=
  match l with
  | [] => Done g
  | s :: t =>
      do ' (r, g1) <- add_edge p g last s;
      do _ <- unwrap r;
      connect_loop p g1 s t
  end.

Definition erc_make_connected (p : profile) (e : er_c T) : outcome (er_c T) :=
  do suggestions <- suggest_connections (erc_graph e);
  match rev suggestions with
  | [] => Panic
  | last :: rest =>
      do g <- connect_loop p (erc_graph e) last rest;
      Done (mk_erc g (erc_prob e) (erc_c_target e))
  end.

(** /repo/src/er_c.rs 286-290, [set_target_connectivity]. *)
Definition erc_set_target_connectivity (p : profile) (e : er_c T) (c : Q)
  : outcome (er_c T) :=
  do prob <- erc_probability p (vertex_count (erc_graph e)) c;
  Done (mk_erc (erc_graph e) prob c).

End Model.
