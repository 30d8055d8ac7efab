(** The configuration model. *)
From Verif Require Import Base Containers Graph Rng.
Set Implicit Arguments.

(** /repo/src/configuration_model.rs 30-38.  The generator is threaded separately. *)
Record config (T : Type) := mk_cm {
  cm_graph : graph (node_container T);
  cm_degrees : list nat;
  cm_halfs : list nat;
  cm_backup : list nat
}.

(** /repo/src/configuration_model.rs 391-401, [ConfigurationModelStep]. *)
Inductive cm_step := Cm_Error | Cm_Added (e1 e2 : nat * nat).

(** /repo/src/configuration_model.rs 403-412, [UndoStepErrorCM]. *)
Inductive cm_undo_error :=
| UnableToAddEdge (e : nat * nat) (why : graph_error)
| UnableToRemoveEdge (e : nat * nat) (why : graph_error).

(** [Vec::pop]. *)
Definition pop {X} (l : list X) : option (list X * X) :=
  match rev l with
  | [] => None
  | x :: r => Some (rev r, x)
  end.

(** /repo/src/configuration_model.rs 229-245, [init_edge_halfs]; the pointer is read
    inside the vector only. *)
Definition edge_halfs (v : list nat) : list nat :=
  flat_map (fun it => repeat (fst it) (snd it)) (enumerate v).

(** /repo/src/configuration_model.rs 144-160, [degree_vec_is_valid]. *)
Definition degree_vec_is_valid (v : list nat) : bool :=
  if length v <=? 1 then false
  else if negb (forallb (fun d => d <? length v - 1) v) then false
  else Nat.even (fold_left Nat.add v 0).

Section Model.
Context {T : Type}.
Let G := graph (node_container T).

(** /repo/src/configuration_model.rs 363-370: looking for another vertex, from
    position [counter] down. *)
Fixpoint cm_scan (node1 : nat) (l : list nat) (counter : nat) : outcome (option nat) :=
  do x <- vget l counter;
  if node1 =? x then
    match counter with
    | 0 => Done None
    | S c => cm_scan node1 l c
    end
  else Done (Some counter).

(** /repo/src/configuration_model.rs 359-387, [add_multiple_random_edges], on fuel.  The
    [pop] before the loop and the one at its end are one here. *)
Fixpoint cm_add_multiple (fuel : nat) (p : profile) (g : G) (halfs : list nat)
  : outcome (bool * G * list nat) :=
  match fuel with
  | 0 => NoFuel
  | S f =>
      do ' (halfs1, node1) <- expect (pop halfs);
      do counter <- usub p (length halfs1) 1;
      do found <- cm_scan node1 halfs1 counter;
      match found with
      | None => Done (false, g, halfs1)
      | Some k =>
          do node2 <- vget halfs1 k;
          do halfs2 <- swap_remove halfs1 k;
          do ' (r, g') <- add_edge p g node1 node2;
          match r with
          | Err _ => Done (false, g', halfs2)
          | Ok _ => if 1 <? length halfs2 then cm_add_multiple f p g' halfs2
                    else Done (true, g', halfs2)
          end
      end
  end.

(** /repo/src/configuration_model.rs 340-349: one round of the [while] loop of
    [randomize].  The state is the graph, the shuffled half edges and the half edges left;
    the loop is left when there are none.  A vector of [k] half edges is used up in at
    most [k] rounds of [add_multiple_random_edges]. *)
Definition cm_round (p : profile) (s : G * list nat * list nat) (rs : rng)
  : outcome ((G * list nat * list nat + G * list nat * list nat) * rng) :=
  let '(g, backup, halfs) := s in
  do ' (added, g1, halfs1) <- cm_add_multiple (S (length halfs)) p g halfs;
  do ' (s', rs1) <-
    (if added then Done ((g1, backup, halfs1), rs)
     else do ' (backup', rs1) <- shuffle backup rs;
          Done ((clear_edges g1, backup', backup'), rs1));
  match snd s' with
  | [] => Done (inr s', rs1)
  | _ => Done (inl s', rs1)
  end.

(** /repo/src/configuration_model.rs 334-350, [randomize]. *)
Definition cm_randomize (p : profile) (e : config T) (rs : rng) : outcome (config T * rng) :=
  let g := clear_edges (cm_graph e) in
  do ' (backup, rs1) <- shuffle (cm_backup e) rs;
  match backup with
  | [] => Done (mk_cm g (cm_degrees e) [] [], rs1)
  | _ =>
      do ' (g', backup', halfs', rs2) <- loop (S (length rs1)) (cm_round p) (g, backup, backup) rs1;
      Done (mk_cm g' (cm_degrees e) halfs' backup', rs2)
  end.

(** /repo/src/configuration_model.rs 125-138, [from_vec_unchecked]. *)
Definition cm_from_vec_unchecked (p : profile) (mk : nat -> T) (v : list nat) (rs : rng)
  : outcome (config T * rng) :=
  cm_randomize p (mk_cm (graph_new mk (length v)) v [] (edge_halfs v)) rs.

(** /repo/src/configuration_model.rs 112-120, [from_vec]. *)
Definition cm_from_vec (p : profile) (mk : nat -> T) (v : list nat) (rs : rng)
  : outcome (option (config T * rng)) :=
  if degree_vec_is_valid v then do x <- cm_from_vec_unchecked p mk v rs; Done (Some x)
  else Done None.

(** /repo/src/configuration_model.rs 62-74, [from_const]. *)
Definition cm_from_const (p : profile) (mk : nat -> T) (constant size : nat) (rs : rng)
  : outcome (option (config T * rng)) :=
  do s <- usub p size 1;
  if (s <=? constant) || negb (Nat.even (size * constant)) then Done None
  else do x <- cm_from_vec_unchecked p mk (repeat constant size) rs; Done (Some x).

(** /repo/src/configuration_model.rs 78-83, [from_generic_graph]. *)
Definition cm_from_generic_graph {T1 A1} {C1 : AdjContainer T1 A1} (p : profile) (mk : nat -> T)
  (g : graph A1) (rs : rng) : outcome (config T * rng) :=
  cm_from_vec_unchecked p mk (degree_vec g) rs.

(** /repo/src/configuration_model.rs 92-106, [clone_from_generic_graph]. *)
Definition cm_clone_from_generic_graph {A} {C : AdjContainer T A} (g : graph A) : config T :=
  mk_cm (graph_from g) (degree_vec g) [] (edge_halfs (degree_vec g)).

(** /repo/src/configuration_model.rs 199-209, [swap_degree_vec_unchecked]. *)
Definition cm_swap_degree_vec_unchecked (p : profile) (e : config T) (v : list nat) (rs : rng)
  : outcome (list nat * config T * rng) :=
  if length (cm_degrees e) =? length v then
    do ' (e', rs1) <- cm_randomize p (mk_cm (cm_graph e) v (cm_halfs e) (edge_halfs v)) rs;
    Done (cm_degrees e, e', rs1)
  else Panic.

(** /repo/src/configuration_model.rs 165-195, [assert_degree_vec_valid] and
    [swap_degree_vec]. *)
Definition cm_swap_degree_vec (p : profile) (e : config T) (v : list nat) (rs : rng)
  : outcome (list nat * config T * rng) :=
  if degree_vec_is_valid v then cm_swap_degree_vec_unchecked p e v rs else Panic.

(** /repo/src/configuration_model.rs 216-226, [degree_vec_from_generic_graph].  Every
    entry is overwritten, as both have the same length. *)
Definition cm_degree_vec_from_generic_graph {T1 A1} {C1 : AdjContainer T1 A1} (p : profile)
  (e : config T) (g : graph A1) (rs : rng) : outcome (config T * rng) :=
  if length (cm_degrees e) =? length (vertices g) then
    cm_randomize p (mk_cm (cm_graph e) (degree_vec g) (cm_halfs e) (edge_halfs (degree_vec g))) rs
  else Panic.

(** [choose_multiple(rng, 2)] of the crate [rand] (Floyd's algorithm as used there for
    small amounts): two entries at distinct positions, or all there are. *)
Definition choose_two (l : list nat) (rs : rng) : outcome (list nat * rng) :=
  match length l with
  | 0 => Done ([], rs)
  | 1 => do ' (t, rs1) <- gen_range 1 rs; do x <- vget l t; Done ([x], rs1)
  | len =>
      do ' (t1, rs1) <- gen_range (len - 1) rs;
      do ' (t2, rs2) <- gen_range len rs1;
      do x <- vget l (if t1 =? t2 then len - 1 else t1);
      do y <- vget l t2;
      Done ([x; y], rs2)
  end.

(** /repo/src/configuration_model.rs 430-438: one round of drawing two vertices.  The
    list is empty at the start of each round. *)
Definition cm_draw_round (backup : list nat) (_ : unit) (rs : rng)
  : outcome ((unit + nat * nat) * rng) :=
  do ' (l, rs1) <- choose_two backup rs;
  do a <- vget l 0;
  do b <- vget l 1;
  if a =? b then Done (inl tt, rs1) else Done (inr (a, b), rs1).

(** [result.unwrap()], [result.expect(..)]. *)
Definition done_ok (x : outcome (result unit graph_error * G)) : outcome G :=
  do ' (r, g) <- x;
  do _ <- unwrap r;
  Done g.

(** /repo/src/configuration_model.rs 428-464, [m_step]. *)
Definition cm_m_step (p : profile) (e : config T) (rs : rng)
  : outcome (cm_step * config T * rng) :=
  let g := cm_graph e in
  let back g' := mk_cm g' (cm_degrees e) (cm_halfs e) (cm_backup e) in
  do ' (v0, v1, rs1) <- loop (S (length rs)) (cm_draw_round (cm_backup e)) tt rs;
  do c0 <- vget (vertices g) v0;
  do ' (j, rs2) <- choose_unwrap (nc_adj c0) rs1;
  do c1 <- vget (vertices g) v1;
  do ' (l, rs3) <- choose_unwrap (nc_adj c1) rs2;
  if (v1 =? v0) || (j =? l) then Done (Cm_Error, e, rs3)
  else
    do ' (r1, g1) <- add_edge p g v0 v1;
    match r1 with
    | Err _ => Done (Cm_Error, back g1, rs3)
    | Ok _ =>
        do ' (r2, g2) <- add_edge p g1 j l;
        match r2 with
        | Err _ =>
            do g3 <- done_ok (remove_edge p g2 v0 v1);
            Done (Cm_Error, back g3, rs3)
        | Ok _ =>
            do g3 <- done_ok (remove_edge p g2 v0 j);
            do g4 <- done_ok (remove_edge p g3 v1 l);
            Done (Cm_Added (v0, j) (v1, l), back g4, rs3)
        end
    end.

(** /repo/src/configuration_model.rs 474-513, [undo_step]. *)
Definition cm_undo_step (p : profile) (e : config T) (s : cm_step)
  : outcome (result unit cm_undo_error * config T) :=
  let g := cm_graph e in
  let back g' := mk_cm g' (cm_degrees e) (cm_halfs e) (cm_backup e) in
  match s with
  | Cm_Error => Done (Ok tt, e)
  | Cm_Added e1 e2 =>
      do ' (r1, g1) <- add_edge p g (fst e2) (snd e2);
      match r1 with
      | Err why => Done (Err (UnableToAddEdge e2 why), back g1)
      | Ok _ =>
          do ' (r2, g2) <- add_edge p g1 (fst e1) (snd e1);
          match r2 with
          | Err why =>
              do g3 <- done_ok (remove_edge p g2 (fst e2) (snd e2));
              Done (Err (UnableToAddEdge e1 why), back g3)
          | Ok _ =>
              do ' (r3, g3) <- remove_edge p g2 (snd e1) (snd e2);
              match r3 with
              | Err why =>
                  do g4 <- done_ok (remove_edge p g3 (fst e2) (snd e2));
                  do g5 <- done_ok (remove_edge p g4 (fst e1) (snd e1));
                  Done (Err (UnableToRemoveEdge (snd e1, snd e2) why), back g5)
              | Ok _ =>
                  do ' (r4, g4) <- remove_edge p g3 (fst e1) (fst e2);
                  match r4 with
                  | Err why =>
                      do g5 <- done_ok (remove_edge p g4 (fst e2) (snd e2));
                      do g6 <- done_ok (remove_edge p g5 (fst e1) (snd e1));
                      do g7 <- done_ok (add_edge p g6 (snd e1) (snd e2));
                      Done (Err (UnableToRemoveEdge (fst e1, fst e2) why), back g7)
                  | Ok _ => Done (Ok tt, back g4)
                  end
              end
          end
      end
  end.

(** /repo/src/configuration_model.rs 520-529, [undo_step_quiet]. *)
Definition cm_undo_step_quiet (p : profile) (e : config T) (s : cm_step) : outcome (config T) :=
  match s with
  | Cm_Error => Done e
  | Cm_Added e1 e2 =>
      do g1 <- done_ok (add_edge p (cm_graph e) (fst e2) (snd e2));
      do g2 <- done_ok (add_edge p g1 (fst e1) (snd e1));
      do g3 <- done_ok (remove_edge p g2 (snd e1) (snd e2));
      do g4 <- done_ok (remove_edge p g3 (fst e1) (fst e2));
      Done (mk_cm g4 (cm_degrees e) (cm_halfs e) (cm_backup e))
  end.

End Model.
