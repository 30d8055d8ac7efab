(** The other ensembles on the words of the generator.  [DogEnsemble] is left out: a sample of the
    Poisson distribution needs logarithms. *)
From Verif Require Import Base Containers Graph Rng ErC Ws Ba Config Spacial Words.
From Coq Require Import NArith ZArith QArith.
Set Implicit Arguments.
Local Open Scope nat_scope.

(** [loop], on words. *)
Fixpoint w_loop {St X} (fuel : nat) (body : St -> words -> outcome ((St + X) * words)) (s : St) (ws : words)
  : outcome (X * words) :=
  match fuel with
  | 0 => NoFuel
  | S f => do ' (r, ws1) <- body s ws;
           match r with
           | inl s' => w_loop f body s' ws1
           | inr x => Done (x, ws1)
           end
  end.

(** [SliceRandom::choose] and [unwrap]. *)
Definition w_choose_unwrap {X} (l : list X) (ws : words) : outcome (X * words) :=
  do ' (k, ws1) <- w_gen_index (length l) ws;
  do x <- vget l k;
  Done (x, ws1).

(** [choose_multiple(rng, 2)], for slices of less than 2^32 elements: [sample_floyd] draws integers of
    32 bits, by [gen_range(0..=j)]. *)
Definition w_choose_two (l : list nat) (ws : words) : outcome (list nat * words) :=
  match length l with
  | 0 => Done ([], ws)
  | 1 => do ' (t, ws1) <- sample_single 32 1 next_u32 ws; do x <- vget l t; Done ([x], ws1)
  | len =>
      do ' (t1, ws1) <- sample_single 32 (len - 1) next_u32 ws;
      do ' (t2, ws2) <- sample_single 32 len next_u32 ws1;
      do x <- vget l (if t1 =? t2 then len - 1 else t1);
      do y <- vget l t2;
      Done ([x; y], ws2)
  end.

Section Model.
Context {T : Type}.

(** /repo/src/watts_strogatz/ensemble.rs 138-159: one round of the drawing loop of
    [add_random_edge]; the cast to [u32] changes nothing, since [new] takes a [u32]. *)
Definition w_ws_round (g : graph (ws_container T)) (o : original_edge) (_ : unit) (ws : words)
  : outcome ((unit + nat * nat) * words) :=
  do ' (first, ws1) <- w_uniform_u32 (vertex_count g) ws;
  do ' (second, ws2) <- w_uniform_u32 (vertex_count g) ws1;
  if (first =? second)
     || ((first =? oe_from o) && (second =? oe_to o))
     || ((first =? oe_to o) && (second =? oe_from o))
  then Done (inl tt, ws2)
  else
    do c <- vget (vertices g) first;
    if contains (wc_to c) second then Done (inl tt, ws2)
    else Done (inr (first, second), ws2).

(** /repo/src/watts_strogatz/ensemble.rs 136-184, [add_random_edge]. *)
Definition w_ws_add_random_edge (p : profile) (s : graph (ws_container T) * words) (o : original_edge)
  : outcome (graph (ws_container T) * words) :=
  let '(g, ws) := s in
  do ' (first, second, ws1) <- w_loop (S (length ws)) (w_ws_round g o) tt ws;
  do g' <- (if (first =? oe_to o) || (second =? oe_from o)
            then ws_create_edge p g second first (oe_swap o)
            else ws_create_edge p g first second o);
  Done (g', ws1).

(** /repo/src/watts_strogatz/ensemble.rs 238-248: the edges of one vertex. *)
Definition w_ws_pick (q : Q) (s : list nat * list original_edge * list original_edge * words) (j : nat)
  : outcome (list nat * list original_edge * list original_edge * words) :=
  let '(to, orig, rewire, ws) := s in
  do e <- vget orig j;
  if oe_at_origin e then
    do ' (x, ws1) <- w_gen_f64 ws;
    if Qle_bool x q then
      do orig' <- swap_remove orig j;
      do to' <- swap_remove to j;
      Done (to', orig', rewire ++ [e], ws1)
    else Done (to, orig, rewire, ws1)
  else Done (to, orig, rewire, ws).

(** /repo/src/watts_strogatz/ensemble.rs 229-266: the body of the loop of [randomize]. *)
Definition w_ws_randomize_vertex (p : profile) (q : Q) (s : graph (ws_container T) * words) (i : nat)
  : outcome (graph (ws_container T) * words) :=
  let '(g, ws) := s in
  do c <- vget (vertices g) i;
  let len := length (wc_original c) in
  do _ <- match p with
          | Debug => if len =? length (wc_to c) then Done tt else Panic
          | Release => Done tt
          end;
  do ' (to, orig, rewire, ws1) <-
    foldM (w_ws_pick q) (wc_to c, wc_original c, [], ws) (rev (seq 0 len));
  let g1 := ws_with g (upd (vertices g) i (mk_wc (wc_id c) (wc_node c) to orig)) in
  do g2 <- foldM (@ws_remove_other T) g1 rewire;
  foldM (w_ws_add_random_edge p) (g2, ws1) rewire.

(** /repo/src/watts_strogatz/ensemble.rs 224-267, [randomize]. *)
Definition w_ws_randomize (p : profile) (e : ws_ensemble T) (ws : words)
  : outcome (ws_ensemble T * words) :=
  do ' (r, g) <- init_ring p (ws_graph e) (ws_distance e);
  do _ <- unwrap r;
  do ' (g', ws') <- foldM (w_ws_randomize_vertex p (ws_rewire_prob e)) (g, ws)
                          (seq 0 (vertex_count g));
  Done (mk_wse g' (ws_rewire_prob e) (ws_distance e), ws').

(** /repo/src/barabasi_albert.rs 216-221: one round of the [while] loop for vertex [i].
    [WeightedIndex] has a [Uniform] over the sum of the weights. *)
Definition w_ba_attach (p : profile) (m : nat) (weights : list nat) (total i : nat)
  (g : graph (node_container T)) (ws : words)
  : outcome ((graph (node_container T) + graph (node_container T)) * words) :=
  do c <- container g i;
  if ac_degree c <? m then
    do ' (r, ws1) <- w_uniform total ws;
    do ' (_, g') <- add_edge p g i (weighted_pick weights r);
    Done (inl g', ws1)
  else Done (inr g, ws).

(** /repo/src/barabasi_albert.rs 214-228: the body of the [for] loop. *)
Definition w_ba_insert (p : profile) (m : nat) (s : (graph (node_container T) * list nat) * words) (i : nat)
  : outcome ((graph (node_container T) * list nat) * words) :=
  let '((g, weights), ws) := s in
  do total <- weighted_new weights;
  do ' (g', ws1) <- w_loop (S (length ws)) (w_ba_attach p m weights total i) g ws;
  do weights' <- ba_update g' weights i;
  Done ((g', weights'), ws1).

(** /repo/src/barabasi_albert.rs 199-229, [randomize]. *)
Definition w_ba_randomize (p : profile) (e : ba T) (ws : words) : outcome (ba T * words) :=
  do g <- reset_from_graph (ba_graph e) (ba_source e);
  let s := vertex_count (ba_source e) in
  let n := vertex_count g in
  do ' (order, ws1) <- w_shuffle (seq s (n - s)) ws;
  do weights1 <- foldM (fun l i => do c <- vget (vertices (ba_source e)) i; vset l i (ac_degree c))
                   (ba_weights e) (seq 0 s);
  do weights2 <- foldM (fun l i => vset l i 0) weights1 (seq s (n - s));
  do ' (g', weights', ws2) <- foldM (w_ba_insert p (ba_m e)) ((g, weights2), ws1) order;
  Done (mk_ba (ba_source e) g' (ba_m e) weights', ws2).

(** /repo/src/configuration_model.rs 340-349: one round of the [while] loop of [randomize]. *)
Definition w_cm_round (p : profile) (s : graph (node_container T) * list nat * list nat) (ws : words)
  : outcome ((graph (node_container T) * list nat * list nat
              + graph (node_container T) * list nat * list nat) * words) :=
  let '(g, backup, halfs) := s in
  do ' (added, g1, halfs1) <- cm_add_multiple (S (length halfs)) p g halfs;
  do ' (s', ws1) <-
    (if added then Done ((g1, backup, halfs1), ws)
     else do ' (backup', ws1) <- w_shuffle backup ws;
          Done ((clear_edges g1, backup', backup'), ws1));
  match snd s' with
  | [] => Done (inr s', ws1)
  | _ => Done (inl s', ws1)
  end.

(** /repo/src/configuration_model.rs 334-350, [randomize]. *)
Definition w_cm_randomize (p : profile) (e : config T) (ws : words) : outcome (config T * words) :=
  let g := clear_edges (cm_graph e) in
  do ' (backup, ws1) <- w_shuffle (cm_backup e) ws;
  match backup with
  | [] => Done (mk_cm g (cm_degrees e) [] [], ws1)
  | _ =>
      do ' (g', backup', halfs', ws2) <- w_loop (S (length ws1)) (w_cm_round p) (g, backup, backup) ws1;
      Done (mk_cm g' (cm_degrees e) halfs' backup', ws2)
  end.

(** /repo/src/configuration_model.rs 125-138, [from_vec_unchecked]. *)
Definition w_cm_from_vec_unchecked (p : profile) (mk : nat -> T) (v : list nat) (ws : words)
  : outcome (config T * words) :=
  w_cm_randomize p (mk_cm (graph_new mk (length v)) v [] (edge_halfs v)) ws.

(** /repo/src/configuration_model.rs 430-438: one round of drawing two vertices. *)
Definition w_cm_draw_round (backup : list nat) (_ : unit) (ws : words)
  : outcome ((unit + nat * nat) * words) :=
  do ' (l, ws1) <- w_choose_two backup ws;
  do a <- vget l 0;
  do b <- vget l 1;
  if a =? b then Done (inl tt, ws1) else Done (inr (a, b), ws1).

(** /repo/src/configuration_model.rs 428-464, [m_step]. *)
Definition w_cm_m_step (p : profile) (e : config T) (ws : words)
  : outcome (cm_step * config T * words) :=
  let g := cm_graph e in
  let back g' := mk_cm g' (cm_degrees e) (cm_halfs e) (cm_backup e) in
  do ' (v0, v1, ws1) <- w_loop (S (length ws)) (w_cm_draw_round (cm_backup e)) tt ws;
  do c0 <- vget (vertices g) v0;
  do ' (j, ws2) <- w_choose_unwrap (nc_adj c0) ws1;
  do c1 <- vget (vertices g) v1;
  do ' (l, ws3) <- w_choose_unwrap (nc_adj c1) ws2;
  if (v1 =? v0) || (j =? l) then Done (Cm_Error, e, ws3)
  else
    do ' (r1, g1) <- add_edge p g v0 v1;
    match r1 with
    | Err _ => Done (Cm_Error, back g1, ws3)
    | Ok _ =>
        do ' (r2, g2) <- add_edge p g1 j l;
        match r2 with
        | Err _ =>
            do g3 <- done_ok (remove_edge p g2 v0 v1);
            Done (Cm_Error, back g3, ws3)
        | Ok _ =>
            do g3 <- done_ok (remove_edge p g2 v0 j);
            do g4 <- done_ok (remove_edge p g3 v1 l);
            Done (Cm_Added (v0, j) (v1, l), back g4, ws3)
        end
    end.

(** /repo/src/spacial/spacial_ensemble.rs 137-138, 185-186 and 204-205. *)
Definition w_sp_test (e : spacial T) (g : sgraph T) (i j : nat) (ws : words) : outcome (bool * words) :=
  do a <- get_unchecked g i;
  do b <- get_unchecked g j;
  do ' (u, ws1) <- w_gen_f64 ws;
  Done (sp_accept e (spc_pos a) (spc_pos b) u, ws1).

(** /repo/src/spacial/spacial_ensemble.rs 132-159, [randomize]. *)
Definition w_sp_randomize (e : spacial T) (ws : words) : outcome (spacial T * words) :=
  let g := clear_edges (sp_graph e) in
  do ' (g', ws') <- foldM (fun s ij =>
      let '(g, ws) := s in
      do ' (ok, ws1) <- w_sp_test e g (fst ij) (snd ij) ws;
      if ok : bool
      then do g1 <- sp_push_both g (fst ij) (snd ij); Done (g1, ws1)
      else Done (g, ws1)) (g, ws) (er_pairs (vertex_count g));
  Done (mk_sp g' (sp_accept e), ws').

(** /repo/src/spacial/spacial_ensemble.rs 55-62: the coordinates. *)
Definition w_sp_place (g : sgraph T) (ws : words) : outcome (sgraph T * words) :=
  do ' (vs, ws') <- foldM (fun s c =>
      let '(vs, ws) := s in
      do ' (x, ws1) <- w_gen_f64 ws;
      do ' (y, ws2) <- w_gen_f64 ws1;
      Done (vs ++ [mk_spc (spc_id c) (spc_adj c) (spc_node c) (Some (x, y))], ws2)) ([], ws) (vertices g);
  Done (mk_graph (next_id g) (edge_count g) vs, ws').

(** /repo/src/spacial/spacial_ensemble.rs 51-73, [new]. *)
Definition w_sp_new (mk : nat -> T) (n : nat) (accept : option pos -> option pos -> Q -> bool) (ws : words)
  : outcome (spacial T * words) :=
  do ' (g, ws1) <- w_sp_place (graph_new mk n) ws;
  w_sp_randomize (mk_sp g accept) ws1.

(** /repo/src/spacial/spacial_ensemble.rs 183-199, [m_step]. *)
Definition w_sp_m_step (p : profile) (e : spacial T) (ws : words) : outcome (spacial_step * spacial T * words) :=
  do ' (a, b, ws1) <- w_draw_two_from_range p (vertex_count (sp_graph e)) ws;
  do ' (ok, ws2) <- w_sp_test e (sp_graph e) a b ws1;
  if ok : bool then
    do ' (r, g) <- add_edge p (sp_graph e) a b;
    match r with
    | Ok _ => Done (Sp_AddedEdge (a, b), mk_sp g (sp_accept e), ws2)
    | Err _ => Done (Sp_Nothing, mk_sp g (sp_accept e), ws2)
    end
  else
    do ' (r, g) <- remove_edge p (sp_graph e) a b;
    match r with
    | Ok _ => Done (Sp_RemovedEdge (a, b), mk_sp g (sp_accept e), ws2)
    | Err _ => Done (Sp_Nothing, mk_sp g (sp_accept e), ws2)
    end.

End Model.
