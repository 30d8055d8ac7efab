(** [vertex_biconnected_components]. *)
From Verif Require Import Base Containers Graph.
Set Implicit Arguments.

Section Generic.
Context {T A : Type} {C : AdjContainer T A}.

(** /repo/src/generic_graph/generic_graph.rs 1174-1179: the graph, which is consumed,
    and the local variables.  The stacks are kept with their last element first. *)
Record bc_state := mk_bc {
  bc_g : graph A;
  bc_low : list nat; bc_number : list nat; bc_handled : list bool;
  bc_es : list (nat * nat); bc_vs : list nat;
  bc_comps : list (list (nat * nat))
}.

(** Lines 1238-1246: edges are popped until one has an end with a smaller number. *)
Fixpoint bc_pop (number : list nat) (bound : nat) (tmp es : list (nat * nat))
  : outcome (list (nat * nat) * list (nat * nat)) :=
  match es with
  | [] => Done (tmp, [])
  | e :: es' =>
      do n1 <- vget number (snd e);
      do b <- (if n1 <? bound then Done true
               else do n0 <- vget number (fst e); Done (n0 <? bound));
      if b then Done (tmp, es) else bc_pop number bound (tmp ++ [e]) es'
  end.

(** Lines 1196-1228: the top vertex still has an edge. *)
Definition bc_forward (p : profile) (s : bc_state) (top : nat) : outcome bc_state :=
  do c <- container (bc_g s) top;
  do next <- expect (ac_get_adj_first c);
  let es := (top, next) :: bc_es s in
  do ' (r, g) <- remove_edge p (bc_g s) top next;
  do _ <- unwrap r;
  do h <- vget (bc_handled s) next;
  if negb h then
    do number <- vset (bc_number s) next (length (bc_vs s));
    do nt <- vget number top;
    do low <- vset (bc_low s) next nt;
    do handled <- vset (bc_handled s) next true;
    Done (mk_bc g low number handled es (next :: bc_vs s) (bc_comps s))
  else
    do nn <- vget (bc_number s) next;
    do lt <- vget (bc_low s) top;
    do low <- (if nn <? lt then vset (bc_low s) top nn else Done (bc_low s));
    Done (mk_bc g low (bc_number s) (bc_handled s) es (bc_vs s) (bc_comps s)).

(** Lines 1230-1264: the top vertex has no edge; [rest] is the stack without it. *)
Definition bc_back (s : bc_state) (top : nat) (rest : list nat) : outcome bc_state :=
  match rest with
  | [] => Done (mk_bc (bc_g s) (bc_low s) (bc_number s) (bc_handled s) (bc_es s) [] (bc_comps s))
  | next :: _ =>
      do lt <- vget (bc_low s) top;
      do nn <- vget (bc_number s) next;
      if lt =? nn then
        do ' (tmp, es) <- bc_pop (bc_number s) nn [] (bc_es s);
        Done (mk_bc (bc_g s) (bc_low s) (bc_number s) (bc_handled s) es rest
                    (match tmp with [] => bc_comps s | _ => bc_comps s ++ [tmp] end))
      else
        do ln <- vget (bc_low s) next;
        do low <- (if lt <? ln then vset (bc_low s) next lt else Done (bc_low s));
        Done (mk_bc (bc_g s) low (bc_number s) (bc_handled s) (bc_es s) rest (bc_comps s))
  end.

(** Lines 1193-1265: [while let Some(&top_vertex) = vertex_stack.last()].  The [break]
    leaves the loop with an empty stack. *)
Fixpoint bc_loop (p : profile) (fuel : nat) (s : bc_state) : outcome bc_state :=
  match fuel with
  | 0 => NoFuel
  | S fu =>
      match bc_vs s with
      | [] => Done s
      | top :: rest =>
          do d <- expect (degree (bc_g s) top);
          do s' <- (if 0 <? d then bc_forward p s top else bc_back s top rest);
          bc_loop p fu s'
      end
  end.

(** Lines 1183-1266: one [pivot]. *)
Definition bc_pivot (p : profile) (s : bc_state) (pivot : nat) : outcome bc_state :=
  do h <- vget (bc_handled s) pivot;
  if h : bool then Done s
  else
    do low <- vset (bc_low s) pivot 0;
    do number <- vset (bc_number s) pivot 0;
    do handled <- vset (bc_handled s) pivot true;
    bc_loop p (2 * edge_count (bc_g s) + 3)
      (mk_bc (bc_g s) low number handled (bc_es s) (pivot :: bc_vs s) (bc_comps s)).

(** Lines 1270-1275: the number of different vertices of a component. *)
Definition bc_size (component : list (nat * nat)) : nat :=
  length (nodup Nat.eq_dec (flat_map (fun e => [fst e; snd e]) component)).

(** /repo/src/generic_graph/generic_graph.rs 1172-1291,
    [vertex_biconnected_components]. *)
Definition vertex_biconnected_components (p : profile) (g : graph A) (alternative_definition : bool)
  : outcome (list nat) :=
  let n := vertex_count g in
  do s <- foldM (bc_pivot p)
            (mk_bc g (repeat 0 n) (repeat 0 n) (repeat false n) [] [] []) (seq 0 n);
  let result := map bc_size (bc_comps s) in
  Done (sort_desc (if alternative_definition then filter (fun v => 2 <? v) result else result)).

End Generic.
