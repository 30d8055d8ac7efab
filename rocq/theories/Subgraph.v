(** [cloned_subgraph]. *)
From Verif Require Import Base Containers Graph.
Set Implicit Arguments.

(** [Vec::dedup]: of consecutive equal elements one is kept. *)
Fixpoint dedup (l : list nat) : list nat :=
  match l with
  | [] => []
  | x :: t => match t with
              | [] => l
              | y :: _ => if x =? y then dedup t else x :: dedup t
              end
  end.

(** [Iterator::filter_map]. *)
Fixpoint filter_map {X Y} (f : X -> option Y) (l : list X) : list Y :=
  match l with
  | [] => []
  | x :: t => match f x with
              | Some y => y :: filter_map f t
              | None => filter_map f t
              end
  end.

Section Generic.
Context {T A : Type} {C : AdjContainer T A}.

(** /repo/src/generic_graph/generic_graph.rs 1457-1515, [cloned_subgraph].  The hash
    map sends each (different) entry of the list to its position; [clone] of the payload
    is the identity. *)
Definition cloned_subgraph (g : graph A) (node_list : list nat)
  : outcome (option (graph (node_container T))) :=
  let sorted := sort_by (fun x => x) node_list in
  match rev sorted with
  | [] => Done None
  | last :: _ =>
      if vertex_count g <=? last then Done None
      else
        let nodes := dedup sorted in
        do vs <- mapM (fun ic =>
                   do c <- container g (snd ic);
                   Done (mk_nc (fst ic)
                           (filter_map (fun n => position (Nat.eqb n) nodes) (ac_neighbors c))
                           (ac_contained c)))
                 (enumerate nodes);
        Done (Some (mk_graph (length vs) (Nat.div (list_sum (map ac_degree vs)) 2) vs))
  end.

End Generic.
