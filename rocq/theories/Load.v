(** [vertex_load], with exact rationals in place of floating point numbers. *)
From Verif Require Import Base Containers Graph.
From Coq Require Import QArith.
Set Implicit Arguments.
Local Open Scope nat_scope.

Section Generic.
Context {T A : Type} {C : AdjContainer T A}.

(** /repo/src/generic_graph/generic_graph.rs 1312-1318: the local variables.  [ordering]
    is kept with its last element first. *)
Record load_state := mk_load {
  ld_q0 : list nat; ld_q1 : list nat; ld_ord : list nat;
  ld_b : list Q; ld_bk : list Q;
  ld_dist : list (option nat); ld_pred : list (list nat)
}.

(** Lines 1344-1356: the loop over the neighbours of [index]. *)
Definition load_neighbor (index depth : nat) (s : list nat * list (option nat) * list (list nat))
  (neighbor : nat) : outcome (list nat * list (option nat) * list (list nat)) :=
  let '(q1, dist, pred) := s in
  do dn <- vget dist neighbor;
  match dn with
  | Some d =>
      if d =? depth + 1 then
        do pn <- vget pred neighbor;
        do pred' <- vset pred neighbor (pn ++ [index]);
        Done (q1, dist, pred')
      else Done (q1, dist, pred)
  | None =>
      do dist' <- vset dist neighbor (Some (depth + 1));
      do pn <- vget pred neighbor;
      do pred' <- vset pred neighbor (pn ++ [index]);
      Done (q1 ++ [neighbor], dist', pred')
  end.

(** Lines 1341-1361: [while let Some(index) = queue0.pop_front()]. *)
Fixpoint load_bfs (g : graph A) (fuel depth : nat) (q0 q1 ord : list nat)
  (dist : list (option nat)) (pred : list (list nat))
  : outcome (list nat * list nat * list nat * list (option nat) * list (list nat)) :=
  match fuel with
  | 0 => NoFuel
  | S fu =>
      match q0 with
      | [] => Done (q0, q1, ord, dist, pred)
      | index :: q0' =>
          do c <- container g index;
          do ' (q1', dist', pred') <- foldM (load_neighbor index depth) (q1, dist, pred) (ac_neighbors c);
          match q0' with
          | [] => load_bfs g fu (S depth) q1' [] (index :: ord) dist' pred'
          | _ => load_bfs g fu depth q0' q1' (index :: ord) dist' pred'
          end
      end
  end.

(** Lines 1364-1381: [while let Some(index) = ordering.pop()]. *)
Fixpoint load_accumulate (include_endpoints : bool) (pred : list (list nat))
  (ord : list nat) (b bk : list Q) : outcome (list nat * list Q * list Q) :=
  match ord with
  | [] => Done ([], b, bk)
  | [index] => Done ([], b, bk)
  | index :: ord' =>
      do bi <- vget b index;
      do bki <- vget bk index;
      do b1 <- vset b index (bi + bki)%Q;
      do b2 <- (if include_endpoints then Done b1
                else do x <- vget b1 index; vset b1 index (x - 1)%Q);
      do pi <- vget pred index;
      let fraction := (bki / inject_Z (Z.of_nat (length pi)))%Q in
      do bk' <- foldM (fun (l : list Q) (p : nat) => do x <- vget l p; vset l p (x + fraction)%Q) bk pi;
      load_accumulate include_endpoints pred ord' b2 bk'
  end.

(** Lines 1321-1383: one [i] of the outer loop. *)
Definition load_source (g : graph A) (include_endpoints : bool) (s : load_state) (i : nat)
  : outcome load_state :=
  let bk := if 0 <? i then map (fun _ => 1%Q) (ld_bk s) else ld_bk s in
  let dist := if 0 <? i then map (fun _ => None) (ld_dist s) else ld_dist s in
  let pred := if 0 <? i then map (fun _ => []) (ld_pred s) else ld_pred s in
  do dist1 <- vset dist i (Some 0);
  do ' (q0, q1, ord, dist2, pred2) <-
     load_bfs g (S (S (vertex_count g))) 0 (ld_q0 s ++ [i]) (ld_q1 s) (ld_ord s) dist1 pred;
  do ' (ord', b', bk') <- load_accumulate include_endpoints pred2 ord (ld_b s) bk;
  Done (mk_load q0 q1 ord' b' bk' dist2 pred2).

(** /repo/src/generic_graph/generic_graph.rs 1310-1385, [vertex_load].  The loop that
    resets the vectors runs over [0..vertex_count()], which is their length. *)
Definition vertex_load (g : graph A) (include_endpoints : bool) : outcome (list Q) :=
  let n := vertex_count g in
  do s <- foldM (load_source g include_endpoints)
            (mk_load [] [] [] (repeat 0%Q n) (repeat 1%Q n) (repeat None n) (repeat [] n))
            (seq 0 n);
  Done (ld_b s).

End Generic.
