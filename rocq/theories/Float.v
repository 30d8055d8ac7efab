(** The measures in floating point arithmetic.  [f64] and [f32] are the formats binary64 and
    binary32 with rounding to nearest, ties to even, as the standard library's [SpecFloat]
    specifies them; a NaN carries no payload. *)
From Verif Require Import Base Containers Graph Traversal Transitivity Load Sw.
From Coq Require Import ZArith SpecFloat.
Set Implicit Arguments.

(** [as f64], [+], [-] and [/] of /repo/src/generic_graph/generic_graph.rs 1310-1438. *)
Definition f64_of_nat (n : nat) : spec_float := binary_normalize 53 1024 (Z.of_nat n) 0 false.
Definition f64_add : spec_float -> spec_float -> spec_float := SFadd 53 1024.
Definition f64_sub : spec_float -> spec_float -> spec_float := SFsub 53 1024.
Definition f64_div : spec_float -> spec_float -> spec_float := SFdiv 53 1024.

(** [as f32] and [/] of /repo/src/generic_graph/generic_graph.rs 358. *)
Definition f32_of_nat (n : nat) : spec_float := binary_normalize 24 128 (Z.of_nat n) 0 false.
Definition f32_div : spec_float -> spec_float -> spec_float := SFdiv 24 128.

Section Generic.
Context {T A : Type} {C : AdjContainer T A}.

(** /repo/src/generic_graph/generic_graph.rs 357-359, [average_degree]. *)
Definition average_degree_f32 (g : graph A) : spec_float :=
  let (a, b) := average_degree g in f32_div (f32_of_nat a) (f32_of_nat b).

(** /repo/src/generic_graph/generic_graph.rs 1414-1439, [transitivity]. *)
Definition transitivity_f64 (g : graph A) : outcome spec_float :=
  do ' (closed, paths) <- transitivity g;
  Done (f64_div (f64_of_nat closed) (f64_of_nat paths)).

(** /repo/src/generic_graph/generic_graph.rs 1387-1403, [closeness_centrality]. *)
Definition closeness_f64 (p : profile) (g : graph A) : outcome (list spec_float) :=
  do l <- closeness_centrality p g;
  Done (map (fun it => f64_div (f64_of_nat (fst it)) (f64_of_nat (snd it))) l).

(** /repo/src/generic_graph/generic_graph.rs 1312-1318: the local variables of
    [vertex_load], see [load_state]. *)
Record load_floats := mk_loadf {
  lf_q0 : list nat; lf_q1 : list nat; lf_ord : list nat;
  lf_b : list spec_float; lf_bk : list spec_float;
  lf_dist : list (option nat); lf_pred : list (list nat)
}.

(** Lines 1364-1381: [while let Some(index) = ordering.pop()]. *)
Fixpoint load_accumulate_f64 (include_endpoints : bool) (pred : list (list nat))
  (ord : list nat) (b bk : list spec_float) : outcome (list nat * list spec_float * list spec_float) :=
  match ord with
  | [] => Done ([], b, bk)
  | [index] => Done ([], b, bk)
  | index :: ord' =>
      do bi <- vget b index;
      do bki <- vget bk index;
      do b1 <- vset b index (f64_add bi bki);
      do b2 <- (if include_endpoints then Done b1
                else do x <- vget b1 index; vset b1 index (f64_sub x (f64_of_nat 1)));
      do pi <- vget pred index;
      let fraction := f64_div bki (f64_of_nat (length pi)) in
      do bk' <- foldM (fun l p => do x <- vget l p; vset l p (f64_add x fraction)) bk pi;
      load_accumulate_f64 include_endpoints pred ord' b2 bk'
  end.

(** Lines 1321-1383: one [i] of the outer loop; the search is [load_bfs]. *)
Definition load_source_f64 (g : graph A) (include_endpoints : bool) (s : load_floats) (i : nat)
  : outcome load_floats :=
  let bk := if 0 <? i then map (fun _ => f64_of_nat 1) (lf_bk s) else lf_bk s in
  let dist := if 0 <? i then map (fun _ => None) (lf_dist s) else lf_dist s in
  let pred := if 0 <? i then map (fun _ => []) (lf_pred s) else lf_pred s in
  do dist1 <- vset dist i (Some 0);
  do ' (q0, q1, ord, dist2, pred2) <-
     load_bfs g (S (S (vertex_count g))) 0 (lf_q0 s ++ [i]) (lf_q1 s) (lf_ord s) dist1 pred;
  do ' (ord', b', bk') <- load_accumulate_f64 include_endpoints pred2 ord (lf_b s) bk;
  Done (mk_loadf q0 q1 ord' b' bk' dist2 pred2).

(** /repo/src/generic_graph/generic_graph.rs 1310-1385, [vertex_load]. *)
Definition vertex_load_f64 (g : graph A) (include_endpoints : bool) : outcome (list spec_float) :=
  let n := vertex_count g in
  do s <- foldM (load_source_f64 g include_endpoints)
            (mk_loadf [] [] [] (repeat (f64_of_nat 0) n) (repeat (f64_of_nat 1) n)
                      (repeat None n) (repeat [] n))
            (seq 0 n);
  Done (lf_b s).

End Generic.

(** /repo/src/sw_graph.rs 525-530, [frac_nodes_wlre], and 552-556,
    [frac_long_ranging_edges]. *)
Definition frac_nodes_wlre_f64 {T} (g : graph (sw_container T)) : outcome spec_float :=
  do ' (a, b) <- frac_nodes_wlre g; Done (f64_div (f64_of_nat a) (f64_of_nat b)).
Definition frac_long_ranging_edges_f64 {T} (g : graph (sw_container T)) : spec_float :=
  let (a, b) := frac_long_ranging_edges g in f64_div (f64_of_nat a) (f64_of_nat b).
