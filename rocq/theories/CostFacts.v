(** Facts about the running times. *)
From Verif Require Import Base BaseFacts Containers ContainerSpec ContainerFacts Graph GraphSpec GraphFacts.
From Verif Require Import GraphOps Rng ErC Spacial Sw Load Cost.
From Coq Require Import QArith.
Set Implicit Arguments.
Unset Strict Implicit.
Local Open Scope nat_scope.

(** ** The results are those of the functions without steps *)

Lemma fst_cbind {X Y} (m : counted X) (k : X -> counted Y) :
  fst (cbind m k) = bind (fst m) (fun x => fst (k x)).
Proof. destruct m as [[x| | |] n]; reflexivity. Qed.

Lemma bind_ext {X Y} (m : outcome X) (f h : X -> outcome Y) :
  (forall x, f x = h x) -> bind m f = bind m h.
Proof. destruct m; cbn; auto. Qed.

Lemma fst_charge {X} n (m : counted X) : fst (charge n m) = fst m.
Proof. reflexivity. Qed.

Lemma fst_paid {X} n (m : outcome X) : fst (paid n m) = m.
Proof. reflexivity. Qed.

Lemma fst_cfoldM {A S} (f : S -> A -> counted S) (h : S -> A -> outcome S) l :
  (forall s x, fst (f s x) = h s x) -> forall s, fst (cfoldM f s l) = foldM h s l.
Proof.
  intros H. induction l as [|x l IH]; intros s; cbn [cfoldM foldM]; auto.
  rewrite fst_charge, fst_cbind, H. apply bind_ext; auto.
Qed.

(** Goes through the calls one after the other. *)
Ltac erase :=
  repeat first
    [ progress rewrite ?fst_charge, ?fst_paid
    | rewrite fst_cbind; apply bind_ext; intros
    | match goal with
      | |- fst (match ?x with _ => _ end) = _ => destruct x
      | |- fst (let '(_, _) := ?x in _) = _ => destruct x
      end
    | reflexivity ].

Section Generic.
Context {T A : Type} {C : AdjContainer T A}.

Lemma clear_fold (l : list A) : forall vs,
  fst (cfoldM (fun vs c => paid 1 (Done (vs ++ [ac_clear_edges c]))) vs l) =
  Done (vs ++ map ac_clear_edges l).
Proof.
  induction l as [|c l IH]; intros vs; cbn [cfoldM map]; [rewrite app_nil_r; auto|].
  rewrite fst_charge, fst_cbind, fst_paid. cbn [bind]. rewrite IH, <- app_assoc. reflexivity.
Qed.

Lemma clear_edges_same (g : graph A) : fst (clear_edges_c g) = Done (clear_edges g).
Proof.
  unfold clear_edges_c, clear_edges. destruct (edge_count g =? 0); auto.
  rewrite fst_cbind, clear_fold. reflexivity.
Qed.

Lemma load_neighbor_same i d s x : fst (load_neighbor_c i d s x) = load_neighbor i d s x.
Proof. unfold load_neighbor_c, load_neighbor. destruct s as [[q1 dist] pred]. erase. Qed.

Lemma load_bfs_same (g : graph A) fuel : forall d q0 q1 ord dist pred,
  fst (load_bfs_c g fuel d q0 q1 ord dist pred) = load_bfs g fuel d q0 q1 ord dist pred.
Proof.
  induction fuel as [|fu IH]; intros d q0 q1 ord dist pred; cbn [load_bfs_c load_bfs]; auto.
  rewrite fst_charge. destruct q0 as [|x q0]; auto.
  rewrite fst_cbind, fst_paid. apply bind_ext. intros c.
  rewrite fst_cbind, (fst_cfoldM (h := load_neighbor x d)) by (intros; apply load_neighbor_same).
  apply bind_ext. intros [[q1' dist'] pred']. rewrite fst_charge. destruct q0; apply IH.
Qed.

Lemma load_accumulate_same inc pred ord : forall b bk,
  fst (load_accumulate_c inc pred ord b bk) = load_accumulate inc pred ord b bk.
Proof.
  induction ord as [|x ord IH]; intros b bk; auto.
  destruct ord as [|y r]; auto. set (ord := y :: r) in *.
  change (fst (charge 1 (
      pay bi <- paid 1 (vget b x);
      pay bki <- paid 1 (vget bk x);
      pay b1 <- paid 1 (vset b x (bi + bki)%Q);
      pay b2 <- (if inc then paid 0 (Done b1)
                 else pay z <- paid 1 (vget b1 x); paid 1 (vset b1 x (z - 1)%Q));
      pay pi <- paid 1 (vget pred x);
      pay bk' <- cfoldM (fun (l : list Q) (p : nat) =>
                   pay z <- paid 1 (vget l p); paid 1 (vset l p (z + (bki / inject_Z (Z.of_nat (length pi))))%Q)) bk pi;
      load_accumulate_c inc pred ord b2 bk')) =
    do bi <- vget b x; do bki <- vget bk x; do b1 <- vset b x (bi + bki)%Q;
    do b2 <- (if inc then Done b1 else do z <- vget b1 x; vset b1 x (z - 1)%Q);
    do pi <- vget pred x;
    do bk' <- foldM (fun (l : list Q) (p : nat) => do z <- vget l p;
                       vset l p (z + (bki / inject_Z (Z.of_nat (length pi))))%Q) bk pi;
    load_accumulate inc pred ord b2 bk').
  rewrite fst_charge.
  do 3 (rewrite fst_cbind, fst_paid; apply bind_ext; intros).
  rewrite fst_cbind. etransitivity; [|apply bind_ext; intros; reflexivity].
  match goal with |- bind ?a _ = bind ?b _ => assert (B : a = b) end.
  { destruct inc; auto. rewrite fst_cbind. reflexivity. }
  rewrite B. clear B.
  apply bind_ext. intros b2. rewrite fst_cbind, fst_paid. apply bind_ext. intros pi.
  rewrite fst_cbind.
  rewrite (fst_cfoldM (h := fun (l : list Q) (p : nat) => do z <- vget l p;
    vset l p (z + (x1 / inject_Z (Z.of_nat (length pi))))%Q)) by (intros; erase).
  apply bind_ext. intros bk'. apply IH.
Qed.

Lemma load_source_same (g : graph A) inc s i : fst (load_source_c g inc s i) = load_source g inc s i.
Proof.
  unfold load_source_c, load_source. rewrite fst_charge, fst_cbind, fst_paid. apply bind_ext. intros d1.
  rewrite fst_cbind, load_bfs_same. apply bind_ext. intros [[[[q0 q1] ord] d2] p2].
  rewrite fst_cbind, load_accumulate_same. apply bind_ext. intros [[o b] bk]. reflexivity.
Qed.

Lemma vertex_load_same (g : graph A) inc : fst (vertex_load_c g inc) = vertex_load g inc.
Proof.
  unfold vertex_load_c, vertex_load. rewrite fst_charge, fst_cbind.
  rewrite (fst_cfoldM (h := load_source g inc)) by (intros; apply load_source_same).
  apply bind_ext. reflexivity.
Qed.

End Generic.

Section Ensembles.
Context {T : Type}.

Lemma erc_randomize_same (e : er_c T) rs : fst (erc_randomize_c e rs) = erc_randomize e rs.
Proof.
  unfold erc_randomize_c, erc_randomize. rewrite fst_cbind, clear_edges_same. cbn [bind].
  rewrite fst_charge, fst_cbind. erewrite fst_cfoldM.
  - apply bind_ext. intros [g' rs']. reflexivity.
  - intros [g r] ij. erase.
Qed.

Lemma sp_randomize_same (e : spacial T) rs : fst (sp_randomize_c e rs) = sp_randomize e rs.
Proof.
  unfold sp_randomize_c, sp_randomize. rewrite fst_cbind, clear_edges_same. cbn [bind].
  rewrite fst_charge, fst_cbind. erewrite fst_cfoldM.
  - apply bind_ext. intros [g' rs']. reflexivity.
  - intros [g r] ij. erase.
Qed.

Implicit Types c : sw_container T.

Lemma sc_push_single_same p c x : fst (sc_push_single_c p c x) = sc_push_single p c x.
Proof. unfold sc_push_single_c, sc_push_single. destruct p; auto. rewrite !fst_cbind. reflexivity. Qed.

Lemma sc_rewire_same p c0 c1 c2 : fst (sc_rewire_c p c0 c1 c2) = sc_rewire p c0 c1 c2.
Proof.
  unfold sc_rewire_c, sc_rewire, sc_adj_position_c, sc_is_adjacent_c.
  rewrite fst_cbind, fst_paid. cbn [bind]. destruct (sc_adj_position c0 (sc_id c1)) as [k|]; auto.
  rewrite fst_cbind, fst_paid. cbn [bind]. destruct (sc_is_adjacent c0 (sc_id c2)); auto.
  do 2 (rewrite fst_cbind, fst_paid; apply bind_ext; intros).
  rewrite fst_cbind, fst_paid. cbn [bind]. erase.
Qed.

Lemma sc_reset_same p c0 c1 : fst (sc_reset_c p c0 c1) = sc_reset p c0 c1.
Proof.
  unfold sc_reset_c, sc_reset, sc_adj_position_c, sc_is_adjacent_c.
  rewrite fst_cbind, fst_paid. cbn [bind]. destruct (sc_adj_position c0 (sc_id c1)) as [k|]; auto.
  rewrite fst_cbind, fst_paid. cbn [bind].
  do 4 (rewrite fst_cbind, fst_paid; apply bind_ext; intros).
  match goal with |- fst (if ?b then _ else _) = _ => destruct b end; auto.
  rewrite fst_cbind, fst_paid; apply bind_ext; intros o.
  rewrite fst_cbind, fst_paid. cbn [bind]. destruct (sc_is_adjacent c0 o); auto. erase.
Qed.

Lemma sw_reset_edge_same p (g : graph (sw_container T)) i j :
  fst (sw_reset_edge_c p g i j) = sw_reset_edge p g i j.
Proof.
  unfold sw_reset_edge_c, sw_reset_edge. rewrite fst_cbind, fst_paid. apply bind_ext. intros [c0 c1].
  rewrite fst_cbind, sc_reset_same. apply bind_ext. intros [[[v a] b]|s]; auto. cbv zeta.
  rewrite fst_cbind, fst_paid. apply bind_ext. intros c2.
  rewrite fst_cbind, sc_push_single_same. apply bind_ext. reflexivity.
Qed.

Lemma sw_rewire_edge_same p (g : graph (sw_container T)) i j k :
  fst (sw_rewire_edge_c p g i j k) = sw_rewire_edge p g i j k.
Proof.
  unfold sw_rewire_edge_c, sw_rewire_edge. destruct (j =? k); auto.
  rewrite fst_cbind, fst_paid. apply bind_ext. intros [[c0 c1] c2].
  rewrite fst_cbind, sc_rewire_same. apply bind_ext. intros [s [[a b] d]]. reflexivity.
Qed.

Lemma sw_randomize_edge_same p (e : sw_ensemble T) i j rs :
  fst (sw_randomize_edge_c p e i j rs) = sw_randomize_edge p e i j rs.
Proof.
  unfold sw_randomize_edge_c, sw_randomize_edge. rewrite fst_cbind, fst_paid. apply bind_ext. intros [x rs1].
  destruct (Qle_bool x (sw_r_prob e)).
  - rewrite fst_cbind, fst_paid. apply bind_ext. intros h.
    rewrite fst_cbind, fst_paid. apply bind_ext. intros [k rs2].
    rewrite fst_cbind, sw_rewire_edge_same. apply bind_ext. intros [s g]. reflexivity.
  - rewrite fst_cbind, sw_reset_edge_same. apply bind_ext. intros [s g]. reflexivity.
Qed.

Lemma sw_randomize_vertex_same p (s : sw_ensemble T * rng) i :
  fst (sw_randomize_vertex_c p s i) = sw_randomize_vertex p s i.
Proof.
  unfold sw_randomize_vertex_c, sw_randomize_vertex. destruct s as [e rs].
  rewrite fst_cbind, fst_paid. apply bind_ext. intros c. cbv zeta. rewrite fst_charge.
  do 3 (rewrite fst_cbind, fst_paid; apply bind_ext; intros).
  rewrite fst_cbind, sw_randomize_edge_same. apply bind_ext. intros [[s1 e1] rs1].
  rewrite fst_cbind, fst_paid. apply bind_ext. intros _.
  rewrite fst_cbind, sw_randomize_edge_same. apply bind_ext. intros [[s2 e2] rs2].
  rewrite fst_cbind, fst_paid. apply bind_ext. reflexivity.
Qed.

Lemma sw_randomize_same p (e : sw_ensemble T) rs : fst (sw_randomize_c p e rs) = sw_randomize p e rs.
Proof. apply fst_cfoldM. intros. apply sw_randomize_vertex_same. Qed.

End Ensembles.
