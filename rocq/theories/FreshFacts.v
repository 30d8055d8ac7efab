(** [randomize] of the ensembles and the graph it starts from. *)
From Verif Require Import Base BaseFacts Containers ContainerSpec ContainerFacts Graph GraphSpec GraphFacts GraphOps
  GraphBuild Rng RngFacts ErC Ws Ba BaSpec BaFacts Spacial Dog Sw SwSpec SwFacts SwChain UniformFacts.
From Coq Require Import QArith.
Set Implicit Arguments.
Unset Strict Implicit.
Local Open Scope nat_scope.

Section Cleared.
Context {T A : Type} {C : AdjContainer T A} {L : AdjLaws C}.

(** Clearing a container without neighbours does nothing. *)
Hypothesis clear_nothing : forall c : A, ac_wf c -> ac_neighbors c = [] -> ac_clear_edges c = c.

Lemma clear_edges_map (g : graph A) : simple_graph g ->
  clear_edges g = mk_graph (next_id g) 0 (map ac_clear_edges (vertices g)).
Proof.
  intros W. destruct (clear_edges_spec W) as (_ & _ & _ & _ & N). revert N. unfold clear_edges.
  destruct (Nat.eqb_spec (edge_count g) 0) as [E|E]; auto. intros N.
  assert (M : map ac_clear_edges (vertices g) = vertices g).
  { rewrite <- (map_id (vertices g)) at 2. apply map_ext_in. intros c I. apply In_nth_error in I as [i I].
    destruct (sg_cont W i I) as [Wc _]. apply clear_nothing; auto. specialize (N i). unfold nbrs in N. rewrite I in N. auto. }
  rewrite M. destruct g as [n m vs]. cbn in *. congruence.
Qed.

(** A cleared container is determined by its number and some data [key]. *)
Context {K : Type} (key : A -> K).
Hypothesis clear_key : forall c c' : A, ac_id c = ac_id c' -> key c = key c' -> ac_clear_edges c = ac_clear_edges c'.

Lemma cleared_equal (g g' : graph A) : simple_graph g -> simple_graph g' ->
  map key (vertices g') = map key (vertices g) -> clear_edges g' = clear_edges g.
Proof.
  intros W W' E. rewrite !clear_edges_map by auto.
  assert (Ln : length (vertices g') = length (vertices g)).
  { apply (f_equal (@length K)) in E. rewrite !map_length in E. auto. }
  f_equal.
  - pose proof (sg_len W) as E1. pose proof (sg_len W') as E2. unfold vertex_count in *. congruence.
  - apply nth_error_ext. intros i. rewrite !nth_error_map.
    assert (Ei : nth_error (map key (vertices g')) i = nth_error (map key (vertices g)) i) by congruence.
    rewrite !nth_error_map in Ei.
    destruct (nth_error (vertices g) i) as [c|] eqn:Ec, (nth_error (vertices g') i) as [c'|] eqn:Ec'; cbn in *;
      try discriminate; auto.
    f_equal. apply clear_key; [|congruence].
    destruct (sg_cont W i Ec) as [_ I], (sg_cont W' i Ec') as [_ I']. congruence.
Qed.
End Cleared.

Lemma nc_cleared {T} (g g' : graph (node_container T)) : simple_graph g -> simple_graph g' ->
  payloads g' = payloads g -> clear_edges g' = clear_edges g.
Proof.
  intros W W' P. apply cleared_equal with (key := @nc_node T); auto.
  - intros [i l t] _ E. cbn in *. subst l. auto.
  - intros [i l t] [i' l' t'] E1 E2. cbn in *. congruence.
Qed.

Lemma wc_cleared {T} (g g' : graph (ws_container T)) : simple_graph g -> simple_graph g' ->
  payloads g' = payloads g -> clear_edges g' = clear_edges g.
Proof.
  intros W W' P. apply cleared_equal with (key := @wc_node T); auto.
  - intros [i t l o] Wf E. cbn in *. subst l. destruct o; auto. discriminate.
  - intros [i t l o] [i' t' l' o'] E1 E2. cbn in *. congruence.
Qed.

Lemma spc_cleared {P T} (g g' : graph (spacial_container P T)) : simple_graph g -> simple_graph g' ->
  payloads g' = payloads g -> map (@spc_pos P T) (vertices g') = map (@spc_pos P T) (vertices g) ->
  clear_edges g' = clear_edges g.
Proof.
  intros W W' E1 E2. apply cleared_equal with (key := fun c => (spc_node c, spc_pos c)); auto.
  - intros [i l t p] _ E. cbn in *. subst l. auto.
  - intros [i l t p] [i' l' t' p'] F1 F2. cbn in *. congruence.
  - apply nth_error_ext. intros i.
    apply (f_equal (fun l => nth_error l i)) in E1. apply (f_equal (fun l => nth_error l i)) in E2.
    unfold payloads in E1. rewrite !nth_error_map in *.
    destruct (nth_error (vertices g) i), (nth_error (vertices g') i); cbn in *; congruence.
Qed.

Lemma erc_fresh {T} (e f : er_c T) rs : simple_graph (erc_graph e) -> simple_graph (erc_graph f) ->
  payloads (erc_graph f) = payloads (erc_graph e) -> erc_prob f = erc_prob e -> erc_c_target f = erc_c_target e ->
  erc_randomize f rs = erc_randomize e rs.
Proof. intros W W' P E1 E2. unfold erc_randomize. rewrite (nc_cleared W W' P), E1, E2. auto. Qed.

Lemma ws_fresh {T} p (e f : ws_ensemble T) rs : simple_graph (ws_graph e) -> simple_graph (ws_graph f) ->
  payloads (ws_graph f) = payloads (ws_graph e) -> ws_rewire_prob f = ws_rewire_prob e -> ws_distance f = ws_distance e ->
  ws_randomize p f rs = ws_randomize p e rs.
Proof. intros W W' P E1 E2. unfold ws_randomize, init_ring. rewrite (wc_cleared W W' P), E1, E2. auto. Qed.

Lemma sp_fresh {T} (e f : spacial T) rs : simple_graph (sp_graph e) -> simple_graph (sp_graph f) ->
  payloads (sp_graph f) = payloads (sp_graph e) ->
  map (@spc_pos _ T) (vertices (sp_graph f)) = map (@spc_pos _ T) (vertices (sp_graph e)) ->
  sp_accept f = sp_accept e -> sp_randomize f rs = sp_randomize e rs.
Proof.
  intros W W' P Q E. destruct e as [g a], f as [g' a']. cbn in *. subst a'. unfold sp_randomize.
  cbn [sp_graph sp_accept]. rewrite (spc_cleared W W' P Q). auto.
Qed.

Lemma dog_fresh {T} p (e f : dog T) rs : simple_graph (dog_graph e) -> simple_graph (dog_graph f) ->
  payloads (dog_graph f) = payloads (dog_graph e) ->
  map (@spc_pos _ T) (vertices (dog_graph f)) = map (@spc_pos _ T) (vertices (dog_graph e)) ->
  dog_accept f = dog_accept e -> dog_tau f = dog_tau e -> dog_lambda f = dog_lambda e ->
  dog_randomize p f rs = dog_randomize p e rs.
Proof.
  intros W W' P Q E1 E2 E3. unfold dog_randomize. rewrite (spc_cleared W W' P Q), E1, E2, E3. auto.
Qed.

(** *** Overwriting a vector *)

Definition agree (k : nat) (w w' : list nat) : Prop :=
  length w = length w' /\ forall i, i < k -> nth_error w i = nth_error w' i.

Lemma overwrite (h : nat -> outcome nat) m : forall k w w', agree k w w' ->
  match foldM (fun w i => do x <- h i; vset w i x) w (seq k m), foldM (fun w i => do x <- h i; vset w i x) w' (seq k m) with
  | Done v, Done v' => agree (k + m) v v' /\ length v = length w
  | Panic, Panic | UB, UB | NoFuel, NoFuel => True
  | _, _ => False
  end.
Proof.
  induction m as [|m IH]; intros k w w' [Hl H]; cbn [seq foldM].
  - rewrite Nat.add_0_r. split; auto. split; auto.
  - destruct (h k) as [x| | |]; cbn [bind]; auto. unfold vset. rewrite <- Hl.
    destruct (k <? length w) eqn:E; cbn [bind]; auto.
    replace (k + S m) with (S k + m) by lia.
    assert (A : agree (S k) (upd w k x) (upd w' k x)).
    { split; [rewrite !upd_length; auto|]. intros i Hi. destruct (Nat.eq_dec i k) as [->|N].
      - rewrite !nth_error_upd_same; auto; apply Nat.ltb_lt in E; lia.
      - rewrite !nth_error_upd_other by auto. apply H. lia. }
    specialize (IH _ _ _ A). rewrite upd_length in IH. apply IH.
Qed.

Lemma ba_fresh {T} p n (e f : ba T) rs : simple_graph (ba_graph e) -> simple_graph (ba_graph f) ->
  payloads (ba_graph f) = payloads (ba_graph e) -> ba_source f = ba_source e -> ba_m f = ba_m e ->
  vertex_count (ba_graph e) = n -> length (ba_weights e) = n -> length (ba_weights f) = n ->
  ba_randomize p f rs = ba_randomize p e rs.
Proof.
  intros W W' P E1 E2 V L1 L2. unfold ba_randomize. rewrite E1, E2.
  assert (R : reset_from_graph (ba_graph f) (ba_source e) = reset_from_graph (ba_graph e) (ba_source e)).
  { unfold reset_from_graph. rewrite (nc_cleared W W' P).
    assert (Vf : vertex_count (ba_graph f) = vertex_count (ba_graph e)).
    { rewrite <- (sg_len W), <- (sg_len W'). apply (f_equal (@length T)) in P. unfold payloads in P. rewrite !map_length in P. auto. }
    rewrite Vf. auto. }
  rewrite R. destruct (reset_from_graph (ba_graph e) (ba_source e)) as [g| | |] eqn:Eg; auto. cbn [bind].
  assert (Vg : vertex_count g = n /\ vertex_count (ba_source e) <= n).
  { unfold reset_from_graph in Eg. destruct (Nat.leb_spec (vertex_count (ba_source e)) (vertex_count (ba_graph e))); [|discriminate].
    apply bind_done in Eg as (vs & _ & Eg). injection Eg as <-. destruct (clear_edges_spec W) as (_ & Vc & _).
    unfold vertex_count in *. cbn. split; congruence. }
  destruct Vg as [Vg Le]. set (s := vertex_count (ba_source e)) in *.
  destruct (shuffle (seq s (vertex_count g - s)) rs) as [[order rs1]| | |]; auto. cbn [bind].
  assert (H : forall w, foldM (fun ws i => do c <- vget (vertices (ba_source e)) i; vset ws i (ac_degree c)) w (seq 0 s) =
    foldM (fun w i => do x <- (do c <- vget (vertices (ba_source e)) i; Done (ac_degree c)); vset w i x) w (seq 0 s)).
  { intros w. apply foldM_ext. intros v i. destruct (vget (vertices (ba_source e)) i); auto. }
  rewrite !H.
  assert (A0 : agree 0 (ba_weights f) (ba_weights e)) by (split; [congruence|lia]).
  pose proof (overwrite (fun i => do c <- vget (vertices (ba_source e)) i; Done (ac_degree c)) s A0) as O. cbv beta in O.
  destruct (foldM _ (ba_weights f) (seq 0 s)) as [w1'| | |], (foldM _ (ba_weights e) (seq 0 s)) as [w1| | |]; try tauto; cbn [bind]; auto.
  destruct O as [A1 Lw]. cbn [Nat.add] in A1.
  pose proof (overwrite (fun i => Done 0) (vertex_count g - s) A1) as O. cbv beta in O. cbn [bind] in O.
  destruct (foldM _ w1' _) as [w2'| | |], (foldM _ w1 _) as [w2| | |]; try tauto; cbn [bind]; auto.
  destruct O as [A2 Lw2]. replace (s + (vertex_count g - s)) with n in A2 by lia.
  assert (w2' = w2).
  { destruct A2 as [Al A2]. apply nth_error_ext. intros i. destruct (Nat.lt_ge_cases i n); auto.
    rewrite !(proj2 (nth_error_None _ _)); auto; lia. }
  congruence.
Qed.

(** *** Small-world graphs: when no draw decides to rewire *)

Section Resets.
Context {T : Type}.
Local Notation G := (graph (sw_container T)).

(** What happens to the two edges of a vertex then. *)
Definition reset_vertex (p : profile) (g : G) (i : nat) : outcome G :=
  do c <- vget (vertices g) i;
  let roots := map se_to (filter se_is_root (sc_adj c)) in
  do first <- expect (nth_error roots 0);
  do second <- expect (nth_error roots 1);
  do _ <- debug_assert p (length roots <=? 2);
  do ' (s1, g1) <- sw_reset_edge p g i first;
  do _ <- debug_error_check p s1;
  do ' (s2, g2) <- sw_reset_edge p g1 i second;
  do _ <- debug_error_check p s2;
  Done g2.

Lemma resets p (q : Q) l : forall (g : G) rs,
  2 * length l <= length rs -> Forall (fun r => Qle_bool (unit_float r) q = false) rs ->
  foldM (sw_randomize_vertex p) (mk_swe g q, rs) l =
  do g' <- foldM (reset_vertex p) g l; Done (mk_swe g' q, skipn (2 * length l) rs).
Proof.
  induction l as [|i l IH]; intros g rs Hl F; [reflexivity|].
  destruct rs as [|r1 [|r2 rs]]; cbn [length] in Hl; try lia.
  apply Forall_cons_iff in F as [F1 F]. apply Forall_cons_iff in F as [F2 F].
  cbn [foldM]. unfold sw_randomize_vertex at 1. unfold reset_vertex at 1. cbn [sw_graph].
  destruct (vget (vertices g) i) as [c| | |]; cbn [bind]; auto.
  destruct (expect (nth_error (map se_to (filter se_is_root (sc_adj c))) 0)) as [first| | |]; cbn [bind]; auto.
  destruct (expect (nth_error (map se_to (filter se_is_root (sc_adj c))) 1)) as [second| | |]; cbn [bind]; auto.
  destruct (debug_assert p (length (map se_to (filter se_is_root (sc_adj c))) <=? 2)) as [[]| | |]; cbn [bind]; auto.
  unfold sw_randomize_edge at 1. cbn [gen_f64 draw bind sw_r_prob sw_graph]. rewrite F1.
  destruct (sw_reset_edge p g i first) as [[s1 g1]| | |]; cbn [bind]; auto.
  destruct (debug_error_check p s1) as [[]| | |]; cbn [bind]; auto.
  unfold sw_randomize_edge, sw_set. cbn [gen_f64 draw bind sw_r_prob sw_graph]. rewrite F2.
  destruct (sw_reset_edge p g1 i second) as [[s2 g2]| | |]; cbn [bind]; auto.
  destruct (debug_error_check p s2) as [[]| | |]; cbn [bind]; auto.
  rewrite IH by (auto; lia). cbn [length]. replace (2 * S (length l)) with (S (S (2 * length l))) by lia. auto.
Qed.

Lemma randomize_resets p (e : sw_ensemble T) rs :
  2 * vertex_count (sw_graph e) <= length rs -> Forall (fun r => Qle_bool (unit_float r) (sw_r_prob e) = false) rs ->
  sw_randomize p e rs =
  do g' <- foldM (reset_vertex p) (sw_graph e) (seq 0 (vertex_count (sw_graph e)));
  Done (mk_swe g' (sw_r_prob e), skipn (2 * vertex_count (sw_graph e)) rs).
Proof.
  intros H F. unfold sw_randomize. destruct e as [g q]. cbn [sw_graph sw_r_prob] in *.
  rewrite resets; rewrite ?seq_length; auto.
Qed.

Lemma reset_stays p n d (g : G) i j o : sw_inv n d g -> rooted_from g i j o -> (o <> j -> adj g i o) ->
  exists s, sw_reset_edge p g i j = Done (s, g) /\ debug_error_check p s = Done tt.
Proof.
  intros I R B. destruct (Nat.eq_dec o j) as [->|N].
  - exists Sw_Nothing. rewrite (reset_nothing p I R). destruct p; auto.
  - exists Sw_BlockedByExistingEdge. rewrite (reset_blocked p I R N (B N)). destruct p; auto.
Qed.

Lemma reset_vertex_stays p n (g : G) i : sw_inv n 2 g -> i < n ->
  (forall j o, rooted_from g i j o -> o <> j -> adj g i o) -> reset_vertex p g i = Done g.
Proof.
  intros I Hi B. pose proof I as (W & V & _).
  assert (Hv : i < vertex_count g) by (rewrite V; auto).
  destruct (container_entries W Hv) as (c & Ec & _ & Ac).
  destruct (roots_two I Hi (le_n 2)) as (a & b & l & El & Ll).
  unfold reset_vertex, vget. rewrite Ec. cbn [bind]. cbv zeta. rewrite Ac, El. cbn [nth_error expect bind].
  assert (Da : debug_assert p (length (a :: b :: l) <=? 2) = Done tt).
  { cbn [length]. rewrite Ll. destruct p; reflexivity. }
  rewrite Da. cbn [bind].
  assert (Ra : rooted g i a) by (apply rooted_filter; rewrite El; simpl; auto).
  assert (Rb : rooted g i b) by (apply rooted_filter; rewrite El; simpl; auto).
  destruct Ra as [o R]. destruct (reset_stays p I R (B _ _ R)) as (s & -> & Cs). cbn [bind]. rewrite Cs. cbn [bind].
  destruct Rb as [o' R']. destruct (reset_stays p I R' (B _ _ R')) as (s' & -> & Cs'). cbn [bind]. rewrite Cs'. auto.
Qed.

Lemma randomize_stays p n (e : sw_ensemble T) rs : sw_inv n 2 (sw_graph e) ->
  (forall i j o, rooted_from (sw_graph e) i j o -> o <> j -> adj (sw_graph e) i o) ->
  2 * n <= length rs -> Forall (fun r => Qle_bool (unit_float r) (sw_r_prob e) = false) rs ->
  sw_randomize p e rs = Done (e, skipn (2 * n) rs).
Proof.
  intros I B Hl F. pose proof I as (W & V & _). rewrite randomize_resets; rewrite ?V; auto.
  assert (X : forall l, Forall (fun i => i < n) l -> foldM (reset_vertex p) (sw_graph e) l = Done (sw_graph e)).
  { induction l as [|i l IH]; intros Fl; [reflexivity|]. apply Forall_cons_iff in Fl as [Hi Fl].
    cbn [foldM]. rewrite (reset_vertex_stays p I Hi) by eauto. apply IH; auto. }
  rewrite X; [destruct e; auto|]. apply Forall_forall. intros i Hi. apply in_seq in Hi. lia.
Qed.
End Resets.
