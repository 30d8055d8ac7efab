(** Theorems about the probabilities with which the Erdős-Rényi ensembles are drawn. *)
From Verif Require Import Base BaseFacts Containers ContainerSpec ContainerFacts Graph GraphSpec Sums GraphFacts
  GraphOps GraphBuild Rng RngFacts Markov EnsembleFacts ErC ErCFacts ErM ErMSpec ErMFacts MeasureFacts CoreFacts UniformSpec UniformFacts
  Properties_Graph Properties_ErC.
From Coq Require Import Factorial QArith.
Local Open Scope nat_scope.

(** ** C77: [ErEnsembleM] is drawn uniformly *)

(** The shuffle makes each arrangement of different things from exactly one of the
    [n!] equally likely outcomes of its draws. *)
Theorem C77_shuffle {X : Type} : forall (l : list X), NoDup l ->
  NoDup (rolls (down (length l))) /\ length (rolls (down (length l))) = fact (length l) /\
  (forall ds, In ds (rolls (down (length l))) -> exists l', shuffle l ds = Done (l', []) /\ Permutation l l') /\
  (forall l', Permutation l l' -> exists! ds, In ds (rolls (down (length l))) /\ shuffle l ds = Done (l', [])).
Proof.
  intros l N. split; [apply rolls_NoDup|]. split; [apply down_fact|]. split; [intros ds; apply rolls_shuffle|].
  intros l' P. destruct (shuffle_unique N P) as (ds & I & E & U). exists ds. split.
  - split; auto. rewrite <- (app_nil_r ds). apply E.
  - intros ds' [I' E']. symmetry. apply (U ds' [] []); auto. rewrite app_nil_r. auto.
Qed.
Print Assumptions C77_shuffle.

(** Each graph with [n] vertices and [m] edges is made by the same number of the [N!]
    outcomes, where [N] is the number of pairs. *)
Theorem C77_randomize {T A : Type} {C : AdjContainer T A} {L : AdjLaws C} :
  forall p n m (e : er_m T) (h : graph A),
  erm_ok n m e -> simple_graph h -> vertex_count h = n -> edge_count h = m ->
  count (fun ds => match erm_randomize p e ds with
                   | Done (e', _) => same_edges (erm_graph e') h
                   | _ => false
                   end) (rolls (down (n * (n - 1) / 2))) =
  fact m * fact (n * (n - 1) / 2 - m).
Proof.
  intros p n m e h O W V M. destruct (erm_ok_lengths O) as (L1 & L2 & L3). rewrite <- L3.
  apply (@erm_count T A C L p n m e h); auto; apply O.
Qed.
Print Assumptions C77_randomize.

Theorem C77_new {T A : Type} {C : AdjContainer T A} {L : AdjLaws C} :
  forall p (mk : nat -> T) n m (h : graph A),
  1 <= n -> simple_graph h -> vertex_count h = n -> edge_count h = m ->
  count (fun ds => match erm_new p mk n m ds with
                   | Done (e', _) => same_edges (erm_graph e') h
                   | _ => false
                   end) (rolls (down (n * (n - 1) / 2))) =
  fact m * fact (n * (n - 1) / 2 - m).
Proof.
  intros p mk n m h Hn W V M.
  pose proof (er_pairs_half n) as Le.
  assert (Hm : m <= n * (n - 1) / 2).
  { rewrite <- Le, <- M, (sg_count W). unfold number_of_edges.
    assert (Pm : Permutation (pairs_below (vertex_count h)) (er_pairs n)).
    { apply NoDup_Permutation; [apply NoDup_pairs_below|apply er_pairs_NoDup|]. intros [i j].
      rewrite In_pairs_below, er_pairs_In, V. tauto. }
    rewrite <- (Permutation_length Pm). apply CoreFacts.count_length. }
  unfold erm_new, usub. destruct (Nat.leb_spec 1 n); [|lia]. cbn [bind].
  destruct (Nat.leb_spec m (n * (n - 1) / 2)); [|lia].
  pose proof (@graph_new_spec T (node_container T) _ _ mk n) as (Wn & Vn & _).
  pose proof (@erm_count T A C L p n m (mk_erm (graph_new mk n) m (er_pairs n)
      (repeat (0, 0) (n * (n - 1) / 2 - m)) (repeat (0, 0) m)) h) as K.
  cbn [erm_graph erm_m erm_all erm_current erm_possible] in K. rewrite Le in K. apply K; auto.
  - split; [apply er_pairs_NoDup|]. intros i j. apply er_pairs_In.
  - apply repeat_length.
  - rewrite repeat_length. lia.
Qed.
Print Assumptions C77_new.

(** The graphs with 3 vertices and 2 edges: each is made by 2 of the 6 outcomes. *)
Definition ex_three : graph (node_container nat) :=
  mk_graph 3 2 [mk_nc 0 [2] 0; mk_nc 1 [2] 0; mk_nc 2 [0; 1] 0].

Example C77_case :
  simple_graph ex_three /\ rolls (down 3) = [[0; 0]; [0; 1]; [1; 0]; [1; 1]; [2; 0]; [2; 1]] /\
  count (fun ds => match erm_new Debug (fun i => i) 3 2 ds with
                   | Done (e', _) => same_edges (erm_graph e') ex_three
                   | _ => false
                   end) (rolls (down (3 * (3 - 1) / 2))) = 2.
Proof.
  split; [|split; vm_compute; reflexivity].
  refine (proj1 (add_edges_simple (p := Debug) (g := graph_new (fun _ => 0) 3) (r := Ok tt)
    (g' := ex_three) (l := [(0, 2); (1, 2)]) (proj1 (graph_new_spec (A := node_container nat) (fun _ => 0) 3)) _)).
  vm_compute. reflexivity.
Qed.

(** ** C78: the chains are symmetric and reach everything *)

(** Of the [m (N - m)] equally likely draws exactly one leads from [e] to the edges of [h]
    if [h] lacks one of the edges of [e], and none does otherwise. *)
Theorem C78_step {T A : Type} {C : AdjContainer T A} {L : AdjLaws C} :
  forall p n m (e : er_m T) (h : graph A),
  erm_ok n m e -> simple_graph h -> vertex_count h = n -> edge_count h = m ->
  count (fun ds => match erm_m_step p e ds with
                   | Done (_, e', _) => same_edges (erm_graph e') h
                   | _ => false
                   end) (rolls [m; n * (n - 1) / 2 - m]) =
  if missing (erm_graph e) h =? 1 then 1 else 0.
Proof. intros p n m e h O W V M. apply (@erm_step_count T A C L p n m e h); auto. Qed.
Print Assumptions C78_step.

(** So a step from [e] to [h] is as likely as one from [h] to [e], and the uniform
    distribution is stationary. *)
Theorem C78_symmetric {T : Type} : forall p n m (e h : er_m T),
  erm_ok n m e -> erm_ok n m h ->
  count (fun ds => match erm_m_step p e ds with
                   | Done (_, e', _) => same_edges (erm_graph e') (erm_graph h)
                   | _ => false
                   end) (rolls [m; n * (n - 1) / 2 - m]) =
  count (fun ds => match erm_m_step p h ds with
                   | Done (_, h', _) => same_edges (erm_graph h') (erm_graph e)
                   | _ => false
                   end) (rolls [m; n * (n - 1) / 2 - m]).
Proof.
  intros p n m e h O O'. rewrite (@erm_step_count T _ _ _ p n m e (erm_graph h) O); try apply O'.
  rewrite (@erm_step_count T _ _ _ p n m h (erm_graph e) O'); try apply O.
  rewrite (missing_sym (g := erm_graph e) (h := erm_graph h)); auto; try apply O; try apply O'.
  - rewrite (eo_vertices O), (eo_vertices O'). auto.
  - rewrite (eo_edges O), (eo_edges O'). auto.
Qed.
Print Assumptions C78_symmetric.

(** Some draws lead from any state to any edge set, with as few steps as edges are
    missing. *)
Theorem C78_reach {T A : Type} {C : AdjContainer T A} {L : AdjLaws C} :
  forall p n m (e : er_m T) (h : graph A),
  erm_ok n m e -> simple_graph h -> vertex_count h = n -> edge_count h = m ->
  exists ds steps e', length ds = 2 * missing (erm_graph e) h /\
    m_steps (erm_m_step p) (missing (erm_graph e) h) e ds = Done (steps, e', []) /\
    payloads (erm_graph e') = payloads (erm_graph e) /\
    forall i j, adj (erm_graph e') i j <-> adj h i j.
Proof.
  intros p n m e h O W V M.
  destruct (@erm_reach T A C L p n m h W V M _ e O eq_refl) as (ds & steps & e' & Ld & E & O' & P & S).
  exists ds, steps, e'. split; [auto|]. split; [auto|]. split; [auto|].
  apply same_edges_all; auto; [apply O'|]. rewrite V. apply O'.
Qed.
Print Assumptions C78_reach.

(** The same for [ErEnsembleC] if the probability is neither negative nor so large that
    every draw is accepted: one step for each pair that differs. *)
Theorem C78_reach_c {T A : Type} {C : AdjContainer T A} {L : AdjLaws C} :
  forall p (e : er_c T) (h : graph A) z,
  simple_graph (erc_graph e) -> 2 <= vertex_count (erc_graph e) ->
  simple_graph h -> vertex_count h = vertex_count (erc_graph e) ->
  (0 <= erc_prob e)%Q -> (erc_prob e < unit_float z)%Q ->
  exists ds steps e', length ds = 3 * differing (erc_graph e) h /\
    m_steps (erc_m_step p) (differing (erc_graph e) h) e ds = Done (steps, e', []) /\
    forall i j, adj (erc_graph e') i j <-> adj h i j.
Proof.
  intros p e h z We Hn W V P0 P1.
  destruct (@erc_reach T A C L p _ h z Hn W V _ e We eq_refl P0 P1 eq_refl) as (ds & steps & e' & Ld & E & S).
  exists ds, steps, e'. split; [auto|]. split; [auto|].
  assert (Step : forall (s : er_c T) rs r s' rs',
    simple_graph (erc_graph s) /\ vertex_count (erc_graph s) = vertex_count (erc_graph e) ->
    erc_m_step p s rs = Done (r, s', rs') ->
    simple_graph (erc_graph s') /\ vertex_count (erc_graph s') = vertex_count (erc_graph e)).
  { intros s rs r s' rs' [Ws Vs] Es. split; [apply (erc_m_step_simple Ws Es)|].
    destruct (erc_m_step_cases Ws Es) as (_ & _ & C3).
    destruct r as [|[u v]|[u v]|]; try tauto; [congruence|..].
    + rewrite <- Vs. apply (add_edge_ok Ws C3).
    + rewrite <- Vs. apply (remove_edge_ok Ws C3). }
  destruct (m_steps_inv Step (conj We eq_refl) E) as [[W' V'] _].
  apply same_edges_all; auto. congruence.
Qed.
Print Assumptions C78_reach_c.

(** From one graph with 2 of the 3 edges to another. *)
Definition ex_three_ens : er_m nat :=
  mk_erm (mk_graph 3 2 [mk_nc 0 [1; 2] 0; mk_nc 1 [0] 1; mk_nc 2 [0] 2]) 2
    [(0, 1); (0, 2); (1, 2)] [(1, 2)] [(0, 1); (0, 2)].

Example C78_case :
  erm_new Debug (fun i => i) 3 2 [2; 1] = Done (ex_three_ens, []) /\
  missing (erm_graph ex_three_ens) ex_three = 1 /\
  count (fun ds => match erm_m_step Debug ex_three_ens ds with
                   | Done (_, e', _) => same_edges (erm_graph e') ex_three
                   | _ => false
                   end) (rolls [2; 1]) = 1 /\
  2 <= vertex_count (erc_graph ex_erc) /\ (0 <= erc_prob ex_erc)%Q /\
  (erc_prob (mk_erc ex_graph 0 0) < unit_float 1)%Q /\
  differing ex_graph (mk_graph 5 0 (map (fun i => mk_nc i [] i) (seq 0 5))) = 4.
Proof. vm_compute. intuition (try discriminate; lia). Qed.
