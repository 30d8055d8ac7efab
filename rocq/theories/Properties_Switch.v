(** Which graphs the configuration model draws, and how often. *)
From Verif Require Import Base BaseFacts Containers ContainerSpec ContainerFacts Graph GraphSpec GraphFacts GraphOps
  GraphBuild Rng RngFacts Runs Markov Config ConfigSpec ConfigFacts ConfigRun ConfigStep Sums UniformSpec UniformFacts
  SwitchSpec SwitchFacts SwitchStep ConfigRounds Properties_Config.

(** ** C82 *)

(** The number of draws with which a step makes [h].  [D] is a multiple of all degrees, so
    that a draw below [D] picks each neighbour equally often. *)
Theorem C82_step {T T' A' : Type} {C' : AdjContainer T' A'} {L' : AdjLaws C'} :
  forall p v (e : config T) (h : graph A') D, cm_ok v e -> simple_graph h -> vertex_count h = length v ->
  same_edges (cm_graph e) h = false ->
  (forall d, In d v -> d <> 0 -> exists q, D = q * d) ->
  count (fun ds => match cm_m_step p e ds with
                   | Done (_, e', _) => same_edges (cm_graph e') h
                   | _ => false
                   end)
    (rolls [list_sum v - 1; list_sum v; D; D]) = D * D * switches (cm_graph e) h.
Proof.
  intros p v e h D K W V N DD. apply hits_count; auto. intros i Hi. apply DD; auto.
  destruct (Nat.lt_ge_cases i (length v)); [apply nth_In; auto|]. rewrite nth_overflow in Hi by auto. congruence.
Qed.
Print Assumptions C82_step.

(** The other draws: with [list_sum v ^ 2 - sum of squares] of the pairs the step is made ... *)
Theorem C82_accepted {T : Type} : forall p v (e : config T) D, cm_ok v e ->
  count (fun ds => match cm_m_step p e ds with Done _ => true | _ => false end)
    (rolls [list_sum v - 1; list_sum v; D; D]) + D * D * list_sum (map (fun d => d * d) v) =
  D * D * (list_sum v * list_sum v).
Proof.
  intros p v e D K. rewrite <- (accepted p D K). f_equal.
Qed.
Print Assumptions C82_accepted.

(** ... and after any other pair everything is as before. *)
Theorem C82_retry {T : Type} : forall p v (e : config T) t1 t2, cm_ok v e ->
  In [t1; t2] (rolls [list_sum v - 1; list_sum v]) ->
  (forall r1 r2 rs, exists s e', cm_m_step p e (t1 :: t2 :: r1 :: r2 :: rs) = Done (s, e', rs)) \/
  (forall rs, cm_m_step p e (t1 :: t2 :: rs) = cm_m_step p e rs).
Proof.
  intros p v e t1 t2 K I. apply rolls_In in I. inversion I as [|? ? ? ? H1 I2]; subst. inversion I2 as [|? ? ? ? H2 _]; subst.
  rewrite <- (backup_length (co_backup K)) in H1, H2.
  set (b := cm_backup e) in *.
  destruct (Nat.eq_dec (nth (if t1 =? t2 then length b - 1 else t1) b 0) (nth t2 b 0)) as [E|N].
  - right. intros rs. apply (step_retry p rs K H1 H2 E).
  - left. intros r1 r2 rs.
    destruct (@container_at _ v e (nth (if t1 =? t2 then length b - 1 else t1) b 0) K) as (c & _ & _ & N1);
      [apply nth_In; fold b; destruct (t1 =? t2); lia|].
    destruct (@container_at _ v e (nth t2 b 0) K) as (c' & _ & _ & N2); [apply nth_In; fold b; lia|].
    rewrite (step_at p r1 r2 rs K H1 H2 N). fold b.
    match goal with |- exists s e', step_tail p e ?x ?j ?y ?l rs = _ =>
      destruct (@step_tail_exact _ p v e x j y l K) as (s & e' & E & _) end; auto.
    + apply nth_In, Nat.mod_upper_bound. intros Q. apply length_zero_iff_nil in Q. auto.
    + apply nth_In, Nat.mod_upper_bound. intros Q. apply length_zero_iff_nil in Q. auto.
    + exists s, e'. auto.
Qed.
Print Assumptions C82_retry.

(** A step from one graph to another is as likely as the step back. *)
Theorem C82_symmetric {T T' : Type} : forall p v (e : config T) (f : config T') D, cm_ok v e -> cm_ok v f ->
  (forall d, In d v -> d <> 0 -> exists q, D = q * d) ->
  same_edges (cm_graph e) (cm_graph f) = false ->
  count (fun ds => match cm_m_step p e ds with
                   | Done (_, e', _) => same_edges (cm_graph e') (cm_graph f)
                   | _ => false
                   end)
    (rolls [list_sum v - 1; list_sum v; D; D]) =
  count (fun ds => match cm_m_step p f ds with
                   | Done (_, f', _) => same_edges (cm_graph f') (cm_graph e)
                   | _ => false
                   end)
    (rolls [list_sum v - 1; list_sum v; D; D]).
Proof.
  intros p v e f D K K' DD N. pose proof (co_simple K) as W. pose proof (co_simple K') as W'.
  pose proof (proj1 (co_degrees K)) as V. pose proof (proj1 (co_degrees K')) as V'.
  rewrite (C82_step p v e (cm_graph f) D), (C82_step p v f (cm_graph e) D); auto.
  - f_equal. apply switches_sym; auto. congruence.
  - apply not_true_iff_false. intros Q. apply not_true_iff_false in N. apply N.
    rewrite (same_adjb W' W) in Q by congruence. rewrite (same_adjb W W') by congruence. auto.
Qed.
Print Assumptions C82_symmetric.

(** From every graph the chain comes to every other graph with these degrees. *)
Theorem C82_reach {T T' A' : Type} {C' : AdjContainer T' A'} {L' : AdjLaws C'} :
  forall p v (e : config T) (h : graph A'), cm_ok v e -> simple_graph h -> has_degrees v h ->
  exists ds steps k e',
    (forall rs, m_steps (cm_m_step p) k e (ds ++ rs) = Done (steps, e', rs)) /\
    ~ In Cm_Error steps /\ cm_ok v e' /\ payloads (cm_graph e') = payloads (cm_graph e) /\
    forall x y, adj (cm_graph e') x y <-> adj h x y.
Proof.
  intros p v e h K W D. destruct (chain_reach p K W D) as (ds & steps & k & e' & _ & H1 & H2 & _ & H3 & H4 & H5).
  exists ds, steps, k, e'. auto.
Qed.
Print Assumptions C82_reach.

Definition ex_graph (n : nat) (l : list (nat * nat)) : graph (node_container unit) :=
  match add_edges_try Debug (graph_new (fun _ => tt) n) l with
  | Done (_, g) => g
  | _ => graph_new (fun _ => tt) n
  end.

(** Two paths with the ends 0 and 3.  Two pairs of edges, each in two orders, make the one
    out of the other. *)
Example C82_case :
  let g := ex_graph 4 [(0, 1); (1, 2); (2, 3)] in
  let h := ex_graph 4 [(0, 2); (2, 1); (1, 3)] in
  let e := cm_clone_from_generic_graph g in
  cm_ok [1; 2; 2; 1] e /\ simple_graph h /\ has_degrees [1; 2; 2; 1] h /\ same_edges (cm_graph e) h = false /\
  switches g h = 4 /\
  count (fun ds => match cm_m_step Debug e ds with
                   | Done (_, e', _) => same_edges (cm_graph e') h
                   | _ => false
                   end) (rolls [5; 6; 2; 2]) = 16.
Proof.
  set (g := ex_graph 4 [(0, 1); (1, 2); (2, 3)]). set (h := ex_graph 4 [(0, 2); (2, 1); (1, 3)]).
  assert (W : simple_graph g).
  { eapply (add_edges_simple (p := Debug) (l := [(0, 1); (1, 2); (2, 3)])
      (proj1 (graph_new_spec (A := node_container unit) (fun _ => tt) 4))). vm_compute. reflexivity. }
  assert (W' : simple_graph h).
  { eapply (add_edges_simple (p := Debug) (l := [(0, 2); (2, 1); (1, 3)])
      (proj1 (graph_new_spec (A := node_container unit) (fun _ => tt) 4))). vm_compute. reflexivity. }
  cbv zeta. split; [apply (C48_clone g W)|]. split; [exact W'|].
  split; [apply (vec_degrees W')|]. splits; vm_compute; reflexivity.
Qed.

(** ** C83 *)

(** One shuffle either makes a graph, or is followed by drawing again from the same
    vertices in another order, whatever is drawn later. *)
Theorem C83_round {T : Type} : forall p v (e : config T) ds, cm_ok v e ->
  In ds (rolls (down (list_sum v))) ->
  (exists e', cm_ok v e' /\ forall rs, cm_randomize p e (ds ++ rs) = Done (e', rs)) \/
  (exists b, Permutation (cm_backup e) b /\ cm_randomize p e ds = NoFuel /\
    forall rs, cm_randomize p e (ds ++ rs) =
      cm_randomize p (mk_cm (cm_graph e) (cm_degrees e) (cm_halfs e) b) rs).
Proof.
  intros p v e ds K I. pose proof (ok_ready K) as R.
  assert (Ev : Nat.Even (list_sum v)) by (exists (edge_count (cm_graph e)); apply degrees_sum; apply K).
  pose proof I as I'. rewrite <- (backup_length (co_backup K)) in I'.
  destruct (shuffle_rolls I') as (b & E & P & S). pose proof (randomize_first p R Ev S) as F.
  destruct (try p (clear_edges (cm_graph e)) (cm_degrees e) b) as [e'|] eqn:Et.
  - left. exists e'. split; auto. specialize (F []). apply (randomize_done R F).
  - right. exists b. split; auto. split; auto. specialize (F []). rewrite app_nil_r in F. rewrite F.
    apply randomize_none. cbn. destruct b as [|b0 b]; [discriminate|]. rewrite <- (Permutation_length P), (backup_length (co_backup K)).
    destruct Ev as [m Em]. apply Permutation_length in P. rewrite (backup_length (co_backup K)) in P. cbn in P. lia.
Qed.
Print Assumptions C83_round.

(** How often the first shuffle makes [h], and how often it makes nothing, depends neither
    on the graph before nor on the order in which the vertices are kept. *)
Theorem C83_forgets {T T' A' : Type} {C' : AdjContainer T' A'} :
  forall p v (e f : config T) (h : graph A'), cm_ok v e -> cm_ok v f ->
  payloads (cm_graph f) = payloads (cm_graph e) ->
  count (fun ds => match cm_randomize p e ds with
                   | Done (e', _) => same_edges (cm_graph e') h
                   | _ => false
                   end) (rolls (down (list_sum v))) =
  count (fun ds => match cm_randomize p f ds with
                   | Done (f', _) => same_edges (cm_graph f') h
                   | _ => false
                   end) (rolls (down (list_sum v))) /\
  count (fun ds => match cm_randomize p e ds with Done _ => false | _ => true end) (rolls (down (list_sum v))) =
  count (fun ds => match cm_randomize p f ds with Done _ => false | _ => true end) (rolls (down (list_sum v))).
Proof.
  intros p v e f h K K' P.
  assert (Ev : Nat.Even (list_sum v)) by (exists (edge_count (cm_graph e)); apply degrees_sum; apply K).
  assert (Q : forall e : config T, cm_ok v e ->
    count (fun ds => match cm_randomize p e ds with
                     | Done (e', _) => same_edges (cm_graph e') h | _ => false end) (rolls (down (list_sum v))) =
    count (made p h e) (rolls (down (list_sum v)))).
  { intros e0 K0. apply count_ext_in. intros ds I. unfold made. rewrite <- (app_nil_r ds).
    destruct (C83_round p v e0 ds K0 I) as [(e' & _ & E)|(b & _ & E & _)].
    - rewrite E. auto.
    - rewrite app_nil_r, E. auto. }
  rewrite !Q by auto. destruct (Nat.eq_dec (list_sum v) 0) as [Z|Z].
  - rewrite Z. cbn [down rolls]. unfold count, made. cbn [filter].
    assert (Z2 : forall e0 : config T, cm_ok v e0 -> cm_backup e0 = []).
    { intros e0 K0. apply length_zero_iff_nil. rewrite (backup_length (co_backup K0)). auto. }
    unfold cm_randomize. rewrite (Z2 e K), (Z2 f K'). cbn [shuffle shuffle_down length bind].
    cbn [cm_graph]. rewrite (cleared_same (co_simple K) (co_simple K') P). auto.
  - apply (@same_counts _ _ _ _ p v h); auto; [lia|apply ok_ready; auto..].
Qed.
Print Assumptions C83_forgets.

(** With [k] shuffles that made nothing before, the number of draws that make [h] is the
    one of the first shuffle times a number that does not depend on [h]. *)
Theorem C83_rounds {T T' A' : Type} {C' : AdjContainer T' A'} :
  forall p v (e : config T) (h : graph A') k, cm_ok v e -> 0 < list_sum v ->
  let made ds := match cm_randomize p e ds with
                 | Done (e', []) => same_edges (cm_graph e') h
                 | _ => false
                 end in
  let nothing ds := match cm_randomize p e ds with Done _ => false | _ => true end in
  count made (rolls (concat (repeat (down (list_sum v)) (S k)))) =
  count nothing (rolls (down (list_sum v))) ^ k * count made (rolls (down (list_sum v))).
Proof.
  intros p v e h k K Pos. assert (Ev : Nat.Even (list_sum v)) by (exists (edge_count (cm_graph e)); apply degrees_sum; apply K).
  exact (all_rounds p h Ev Pos k (ok_ready K)).
Qed.
Print Assumptions C83_rounds.

(** The graphs with the given degrees are not equally likely: a triangle beside an edge is
    made by fewer of the [8!] shuffles than a path. *)
Theorem C83_uniform_refuted : exists (e : config unit) (g h : graph (node_container unit)),
  let v := [2; 2; 2; 1; 1] in
  let often x := count (fun ds => match cm_randomize Debug e ds with
                                  | Done (e', _) => same_edges (cm_graph e') x
                                  | _ => false
                                  end) (rolls (down 8)) in
  cm_ok v e /\ simple_graph g /\ has_degrees v g /\ simple_graph h /\ has_degrees v h /\
  often g <> often h.
Proof.
  set (g := ex_graph 5 [(0, 1); (1, 2); (0, 2); (3, 4)]). set (h := ex_graph 5 [(3, 0); (0, 1); (1, 2); (2, 4)]).
  assert (W : simple_graph g).
  { eapply (add_edges_simple (p := Debug) (l := [(0, 1); (1, 2); (0, 2); (3, 4)])
      (proj1 (graph_new_spec (A := node_container unit) (fun _ => tt) 5))). vm_compute. reflexivity. }
  assert (W' : simple_graph h).
  { eapply (add_edges_simple (p := Debug) (l := [(3, 0); (0, 1); (1, 2); (2, 4)])
      (proj1 (graph_new_spec (A := node_container unit) (fun _ => tt) 5))). vm_compute. reflexivity. }
  exists (cm_clone_from_generic_graph g), g, h. cbv zeta.
  split; [apply (C48_clone g W)|]. split; [exact W|]. split; [apply (vec_degrees W)|]. split; [exact W'|].
  split; [apply (vec_degrees W')|]. apply Nat.eqb_neq. vm_compute. reflexivity.
Qed.
Print Assumptions C83_uniform_refuted.

(** A case with a failing shuffle. *)
Example C83_case :
  let g := ex_graph 4 [(0, 1); (1, 2); (2, 3)] in
  let e := cm_clone_from_generic_graph g in
  cm_ok [1; 2; 2; 1] e /\
  count (fun ds => match cm_randomize Debug e ds with Done _ => false | _ => true end) (rolls (down 6)) = 208.
Proof. split; [apply C82_case|]. vm_compute. reflexivity. Qed.
