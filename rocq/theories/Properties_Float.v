(** Theorems about the measures in floating point arithmetic. *)
From Verif Require Import Base BaseFacts Sums Containers ContainerSpec ContainerFacts Graph GraphSpec GraphFacts GraphOps
  Traversal TraversalSpec TraversalFacts Components ComponentSpec Transitivity Load LoadSpec LoadFacts BetweenSpec BetweenFacts FamilySpec
  FamilyMeasures FamilyComplete Sw SwSpec SwFacts FloatSpec Rounding Float FloatFacts FloatLoad FloatGraph
  Properties_Graph Properties_Traversal Properties_Components Properties_Load Properties_Between Properties_Measures Properties_Sw.
From Coq Require Import ZArith QArith Qabs SpecFloat Lqa.
Local Open Scope nat_scope.

(** ** C92 *)

(** The degrees are averaged in single precision. *)
Theorem C92_average_degree {T A : Type} {C : AdjContainer T A} {L : AdjLaws C} :
  forall (g : graph A), simple_graph g ->
  (vertex_count g = 0 -> average_degree_f32 g = S754_nan) /\
  (0 < vertex_count g -> (Z.of_nat (vertex_count g) <= 2 ^ 24)%Z -> (Z.of_nat (2 * edge_count g) <= 2 ^ 24)%Z ->
   nearest 24 128 (qnat (2 * edge_count g) / qnat (vertex_count g)) (average_degree_f32 g) /\
   forall d, regular g d -> exists q, fval (average_degree_f32 g) = Some q /\ (q == qnat d)%Q).
Proof.
  intros g W. split.
  - intros E. unfold average_degree_f32, average_degree. rewrite E.
    assert (E0 : edge_count g = 0).
    { assert (R : regular g 0) by (intros i Hi; lia). pose proof (regular_edges W R). lia. }
    rewrite E0. apply (@ratio_nan 24 128).
  - intros P Bn Be.
    assert (N : nearest 24 128 (qnat (2 * edge_count g) / qnat (vertex_count g)) (average_degree_f32 g)).
    { apply (@ratio_nearest 24 128); auto; lia. }
    split; auto. intros d R. pose proof (regular_edges W R) as E.
    apply (@nearest_exact 24 128 (qnat d) (average_degree_f32 g)).
    + apply (@whole_representable 24 128); try reflexivity. rewrite Z.abs_eq by lia. nia.
    + eapply nearest_eq; [|apply N]. rewrite E. unfold qnat. rewrite Nat2Z.inj_mul, inject_Z_mult. field.
      apply (@qnat_nonzero (vertex_count g)). lia.
Qed.
Print Assumptions C92_average_degree.

(** With more edges it can be wrong even where the average is a whole number. *)
Theorem C92_average_degree_refuted : exists n (g : graph (node_container nat)) q,
  complete_graph Debug (fun i => i) n = Done g /\ simple_graph g /\ regular g (n - 1) /\
  fval (average_degree_f32 g) = Some q /\ (q < qnat (n - 1))%Q.
Proof.
  exists (Z.to_nat 5794). destruct (@C09_complete_graph nat Debug (fun i => i) (Z.to_nat 5794)) as (g & E & W & V & _ & Ec & _ & Ad); [lia|].
  exists g. set (n := Z.to_nat 5794) in *. assert (Zn : Z.of_nat n = 5794%Z) by (unfold n; lia). clearbody n.
  eexists. split; [exact E|]. split; [exact W|]. split.
  { rewrite <- V. apply (@complete_regular _ _ _ _ g W); [lia|]. intros i j Hi Hj N. apply Ad. lia. }
  unfold average_degree_f32, average_degree, f32_of_nat. rewrite Ec, V.
  assert (Z2 : Z.of_nat (n * (n - 1)) = (5794 * 5793)%Z) by (rewrite Nat2Z.inj_mul; lia).
  rewrite Z2, Zn. split; [vm_compute; reflexivity|].
  unfold qnat. replace (Z.of_nat (n - 1)) with 5793%Z by lia. vm_compute. reflexivity.
Qed.
Print Assumptions C92_average_degree_refuted.

(** NaN exactly without paths of length two; otherwise between 0 and 1, 0 exactly without
    triangles, and the rounded quotient as long as both numbers fit into 53 bits. *)
Theorem C92_transitivity {T A : Type} {C : AdjContainer T A} {L : AdjLaws C} :
  forall (g : graph A), simple_graph g ->
  let closed := count (closed_path g) (triples (vertex_count g)) in
  let paths := count (two_path g) (triples (vertex_count g)) in
  (Z.of_nat paths < 2 ^ 64)%Z ->
  exists r, transitivity_f64 g = Done r /\
    (r = S754_nan <-> paths = 0) /\
    (0 < paths -> exists q, fval r = Some q /\ (0 <= q)%Q /\ (q <= 1)%Q /\
       ((q == 0)%Q <-> closed = 0) /\ (closed = paths -> (q == 1)%Q)) /\
    (0 < paths -> (Z.of_nat paths <= 2 ^ 53)%Z ->
       nearest 53 1024 (qnat closed / qnat paths) r /\
       (forall q, fval r = Some q -> (q == 1)%Q -> closed = paths)).
Proof.
  intros g W closed paths Hp. unfold transitivity_f64. rewrite (C24_transitivity W). cbn [bind].
  fold closed paths. eexists. split; [reflexivity|].
  assert (Le : closed <= paths) by apply closed_two.
  assert (K : 0 < paths -> exists q, fval (f64_div (f64_of_nat closed) (f64_of_nat paths)) = Some q /\ (0 <= q)%Q /\ (q <= 1)%Q /\
       ((q == 0)%Q <-> closed = 0) /\ (closed = paths -> (q == 1)%Q)).
  { intros P. apply (@ratio_unit_large 53 1024); auto; reflexivity. }
  split; [|split; auto].
  - split.
    + intros E. destruct (Nat.eq_dec paths 0) as [|N]; auto. destruct K as (q & F & _); [lia|]. rewrite E in F. discriminate.
    + intros E. replace closed with 0 by lia. rewrite E. reflexivity.
  - intros P B. split.
    + apply (@ratio_nearest 53 1024); auto; try reflexivity; lia.
    + destruct (@ratio_unit 53 1024 eq_refl eq_refl eq_refl closed paths) as (q & F & _ & _ & _ & H1); auto.
      intros q' F' E. assert (q' = q) by (unfold f64_div, f64_of_nat in F'; unfold of_nat in F; congruence). subst q'. apply H1; auto.
Qed.
Print Assumptions C92_transitivity.

(** NaN for the only vertex of a graph, infinite for an isolated vertex among others, and
    otherwise the rounded quotient. In a connected graph it is positive and at most 1, and
    1 exactly for a vertex that has all others as neighbours. *)
Theorem C92_closeness {T A : Type} {C : AdjContainer T A} {L : AdjLaws C} :
  forall p (g : graph A), simple_graph g -> 0 < vertex_count g -> (Z.of_nat (vertex_count g) < 2 ^ 64)%Z ->
  exists l, closeness_f64 p g = Done l /\ length l = vertex_count g /\
    forall v, v < vertex_count g -> exists r d, nth_error l v = Some r /\ dists g v d /\
      let total := list_sum (map d (seq 0 (vertex_count g))) in
      (vertex_count g = 1 -> r = S754_nan) /\
      (1 < vertex_count g -> nbrs g v = [] -> r = S754_infinity false) /\
      (nbrs g v <> [] -> (Z.of_nat (vertex_count g) <= 2 ^ 53)%Z -> (Z.of_nat total <= 2 ^ 53)%Z ->
         nearest 53 1024 (qnat (vertex_count g - 1) / qnat total) r) /\
      (1 < vertex_count g -> connected g -> (Z.of_nat total <= 2 ^ 53)%Z ->
         exists q, fval r = Some q /\ (0 < q)%Q /\ (q <= 1)%Q /\
           ((q == 1)%Q <-> forall u, u < vertex_count g -> u <> v -> adj g v u)).
Proof.
  intros p g W H0 B. destruct (@C27_closeness _ _ _ _ p g W H0) as (l & E & Ll & H). unfold closeness_f64. rewrite E. cbn [bind].
  eexists. split; [reflexivity|]. split; [rewrite map_length; auto|]. intros v Hv.
  destruct (H v Hv) as (d & D & En). rewrite nth_error_map, En. cbn [option_map fst snd]. do 2 eexists. split; [reflexivity|].
  split; [exact D|]. cbv zeta. set (total := list_sum (map d (seq 0 (vertex_count g)))). pose proof (dists_sum_zero W Hv D) as Z0. fold total in Z0 |- *. split; [|split; [|split]].
  - intros E1. assert (T0 : total = 0).
    { apply Z0. destruct (nbrs g v) as [|u l'] eqn:Eu; auto. exfalso.
      assert (Ha : adj g v u) by (unfold adj; rewrite Eu; simpl; auto).
      pose proof (sg_range W _ _ Ha). assert (u = v) by lia. subst u. destruct (sg_irrefl W _ Ha). }
    rewrite E1, T0. reflexivity.
  - intros N1 En0. rewrite (proj2 Z0 En0). apply (@ratio_inf 53 1024); try reflexivity; lia.
  - intros Nn Bn Bt. assert (0 < total) by (destruct (Nat.eq_dec total 0) as [T0|]; [apply Z0 in T0; congruence|lia]).
    apply (@ratio_nearest 53 1024); auto; try reflexivity; lia.
  - intros N1 Hc Bt. destruct (dists_sum_connected W Hv Hc D) as [S1 S2]. fold total in S1, S2.
    destruct (@ratio_unit 53 1024 eq_refl eq_refl eq_refl (vertex_count g - 1) total) as (q & F & Q0 & Q1 & K0 & K1); try lia.
    exists q. split; [exact F|]. split; [|split; auto].
    + apply Qle_lteq in Q0. destruct Q0 as [Q0|Q0]; auto. symmetry in Q0. apply K0 in Q0. lia.
    + rewrite K1, <- S2. split; congruence.
Qed.
Print Assumptions C92_closeness.

(** The two fractions of a small-world graph. *)
Theorem C92_fractions {T : Type} : forall n d (g : graph (sw_container T)), sw_ok n d g ->
  (Z.of_nat (edge_count g) <= 2 ^ 53)%Z -> (Z.of_nat (vertex_count g) <= 2 ^ 53)%Z ->
  (0 < edge_count g -> exists q, fval (frac_long_ranging_edges_f64 g) = Some q /\ (0 <= q)%Q /\ (q <= 1)%Q /\
     ((q == 0)%Q <-> forall i j, ~ long_range g i j) /\
     ((q == 1)%Q <-> count_long_ranging_edges g = edge_count g)) /\
  (0 < vertex_count g -> exists r q, frac_nodes_wlre_f64 g = Done r /\ fval r = Some q /\ (0 <= q)%Q /\ (q <= 1)%Q /\
     ((q == 0)%Q <-> forall i j, ~ long_range g i j) /\
     ((q == 1)%Q <-> forall v, v < vertex_count g -> exists u, long_range g u v \/ long_range g v u)).
Proof.
  intros n d g O Be Bv. split.
  - intros P. destruct (@C45_edges T n d g O) as (l & N & I & _ & Ec & Le & Ef).
    unfold frac_long_ranging_edges_f64. rewrite Ef.
    destruct (@ratio_unit 53 1024 eq_refl eq_refl eq_refl (length l) (edge_count g)) as (q & F & Q0 & Q1 & K0 & K1); auto; try lia.
    exists q. split; [exact F|]. split; [exact Q0|]. split; [exact Q1|]. split.
    + rewrite K0. split.
      * intros E i j Hij. apply I in Hij. destruct l; [destruct Hij|discriminate].
      * intros H. destruct l as [|[i j] l]; auto. exfalso. apply (H i j). apply I. simpl; auto.
    + rewrite K1, Ec. reflexivity.
  - intros P. pose proof (so_simple O) as W. destruct (@C45_nodes T g W) as (l & N & I & _ & Ef).
    assert (Lt : forall v, In v l -> In v (seq 0 (vertex_count g))).
    { intros v Hv. apply I in Hv as (u & [Hu|Hu]); apply in_seq; destruct Hu as (o & Hu & _); assert (Ha := rooted_adj (ex_intro _ o Hu)); clear Hu; rename Ha into Hu.
      - pose proof (sg_range W _ _ Hu). lia.
      - apply (sg_sym W) in Hu. pose proof (sg_range W _ _ Hu). lia. }
    assert (Le : length l <= vertex_count g) by (rewrite <- (seq_length (vertex_count g) 0); apply NoDup_incl_length; auto).
    unfold frac_nodes_wlre_f64. rewrite Ef. cbn [bind].
    destruct (@ratio_unit 53 1024 eq_refl eq_refl eq_refl (length l) (vertex_count g)) as (q & F & Q0 & Q1 & K0 & K1); auto; try lia.
    eexists _, q. split; [reflexivity|]. split; [exact F|]. split; [exact Q0|]. split; [exact Q1|]. split.
    + rewrite K0. split.
      * intros E i j Hij. assert (Hi : In i l) by (apply I; eauto). destruct l; [destruct Hi|discriminate].
      * intros H. destruct l as [|v l]; auto. exfalso. destruct (proj1 (I v) (or_introl eq_refl)) as (u & [Hu|Hu]); apply (H _ _ Hu).
    + rewrite K1. split.
      * intros E v Hv. apply I. apply (NoDup_length_incl N (l' := seq 0 (vertex_count g))); [rewrite seq_length; lia|exact Lt|apply in_seq; lia].
      * intros H. apply Nat.le_antisymm; auto. rewrite <- (seq_length (vertex_count g) 0) at 1. apply NoDup_incl_length; [apply seq_NoDup|].
        intros v Hv. apply in_seq in Hv. apply I, H. lia.
Qed.
Print Assumptions C92_fractions.

(** The result of [vertex_load] deviates from the exact one by at most [4 n] units of
    [2^-52] of it, and without the end points of [n] more. *)
Theorem C92_load_error {T A : Type} {C : AdjContainer T A} {L : AdjLaws C} :
  forall (g : graph A) b, simple_graph g -> (Z.of_nat (vertex_count g) <= 2 ^ 47)%Z ->
  exists exact l, vertex_load g b = Done exact /\ vertex_load_f64 g b = Done l /\ length l = vertex_count g /\
    forall v r, nth_error l v = Some r -> exists q, fval r = Some q /\ (0 <= q)%Q /\
      (Qabs (q - nth v exact 0) <=
         qnat (4 * vertex_count g) * p2 (-52) * (nth v exact 0 + (if b then 0 else qnat (vertex_count g))))%Q.
Proof.
  intros g b W H. destruct (@load_close (vertex_count g) b H _ _ _ _ g W eq_refl) as (x & l & E1 & E2 & L1 & L2 & K).
  exists x, l. split; [exact E1|]. split; [exact E2|]. split; [exact L2|]. intros v r Er.
  assert (Hv : v < vertex_count g) by (rewrite <- L2; apply nth_error_Some; congruence).
  destruct (K v Hv) as (X0 & Xk & q & F & _ & Q0 & C1 & C2). unfold fnth in F. rewrite (nth_error_nth l v S754_nan Er) in F.
  exists q. split; [exact F|]. split; [exact Q0|]. unfold qnth in C1, C2.
  assert (E4 : (qnat (4 * vertex_count g) * p2 (-52) == (2 * qnat (vertex_count g) + 2 * qnat (vertex_count g)) * u)%Q).
  { unfold qnat, u. rewrite Nat2Z.inj_mul, inject_Z_mult. change (inject_Z (Z.of_nat 4)) with (4 # 1)%Q. ring. }
  rewrite E4. apply Qabs_Qle_condition. lra.
Qed.
Print Assumptions C92_load_error.

(** If no two vertices have more than one shortest path between them the result is exact. *)
Theorem C92_load_exact {T A : Type} {C : AdjContainer T A} {L : AdjLaws C} :
  forall (g : graph A) b, simple_graph g -> one_shortest_path g -> (Z.of_nat (vertex_count g) <= 2 ^ 26)%Z ->
  exists l, vertex_load_f64 g b = Done l /\ length l = vertex_count g /\
    forall v r, nth_error l v = Some r -> exists q, fval r = Some q /\ (q == betweenness g b v)%Q.
Proof.
  intros g b W O H. destruct (Nat.eq_dec (vertex_count g) 0) as [E0|N0].
  { exists []. unfold vertex_load_f64. rewrite E0. split; [reflexivity|]. split; [reflexivity|]. intros [|v] r Er; discriminate. }
  destruct (@load_whole (vertex_count g) b ltac:(nia) _ _ _ _ g W eq_refl O ltac:(lia)) as (x & l & E1 & E2 & L1 & L2 & K).
  exists l. split; [exact E2|]. split; [exact L2|]. intros v r Er.
  assert (Hv : v < vertex_count g) by (rewrite <- L2; apply nth_error_Some; congruence).
  destruct (K v Hv) as (m & Hm & Em & q & F & Eq). unfold fnth in F. rewrite (nth_error_nth l v S754_nan Er) in F.
  exists q. split; [exact F|]. rewrite <- (load_between W O E1 Hv). rewrite Eq, <- Em. reflexivity.
Qed.
Print Assumptions C92_load_exact.

(** In general it depends on the order of the neighbours: sorting them changes it. *)
Definition ex_order_edges : list (nat * nat) := [(4, 3); (4, 0); (1, 0); (2, 0); (5, 4); (5, 1); (3, 1)].
Definition ex_order : graph (node_container nat) := Eval vm_compute in
  match add_edges_try Debug (graph_new (fun i => i) 6) ex_order_edges with
  | Done (_, g) => g
  | _ => graph_new (fun i => i) 0
  end.
Definition ex_sorted : graph (node_container nat) := Eval vm_compute in
  match sort_adj ex_order with Done g => g | _ => graph_new (fun i => i) 0 end.

Theorem C92_load_order_refuted : exists (g g' : graph (node_container nat)) l l' r r' q q',
  add_edges_try Debug (graph_new (fun i => i) 6) ex_order_edges = Done (Ok tt, g) /\ simple_graph g /\
  sort_adj g = Done g' /\ vertex_load_f64 g true = Done l /\ vertex_load_f64 g' true = Done l' /\
  nth_error l 0 = Some r /\ nth_error l' 0 = Some r' /\ fval r = Some q /\ fval r' = Some q' /\ (q' < q)%Q.
Proof.
  assert (E : add_edges_try Debug (graph_new (fun i => i) 6) ex_order_edges = Done (Ok tt, ex_order)) by (vm_compute; reflexivity).
  pose proof (proj1 (add_edges_simple (proj1 (graph_new_spec (A := node_container nat) (fun i => i) 6)) E)) as W.
  exists ex_order, ex_sorted. do 6 eexists. split; [exact E|]. split; [exact W|].
  split; [vm_compute; reflexivity|]. split; [vm_compute; reflexivity|]. split; [vm_compute; reflexivity|].
  split; [vm_compute; reflexivity|]. split; [vm_compute; reflexivity|]. split; [vm_compute; reflexivity|].
  split; [vm_compute; reflexivity|]. vm_compute. reflexivity.
Qed.
Print Assumptions C92_load_order_refuted.

(** A triangle with a vertex attached and an isolated vertex; a small-world graph. *)
Example C92_case :
  simple_graph ex_graph /\ one_shortest_path ex_graph /\ simple_graph ex_order /\
  transitivity_f64 ex_graph = Done (S754_finite false 5404319552844595 (-53)) /\
  average_degree_f32 ex_graph = S754_finite false 13421773 (-23) /\
  closeness_f64 Debug ex_graph = Done [S754_finite false 4503599627370496 (-52); S754_finite false 4503599627370496 (-52);
    S754_finite false 6004799503160661 (-52); S754_finite false 7205759403792794 (-53); S754_infinity false] /\
  sw_ok 10 2 (sw_graph ex_sw_apart) /\
  frac_nodes_wlre_f64 (sw_graph ex_sw_apart) = Done (S754_finite false 7205759403792794 (-53)) /\
  frac_long_ranging_edges_f64 (sw_graph ex_sw_apart) = S754_finite false 5404319552844595 (-54).
Proof.
  assert (E : add_edges_try Debug (graph_new (fun i => i) 6) ex_order_edges = Done (Ok tt, ex_order)) by (vm_compute; reflexivity).
  split; [apply ex_graph_simple|]. split; [apply C88_case|].
  split; [apply (proj1 (add_edges_simple (proj1 (graph_new_spec (A := node_container nat) (fun i => i) 6)) E))|].
  split; [vm_compute; reflexivity|]. split; [vm_compute; reflexivity|]. split; [vm_compute; reflexivity|].
  split; [apply ex_sw_apart_ok|]. split; vm_compute; reflexivity.
Qed.
