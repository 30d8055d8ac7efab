(** The running time of [SwEnsemble::randomize]: at most quadratic, and quadratic for some
    states that can be reached. *)
From Verif Require Import Base BaseFacts Containers ContainerSpec ContainerFacts Graph GraphSpec GraphFacts.
From Verif Require Import GraphOps GraphBuild Rng RngFacts Sw SwSpec SwFacts SwChain Cost CostFacts CostLoad.
From Coq Require Import QArith.
Set Implicit Arguments.
Unset Strict Implicit.
Local Open Scope nat_scope.

Lemma looked_le {X} (f : X -> bool) l : looked f l <= length l.
Proof.
  unfold looked. destruct (position f l) as [k|] eqn:E; auto. apply position_lt in E. lia.
Qed.

Lemma looked_times_le {X} (f : X -> bool) l : forall k, looked_times f k l <= length l.
Proof.
  induction l as [|x l IH]; intros k; cbn; auto. destruct k; [lia|]. specialize (IH (if f x then k else S k)). lia.
Qed.

Section Sw.
Context {T : Type}.
Implicit Types (c : sw_container T) (g : graph (sw_container T)) (e : sw_ensemble T).

(** ** The upper bound *)

Lemma adj_position_cost c x : snd (sc_adj_position_c c x) <= length (sc_adj c).
Proof.
  unfold sc_adj_position_c. rewrite snd_paid. etransitivity; [apply looked_le|].
  unfold sc_neighbors. rewrite map_length. auto.
Qed.

Lemma is_adjacent_cost c x : snd (sc_is_adjacent_c c x) <= length (sc_adj c).
Proof. apply (adj_position_cost c x). Qed.

Lemma sc_rewire_cost p c0 c1 c2 b :
  length (sc_adj c0) <= b -> length (sc_adj c1) <= b -> snd (sc_rewire_c p c0 c1 c2) <= 3 * b + 4.
Proof.
  intros H0 H1. unfold sc_rewire_c.
  pose proof (adj_position_cost c0 (sc_id c1)). pose proof (is_adjacent_cost c0 (sc_id c2)).
  pose proof (adj_position_cost c1 (sc_id c0)).
  replace (3 * b + 4) with (b + (b + (1 + (0 + (b + (0 + (1 + 2))))))) by lia.
  apply cost_bind; [lia|]. intros [k|] _; [|rewrite snd_paid; lia].
  apply cost_bind; [lia|]. intros [|] _; [rewrite snd_paid; lia|].
  apply cost_bind; [rewrite snd_paid; lia|]. intros ? _.
  apply cost_bind; [rewrite snd_paid; lia|]. intros _ _.
  apply cost_bind; [lia|]. intros ? _.
  apply cost_bind; [rewrite snd_paid; lia|]. intros ? _.
  apply cost_bind; [rewrite snd_paid; lia|]. intros ? _. rewrite snd_paid; lia.
Qed.

Lemma sc_reset_cost p c0 c1 b :
  length (sc_adj c0) <= b -> length (sc_adj c1) <= b -> snd (sc_reset_c p c0 c1) <= 3 * b + 5.
Proof.
  intros H0 H1. unfold sc_reset_c.
  pose proof (adj_position_cost c0 (sc_id c1)). pose proof (adj_position_cost c1 (sc_id c0)).
  replace (3 * b + 5) with (b + (b + (0 + (1 + (1 + (0 + (0 + (b + (1 + (1 + 1)))))))))) by lia.
  apply cost_bind; [lia|]. intros [k|] _; [|rewrite snd_paid; lia].
  apply cost_bind; [lia|]. intros ? _.
  apply cost_bind; [rewrite snd_paid; lia|]. intros ? _.
  apply cost_bind; [rewrite snd_paid; lia|]. intros e0 _.
  apply cost_bind; [rewrite snd_paid; lia|]. intros ? _.
  apply cost_bind; [rewrite snd_paid; lia|]. intros _ _.
  destruct (se_is_at_root e0); [rewrite snd_paid; lia|].
  apply cost_bind; [rewrite snd_paid; lia|]. intros o _.
  pose proof (is_adjacent_cost c0 o).
  apply cost_bind; [lia|]. intros [|] _; [rewrite snd_paid; lia|].
  apply cost_bind; [rewrite snd_paid; lia|]. intros ? _.
  apply cost_bind; [rewrite snd_paid; lia|]. intros ? _. rewrite snd_paid; lia.
Qed.

Lemma sc_reset_short p c0 c1 v a b k : sc_reset p c0 c1 = Done (Ok (v, a, b)) ->
  length (sc_adj c0) <= k -> length (sc_adj c1) <= k ->
  length (sc_adj a) <= k /\ length (sc_adj b) <= k.
Proof.
  intros E H0 H1. unfold sc_reset in E. destruct (sc_adj_position c0 (sc_id c1)); [|discriminate].
  apply bind_done in E as (k1 & _ & E). apply bind_done in E as (e0 & _ & E).
  apply bind_done in E as (e1 & _ & E). apply bind_done in E as (_ & _ & E).
  destruct (se_is_at_root e0); [discriminate|]. apply bind_done in E as (o & _ & E).
  destruct (sc_is_adjacent c0 o); [discriminate|]. apply bind_done in E as (e0' & _ & E).
  apply bind_done in E as (l1 & El & E). injection E as <- <- <-. cbn. split.
  - rewrite upd_length. auto.
  - unfold swap_remove in El. destruct (rev (sc_adj c1)) as [|x r]; [discriminate|].
    destruct (Nat.ltb_spec k1 (length (sc_adj c1))); [|discriminate]. injection El as <-.
    pose proof (upd_length (sc_adj c1) k1 x) as U.
    destruct (upd (sc_adj c1) k1 x) as [|y z] eqn:Eu; [cbn; lia|].
    pose proof (f_equal (@length _) (app_removelast_last y (l := y :: z) ltac:(discriminate))) as K.
    rewrite app_length in K. rewrite U in K. lia.
Qed.

(** No vertex has more than [b] neighbours. *)
Definition short b g : Prop := forall i c, nth_error (vertices g) i = Some c -> length (sc_adj c) <= b.

Lemma simple_short g : simple_graph g -> short (vertex_count g) g.
Proof.
  intros W i c E. pose proof (nbrs_nth E) as N. cbn in N.
  assert (L : length (nbrs g i) <= length (seq 0 (vertex_count g))).
  { apply NoDup_incl_length; [apply W|]. intros x Hx. apply in_seq. pose proof (sg_range W _ _ Hx). lia. }
  rewrite N, seq_length in L. unfold sc_neighbors in L. rewrite map_length in L. auto.
Qed.

Lemma get_2_mut_nth p g i j a b : get_2_mut p g i j = Done (a, b) ->
  nth_error (vertices g) i = Some a /\ nth_error (vertices g) j = Some b.
Proof.
  unfold get_2_mut. intros E.
  assert (K : match nth_error (vertices g) i, nth_error (vertices g) j with
    | Some a, Some b => if i =? j then UB else Done (a, b)
    | _, _ => UB end = Done (a, b)).
  { destruct p; auto. destruct ((i <? next_id g) && _ && _); [auto|discriminate]. }
  destruct (nth_error (vertices g) i), (nth_error (vertices g) j); try discriminate.
  destruct (i =? j); [discriminate|]. injection K as -> ->. auto.
Qed.

Lemma get_3_mut_nth p g i j k a b c : get_3_mut p g i j k = Done (a, b, c) ->
  nth_error (vertices g) i = Some a /\ nth_error (vertices g) j = Some b /\ nth_error (vertices g) k = Some c.
Proof.
  unfold get_3_mut. cbv zeta. intros E.
  assert (K : match nth_error (vertices g) i, nth_error (vertices g) j, nth_error (vertices g) k with
    | Some a, Some b, Some c => if negb (i =? j) && negb (j =? k) && negb (k =? i) then Done (a, b, c) else UB
    | _, _, _ => UB end = Done (a, b, c)).
  { destruct p; auto. destruct ((i <? next_id g) && _ && _ && _); [auto|discriminate]. }
  clear E.
  destruct (nth_error (vertices g) i), (nth_error (vertices g) j), (nth_error (vertices g) k); try discriminate.
  destruct (negb (i =? j) && negb (j =? k) && negb (k =? i)); [|discriminate K]. injection K as -> -> ->. auto.
Qed.

Lemma sw_rewire_edge_cost p g i j k b : short b g -> snd (sw_rewire_edge_c p g i j k) <= 3 * b + 7.
Proof.
  intros S. unfold sw_rewire_edge_c. destruct (j =? k); [rewrite snd_paid; lia|].
  replace (3 * b + 7) with (3 + (3 * b + 4 + 0)) by lia.
  apply cost_bind; [rewrite snd_paid; lia|]. intros [[c0 c1] c2] E. rewrite fst_paid in E.
  apply get_3_mut_nth in E as (E0 & E1 & _).
  apply cost_bind; [apply sc_rewire_cost; eauto|]. intros [s [[? ?] ?]] _. rewrite snd_paid; lia.
Qed.

Lemma sw_reset_edge_cost p g i j b : short b g -> snd (sw_reset_edge_c p g i j) <= 4 * b + 9.
Proof.
  intros S. unfold sw_reset_edge_c.
  replace (4 * b + 9) with (2 + (3 * b + 5 + (1 + (b + 1 + 0)))) by lia.
  apply cost_bind; [rewrite snd_paid; lia|]. intros [c0 c1] E. rewrite fst_paid in E.
  apply get_2_mut_nth in E as (E0 & E1).
  apply cost_bind; [apply sc_reset_cost; eauto|]. intros [[[v a] a']|s] Er; [|rewrite snd_paid; lia].
  rewrite sc_reset_same in Er. destruct (sc_reset_short Er (S _ _ E0) (S _ _ E1)) as [La Lb]. cbv zeta.
  apply cost_bind; [rewrite snd_paid; lia|]. intros c2 E2. rewrite fst_paid in E2.
  assert (L2 : length (sc_adj c2) <= b).
  { unfold vget in E2. cbn [with_vertices vertices] in E2. unfold put_2 in E2. rewrite !nth_error_upd in E2.
    repeat match type of E2 with context [if ?x then _ else _] => destruct x end;
      try (injection E2 as <-; auto; fail).
    destruct (nth_error (vertices g) v) eqn:Ev; [|discriminate]. injection E2 as <-. eauto. }
  apply cost_bind; [|intros; rewrite snd_paid; lia].
  unfold sc_push_single_c. apply cost_bind; [|intros; rewrite snd_paid; lia].
  destruct p; [|rewrite snd_paid; lia]. rewrite free_after by reflexivity.
  pose proof (is_adjacent_cost c2 i). lia.
Qed.

Lemma sw_randomize_edge_cost p e i j rs b : short b (sw_graph e) ->
  snd (sw_randomize_edge_c p e i j rs) <= 4 * b + 11.
Proof.
  intros S. unfold sw_randomize_edge_c. replace (4 * b + 11) with (1 + (4 * b + 10)) by lia.
  apply cost_bind; [rewrite snd_paid; lia|]. intros [x rs1] _.
  destruct (Qle_bool x (sw_r_prob e)).
  - replace (4 * b + 10) with (0 + (1 + (4 * b + 9))) by lia.
    apply cost_bind; [rewrite snd_paid; lia|]. intros h _.
    apply cost_bind; [rewrite snd_paid; lia|]. intros [k rs2] _.
    rewrite free_after by (intros [? ?]; reflexivity).
    pose proof (@sw_rewire_edge_cost p (sw_graph e) i j k b S). lia.
  - rewrite free_after by (intros [? ?]; reflexivity).
    pose proof (@sw_reset_edge_cost p (sw_graph e) i j b S). lia.
Qed.

Lemma sw_randomize_vertex_cost p n e rs i : sw_inv n 2 (sw_graph e) -> i < n ->
  snd (sw_randomize_vertex_c p (e, rs) i) <= 9 * n + 23.
Proof.
  intros I Hi. pose proof I as (W & V & _).
  pose proof (simple_short W) as S. rewrite V in S.
  unfold sw_randomize_vertex_c. replace (9 * n + 23) with (1 + (n + (0 + (0 + (0 + (4 * n + 11 + (0 + (4 * n + 11 + 0)))))))) by lia.
  apply cost_bind; [rewrite snd_paid; lia|]. intros c Ec. rewrite fst_paid in Ec. cbv zeta.
  unfold vget in Ec. destruct (nth_error (vertices (sw_graph e)) i) as [c'|] eqn:En; [|discriminate].
  injection Ec as ->. rewrite snd_charge. apply Nat.add_le_mono.
  { etransitivity; [apply looked_times_le|]. eapply S; eauto. }
  assert (Ac : sc_adj c = entries (sw_graph e) i) by (unfold entries; rewrite En; auto).
  rewrite Ac. destruct (roots_two I Hi (le_n 2)) as (a & b & l & El & Ll). rewrite El.
  apply cost_bind; [rewrite snd_paid; lia|]. intros first Ef.
  apply cost_bind; [rewrite snd_paid; lia|]. intros second _.
  apply cost_bind; [rewrite snd_paid; lia|]. intros _ _.
  apply cost_bind; [apply sw_randomize_edge_cost; auto|]. intros [[s1 e1] rs1] E1.
  apply cost_bind; [rewrite snd_paid; lia|]. intros _ _.
  apply cost_bind; [|intros [[s2 e2] rs2] _; rewrite free_after by reflexivity; rewrite snd_paid; lia].
  injection Ef as <-. rewrite sw_randomize_edge_same in E1.
  assert (R : rooted (sw_graph e) i a) by (apply rooted_filter; rewrite El; simpl; auto).
  pose proof (@randomize_edge_spec _ p n 2 e i a rs I R) as Q. rewrite E1 in Q. destruct Q as (Q & _).
  apply (changed_inv I) in Q as [I1 _]. pose proof I1 as (W1 & V1 & _).
  apply sw_randomize_edge_cost. pose proof (simple_short W1) as S1. rewrite V1 in S1. auto.
Qed.

Lemma sw_randomize_cost p n e rs : sw_inv n 2 (sw_graph e) ->
  snd (sw_randomize_c p e rs) <= 33 * (n * n) + 1.
Proof.
  intros I. unfold sw_randomize_c. rewrite (proj1 (proj2 I)).
  pose proof (@fold_cost_inv nat _ (sw_randomize_vertex_c p) (fun s : sw_ensemble T * rng => sw_inv n 2 (sw_graph (fst s)))
                (fun _ => 9 * n + 23) (seq 0 n)) as F.
  etransitivity; [apply F; [|exact I]|].
  - intros [e1 rs1] i I1 Hi. apply in_seq in Hi. cbn [fst] in I1. split.
    + apply sw_randomize_vertex_cost; auto; lia.
    + intros [e2 rs2] E. rewrite sw_randomize_vertex_same in E.
      pose proof (@randomize_vertex_spec _ p n 2 e1 rs1 i I1 ltac:(lia) (le_n 2) (or_intror eq_refl)) as Q.
      rewrite E in Q. apply Q.
  - assert (K : forall l : list nat, list_sum (map (fun _ => 9 * n + 23 + 1) l) = length l * (9 * n + 24)).
    { induction l as [|x l IH]; cbn [map list_sum fold_right length]; auto. unfold list_sum in IH. lia. }
    rewrite K, seq_length. assert (n <= n * n) by (destruct n; nia). nia.
Qed.

End Sw.
