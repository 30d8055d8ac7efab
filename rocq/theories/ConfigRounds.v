(** The rounds of [randomize] of the configuration model are independent of each other. *)
From Verif Require Import Base BaseFacts Containers ContainerSpec ContainerFacts Graph GraphSpec GraphFacts GraphOps
  GraphBuild Rng RngFacts Runs Config ConfigSpec ConfigFacts ConfigRun Sums UniformSpec UniformFacts SwitchSpec SwitchFacts SwitchStep.
Set Implicit Arguments.
Unset Strict Implicit.

(** *** Shuffling positions *)

Lemma map_upd {X Y} (f : X -> Y) l i x : map f (upd l i x) = upd (map f l) i (f x).
Proof. revert i. induction l as [|a l IH]; intros [|i]; cbn; auto. rewrite IH. auto. Qed.

Lemma shuffle_down_map {X Y} (f : X -> Y) k : forall l rs,
  shuffle_down k (map f l) rs =
  match shuffle_down k l rs with Done (l', rs') => Done (map f l', rs') | Panic => Panic | UB => UB | NoFuel => NoFuel end.
Proof.
  induction k as [|[|k] IH]; intros l rs; auto.
  change (shuffle_down (S (S k)) (map f l) rs) with
    (do ' (j, t) <- gen_range (S (S k)) rs; do m1 <- swap (map f l) (S k) j; shuffle_down (S k) m1 t).
  change (shuffle_down (S (S k)) l rs) with
    (do ' (j, t) <- gen_range (S (S k)) rs; do m1 <- swap l (S k) j; shuffle_down (S k) m1 t).
  destruct (gen_range (S (S k)) rs) as [[j t]| | |]; cbn [bind]; auto.
  unfold swap, vget. rewrite !nth_error_map.
  destruct (nth_error l (S k)) as [a|]; cbn [option_map bind]; auto.
  destruct (nth_error l j) as [b|]; cbn [option_map bind]; auto.
  rewrite <- !map_upd. apply IH.
Qed.

Lemma arrangements_map {X Y} (f : X -> Y) l : arrangements (map f l) = map (map f) (arrangements l).
Proof.
  unfold arrangements. rewrite map_map, map_length. apply map_ext. intros ds.
  unfold shuffle. rewrite map_length, shuffle_down_map. destruct (shuffle_down (length l) l ds) as [[? ?]| | |]; auto.
Qed.

Lemma positions (b : list nat) : b = map (fun i => nth i b 0) (seq 0 (length b)).
Proof.
  induction b as [|a b IH]; auto. cbn [length seq map nth]. f_equal. rewrite <- seq_shift, map_map. exact IH.
Qed.

(** The arrangements, with multiplicity, do not depend on the order of the list. *)
Lemma arrangements_perm (b b' : list nat) : Permutation b b' -> Permutation (arrangements b) (arrangements b').
Proof.
  intros P. pose proof (positions b) as Q. set (f := fun i => nth i b 0) in Q.
  assert (P' : Permutation b' (map f (seq 0 (length b)))) by (rewrite <- Q; symmetry; auto).
  apply Permutation_map_inv in P' as (s & -> & Ps). rewrite Q at 1. rewrite !arrangements_map. apply Permutation_map.
  assert (N : NoDup (seq 0 (length b))) by apply seq_NoDup.
  pose proof (Permutation_NoDup Ps N) as N'.
  apply NoDup_Permutation; try (apply arrangements_NoDup; auto).
  intros x. rewrite !arrangements_In by auto. split; intros H; [rewrite <- H; symmetry; auto|rewrite <- H; auto].
Qed.

(** *** Sums over independent draws *)

Lemma rolls_app l : forall l', rolls (l ++ l') = flat_map (fun a => map (app a) (rolls l')) (rolls l).
Proof.
  induction l as [|h l IH]; intros l'; cbn [rolls app flat_map].
  - rewrite app_nil_r. symmetry. etransitivity; [apply map_ext; intros a; reflexivity|apply map_id].
  - rewrite flat_map_concat_map. rewrite (flat_map_concat_map (fun r => map (cons r) (rolls l))).
    induction (seq 0 h) as [|r s IHs]; auto. cbn [map concat]. rewrite flat_map_app, <- IHs. f_equal.
    rewrite IH. clear. induction (rolls l) as [|a t IHt]; auto. cbn [flat_map map]. rewrite map_app, IHt. f_equal.
    rewrite map_map. auto.
Qed.

Lemma count_rolls_app (f : list nat -> bool) l l' :
  count f (rolls (l ++ l')) = sum_over (fun a => count (fun b => f (a ++ b)) (rolls l')) (rolls l).
Proof.
  unfold count. rewrite rolls_app, length_filter_sum, sum_over_flat_map. apply sum_over_ext. intros a _.
  rewrite length_filter_sum, sum_over_map. auto.
Qed.

Lemma count_shuffled (f : list nat -> bool) (b : list nat) :
  count (fun ds => match shuffle b ds with Done (x, _) => f x | _ => false end) (rolls (down (length b))) =
  count f (arrangements b).
Proof.
  unfold arrangements, count. rewrite !length_filter_sum, sum_over_map. apply sum_over_ext. intros ds I.
  destruct (rolls_shuffle I) as (l' & E & _). rewrite E. auto.
Qed.

(** *** One round *)

Section Rounds.
Context {T : Type}.
Local Notation G := (graph (node_container T)).
Implicit Types (g : G) (e : config T).

Lemma graph_determined g g' : simple_graph g -> simple_graph g' -> vertex_count g' = vertex_count g ->
  edge_count g' = edge_count g -> payloads g' = payloads g -> (forall i, nbrs g' i = nbrs g i) -> g' = g.
Proof.
  intros W W' V Ec P N. destruct g as [n m vs], g' as [n' m' vs']. cbn in V, Ec. subst n' m'. f_equal.
  apply nth_error_ext. intros i. specialize (N i). unfold nbrs in N. cbn [vertices] in N.
  assert (Pi : nth_error (payloads (mk_graph n m vs')) i = nth_error (payloads (mk_graph n m vs)) i) by congruence.
  unfold payloads in Pi. rewrite !nth_error_map in Pi. cbn [vertices] in Pi.
  destruct (nth_error vs i) as [c|] eqn:E, (nth_error vs' i) as [c'|] eqn:E'; cbn in Pi; try discriminate; auto.
  destruct (sg_cont W _ E) as [_ I], (sg_cont W' _ E') as [_ I']. cbn in I, I', N.
  destruct c, c'. cbn in *. congruence.
Qed.

Lemma cleared_same g g' : simple_graph g -> simple_graph g' -> payloads g' = payloads g -> clear_edges g' = clear_edges g.
Proof.
  intros W W' P. destruct (clear_edges_spec W) as (A1 & A2 & A3 & A4 & A5).
  destruct (clear_edges_spec W') as (B1 & B2 & B3 & B4 & B5).
  apply graph_determined; auto; try congruence.
  rewrite A2, B2, <- (sg_len W), <- (sg_len W'). apply (f_equal (@length T)) in P. unfold payloads in P. rewrite !map_length in P. auto.
Qed.

(** The graph made from one arrangement of the half edges, if it is completed. *)
Definition try (p : profile) (g : G) (dg b : list nat) : option (config T) :=
  match b with
  | [] => Some (mk_cm g dg [] [])
  | _ => match cm_round p (g, b, b) [] with
         | Done (inr (g', b', h'), _) => Some (mk_cm g' dg h' b')
         | _ => None
         end
  end.

Definition with_backup e (b : list nat) : config T := mk_cm (cm_graph e) (cm_degrees e) (cm_halfs e) b.

Lemma randomize_first p v e ds b : cm_ready v e -> Nat.Even (list_sum v) ->
  (forall rs, shuffle (cm_backup e) (ds ++ rs) = Done (b, rs)) -> forall rs,
  cm_randomize p e (ds ++ rs) =
  match try p (clear_edges (cm_graph e)) (cm_degrees e) b with
  | Some e' => Done (e', rs)
  | None => cm_randomize p (with_backup e b) rs
  end.
Proof.
  intros [W V D B] Ev Sh rs. unfold cm_randomize at 1. rewrite Sh. cbn [bind].
  destruct b as [|b0 bt] eqn:Eb; [reflexivity|]. rewrite <- Eb in *. unfold try.
  assert (M : forall X (x y : X), match b with [] => x | _ => y end = y) by (intros; rewrite Eb; reflexivity).
  rewrite M.
  pose proof (shuffle_perm (Sh rs)) as Pb. pose proof (cnt_perm Pb B) as Bb.
  set (ps := payloads (cm_graph e)).
  assert (Nb : b <> []) by congruence.
  assert (Bt : between v ps (clear_edges (cm_graph e), b, b)) by (apply building_ready, cleared; auto).
  cbn [loop]. destruct (round_cases p Ev Bt) as [(s' & Bs & E)|(g1 & W1 & P1 & V1 & E)].
  - rewrite (E rs), (E []). cbn [bind]. destruct s' as [[g' b'] h']. reflexivity.
  - rewrite (E rs), (E []). cbn [fst snd]. destruct (between_length Ev Bt) as [L2 _].
    assert (Z : match (do ' (b', rs1) <- shuffle b []; Done (@inl _ (G * list nat * list nat) (clear_edges g1, b', b'), rs1)) with
                | Done (inr (g', b', h'), _) => Some (mk_cm g' (cm_degrees e) h' b') | _ => None end = None).
    { destruct (shuffle b []) as [[? ?]| | |]; auto. }
    rewrite Z. unfold cm_randomize, with_backup. cbn [cm_graph cm_backup cm_degrees].
    destruct (shuffle b rs) as [[b' rs1]| | |] eqn:F; cbn [bind]; auto.
    pose proof (shuffle_perm F) as Pb'. pose proof (perm_nonempty Pb' Nb) as Nb'.
    rewrite (cleared_same W W1 P1).
    assert (Bt' : between v ps (clear_edges (cm_graph e), b', b')).
    { apply building_ready, cleared; auto. apply (cnt_perm Pb' Bb). }
    pose proof (shuffle_uses L2 F) as U.
    destruct (length rs) as [|k] eqn:Ek; [lia|].
    rewrite (@loop_fuel True _ _ (cm_round p) (between v ps) (built v ps)); auto.
    + destruct b' as [|? ?]; [congruence|]. reflexivity.
    + intros s Hs. apply round_runs; auto.
    + intros s us s' us1. apply round_uses; auto.
Qed.

Lemma randomize_none p e : 2 <= length (cm_backup e) -> cm_randomize p e [] = NoFuel.
Proof.
  intros H. unfold cm_randomize, shuffle. destruct (length (cm_backup e)) as [|[|k]]; try lia. reflexivity.
Qed.

Lemma shuffle_rolls (l ds : list nat) : In ds (rolls (down (length l))) -> exists b,
  shuffle l ds = Done (b, []) /\ Permutation l b /\ forall rs, shuffle l (ds ++ rs) = Done (b, rs).
Proof.
  intros I. destruct (rolls_shuffle I) as (b & E & P). exists b. split; auto. split; auto.
  pose proof (@runs_shuffle True _ l ds) as R. rewrite E in R. destruct R as (_ & u & Eu & Hu).
  rewrite app_nil_r in Eu. subst u. auto.
Qed.

Section Count.
Context {T' A' : Type} {C' : AdjContainer T' A'}.
Variables (p : profile) (v : list nat) (h : graph A').
Hypothesis Ev : Nat.Even (list_sum v).
Hypothesis Pos : 0 < list_sum v.

Definition made e (ds : list nat) : bool :=
  match cm_randomize p e ds with Done (e', []) => same_edges (cm_graph e') h | _ => false end.
Definition failed e (ds : list nat) : bool :=
  match cm_randomize p e ds with Done _ => false | _ => true end.

Definition hit e (b : list nat) : bool :=
  match try p (clear_edges (cm_graph e)) (cm_degrees e) b with Some e' => same_edges (cm_graph e') h | None => false end.
Definition miss e (b : list nat) : bool :=
  match try p (clear_edges (cm_graph e)) (cm_degrees e) b with Some _ => false | None => true end.

Lemma ready_length e : cm_ready v e -> length (cm_backup e) = list_sum v.
Proof. intros R. apply backup_length. apply R. Qed.

Lemma ready_backup e b : cm_ready v e -> Permutation (cm_backup e) b -> cm_ready v (with_backup e b).
Proof. intros [W V D B] P. constructor; auto. cbn. apply (cnt_perm P B). Qed.

Lemma two : 2 <= list_sum v.
Proof. destruct Ev as [m E]. lia. Qed.

Lemma one_round e ds b : cm_ready v e -> In ds (rolls (down (list_sum v))) -> shuffle (cm_backup e) ds = Done (b, []) ->
  made e ds = hit e b /\ failed e ds = miss e b /\
  (failed e ds = true -> forall rs, cm_randomize p e (ds ++ rs) = cm_randomize p (with_backup e b) rs) /\
  (failed e ds = false -> exists e', forall rs, cm_randomize p e (ds ++ rs) = Done (e', rs)).
Proof.
  intros R I Sb. rewrite <- (ready_length R) in I. destruct (shuffle_rolls I) as (b1 & E1 & P1 & S1).
  assert (b1 = b) by congruence. subst b1.
  pose proof (randomize_first p R Ev S1) as F. pose proof (F []) as F0. rewrite app_nil_r in F0.
  unfold made, failed, hit, miss in *. rewrite F0.
  destruct (try p (clear_edges (cm_graph e)) (cm_degrees e) b) as [e'|].
  - split; auto. split; auto. split; [discriminate|]. intros _. exists e'. auto.
  - assert (Z : cm_randomize p (with_backup e b) [] = NoFuel).
    { apply randomize_none. cbn. rewrite <- (Permutation_length P1), (ready_length R). apply two. }
    rewrite Z. split; auto. split; auto. split; [auto|discriminate].
Qed.

Lemma made_count e : cm_ready v e -> count (made e) (rolls (down (list_sum v))) = count (hit e) (arrangements (cm_backup e)).
Proof.
  intros R. rewrite <- (ready_length R), <- count_shuffled. apply count_ext_in. intros ds I.
  destruct (shuffle_rolls I) as (b & E & _). rewrite E. rewrite (ready_length R) in I. apply (one_round R I E).
Qed.

Lemma failed_count e : cm_ready v e -> count (failed e) (rolls (down (list_sum v))) = count (miss e) (arrangements (cm_backup e)).
Proof.
  intros R. rewrite <- (ready_length R), <- count_shuffled. apply count_ext_in. intros ds I.
  destruct (shuffle_rolls I) as (b & E & _). rewrite E. rewrite (ready_length R) in I. apply (one_round R I E).
Qed.

Lemma count_perm {X} (f : X -> bool) l l' : Permutation l l' -> count f l = count f l'.
Proof. intros P. unfold count. rewrite !length_filter_sum. apply sum_over_perm; auto. Qed.

Lemma same_counts e f : cm_ready v e -> cm_ready v f -> payloads (cm_graph f) = payloads (cm_graph e) ->
  count (made e) (rolls (down (list_sum v))) = count (made f) (rolls (down (list_sum v))) /\
  count (failed e) (rolls (down (list_sum v))) = count (failed f) (rolls (down (list_sum v))).
Proof.
  intros R R' P. rewrite !made_count, !failed_count by auto.
  assert (Pm : Permutation (arrangements (cm_backup e)) (arrangements (cm_backup f))).
  { apply arrangements_perm. rewrite (halfs_perm (cr_backup R)). symmetry. apply (halfs_perm (cr_backup R')). }
  rewrite !(count_perm _ Pm). unfold hit, miss.
  rewrite (cleared_same (cr_simple R) (cr_simple R') P), (cr_vec R), (cr_vec R'). auto.
Qed.

Lemma all_rounds k : forall e, cm_ready v e ->
  count (made e) (rolls (concat (repeat (down (list_sum v)) (S k)))) =
  count (failed e) (rolls (down (list_sum v))) ^ k * count (made e) (rolls (down (list_sum v))).
Proof.
  induction k as [|k IH]; intros e R.
  - cbn [repeat concat]. rewrite app_nil_r. cbn. lia.
  - set (n := list_sum v) in *.
    change (concat (repeat (down n) (S (S k)))) with (down n ++ concat (repeat (down n) (S k))).
    rewrite count_rolls_app.
    set (c := count (failed e) (rolls (down n)) ^ k * count (made e) (rolls (down n))).
    rewrite (@sum_over_ext _ _ (fun ds => c * b2n (failed e ds))).
    + rewrite sum_over_mul. assert (Q : sum_over (fun ds => b2n (failed e ds)) (rolls (down n)) = count (failed e) (rolls (down n))).
      { unfold count. rewrite length_filter_sum. auto. }
      rewrite Q. unfold c. cbn [Nat.pow]. lia.
    + intros ds I. pose proof I as I'. unfold n in I'. rewrite <- (ready_length R) in I'.
      destruct (shuffle_rolls I') as (b & E & P & _). destruct (one_round R I E) as (_ & _ & H1 & H2).
      destruct (failed e ds).
      * cbn [b2n]. rewrite Nat.mul_1_r. specialize (H1 eq_refl).
        pose proof (ready_backup R P) as Rb.
        rewrite (@count_ext_in _ _ (made (with_backup e b))).
        2: { intros rs _. unfold made. rewrite H1. auto. }
        rewrite (IH _ Rb). unfold c. destruct (same_counts R Rb) as [Q1 Q2]; auto.
      * destruct (H2 eq_refl) as (e' & He). cbn [b2n]. rewrite Nat.mul_0_r.
        unfold count. rewrite length_filter_sum. apply sum_over_zero. intros rs Hrs. unfold made. rewrite He.
        destruct rs as [|r rs]; auto. exfalso. apply rolls_In in Hrs.
        pose proof two as H. fold n in H. destruct n as [|[|n']]; try lia. cbn in Hrs. inversion Hrs.
Qed.
End Count.
End Rounds.
