(** The whole [randomize] of the preferential attachment on the words of the generator. *)
From Verif Require Import Base BaseFacts Containers ContainerSpec ContainerFacts Graph GraphSpec Sums GraphFacts GraphOps GraphBuild Rng RngFacts Runs EnsembleFacts ConfigFacts Ba BaSpec BaFacts Words WordsMore WordsSpec WordsFacts WordsMoreFacts.
From Coq Require Import NArith Permutation.
Set Implicit Arguments.
Unset Strict Implicit.
Local Open Scope nat_scope.

(** An invariant that knows what is left of the list. *)
Lemma same_foldM_rest {X A} (P : list A -> X -> Prop) (w : X * list N -> A -> outcome (X * list N)) (f : X * list nat -> A -> outcome (X * list nat)) :
  (forall a l x, P (a :: l) x -> same_runs (fun ws => w (x, ws) a) (fun rs => f (x, rs) a)) ->
  (forall a l x rs y rest, P (a :: l) x -> f (x, rs) a = Done (y, rest) -> P l y) ->
  forall l x, P l x -> same_runs (fun ws => foldM w (x, ws) l) (fun rs => foldM f (x, rs) l).
Proof.
  intros S HP. induction l as [|a l IH]; intros x Hx; cbn [foldM]; [apply same_done|].
  eapply same_ext; [| |apply (same_bind_if (P := P l) (S a l x Hx) (fun rs y rest => HP a l x rs y rest Hx) IH)].
  - intros ws. cbv beta. destruct (w (x, ws) a) as [[]| | |]; reflexivity.
  - intros rs. cbv beta. destruct (f (x, rs) a) as [[]| | |]; reflexivity.
Qed.

Lemma same_ba_randomize {T} p n m (e : ba T) : ba_ready n m e -> (N.of_nat n < 2 ^ 64)%N ->
  (N.of_nat (2 * (edge_count (ba_source e) + m * n)) < 2 ^ 64)%N ->
  same_runs (w_ba_randomize p e) (ba_randomize p e).
Proof.
  intros R Hb Hm. unfold ba_randomize, w_ba_randomize. pose proof (br_nonempty R) as Hn.
  destruct (@reset_from_graph_spec T (ba_graph e) (ba_source e)) as (g & E & W & V & Ec & P & Nb);
    [apply R|apply R|rewrite (br_count R); lia|].
  rewrite E. cbn [bind]. cbv zeta. rewrite V, (br_count R).
  set (s := vertex_count (ba_source e)) in *.
  apply same_bind_if with (P := fun o => Permutation (seq s (n - s)) o).
  { apply same_shuffle. rewrite seq_length. lia. }
  { intros rs o rest Eo. exact (shuffle_done Eo). }
  intros order Po. apply Permutation_sym in Po.
  assert (src_out : forall k, s <= k -> nbrs (ba_source e) k = []).
  { intros k Hk. apply nbrs_out. rewrite (sg_len (br_source R)). auto. }
  destruct (@set_range (fun i => do c <- vget (vertices (ba_source e)) i; Done (ac_degree c))
    (fun i => length (nbrs (ba_source e) i)) s 0 (ba_weights e)) as (ws1 & E1 & L1 & N1).
  { rewrite (br_weights R). lia. }
  { intros i Hi. cbn in Hi. destruct (container_lt (br_source R) (i := i)) as (c & Ei & _ & _ & Nc); [fold s; lia|].
    unfold vget. rewrite Ei. cbn [bind]. rewrite law_degree. congruence. }
  replace (foldM (fun ws i => do c <- vget (vertices (ba_source e)) i; vset ws i (ac_degree c))
             (ba_weights e) (seq 0 s)) with (Done ws1 : outcome (list nat)).
  2:{ rewrite <- E1. apply foldM_ext. intros ws i. destruct (vget _ i); reflexivity. }
  cbn [bind].
  destruct (@set_range (fun _ => Done 0) (fun _ => 0) (n - s) s ws1) as (ws2 & E2 & L2 & N2).
  { rewrite L1, (br_weights R). lia. } { auto. }
  cbn [bind] in E2. rewrite E2. cbn [bind]. rewrite (br_m R).
  apply same_bind; [|intros [a b]; apply same_done].
  set (grw := growing m n (ba_source e) (payloads g)).
  assert (Start : grw [] (g, ws2) order).
  { unfold grw, growing. split; [auto|]. split; [rewrite V; apply R|]. split; [auto|].
    split; [rewrite L2, L1; apply R|]. split; [|split; [|split; [|split]]].
    - intros k. rewrite N2, N1, Nb. fold s. destruct (Nat.leb_spec s k), (Nat.ltb_spec k (s + (n - s))); cbn [andb];
        destruct (Nat.ltb_spec k (0 + s)); cbn [Nat.leb andb]; try lia.
      * rewrite src_out; auto.
      * rewrite src_out; auto. rewrite nth_overflow; auto. rewrite (br_weights R). lia.
    - intros k Hk. apply (Permutation_in _ Po), in_seq in Hk. rewrite Nb. apply src_out. apply Hk.
    - intros i j _ _. unfold adj. rewrite Nb. tauto.
    - intros [|? ?] x after K; discriminate.
    - rewrite Ec. cbn. lia. }
  apply same_foldM_rest with (P := fun l2 st => exists l1, order = l1 ++ l2 /\ grw l1 st l2).
  - intros x l [h ws] (l1 & Eo & (Wh & Vh & _ & Lw & Hw & _ & _ & _ & Ech)). apply same_ba_insert. cbn [snd].
    assert (Lh : length ws = vertex_count h) by congruence. rewrite (degrees_total Wh Lh Hw), Ech.
    assert (L : length l1 <= n).
    { apply Permutation_length in Po. rewrite Eo, app_length, seq_length in Po. lia. }
    apply (Nat.mul_le_mono_l _ _ m) in L. revert Hm L. generalize (m * length l1) (m * n). lia.
  - intros x l st rs st' rest (l1 & Eo & Gr) Ei. exists (l1 ++ [x]). split; [now rewrite <- app_assoc|].
    assert (I : runs (m <= vertex_count (ba_source e)) (fun st' => grw (l1 ++ [x]) st' l) (fun rs => ba_insert p m (st, rs) x)).
    { unfold grw. apply (@insert_runs T p m n (ba_source e) (payloads g) order); auto; apply R. }
    exact (runs_done I Ei).
  - exists []. split; auto.
Qed.
