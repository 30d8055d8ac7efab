(** Drawing Barabasi-Albert graphs ends with probability one. *)
From Verif Require Import Base BaseFacts Containers ContainerSpec ContainerFacts Graph GraphSpec
  Sums GraphFacts GraphOps GraphBuild Rng RngFacts Runs EnsembleFacts ConfigSpec ConfigFacts
  Ba BaSpec BaFacts SurelySpec SurelyFacts.
Set Implicit Arguments.
Unset Strict Implicit.
Local Open Scope nat_scope.

Local Notation cnt := (count_occ Nat.eq_dec).

Section Attach.
Context {T : Type}.
Local Notation G := (graph (node_container T)).
Implicit Types g : G.
Variables (h : nat) (p : profile) (m : nat) (g0 : G) (ws : list nat) (i n : nat).
Hypothesis W0 : simple_graph g0.
Hypothesis V0 : vertex_count g0 = n.
Hypothesis Hi : i < n.
Hypothesis Ni : nbrs g0 i = [].
Hypothesis Lw : length ws = n.
Hypothesis Hw : forall k, nth k ws 0 = length (nbrs g0 k).
Hypothesis Hh : list_sum ws <= h.
Local Notation attaching := (attaching m g0 ws i n).
Local Notation attached := (attached m g0 ws i n).

Lemma attach_swift g : list_sum ws <> 0 -> attaching g ->
  swift h 1 (fun r => match r with inl g' => attaching g' | inr g' => attached g' end)
    (ba_attach p m ws (list_sum ws) i g).
Proof using All.
  intros Sw At. destruct (attach_container p W0 V0 Hi Ni Lw Hw At) as (c & E & Dc & _).
  unfold ba_attach. rewrite E. cbn [bind].
  rewrite Dc. destruct (Nat.ltb_spec (length (nbrs g i)) m) as [Lt|Ge].
  - apply (@swift_bind h _ _ (fun r => r < list_sum ws) _ (gen_range (list_sum ws))
      (fun r rs1 => do ' (_, g') <- add_edge p g i (weighted_pick ws r); Done (inl g', rs1)) 1 0).
    + apply swift_gen_range; lia.
    + intros r Hr. destruct (pick_lt Hr) as [_ Hp].
      destruct (attach_add p W0 V0 Hi Ni Lw Hw At Lt Hp) as (x & g' & -> & At' & _). cbn [bind].
      apply swift_ret. auto.
  - apply swift_ret. split; auto. destruct At as (_ & _ & _ & Le & _). lia.
Qed.

Lemma attach_finish_low : enough m ws -> forall d g, m - length (nbrs g i) = d -> attaching g ->
  exists ds g', length ds = d /\ Forall (fun r => r < h) ds /\ attached g' /\
    forall rest, loop (S (length (ds ++ rest))) (ba_attach p m ws (list_sum ws) i) g (ds ++ rest) = Done (g', rest).
Proof using All.
  intros (l & ND & Ll & Pl). induction d as [|d IH]; intros g Hd At.
  - exists [], g. assert (Eq : length (nbrs g i) = m) by (destruct At as (_ & _ & _ & Le & _); lia).
    splits; auto; [split; auto|]. intros rest. cbn [app loop]. unfold ba_attach.
    destruct (attach_container p W0 V0 Hi Ni Lw Hw At) as (c & E & Dc & _). rewrite E. cbn [bind]. rewrite Dc, Eq.
    rewrite Nat.ltb_irrefl. reflexivity.
  - destruct (@pick_new l (nbrs g i) ND) as (k & Ik & Nk); [lia|].
    destruct (pick_reach (Pl k Ik)) as (r & Hr & Er).
    destruct (@attach_add T p m g0 ws i n W0 V0 Hi Ni Lw Hw g k At) as (x & g1 & E1 & At1 & Nb1); [lia|auto|].
    specialize (Nb1 Nk). destruct (IH g1) as (ds & g' & Ld & Fd & A' & L'); auto.
    { rewrite Nb1, app_length. cbn. lia. }
    exists (r :: ds), g'. splits; auto; [cbn; lia|constructor; auto; lia|].
    intros rest. cbn [app length loop].
    unfold ba_attach at 1. destruct (attach_container p W0 V0 Hi Ni Lw Hw At) as (c & E & Dc & _).
    rewrite E. cbn [bind].
    rewrite Dc. destruct (Nat.ltb_spec (length (nbrs g i)) m); [|lia].
    rewrite gen_range_small by auto. cbn [bind]. rewrite Er, E1. cbn [bind].
    apply L'.
Qed.

Lemma attach_loop_swift : list_sum ws <> 0 -> enough m ws ->
  swift h (1 + m) attached (fun rs => loop (S (length rs)) (ba_attach p m ws (list_sum ws) i) g0 rs).
Proof using All.
  intros Sw En. apply (swift_loop (I := attaching)).
  - intros g At. apply attach_swift; auto.
  - intros g rs g' rs1 At E. eapply attach_uses; eauto.
  - intros g At. destruct (attach_finish_low En eq_refl At) as (ds & g' & Ld & Fd & A' & L').
    exists ds, g'. splits; auto. lia.
  - apply attaching_start; auto.
Qed.
End Attach.

Section Grow.
Context {T : Type}.
Local Notation G := (graph (node_container T)).
Implicit Types g : G.
Variables (h : nat) (p : profile) (m n : nat) (src : G) (pay : list T) (order : list nat).
Hypothesis Ws : simple_graph src.
Hypothesis Hs : 0 < vertex_count src < n.
Hypothesis Ds : forall i, i < vertex_count src -> nbrs src i <> [].
Hypothesis Po : Permutation order (seq (vertex_count src) (n - vertex_count src)).
Hypothesis Hm : m <= vertex_count src.
Hypothesis Hh : 2 * (edge_count src + m * n) <= h.
Let s := vertex_count src.

Lemma insert_swift l x l' st : order = l ++ x :: l' -> growing m n src pay l st (x :: l') ->
  swift h (1 + m) (fun st' => growing m n src pay (l ++ [x]) st' l') (fun rs => ba_insert p m (st, rs) x).
Proof using Ws Hs Ds Po Hm Hh.
  intros Eo Gr. pose proof (@insert_runs T p m n src pay order Ws Hs Ds Po l x l' st Eo Gr) as R.
  destruct st as [g ws]. pose proof Gr as (W & V & P & Lw & Hw & N2 & S0 & A1 & Ec).
  assert (Hx : s <= x < n) by (apply (order_In Hs Po); rewrite Eo; apply in_app_iff; simpl; auto).
  assert (Nx0 : nbrs g x = []) by (apply N2; simpl; auto).
  assert (Sw : list_sum ws <> 0).
  { apply (@list_sum_pos ws 0). apply (@growing_source T m n src pay Ws Hs Ds g ws l (x :: l')); auto. unfold s; lia. }
  assert (H0 : x < n) by lia.
  assert (Le : list_sum ws <= h).
  { rewrite (@degrees_total T g ws W); auto; [|congruence]. rewrite Ec.
    assert (length l <= n).
    { pose proof (Permutation_length Po) as Lp. rewrite Eo, app_length, seq_length in Lp. cbn in Lp. lia. }
    nia. }
  intros rs. specialize (R rs). cbv beta in R.
  assert (Sf : swift h (1 + m + 0) (fun _ => True) (fun rs => ba_insert p m (g, ws, rs) x)).
  { unfold ba_insert, weighted_new. destruct (Nat.eqb_spec (list_sum ws) 0) as [|_]; [congruence|]. cbn [bind].
    apply (@swift_bind _ _ _ (attached m g ws x n) _
      (fun rs => loop (S (length rs)) (ba_attach p m ws (list_sum ws) x) g rs)
      (fun g' rs1 => do ws' <- ba_update g' ws x; Done ((g', ws'), rs1))).
    - apply attach_loop_swift; auto. exists (seq 0 s). rewrite seq_length. splits; auto; [apply seq_NoDup|].
      intros k Hk. apply in_seq in Hk. apply (@growing_source T m n src pay Ws Hs Ds g ws l (x :: l')); auto.
      unfold s in Hk. lia.
    - intros g' At. destruct (update_spec p W V H0 Nx0 Lw Hw At) as (ws' & -> & Lw' & Hw'). cbn [bind].
      apply swift_ret. auto. }
  specialize (Sf rs). cbv beta in Sf.
  destruct (ba_insert p m (g, ws, rs) x) as [[st rs']| | |]; auto.
  destruct Sf as (more & st & Lm & Fm & E & _). exists more, st. splits; auto; [lia|].
  pose proof (@insert_runs T p m n src pay order Ws Hs Ds Po l x l' (g, ws) Eo Gr) as R2.
  apply (runs_done R2 (E [])).
Qed.

Lemma grow_swift g ws : growing m n src pay [] (g, ws) order ->
  swift h (length order * (1 + m)) (fun st => growing m n src pay order st [])
    (fun rs => foldM (ba_insert p m) ((g, ws), rs) order).
Proof using Ws Hs Ds Po Hm Hh.
  intros Gr. apply (@swift_foldM_along h _ _ (growing m n src pay) (ba_insert p m) (1 + m) order [] (g, ws)); auto.
  intros l x l' st Eq. apply insert_swift. auto.
Qed.
End Grow.

Lemma ba_swift {T} h p n m (e : ba T) : ba_ready n m e -> m <= vertex_count (ba_source e) ->
  2 * (edge_count (ba_source e) + m * n) <= h -> 0 < h ->
  swift h (n + n * (1 + m)) (fun _ => True) (ba_randomize p e).
Proof.
  intros R Hm Hh Ph. unfold ba_randomize. pose proof (br_nonempty R) as Hn.
  destruct (@reset_from_graph_spec T (ba_graph e) (ba_source e)) as (g & E & W & V & Ec & P & Nb);
    [apply R|apply R|rewrite (br_count R); lia|].
  rewrite E. cbn [bind]. rewrite V, (br_count R).
  set (s := vertex_count (ba_source e)) in *.
  apply (@swift_bind _ _ _ (fun o => Permutation (seq s (n - s)) o) _
    (fun rs => shuffle (seq s (n - s)) rs)
    (fun order rs1 =>
      do ws1 <- foldM (fun ws i => do c <- vget (vertices (ba_source e)) i; vset ws i (ac_degree c))
                  (ba_weights e) (seq 0 s);
      do ws2 <- foldM (fun ws i => vset ws i 0) ws1 (seq s (n - s));
      do ' (g', ws', rs2) <- foldM (ba_insert p (ba_m e)) ((g, ws2), rs1) order;
      Done (mk_ba (ba_source e) g' (ba_m e) ws', rs2))).
  { eapply swift_weaken; [| |apply swift_shuffle; auto]; auto. rewrite seq_length. lia. }
  intros order Po. apply Permutation_sym in Po.
  assert (src_out : forall k, s <= k -> nbrs (ba_source e) k = []).
  { intros k Hk. apply nbrs_out. rewrite (sg_len (br_source R)). auto. }
  destruct (@set_range (fun i => do c <- vget (vertices (ba_source e)) i; Done (ac_degree c))
    (fun i => length (nbrs (ba_source e) i)) s 0 (ba_weights e)) as (ws1 & E1 & L1 & N1).
  { rewrite (br_weights R). lia. }
  { intros i Hi. cbn in Hi. destruct (container_lt (br_source R) (i := i)) as (c & Ei & _ & _ & Nc); [fold s; lia|].
    unfold vget. rewrite Ei. cbn [bind]. rewrite law_degree. congruence. }
  replace (foldM (fun ws i => do c <- vget (vertices (ba_source e)) i; vset ws i (ac_degree c))
             (ba_weights e) (seq 0 s)) with (Done ws1 : outcome (list nat)).
  2:{ rewrite <- E1. apply foldM_ext. intros ws i. destruct (vget _ i); reflexivity. }
  cbn [bind].
  destruct (@set_range (fun _ => Done 0) (fun _ => 0) (n - s) s ws1) as (ws2 & E2 & L2 & N2).
  { rewrite L1, (br_weights R). lia. } { auto. }
  cbn [bind] in E2. rewrite E2. cbn [bind].
  rewrite (br_m R).
  apply swift_ext with (m := fun rs => do ' (st, rs2) <- foldM (ba_insert p m) ((g, ws2), rs) order;
    Done (mk_ba (ba_source e) (fst st) m (snd st), rs2)).
  { intros rs. destruct (foldM (ba_insert p m) ((g, ws2), rs) order) as [[[]]| | |]; reflexivity. }
  rewrite <- (Nat.add_0_r (n * (1 + m))).
  apply (@swift_bind _ _ _ (fun st => growing m n (ba_source e) (payloads g) order st []) _
    (fun rs => foldM (ba_insert p m) ((g, ws2), rs) order)
    (fun st rs2 => Done (mk_ba (ba_source e) (fst st) m (snd st), rs2))).
  - eapply swift_weaken; [| |apply (@grow_swift T h p m n (ba_source e) (payloads g) order)]; try apply R; auto.
    { apply Nat.mul_le_mono_r. rewrite (Permutation_length Po), seq_length. lia. }
    unfold growing. split; [auto|]. split; [rewrite V; apply R|]. split; [auto|].
    split; [rewrite L2, L1; apply R|]. split; [|split; [|split; [|split]]].
    + intros k. rewrite N2, N1, Nb. fold s. destruct (Nat.leb_spec s k), (Nat.ltb_spec k (s + (n - s))); cbn [andb];
        destruct (Nat.ltb_spec k (0 + s)); cbn [Nat.leb andb]; try lia.
      * rewrite src_out; auto.
      * rewrite src_out; auto. rewrite nth_overflow; auto. rewrite (br_weights R). lia.
    + intros k Hk. apply (Permutation_in _ Po), in_seq in Hk. rewrite Nb. apply src_out. apply Hk.
    + intros i j _ _. unfold adj. rewrite Nb. tauto.
    + intros [|? ?] x after K; discriminate.
    + rewrite Ec. cbn. lia.
  - intros st _. apply swift_ret. auto.
Qed.
