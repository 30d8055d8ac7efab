(** Every graph that can be grown from the source is a possible outcome of the
    Barabasi-Albert [randomize]. *)
From Verif Require Import Base BaseFacts Containers ContainerSpec ContainerFacts Graph GraphSpec
  Sums GraphFacts GraphOps GraphBuild Rng RngFacts Runs EnsembleFacts ConfigFacts Ba BaSpec BaFacts.
Set Implicit Arguments.
Unset Strict Implicit.
Local Open Scope nat_scope.

Local Notation cnt := (count_occ Nat.eq_dec).

(** Draws that attach a vertex to given ones. *)
Lemma attach_exact {T} p m (g0 : graph (node_container T)) ws i n :
  simple_graph g0 -> vertex_count g0 = n -> i < n -> nbrs g0 i = [] -> length ws = n ->
  (forall k, nth k ws 0 = length (nbrs g0 k)) ->
  forall l2 g, attaching m g0 ws i n g -> NoDup (nbrs g i ++ l2) -> length (nbrs g i) + length l2 = m ->
  (forall k, In k l2 -> 0 < nth k ws 0) ->
  exists ds g', attached m g0 ws i n g' /\ nbrs g' i = nbrs g i ++ l2 /\
    forall rest, loop (S (length (ds ++ rest))) (ba_attach p m ws (list_sum ws) i) g (ds ++ rest) = Done (g', rest).
Proof.
  intros W0 V0 Hi Ni Lw Hw. induction l2 as [|k l2 IH]; intros g At ND Lm Hl.
  - exists [], g. cbn [length] in Lm. rewrite Nat.add_0_r in Lm. rewrite app_nil_r. splits; auto; [split; auto|].
    intros rest. cbn [app loop]. unfold ba_attach.
    destruct (attach_container p W0 V0 Hi Ni Lw Hw At) as (c & E & Dc & _). rewrite E. cbn [bind]. rewrite Dc, Lm.
    rewrite Nat.ltb_irrefl. reflexivity.
  - cbn [length] in Lm.
    assert (Hk : 0 < nth k ws 0) by (apply Hl; simpl; auto).
    destruct (pick_reach Hk) as (r & Hr & Er).
    destruct (attach_add p W0 V0 Hi Ni Lw Hw At (k := k)) as (x & g1 & E1 & At1 & Nb1); [lia|auto|].
    assert (Nk : ~ In k (nbrs g i)).
    { intros K. apply NoDup_remove_2 in ND. apply ND. apply in_app_iff. auto. }
    specialize (Nb1 Nk).
    destruct (IH g1 At1) as (ds & g' & A' & N' & L').
    { rewrite Nb1, <- app_assoc; auto. } { rewrite Nb1, app_length. cbn. lia. } { intros; apply Hl; simpl; auto. }
    exists (r :: ds), g'. splits; auto.
    + rewrite N', Nb1, <- app_assoc. auto.
    + intros rest. cbn [app length loop]. unfold ba_attach at 1.
      destruct (attach_container p W0 V0 Hi Ni Lw Hw At) as (c & E & Dc & _). rewrite E. cbn [bind].
      rewrite Dc. destruct (Nat.ltb_spec (length (nbrs g i)) m); [|lia].
      rewrite gen_range_small by auto. cbn [bind]. rewrite Er, E1. cbn [bind]. apply L'.
Qed.

Section Grow.
Context {T A : Type} {C : AdjContainer T A} {L : AdjLaws C}.
Local Notation G := (graph (node_container T)).
Variables (p : profile) (m n : nat) (src : G) (pay : list T) (order : list nat) (h : graph A).
Hypothesis Ws : simple_graph src.
Hypothesis Hs : 0 < vertex_count src < n.
Hypothesis Ds : forall i, i < vertex_count src -> nbrs src i <> [].
Hypothesis Po : Permutation order (seq (vertex_count src) (n - vertex_count src)).
Hypothesis Wh : simple_graph h.
Hypothesis Vh : vertex_count h = n.
Hypothesis Sh : forall i j, i < vertex_count src -> j < vertex_count src -> (adj h i j <-> adj src i j).
Hypothesis Ah : forall before x after, order = before ++ x :: after ->
  count (earlier (vertex_count src) before) (nbrs h x) = m.
Let s := vertex_count src.

(** The graph is the part of [h] made of the vertices that are there. *)
Definition part (l : list nat) (g : G) : Prop :=
  forall i j, adj g i j <-> adj h i j /\ earlier s l i = true /\ earlier s l j = true.

Lemma insert_exact l x l' g ws : order = l ++ x :: l' -> growing m n src pay l (g, ws) (x :: l') -> part l g ->
  exists ds g' ws', (forall rest, ba_insert p m ((g, ws), ds ++ rest) x = Done ((g', ws'), rest)) /\
    growing m n src pay (l ++ [x]) (g', ws') l' /\ part (l ++ [x]) g'.
Proof using Ws Hs Ds Po Wh Vh Sh Ah.
  intros Eo Gr Pt. pose proof Gr as (W & V & P & Lw & Hw & N2 & S0 & A1 & Ec).
  assert (Hx : s <= x < n) by (apply (order_In Hs Po); rewrite Eo; apply in_app_iff; simpl; auto).
  pose proof (order_NoDup Po) as ND. rewrite Eo in ND. apply NoDup_remove in ND as [ND Nx].
  assert (Nx0 : nbrs g x = []) by (apply N2; simpl; auto).
  assert (Sw : list_sum ws <> 0).
  { apply (@list_sum_pos ws 0). apply (growing_source Ws Hs Ds Gr). lia. }
  assert (H0 : x < n) by lia.
  set (tg := filter (earlier s l) (nbrs h x)).
  assert (Lt : length tg = m) by (apply (Ah Eo)).
  destruct (@attach_exact T p m g ws x n W V H0 Nx0 Lw Hw tg g) as (ds & g' & At & Nb & R).
  - apply (attaching_start p m W V H0 Nx0 Lw Hw).
  - rewrite Nx0. cbn [app]. apply NoDup_filter. apply (sg_nodup Wh).
  - rewrite Nx0. auto.
  - intros k Hk. assert (Hm : 0 < m) by (destruct tg; [destruct Hk|cbn in Lt; lia]).
    apply filter_In in Hk as [Hk Ek]. apply earlier_spec in Ek as [Ek|Ek].
    + apply (growing_source Ws Hs Ds Gr). auto.
    + apply in_split in Ek as (b & a & El). rewrite Hw.
      pose proof (A1 _ _ _ El) as Cb. destruct (nbrs g k); [cbn in Cb; lia|cbn; lia].
  - rewrite Nx0 in Nb. cbn [app] in Nb.
    destruct (update_spec p W V H0 Nx0 Lw Hw At) as (ws' & Eu & Lw' & Hw').
    assert (E : forall rest, ba_insert p m ((g, ws), ds ++ rest) x = Done ((g', ws'), rest)).
    { intros rest. unfold ba_insert, weighted_new. destruct (Nat.eqb_spec (list_sum ws) 0) as [|_]; [congruence|].
      cbn [bind]. rewrite R. cbn [bind]. rewrite Eu. reflexivity. }
    exists ds, g', ws'. splits; auto.
    + apply (runs_done (insert_runs p Ws Hs Ds Po Eo Gr) (E [])).
    + assert (Ex : forall k, earlier s (l ++ [x]) k = true <-> earlier s l k = true \/ k = x).
      { intros k. rewrite !earlier_spec, in_app_iff. simpl. intuition. }
      assert (Ix : forall k, In k tg <-> adj h x k /\ earlier s l k = true).
      { intros k. apply filter_In. }
      assert (Elx : earlier s l x = false).
      { apply earlier_false; [lia|]. intros K. apply Nx. apply in_app_iff. auto. }
      intros i j. rewrite !Ex. destruct (Nat.eq_dec i x) as [->|Ni].
      * unfold adj at 1. rewrite Nb, Ix. split; [tauto|]. intros (H1 & _ & [H2| ->]); auto.
        exfalso. apply (sg_irrefl Wh x H1).
      * destruct At as [(_ & _ & _ & _ & _ & Nbk & _) _]. unfold adj at 1. rewrite (Nbk i Ni), in_app_iff.
        fold (adj g i j). rewrite (Pt i j). split.
        -- intros [H1|H1]; [tauto|]. pose proof (repeat_spec _ _ _ H1) as ->.
           rewrite Nb in H1. destruct (cnt tg i) eqn:Ct; [destruct H1|].
           assert (I : In i tg) by (apply (count_occ_In Nat.eq_dec); lia).
           apply Ix in I as [I1 I2]. apply (sg_sym Wh) in I1. tauto.
        -- intros (H1 & [H2|H2] & H3); [|congruence]. destruct H3 as [H3| ->]; [tauto|]. right.
           rewrite Nb. apply (sg_sym Wh) in H1.
           assert (I : In i tg) by (apply Ix; auto). apply (count_occ_In Nat.eq_dec) in I.
           destruct (cnt tg i); [lia|]. simpl. auto.
Qed.

Lemma grow_exact l' : forall l g ws, order = l ++ l' -> growing m n src pay l (g, ws) l' -> part l g ->
  exists ds g' ws', (forall rest, foldM (ba_insert p m) ((g, ws), ds ++ rest) l' = Done ((g', ws'), rest)) /\
    part order g'.
Proof using Ws Hs Ds Po Wh Vh Sh Ah.
  induction l' as [|x l' IH]; intros l g ws Eo Gr Pt.
  - exists [], g, ws. rewrite app_nil_r in Eo. subst l. splits; auto.
  - destruct (insert_exact Eo Gr Pt) as (d1 & g1 & ws1 & R1 & G1 & P1).
    destruct (IH (l ++ [x]) g1 ws1) as (d2 & g2 & ws2 & R2 & P2); auto.
    { rewrite <- app_assoc. auto. }
    exists (d1 ++ d2), g2, ws2. splits; auto. intros rest. cbn [foldM]. rewrite <- app_assoc, R1. cbn [bind]. apply R2.
Qed.

Lemma part_end g : vertex_count g = n -> simple_graph g -> part order g -> forall i j, adj g i j <-> adj h i j.
Proof using Hs Po Wh Vh.
  intros V W Pt i j. rewrite (Pt i j). split; [tauto|]. intros H. split; auto.
  pose proof (adj_lt Wh H) as [Hi Hj]. rewrite Vh in Hi, Hj.
  rewrite !earlier_spec, !(order_In Hs Po). unfold s. lia.
Qed.

End Grow.

(** [randomize] starts with a copy of the source. *)
Lemma randomize_start {T} p n m (e : ba T) : ba_ready n m e ->
  exists g ws, (forall i, nbrs g i = nbrs (ba_source e) i) /\
    (forall order, Permutation order (seq (vertex_count (ba_source e)) (n - vertex_count (ba_source e))) ->
       growing m n (ba_source e) (payloads g) [] (g, ws) order) /\
    forall rs, ba_randomize p e rs =
      do ' (order, rs1) <- shuffle (seq (vertex_count (ba_source e)) (n - vertex_count (ba_source e))) rs;
      do ' (g', ws', rs2) <- foldM (ba_insert p m) ((g, ws), rs1) order;
      Done (mk_ba (ba_source e) g' m ws', rs2).
Proof.
  intros R. pose proof (br_nonempty R) as Hn.
  destruct (@reset_from_graph_spec T (ba_graph e) (ba_source e)) as (g & E & W & V & Ec & P & Nb);
    [apply R|apply R|rewrite (br_count R); lia|].
  set (s := vertex_count (ba_source e)) in *.
  assert (src_out : forall k, s <= k -> nbrs (ba_source e) k = []).
  { intros k Hk. apply nbrs_out. rewrite (sg_len (br_source R)). auto. }
  destruct (@set_range (fun i => do c <- vget (vertices (ba_source e)) i; Done (ac_degree c))
    (fun i => length (nbrs (ba_source e) i)) s 0 (ba_weights e)) as (ws1 & E1 & L1 & N1).
  { rewrite (br_weights R). lia. }
  { intros i Hi. cbn in Hi. destruct (container_lt (br_source R) (i := i)) as (c & Ei & _ & _ & Nc); [fold s; lia|].
    unfold vget. rewrite Ei. cbn [bind]. rewrite law_degree. congruence. }
  assert (E1' : foldM (fun ws i => do c <- vget (vertices (ba_source e)) i; vset ws i (ac_degree c))
             (ba_weights e) (seq 0 s) = Done ws1).
  { rewrite <- E1. apply foldM_ext. intros ws i. destruct (vget _ i); reflexivity. }
  destruct (@set_range (fun _ => Done 0) (fun _ => 0) (n - s) s ws1) as (ws2 & E2 & L2 & N2).
  { rewrite L1, (br_weights R). lia. } { auto. }
  cbn [bind] in E2. exists g, ws2. split; [auto|]. split.
  - intros order Po. unfold growing. split; [auto|]. split; [rewrite V; apply R|]. split; [auto|].
    split; [rewrite L2, L1; apply R|]. split; [|split; [|split; [|split]]].
    + intros k. rewrite N2, N1, Nb. fold s. destruct (Nat.leb_spec s k), (Nat.ltb_spec k (s + (n - s))); cbn [andb];
        destruct (Nat.ltb_spec k (0 + s)); cbn [Nat.leb andb]; try lia.
      * rewrite src_out; auto.
      * rewrite src_out; auto. rewrite nth_overflow; auto. rewrite (br_weights R). lia.
    + intros k Hk. apply (Permutation_in _ Po), in_seq in Hk. rewrite Nb. apply src_out. apply Hk.
    + intros i j _ _. unfold adj. rewrite Nb. tauto.
    + intros [|? ?] x after K; discriminate.
    + rewrite Ec. cbn. lia.
  - intros rs. unfold ba_randomize. rewrite E. cbn [bind]. rewrite V, (br_count R). fold s.
    destruct (shuffle _ rs) as [[order rs1]| | |]; cbn [bind]; auto. rewrite E1'. cbn [bind]. rewrite E2. cbn [bind].
    rewrite (br_m R). reflexivity.
Qed.

Lemma randomize_reach {T A} {C : AdjContainer T A} {L : AdjLaws C} p n m (e : ba T) (h : graph A) order :
  ba_ready n m e -> simple_graph h -> vertex_count h = n ->
  Permutation order (seq (vertex_count (ba_source e)) (n - vertex_count (ba_source e))) ->
  (forall i j, i < vertex_count (ba_source e) -> j < vertex_count (ba_source e) ->
     (adj h i j <-> adj (ba_source e) i j)) ->
  (forall before x after, order = before ++ x :: after ->
     count (earlier (vertex_count (ba_source e)) before) (nbrs h x) = m) ->
  exists ds e', (forall rest, ba_randomize p e (ds ++ rest) = Done (e', rest)) /\
    forall i j, adj (ba_graph e') i j <-> adj h i j.
Proof.
  intros R Wh Vh Po Sh Ah. destruct (randomize_start p R) as (g & ws & Nb & Gr & E).
  specialize (Gr order Po).
  destruct (shuffle_reach (Permutation_sym Po)) as (d1 & Hd).
  destruct (@grow_exact T A C L p m n (ba_source e) (payloads g) order h) with (l' := order) (l := @nil nat) (g := g) (ws := ws)
    as (d2 & g' & ws' & R2 & P2); auto; try apply R.
  { intros i j. unfold adj at 1. rewrite Nb. fold (adj (ba_source e) i j).
    rewrite !earlier_spec. simpl. split.
    - intros H. pose proof (adj_lt (br_source R) H) as [Hi Hj]. rewrite (Sh i j) by auto. auto.
    - intros (H & [Hi|[]] & [Hj|[]]). apply Sh; auto. }
  exists (d1 ++ d2), (mk_ba (ba_source e) g' m ws').
  assert (Er : forall rest, ba_randomize p e ((d1 ++ d2) ++ rest) = Done (mk_ba (ba_source e) g' m ws', rest)).
  { intros rest. rewrite E, <- app_assoc, Hd. cbn [bind]. rewrite R2. reflexivity. }
  split; auto. cbn [ba_graph].
  pose proof (runs_done (randomize_runs p R) (Er [])) as (O & _).
  destruct (bo_grown O) as (o2 & G2).
  apply (part_end (br_nonempty R) Po Wh Vh); auto; [apply (bo_count O)|apply G2].
Qed.
