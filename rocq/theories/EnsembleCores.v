(** Connectedness and cores of graphs with a smallest degree, and of grown graphs. *)
From Verif Require Import Base BaseFacts Sums Containers ContainerSpec ContainerFacts Graph GraphSpec GraphFacts GraphOps
  Search TraversalSpec Traversal TraversalFacts Components ComponentSpec ComponentFacts
  CoreFacts BiconnectedSpec BlockFacts FamilySpec FamilyMeasures Ba BaSpec.
From Coq Require Import Sorted.
Set Implicit Arguments.
Unset Strict Implicit.

Section Generic.
Context {T A : Type} {C : AdjContainer T A} {L : AdjLaws C}.

(** With at least [q] neighbours at every vertex the core is everything, so the largest
    piece of it is the largest component. *)
Lemma degree_core (g : graph A) q : simple_graph g -> 0 < vertex_count g -> 2 <= q ->
  (forall v, v < vertex_count g -> q <= length (nbrs g v)) ->
  exists m sizes, connected_components g = Done (m :: sizes) /\ q_core g q = Done (Some m).
Proof.
  intros W H0 Hq Hdeg.
  assert (Lt : forall x y, adj g x y -> x < vertex_count g /\ y < vertex_count g).
  { intros x y H. split; [apply (sg_range W) with y, (sg_sym W)|apply (sg_range W) with x]; auto. }
  assert (All : forall v, v < vertex_count g -> in_core g q v).
  { intros v Hv. exists (fun w => w <? vertex_count g). split; [|apply Nat.ltb_lt; auto].
    intros w Hw. apply Nat.ltb_lt in Hw. split; auto. unfold count. rewrite filter_all; [auto|].
    intros x Hx. apply Nat.ltb_lt. apply (Lt w x Hx). }
  assert (Ce : forall x y, adj g x y <-> core_edge g q x y).
  { intros x y. unfold core_edge. split; [|tauto]. intros H. destruct (Lt x y H). auto. }
  destruct (components_spec W) as (sizes & comps & E & So & P & Pc & Ne & J).
  assert (Nc : NoDup (concat comps)) by (apply (Permutation_NoDup (Permutation_sym Pc)), seq_NoDup).
  assert (Rng : forall c v, In c comps -> In v c -> v < vertex_count g).
  { intros c v Hc Hv. assert (In v (seq 0 (vertex_count g))) as K; [|apply in_seq in K; lia].
    apply (Permutation_in _ Pc), in_concat. eauto. }
  assert (Is : forall c v, In c comps -> In v c -> is_component (core_edge g q) v c).
  { intros c v Hc Hv. split.
    - clear - Nc Hc. induction comps as [|a l IH]; [destruct Hc|]. cbn in Nc. apply NoDup_app_iff in Nc as (N1 & N2 & _).
      destruct Hc as [->|Hc]; auto.
    - intros w. rewrite <- (joined_iff v w Ce). split.
      + intros Hw. apply (J c v w); auto. apply (Rng c); auto.
      + intros Hw. apply (J c v w); auto. apply (joined_lt W (Rng c v Hc Hv) Hw). }
  destruct sizes as [|m sizes].
  { exfalso. apply Permutation_nil, map_eq_nil in P. subst comps. apply Permutation_nil in Pc. destruct (vertex_count g); [lia|discriminate]. }
  exists m, sizes. split; auto.
  destruct (q_core_spec q W) as [[[?|?] _]|(_ & _ & k & -> & Hle & Hk)]; try lia. do 2 f_equal.
  apply StronglySorted_inv in So as [_ Big]. rewrite Forall_forall in Big.
  apply Nat.le_antisymm.
  - destruct Hk as [[-> _]|(v & comp & Hv & [Nd Hc] & <-)]; [lia|].
    assert (Hvn : v < vertex_count g) by (destruct Hv as (S & Hd & Sv); apply (Hd v Sv)).
    assert (In v (concat comps)) as I by (apply (Permutation_in _ (Permutation_sym Pc)), in_seq; lia).
    apply in_concat in I as (c & Ic & Iv). destruct (Is c v Ic Iv) as [Nd' Hc'].
    assert (length comp = length c) as ->.
    { apply Permutation_length, NoDup_Permutation; auto. intros w. rewrite Hc, Hc'. tauto. }
    assert (In (length c) (m :: sizes)) as I by (apply (Permutation_in _ (Permutation_sym P)), in_map; auto).
    destruct I as [->|I]; auto.
  - assert (In m (map (@length nat) comps)) as I by (apply (Permutation_in _ P); left; auto).
    apply in_map_iff in I as (c & <- & Ic). destruct c as [|v c]; [destruct (Ne [] Ic); auto|].
    apply (Hle v); [apply All, (Rng (v :: c)); auto; left; auto|]. apply Is; auto. left. auto.
Qed.

(** Graphs with the same cores have the same result. *)
Lemma same_core {T' A' : Type} {C' : AdjContainer T' A'} {L' : AdjLaws C'} (g : graph A) (h : graph A') q :
  simple_graph g -> simple_graph h -> 0 < vertex_count g -> 0 < vertex_count h ->
  (forall v, in_core g q v <-> in_core h q v) -> (forall u v, core_edge g q u v <-> core_edge h q u v) ->
  q_core g q = q_core h q.
Proof.
  intros W W' H0 H0' Hi He.
  destruct (q_core_spec q W) as [[[Hq|?] E]|(Hq & _ & m & E & Hle & Hm)]; try lia;
  destruct (q_core_spec q W') as [[[Hq'|?] E']|(Hq' & _ & m' & E' & Hle' & Hm')]; try lia; [congruence|].
  assert (Ic : forall v c, is_component (core_edge g q) v c <-> is_component (core_edge h q) v c).
  { intros v c. unfold is_component. split; intros [N H]; split; auto; intros w; rewrite H; [|symmetry]; apply joined_iff; auto. }
  rewrite E, E'. do 2 f_equal. apply Nat.le_antisymm.
  - destruct Hm as [[-> _]|(v & c & Hv & Hc & <-)]; [lia|]. apply (Hle' v); [apply Hi|apply Ic]; auto.
  - destruct Hm' as [[-> _]|(v & c & Hv & Hc & <-)]; [lia|]. apply (Hle v); [apply Hi|apply Ic]; auto.
Qed.

(** A vertex with two neighbours in a biconnected set can be taken in. *)
Lemma biconnected_add (g : graph A) P y : simple_graph g -> biconnected g P -> ~ In y P ->
  (exists a b, a <> b /\ In a P /\ In b P /\ adj g y a /\ adj g y b) -> biconnected g (P ++ [y]).
Proof.
  intros W B Ny (a & b & Nab & Ia & Ib & Ha & Hb). apply biconnected_conn in B as (N & Hl & H). apply biconnected_conn.
  split. { apply NoDup_app_iff. split; auto. split; [constructor; [intros []|constructor]|]. intros x Hx [<-|[]]. auto. }
  split; [rewrite app_length; lia|]. intros x.
  assert (Mono : forall u v, edge_without g P x u v -> edge_without g (P ++ [y]) x u v).
  { intros u v ((H1 & H2 & H3) & H4 & H5). split; [split; [|split]|split]; auto; apply in_or_app; auto. }
  assert (Sy : forall u v, edge_without g (P ++ [y]) x u v -> edge_without g (P ++ [y]) x v u).
  { intros u v ((H1 & H2 & H3) & H4 & H5). split; [split; [|split]|split]; auto. apply (sg_sym W). auto. }
  assert (Near : forall w, In w (P ++ [y]) -> w <> x -> exists z, In z P /\ z <> x /\ joined (edge_without g (P ++ [y]) x) w z).
  { intros w Hw Nw. apply in_app_or in Hw as [Hw|[<-|[]]]; [exists w; splits; auto; apply joined_refl|].
    assert (exists z, In z P /\ z <> x /\ adj g y z) as (z & Iz & Nz & Hz).
    { destruct (Nat.eq_dec a x) as [->|]; [exists b|exists a]; splits; auto. }
    exists z. splits; auto. exists 1. apply walk_one. split; [split; [|split]|split]; auto; apply in_or_app; auto. right. left. auto. }
  intros u v Hu Hv Nu Nv. destruct (Near u Hu Nu) as (zu & Izu & Nzu & Ju). destruct (Near v Hv Nv) as (zv & Izv & Nzv & Jv).
  apply joined_trans with zu; auto. apply joined_trans with zv; [|apply joined_sym; auto].
  destruct (H x zu zv) as (k & Wk); auto. exists k. revert Wk. apply walk_impl. auto.
Qed.
End Generic.

Section Grown.
Context {T : Type}.
Variables (m : nat) (src g : graph (node_container T)) (order : list nat).
Hypothesis Ws : simple_graph src.
Hypothesis Gr : grown m src g order.
Hypothesis Le : vertex_count src <= vertex_count g.
Notation s := (vertex_count src).

Lemma count_in (f : nat -> bool) l : 1 <= count f l -> exists x, In x l /\ f x = true.
Proof.
  unfold count. intros H. destruct (filter f l) as [|x t] eqn:E; [cbn in H; lia|].
  exists x. apply filter_In. rewrite E. left. auto.
Qed.

Lemma count_mono (f h : nat -> bool) l : (forall x, In x l -> f x = true -> h x = true) -> count f l <= count h l.
Proof.
  unfold count. induction l as [|x l IH]; intros H; auto. cbn. specialize (IH (fun y Hy => H y (or_intror Hy))).
  destruct (f x) eqn:E; [rewrite (H x (or_introl eq_refl) E); cbn; lia|]. destruct (h x); cbn; lia.
Qed.

Lemma order_iff x : In x order <-> s <= x < vertex_count g.
Proof.
  split; intros H.
  - apply (Permutation_in _ (gr_order Gr)), in_seq in H. lia.
  - apply (Permutation_in _ (Permutation_sym (gr_order Gr))), in_seq. lia.
Qed.

Lemma grown_connected : 1 <= m -> 0 < s -> connected src -> connected g.
Proof.
  intros Hm H0 Hc.
  assert (Src : forall x, x < s -> joined (adj g) 0 x).
  { intros x Hx. destruct (Hc 0 x H0 Hx) as (k & Wk). exists k. revert Wk. apply walk_impl. intros u v Huv.
    apply (gr_source Gr); auto; [apply (sg_range Ws) with v, (sg_sym Ws)|apply (sg_range Ws) with u]; auto. }
  assert (New : forall before after, order = before ++ after -> forall x, In x before -> joined (adj g) 0 x).
  { induction before as [|y before IH] using rev_ind; intros after E x Hx; [destruct Hx|].
    rewrite <- app_assoc in E. cbn in E. apply in_app_or in Hx as [Hx|[<-|[]]]; [apply (IH _ E); auto|].
    pose proof (gr_attach Gr _ _ _ E) as Ct. destruct (@count_in (earlier s before) (nbrs g y)) as (z & Hz & Ez); [lia|].
    apply joined_step with z; [|apply (sg_sym (gr_simple Gr)); auto].
    unfold earlier in Ez. apply Bool.orb_true_iff in Ez as [Ez|Ez]; [apply Src, Nat.ltb_lt; auto|].
    apply (IH _ E). apply contains_In. exact Ez. }
  assert (All : forall x, x < vertex_count g -> joined (adj g) 0 x).
  { intros x Hx. destruct (Nat.lt_ge_cases x s) as [K|K]; auto.
    apply (New order []); [rewrite app_nil_r; auto|]. apply order_iff. auto. }
  intros u v Hu Hv. apply joined_trans with 0; auto. apply joined_sym; auto. apply (sg_sym (gr_simple Gr)).
Qed.

(** A set in which everybody has more than [m] neighbours lies in the source. *)
Lemma dense_source q S : m < q -> q_dense g q S -> forall x, S x = true -> x < s.
Proof.
  intros Hq D.
  assert (Back : forall after before, order = before ++ after -> forall x, In x after -> S x = false).
  { induction after as [|y after IH]; intros before E x Hx; [destruct Hx|].
    assert (Aft : forall z, In z after -> S z = false).
    { intros z Hz. apply (IH (before ++ [y])); auto. rewrite <- app_assoc. auto. }
    destruct Hx as [<-|Hx]; auto. apply Bool.not_true_iff_false. intros Sy. destruct (D y Sy) as [Hy Cy].
    pose proof (gr_attach Gr _ _ _ E) as Ct.
    assert (count S (nbrs g y) <= count (earlier s before) (nbrs g y)); [|lia].
    apply count_mono. intros z Hz Sz. unfold earlier. apply Bool.orb_true_iff.
    destruct (Nat.lt_ge_cases z s) as [K|K]; [left; apply Nat.ltb_lt; auto|]. right. apply contains_In.
    assert (In z order) as I by (apply order_iff; split; auto; apply (sg_range (gr_simple Gr)) with y; auto).
    rewrite E in I. apply in_app_or in I as [I|[<-|I]]; auto.
    - exact (False_ind _ (sg_irrefl (gr_simple Gr) y Hz)).
    - rewrite Aft in Sz; [discriminate|auto]. }
  intros x Sx. destruct (Nat.lt_ge_cases x s) as [K|K]; auto. exfalso.
  assert (S x = false); [|congruence]. apply (Back order []); auto. apply order_iff. split; auto. apply (D x Sx).
Qed.

Lemma count_source (S : nat -> bool) x : x < s -> (forall y, S y = true -> y < s) ->
  count S (nbrs g x) = count S (nbrs src x).
Proof.
  intros Hx HS. unfold count. apply Permutation_length, NoDup_Permutation.
  - apply NoDup_filter, (sg_nodup (gr_simple Gr)).
  - apply NoDup_filter, (sg_nodup Ws).
  - intros y. rewrite !filter_In. split; intros [H1 H2]; split; auto.
    + apply (gr_source Gr); auto.
    + apply (gr_source Gr); auto.
Qed.

Lemma grown_in_core q v : m < q -> (in_core g q v <-> in_core src q v).
Proof.
  intros Hq. split; intros (S & D & Sv).
  - pose proof (dense_source Hq D) as Sub. exists S. split; auto. intros w Sw. destruct (D w Sw) as [_ Cw].
    split; auto. rewrite <- count_source; auto.
  - exists S. split; auto. intros w Sw. destruct (D w Sw) as [Hw Cw]. split; [lia|]. rewrite count_source; auto.
    intros y Sy. apply (D y Sy).
Qed.

Lemma grown_core q : m < q -> 0 < s -> q_core g q = q_core src q.
Proof.
  intros Hq H0. apply same_core; auto; [apply Gr|lia| |].
  - intros v. apply grown_in_core; auto.
  - intros u v. unfold core_edge. rewrite !grown_in_core by auto. split; intros (H1 & H2 & H3); (split; [|split]; auto);
    destruct H2 as (S & D & Su); destruct (D u Su) as [Hu _]; destruct H3 as (S' & D' & Sv); destruct (D' v Sv) as [Hv _];
    apply (gr_source Gr); auto.
Qed.

Lemma grown_new_degree x : s <= x < vertex_count g -> m <= length (nbrs g x).
Proof.
  intros Hx. apply order_iff in Hx. apply in_split in Hx as (l1 & l2 & E). rewrite <- (gr_attach Gr _ _ _ E).
  unfold count. apply filter_le.
Qed.

Lemma two_of (f : nat -> bool) l : NoDup l -> 2 <= count f l ->
  exists a b, a <> b /\ In a l /\ In b l /\ f a = true /\ f b = true.
Proof.
  intros N H. unfold count in H. destruct (filter f l) as [|a [|b t]] eqn:E; [cbn in H; lia|cbn in H; lia|].
  pose proof (NoDup_filter f N) as N'. rewrite E in N'.
  assert (Ia : In a (filter f l)) by (rewrite E; left; auto). assert (Ib : In b (filter f l)) by (rewrite E; right; left; auto).
  apply filter_In in Ia, Ib. exists a, b. splits; try tauto. intros ->. inversion N' as [|? ? X]. apply X. left. auto.
Qed.

Lemma grown_biconnected : 2 <= m -> biconnected src (seq 0 s) -> biconnected g (seq 0 (vertex_count g)).
Proof.
  intros Hm B.
  assert (B0 : biconnected g (seq 0 s)).
  { apply biconnected_conn in B as (N & Hl & H). apply biconnected_conn. splits; auto. intros x u v Hu Hv Nu Nv.
    destruct (H x u v Hu Hv Nu Nv) as (k & Wk). exists k. revert Wk. apply walk_impl.
    intros a b ((H1 & H2 & H3) & H4 & H5). split; auto. split; auto. apply in_seq in H2, H3. apply (gr_source Gr); auto; lia. }
  assert (New : forall before after, order = before ++ after -> biconnected g (seq 0 s ++ before)).
  { induction before as [|y before IH] using rev_ind; intros after E; [rewrite app_nil_r; auto|].
    rewrite <- app_assoc in E. cbn in E. rewrite app_assoc. apply biconnected_add; [apply Gr|apply (IH _ E)| |].
    - assert (No : NoDup order) by (apply (Permutation_NoDup (Permutation_sym (gr_order Gr))), seq_NoDup).
      assert (Iy : In y order) by (rewrite E; apply in_or_app; right; left; auto). apply order_iff in Iy.
      rewrite in_app_iff, in_seq. intros [K|K]; [lia|]. rewrite E in No. apply NoDup_app_iff in No as (_ & _ & D).
      apply (D y K). left. auto.
    - pose proof (gr_attach Gr _ _ _ E) as Ct.
      destruct (@two_of (earlier s before) (nbrs g y)) as (a & b & N & Ia & Ib & Fa & Fb); [apply (sg_nodup (gr_simple Gr))|lia|].
      assert (Mem : forall z, earlier s before z = true -> In z (seq 0 s ++ before)).
      { intros z Hz. apply in_or_app. unfold earlier in Hz. apply Bool.orb_true_iff in Hz as [Hz|Hz].
        - left. apply in_seq. apply Nat.ltb_lt in Hz. lia.
        - right. apply contains_In. exact Hz. }
      exists a, b. splits; auto. }
  apply (@biconnected_same _ _ _ g (seq 0 s ++ order)); [apply seq_NoDup| |apply (New order []); rewrite app_nil_r; auto].
  intros x. rewrite in_app_iff, order_iff, !in_seq. lia.
Qed.

(** In a complete source every vertex gets [m] neighbours, if something is added. *)
Lemma grown_complete_degree : complete src -> m <= s -> s < vertex_count g ->
  forall x, x < vertex_count g -> m <= length (nbrs g x).
Proof.
  intros K Hm Hs x Hx. destruct (Nat.lt_ge_cases x s) as [Hxs|Hxs]; [|apply grown_new_degree; lia].
  assert (In_old : forall y, In y (filter (fun y => negb (y =? x)) (seq 0 s)) -> In y (nbrs g x)).
  { intros y Hy. apply filter_In in Hy as [Hy N]. apply in_seq in Hy. apply Bool.negb_true_iff, Nat.eqb_neq in N.
    apply (gr_source Gr); auto; [lia|]. apply K; auto. lia. }
  assert (Len : s - 1 <= length (filter (fun y => negb (y =? x)) (seq 0 s))).
  { assert (E : length (filter (fun y => negb (y =? x)) (seq 0 s)) = s - 1); [|lia]. rewrite length_filter_sum.
    rewrite (@sum_over_ext _ _ (fun c => if c =? x then 0 else 1)); [|intros y _; destruct (y =? x); auto].
    pose proof (sum_but (fun _ => 1) Hxs) as Q. cbn beta in Q. rewrite sum_over_const, seq_length in Q. lia. }
  assert (Nd : NoDup (filter (fun y => negb (y =? x)) (seq 0 s))) by apply NoDup_filter, seq_NoDup.
  destruct (Nat.eq_dec m s) as [Ems|].
  2:{ pose proof (NoDup_incl_length Nd In_old). lia. }
  assert (Is : In s order) by (apply order_iff; lia).
  assert (exists y rest, order = y :: rest) as (y & rest & Eo) by (destruct order as [|y rest]; [destruct Is|eauto]).
  pose proof (gr_attach Gr [] _ _ Eo) as Ct.
  assert (Ax : In y (nbrs g x)).
  { apply (sg_sym (gr_simple Gr)). 
    assert (incl (seq 0 s) (filter (earlier s []) (nbrs g y))) as I.
    { apply NoDup_length_incl.
      - apply NoDup_filter, (sg_nodup (gr_simple Gr)).
      - unfold count in Ct. rewrite seq_length. lia.
      - intros z Hz. apply filter_In in Hz as [_ Hz]. unfold earlier in Hz. cbn in Hz. rewrite Bool.orb_false_r in Hz.
        apply Nat.ltb_lt in Hz. apply in_seq. lia. }
    assert (In x (filter (earlier s []) (nbrs g y))) as J by (apply I, in_seq; lia). apply filter_In in J. tauto. }
  assert (Hy : s <= y) by (apply order_iff; rewrite Eo; left; auto).
  assert (Nd' : NoDup (y :: filter (fun y => negb (y =? x)) (seq 0 s))).
  { constructor; auto. rewrite filter_In, in_seq. lia. }
  pose proof (@NoDup_incl_length _ _ (nbrs g x) Nd') as Q. cbn [length] in Q.
  assert (S (length (filter (fun y => negb (y =? x)) (seq 0 s))) <= length (nbrs g x)); [|lia].
  apply Q. intros z [<-|Hz]; auto.
Qed.
End Grown.
