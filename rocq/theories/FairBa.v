(** Growing graphs: the next link goes to each vertex not yet linked with a probability that is
    proportional to its degree. *)
From Verif Require Import Base BaseFacts Sums Containers ContainerSpec ContainerFacts Graph GraphSpec GraphFacts
  GraphOps GraphBuild Rng RngFacts Runs EnsembleFacts ConfigFacts Ba BaSpec BaFacts UniformSpec UniformFacts
  ConfigRounds SurelySpec SurelyFacts FairSpec FairFacts.
Set Implicit Arguments.
Unset Strict Implicit.
Local Open Scope nat_scope.

Lemma loop_S {St X} f (body : St -> rng -> outcome ((St + X) * rng)) s rs : loop (S f) body s rs =
  do ' (r, rs1) <- body s rs; match r with inl s' => loop f body s' rs1 | inr x => Done (x, rs1) end.
Proof. reflexivity. Qed.

Section Model.
Context {T : Type}.
Local Notation G := (graph (node_container T)).
Implicit Types g : G.
Variables (p : profile) (ws : list nat) (i : nat).
Local Notation total := (list_sum ws).

(** The draws of one vertex. *)
Definition links m g rs := loop (S (length rs)) (ba_attach p m ws total i) g rs.

Section Fixed.
Variable g : G.
Hypothesis W : simple_graph g.
Hypothesis Hi : i < vertex_count g.
Hypothesis Lw : length ws = vertex_count g.
Hypothesis Zi : nth i ws 0 = 0.

Lemma own : exists c, container g i = Done c /\ ac_degree c = length (nbrs g i).
Proof using W Hi.
  destruct (container_lt W Hi) as (c & E & _ & _ & N). exists c. unfold container, vget. rewrite E.
  split; auto. rewrite law_degree. congruence.
Qed.

Lemma pick_other r : r < total -> weighted_pick ws r <> i /\ weighted_pick ws r < vertex_count g.
Proof using Lw Zi Hi.
  intros Hr. destruct (pick_lt Hr) as [H1 H2]. split; [intros E; rewrite E in H2; lia|lia].
Qed.

(** One draw. *)
Lemma attach_step m r rest : length (nbrs g i) < m -> r < total ->
  (adj g i (weighted_pick ws r) /\ ba_attach p m ws total i g (r :: rest) = Done (inl g, rest)) \/
  (~ adj g i (weighted_pick ws r) /\ exists g', ba_attach p m ws total i g (r :: rest) = Done (inl g', rest) /\
     simple_graph g' /\ vertex_count g' = vertex_count g /\ nbrs g' i = nbrs g i ++ [weighted_pick ws r]).
Proof using All.
  intros Lt Hr. destruct own as (c & E & D). destruct (pick_other Hr) as [Np Hp].
  unfold ba_attach. rewrite E. cbn [bind]. rewrite D. destruct (Nat.ltb_spec (length (nbrs g i)) m); [|lia].
  rewrite gen_range_small by auto. cbn [bind].
  destruct (adj_dec g i (weighted_pick ws r)) as [A|A].
  - left. split; auto. rewrite (add_edge_present p W A). reflexivity.
  - right. split; auto. destruct (@add_edge_absent _ _ _ _ p g i (weighted_pick ws r) W) as (g' & E' & W' & V' & _ & _ & N'); auto.
    exists g'. rewrite E'. splits; auto. rewrite N', Nat.eqb_refl. auto.
Qed.

End Fixed.

Lemma attach_stop m g rs : simple_graph g -> i < vertex_count g -> m <= length (nbrs g i) ->
  ba_attach p m ws total i g rs = Done (inr g, rs).
Proof.
  intros W Hi Ge. destruct (own W Hi) as (c & E & D). unfold ba_attach. rewrite E. cbn [bind]. rewrite D.
  destruct (Nat.ltb_spec (length (nbrs g i)) m); [lia|auto].
Qed.

Lemma attach_none m g : simple_graph g -> i < vertex_count g -> length (nbrs g i) < m -> 0 < total ->
  ba_attach p m ws total i g [] = NoFuel.
Proof.
  intros W Hi Lt Pt. destruct (own W Hi) as (c & E & D). unfold ba_attach. rewrite E. cbn [bind]. rewrite D.
  destruct (Nat.ltb_spec (length (nbrs g i)) m); [|lia].
  unfold gen_range. destruct (Nat.eqb_spec total 0); [lia|]. reflexivity.
Qed.

Lemma gen_mod m g r rest : simple_graph g -> i < vertex_count g -> length (nbrs g i) < m -> 0 < total ->
  ba_attach p m ws total i g (r :: rest) = ba_attach p m ws total i g (Nat.modulo r total :: rest).
Proof.
  intros W Hi Lt H. destruct (own W Hi) as (c & E & D). unfold ba_attach. rewrite E. cbn [bind]. rewrite D.
  destruct (Nat.ltb_spec (length (nbrs g i)) m); [|lia].
  rewrite !gen_range_cons by auto. rewrite Nat.mod_mod by lia. auto.
Qed.

Lemma links_cons m g r rest : links m g (r :: rest) =
  do ' (s, rs1) <- ba_attach p m ws total i g (r :: rest);
  match s with inl g' => loop (S (length rest)) (ba_attach p m ws total i) g' rs1 | inr x => Done (x, rs1) end.
Proof. reflexivity. Qed.

(** The links are made one after the other. *)
Lemma one_by_one m rs : forall g, simple_graph g -> i < vertex_count g -> length ws = vertex_count g -> nth i ws 0 = 0 ->
  0 < total -> length (nbrs g i) < m ->
  links m g rs = do ' (g1, rs1) <- links (S (length (nbrs g i))) g rs; links m g1 rs1.
Proof.
  induction rs as [|r rs IH]; intros g W Hi Lw Zi Pt Lt.
  - unfold links. cbn [length loop]. rewrite !attach_none by (auto; lia). reflexivity.
  - rewrite !links_cons. rewrite (@gen_mod m g), (@gen_mod (S (length (nbrs g i))) g) by auto.
    assert (Hr : Nat.modulo r total < total) by (apply Nat.mod_upper_bound; lia).
    destruct (attach_step W Hi Lw Zi rs Lt Hr) as [[A E]|[A (g1 & E & W1 & V1 & N1)]];
      destruct (attach_step W Hi Lw Zi rs (Nat.lt_succ_diag_r _) Hr) as [[A' E']|[A' (g1' & E' & W1' & V1' & N1')]];
      try tauto.
    + rewrite E, E'. cbn [bind]. apply IH; auto.
    + assert (g1' = g1).
      { unfold ba_attach in E, E'. destruct (own W Hi) as (c & Ec & D). rewrite Ec in E, E'. cbn [bind] in E, E'. rewrite D in E, E'.
        destruct (Nat.ltb_spec (length (nbrs g i)) m), (Nat.ltb_spec (length (nbrs g i)) (S (length (nbrs g i)))); try lia.
        rewrite gen_range_small in E, E' by auto. cbn [bind] in E, E'. congruence. }
      subst g1'. rewrite E, E'. cbn [bind]. rewrite (@loop_S _ _ (length rs) (ba_attach p (S (length (nbrs g i))) ws total i)), (@attach_stop (S (length (nbrs g i))) g1); [|auto|lia|rewrite N1, app_length; cbn [length]; lia].
      cbn [bind]. reflexivity.
Qed.

Lemma weight_sum l : NoDup l ->
  count (fun r => existsb (Nat.eqb (weighted_pick ws r)) l) (seq 0 total) = weight_of ws l.
Proof.
  induction l as [|y l IH]; intros ND; cbn [existsb].
  - apply count_zero. auto.
  - inversion ND as [|? ? Ny ND']; subst. unfold weight_of in *. cbn [map list_sum fold_right]. 
    change (fold_right Nat.add 0) with list_sum. rewrite <- IH by auto. rewrite <- pick_count.
    unfold count. rewrite !length_filter_sum, <- sum_over_plus. apply sum_over_ext. intros r _.
    rewrite (Nat.eqb_sym (weighted_pick ws r) y).
    destruct (Nat.eqb_spec y (weighted_pick ws r)) as [E|N]; cbn [orb].
    + destruct (existsb (Nat.eqb (weighted_pick ws r)) l) eqn:X.
      * exfalso. apply Ny. apply existsb_exists in X as (z & Iz & Ez). apply Nat.eqb_eq in Ez. congruence.
      * auto.
    + auto.
Qed.

Lemma rolls_one h ds : In ds (rolls [h]) <-> exists r, ds = [r] /\ r < h.
Proof.
  rewrite rolls_In. split.
  - intros F. inversion F as [|? x ? l1 Hx F1]; subst. inversion F1; subst. eauto.
  - intros (x & -> & Hx). auto.
Qed.

Lemma count_rolls_one (f : list nat -> bool) h : count f (rolls [h]) = count (fun r => f [r]) (seq 0 h).
Proof.
  unfold count. rewrite !length_filter_sum. cbn [rolls]. rewrite sum_over_flat_map. apply sum_over_ext. intros r _.
  cbn [map]. rewrite sum_over_one. auto.
Qed.

Lemma repeat_one (h k : nat) : repeat h k = concat (repeat [h] k).
Proof. induction k as [|k IH]; auto. cbn [repeat concat app]. congruence. Qed.

(** One draw for the next link. *)
Lemma link_step g r : simple_graph g -> i < vertex_count g -> length ws = vertex_count g -> nth i ws 0 = 0 ->
  r < total ->
  (adj g i (weighted_pick ws r) /\ forall rest, links (S (length (nbrs g i))) g (r :: rest) =
     links (S (length (nbrs g i))) g rest) \/
  (~ adj g i (weighted_pick ws r) /\ exists g', nbrs g' i = nbrs g i ++ [weighted_pick ws r] /\
     forall rest, links (S (length (nbrs g i))) g (r :: rest) = Done (g', rest)).
Proof.
  intros W Hi Lw Zi Hr. set (m := S (length (nbrs g i))).
  destruct (adj_dec g i (weighted_pick ws r)) as [A|A].
  - left. split; auto. intros rest. rewrite links_cons.
    destruct (attach_step W Hi Lw Zi rest (Nat.lt_succ_diag_r _) Hr) as [[_ E]|[A' _]]; [|tauto].
    fold m in E. rewrite E. reflexivity.
  - right. split; auto. destruct (attach_step W Hi Lw Zi [] (Nat.lt_succ_diag_r _) Hr) as [[A' _]|[_ (g' & E & W' & V' & N')]]; [tauto|].
    exists g'. split; auto. intros rest. rewrite links_cons. fold m in E.
    assert (E' : ba_attach p m ws total i g (r :: rest) = Done (inl g', rest)).
    { unfold ba_attach in *. destruct (container g i); cbn [bind] in *; try discriminate E.
      destruct (ac_degree a <? m); [|discriminate E].
      rewrite gen_range_small in * by auto. cbn [bind] in *.
      destruct (add_edge p g i (weighted_pick ws r)) as [[? ?]| | |]; cbn [bind] in *; try discriminate E. congruence. }
    rewrite E'. cbn [bind loop]. rewrite attach_stop; [auto|auto|lia|]. rewrite N', app_length. unfold m. cbn. lia.
Qed.

Section Next.
Variables (g : G) (j : nat).
Hypothesis W : simple_graph g.
Hypothesis Hi : i < vertex_count g.
Hypothesis Lw : length ws = vertex_count g.
Hypothesis Zi : nth i ws 0 = 0.
Hypothesis Pt : 0 < total.
Hypothesis Na : ~ adj g i j.
Let m := S (length (nbrs g i)).

Lemma link_nil : links m g [] = NoFuel.
Proof using All. unfold links. cbn [length loop]. rewrite attach_none; unfold m; auto. Qed.

Lemma link_round ds : In ds (rolls [total]) ->
  (exists x, forall rest, links m g (ds ++ rest) = Done (x, rest)) \/ (forall rest, links m g (ds ++ rest) = links m g rest).
Proof using All.
  intros Hd. apply rolls_one in Hd as (r & -> & Hr).
  destruct (link_step W Hi Lw Zi Hr) as [[A E]|[A (g' & _ & E)]].
  - right. auto.
  - left. exists g'. auto.
Qed.

Lemma link_rejects : count (fun ds => unfinished (links m g ds)) (rolls [total]) = weight_of ws (nbrs g i).
Proof using All.
  pose proof link_nil as Nil. rewrite count_rolls_one. rewrite <- weight_sum by apply (sg_nodup W).
  unfold count. f_equal. apply filter_ext_in. intros r Hr. apply in_seq in Hr.
  change (existsb (Nat.eqb (weighted_pick ws r)) (nbrs g i)) with (adjb g i (weighted_pick ws r)).
  destruct (link_step (r := r) W Hi Lw Zi) as [[A E]|[A (g' & _ & E)]]; [fold total in *; lia| |].
  - unfold m in *. rewrite E, Nil. cbn. symmetry. apply adjb_adj. auto.
  - unfold m in *. rewrite E. cbn. symmetry. apply not_true_iff_false. rewrite adjb_adj. auto.
Qed.

Lemma link_hits : count (fun ds => exactly (fun g' => adjb g' i j) (links m g ds)) (rolls [total]) = nth j ws 0.
Proof using All.
  pose proof link_nil as Nil.
  rewrite count_rolls_one, <- pick_count. unfold count. f_equal. apply filter_ext_in. intros r Hr. apply in_seq in Hr.
  destruct (link_step (r := r) W Hi Lw Zi) as [[A E]|[A (g' & N & E)]]; [fold total in *; lia| |]; unfold m in *.
  - rewrite E, Nil. cbn. symmetry. apply Nat.eqb_neq. intros X. apply Na. congruence.
  - rewrite E. cbn [exactly]. unfold adjb. rewrite N, existsb_app. cbn [existsb].
    replace (existsb (Nat.eqb j) (nbrs g i)) with false.
    2:{ symmetry. apply not_true_iff_false. intros X. apply Na. apply adjb_adj. auto. }
    cbn [orb]. rewrite orb_false_r. apply Nat.eqb_sym.
Qed.

(** The next link goes to [j] after [k] draws that have been rejected. *)
Lemma next_link k :
  count (fun ds => exactly (fun g' => adjb g' i j) (links m g ds)) (rolls (repeat total (S k))) =
  weight_of ws (nbrs g i) ^ k * nth j ws 0.
Proof using All.
  rewrite repeat_one. rewrite (@rejection _ (links m g) [total]).
  - rewrite link_rejects, link_hits. auto.
  - apply link_round.
  - apply link_nil.
  - discriminate.
Qed.

(** The probability that the next link goes to [j]. *)
Lemma next_probability : weight_of ws (nbrs g i) < total ->
  probability (nth j ws 0) (total - weight_of ws (nbrs g i)) total (links m g) (fun g' => adjb g' i j).
Proof using All.
  intros Lt. apply (@limit_probability _ (links m g) total 1).
  - apply link_round.
  - intros [|r ds] Hd; [apply link_nil|cbn in Hd; lia].
  - lia.
  - lia.
  - cbn [repeat]. rewrite link_rejects, Nat.pow_1_r. auto.
  - cbn [repeat]. rewrite link_rejects, link_hits, Nat.pow_1_r. rewrite (Nat.mul_comm (total - _)), <- Nat.mul_add_distr_l. f_equal. lia.
Qed.
End Next.
End Model.
