(** Every graph with the right degrees is a possible outcome of the [randomize] of the
    configuration model. *)
From Verif Require Import Base BaseFacts Containers ContainerSpec ContainerFacts Graph GraphSpec
  Sums GraphFacts GraphOps GraphBuild Rng RngFacts Runs EnsembleFacts ErMFacts Config ConfigSpec ConfigFacts ConfigRun.
Set Implicit Arguments.
Unset Strict Implicit.
Local Open Scope nat_scope.

Local Notation cnt := (count_occ Nat.eq_dec).

(** The half edges in the order of [es] give exactly these edges. *)
Lemma add_multiple_edges {T} p es : forall f (g : graph (node_container T)),
  simple_graph g -> pairs_ok (vertex_count g) es -> fresh g es -> es <> [] ->
  length (arr es) < f ->
  exists g', cm_add_multiple f p g (arr es) = Done (true, g', []) /\
    forall x y, adj g' x y <-> adj g x y \/ In (x, y) es \/ In (y, x) es.
Proof.
  induction es as [|[i j] es IH]; intros f g W Pk Fr Hne Hf; [congruence|].
  destruct f as [|f]; [lia|]. cbn [arr cm_add_multiple] in *.
  replace (arr es ++ [j; i]) with ((arr es ++ [j]) ++ [i]) in * by (rewrite <- app_assoc; auto).
  rewrite pop_snoc. cbn [expect bind]. rewrite !app_length in *. cbn [length] in *.
  inversion Pk as [|? ? (Hi & Hj & N) Pk']; subst. cbn [fst snd] in *.
  unfold usub. destruct (Nat.leb_spec 1 (length (arr es) + 1)); [|lia]. cbn [bind].
  replace (length (arr es) + 1 - 1) with (length (arr es)) by lia.
  assert (Ej : nth_error (arr es ++ [j]) (length (arr es)) = Some j).
  { rewrite nth_error_app2, Nat.sub_diag by lia. auto. }
  assert (Es : cm_scan i (arr es ++ [j]) (length (arr es)) = Done (Some (length (arr es)))).
  { destruct (length (arr es)) eqn:El; cbn [cm_scan]; unfold vget; rewrite Ej; cbn [bind];
    destruct (Nat.eqb_spec i j); congruence. }
  rewrite Es. cbn [bind]. unfold vget. rewrite Ej. cbn [bind].
  rewrite swap_remove_snoc by lia. rewrite Nat.eqb_refl. cbn [bind].
  destruct Fr as [F1 F2]. inversion F1 as [|? ? Fa Fb]; subst. inversion F2 as [|? ? Fc Fd]; subst.
  cbn [fst snd] in *.
  destruct (@add_case _ _ _ _ p g i j W) as [[K _]|(_ & g' & -> & W' & V' & _ & A' & _)]; auto; try tauto.
  cbn [bind]. destruct (Nat.ltb_spec 1 (length (arr es))) as [L1|L1].
  - destruct (IH f g') as (g2 & E2 & A2); auto; try lia.
    + rewrite V'; auto.
    + split; auto. rewrite Forall_forall in *. intros [a b] I. cbn [fst snd]. rewrite A'. intros [K|K].
      * apply (Fb _ I); auto.
      * apply (Fc _ I). unfold same_edge, is_pair, ends in *. cbn [fst snd] in *. intuition.
    + intros ->. cbn in L1. lia.
    + exists g2. split; auto. intros x y. rewrite A2, A'. unfold ends. cbn [fst snd In].
      split; [intros [[H0|[[-> ->]|[-> ->]]]|H0]|intros [H0|[[H0|H0]|[H0|H0]]]]; auto; try tauto;
        injection H0 as -> ->; tauto.
  - destruct es as [|e es]; [|rewrite arr_length in L1; cbn in L1; lia]. cbn.
    exists g'. split; auto. intros x y. rewrite A'. unfold ends. cbn [fst snd In].
    split; [intros [H0|[[-> ->]|[-> ->]]]|intros [H0|[[H0|H0]|[H0|H0]]]]; auto; try tauto;
      injection H0 as -> ->; tauto.
Qed.

Lemma graph_arr {T A} {C : AdjContainer T A} {L : AdjLaws C} v (h : graph A) l :
  simple_graph h -> has_degrees v h -> (forall i, cnt l i = nth i v 0) ->
  Permutation l (arr (edges_of (adjb h) (length v))).
Proof.
  intros W [V D] H. set (R := adjb h).
  apply (Permutation_count_occ Nat.eq_dec). intros i. rewrite H, arr_count.
  2:{ eapply Forall_impl; [|apply edges_of_ok]. intros e. cbn. tauto. }
  destruct (Nat.lt_ge_cases i (length v)) as [Hi|Hi].
  - rewrite edges_of_degree; auto.
    + rewrite <- D. unfold count. apply Permutation_length. apply NoDup_Permutation.
      * apply (sg_nodup W).
      * apply NoDup_filter, seq_NoDup.
      * intros j. unfold R. rewrite filter_In, adjb_adj, in_seq. fold (adj h i j).
        split; [|tauto]. intros Hj. pose proof (sg_range W _ _ Hj). split; auto. lia.
    + intros k. apply not_true_iff_false. unfold R. rewrite adjb_adj. apply (sg_irrefl W).
    + intros a b. apply eq_true_iff_eq. unfold R. rewrite !adjb_adj. split; apply (sg_sym W).
  - rewrite nth_overflow by auto. unfold count.
    destruct (filter _ (edges_of R (length v))) as [|[a b] t] eqn:E; auto. exfalso.
    assert (I : In (a, b) ((a, b) :: t)) by (simpl; auto). rewrite <- E in I.
    apply filter_In in I as [I1 I2]. apply filter_In in I1 as [I1 _]. apply In_pairs_below in I1.
    rewrite orb_true_iff, !Nat.eqb_eq in I2. cbn in I2. lia.
Qed.

Lemma randomize_reach {T A} {C : AdjContainer T A} {L : AdjLaws C} p v (e : config T) (h : graph A) :
  cm_ready v e -> simple_graph h -> has_degrees v h ->
  exists ds e', (forall rest, cm_randomize p e (ds ++ rest) = Done (e', rest)) /\
    forall i j, adj (cm_graph e') i j <-> adj h i j.
Proof.
  intros Re W D. pose proof (graph_arr W D (cr_backup Re)) as Pe.
  set (es := edges_of (adjb h) (length v)) in *.
  assert (Ih : forall i j, adj h i j <-> In (i, j) es \/ In (j, i) es).
  { intros i j. unfold es, edges_of. rewrite !filter_In, !In_pairs_below. cbn [fst snd]. rewrite !adjb_adj. split.
    - intros H. pose proof (adj_lt W H) as [Hi Hj]. rewrite (proj1 D) in Hi, Hj.
      assert (i <> j) by (intros <-; apply (sg_irrefl W i H)).
      destruct (Nat.lt_ge_cases i j); [left|right]; split; auto; try lia. apply (sg_sym W). auto.
    - intros [[_ H]|[_ H]]; auto. apply (sg_sym W). auto. }
  destruct (shuffle_reach Pe) as (ds & Hd).
  destruct (clear_edges_spec (cr_simple Re)) as (W' & V' & _ & P' & H').
  unfold cm_randomize. destruct (arr es) as [|x b2] eqn:Eb.
  - exists ds. eexists. split; [intros rest; rewrite Hd; cbn [bind]; reflexivity|].
    cbn [cm_graph]. intros i j. rewrite Ih. unfold adj. rewrite H'.
    assert (es = []) as ->.
    { destruct es; auto. apply (f_equal (@length nat)) in Eb. rewrite arr_length in Eb. discriminate. }
    simpl. tauto.
  - rewrite <- Eb in *.
    destruct (@add_multiple_edges T p es (S (length (arr es))) (clear_edges (cm_graph e))) as (g' & Ea & A'); auto.
    + rewrite V', (cr_count Re). apply edges_of_ok.
    + apply edges_of_fresh. auto.
    + intros ->. discriminate.
    + exists ds. eexists. split.
      * intros rest. rewrite Hd. cbn [bind]. rewrite Eb at 1. cbn [loop]. unfold cm_round at 1. rewrite Ea.
        cbn [bind snd]. reflexivity.
      * cbn [cm_graph]. intros i j. rewrite A', Ih. unfold adj. rewrite H'. simpl. tauto.
Qed.
