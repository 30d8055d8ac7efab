(** Rewired edges: all places are equally likely. *)
From Verif Require Import Base BaseFacts Sums Containers ContainerSpec ContainerFacts Graph GraphSpec GraphFacts
  GraphOps GraphBuild Rng RngFacts Runs Ws WsSpec WsFacts WsRun UniformSpec UniformFacts ConfigRounds SurelySpec
  SurelyFacts FairSpec FairFacts.
Set Implicit Arguments.
Unset Strict Implicit.
Local Open Scope nat_scope.

Section Model.
Context {T : Type}.
Implicit Types g : graph (ws_container T).

Lemma links_shape g : simple_links g -> shape (vertex_count g) g.
Proof. intros H. apply (simple_shape H eq_refl). Qed.

Lemma links_sym g i j : simple_links g -> adjb g i j = adjb g j i.
Proof.
  intros H. pose proof (sg_sym H) as Sy. apply eq_true_iff_eq. rewrite !adjb_adj. split; apply Sy.
Qed.

Lemma links_good n g : shape n g -> good n (ws_entries g) (origs n (ws_entries g)) -> simple_links g.
Proof.
  intros S G. pose proof S as (S1 & S2 & S3).
  assert (K : forall i j, adj g i j <-> exists o, In (j, o) (ws_entries g i)) by (intros; apply (@adj_ws T n); auto).
  constructor; cbn.
  - change (length (vertices g) = vertex_count g). congruence.
  - intros i c E. destruct (S3 _ _ E). auto.
  - intros i j H. change (j < vertex_count g). rewrite S2. apply K in H as [o H]. apply (gd_range G H).
  - intros i H. apply K in H as [o H]. apply (gd_irrefl G H eq_refl).
  - intros i. change (NoDup (nbrs g i)). rewrite <- (map_fst_entries i S). apply G.
  - intros i j H. apply K in H as [o H]. apply K. eexists. apply (gd_partner G H).
  - reflexivity.
Qed.

Lemma skip_join n g o x y : shape n g -> skip_pair (ws_entries g) o x y = negb (may_join g o x y).
Proof.
  intros S. unfold skip_pair, may_join. rewrite (map_fst_entries x S).
  change (contains (nbrs g x) y) with (adjb g x y).
  destruct (x =? y), (adjb g x y), (x =? oe_from o), (y =? oe_to o), (x =? oe_to o), (y =? oe_from o); reflexivity.
Qed.

Lemma add_step p g o x y : simple_links g -> x < vertex_count g -> y < vertex_count g ->
  if may_join g o x y then
    exists g', (forall rest, ws_add_random_edge p (g, x :: y :: rest) o = Done (g', rest)) /\
      forall a b, adjb g' a b = adjb g a b || ((a =? x) && (b =? y)) || ((a =? y) && (b =? x))
  else forall rest, ws_add_random_edge p (g, x :: y :: rest) o = ws_add_random_edge p (g, rest) o.
Proof.
  intros H Hx Hy. pose proof (links_shape H) as S. assert (Hn : 0 < vertex_count g) by lia.
  assert (St : forall rs, ws_find_pair (Datatypes.S (length rs)) g o rs = find_pair_list g o rs)
    by (intros rs; apply find_pair_eq; auto).
  assert (Sp : forall rest, find_pair_list g o (x :: y :: rest) =
    if negb (may_join g o x y) then find_pair_list g o rest else Done (x, y, rest)).
  { intros rest. rewrite (find_pair_step _ _ _ _ S Hn), !Nat.mod_small by auto. rewrite (skip_join o x y S). auto. }
  destruct (may_join g o x y) eqn:M; cbn [negb] in Sp.
  - assert (Nxy : x <> y).
    { unfold may_join in M. rewrite !andb_true_iff, !negb_true_iff in M. apply Nat.eqb_neq. apply M. }
    assert (E : exists g', (if (x =? oe_to o) || (y =? oe_from o)
            then ws_create_edge p g y x (oe_swap o) else ws_create_edge p g x y o) = Done g' /\
            shape (vertex_count g) g' /\
            forall k, nbrs g' k = nbrs g k ++ (if k =? x then [y] else if k =? y then [x] else [])).
    { destruct (_ || _).
      - destruct (create_edge_spec p (oe_swap o) S Hy Hx (not_eq_sym Nxy)) as (g' & E & S' & _ & _ & N).
        exists g'. splits; auto. intros k. rewrite <- (map_fst_entries k S'), <- (map_fst_entries k S), N.
        destruct (Nat.eqb_spec k y) as [Ey|], (Nat.eqb_spec k x) as [Ex|]; try congruence; subst; rewrite ?map_app, ?app_nil_r; auto.
      - destruct (create_edge_spec p o S Hx Hy Nxy) as (g' & E & S' & _ & _ & N).
        exists g'. splits; auto. intros k. rewrite <- (map_fst_entries k S'), <- (map_fst_entries k S), N.
        destruct (Nat.eqb_spec k x) as [Ex|], (Nat.eqb_spec k y) as [Ey|]; try congruence; subst; rewrite ?map_app, ?app_nil_r; auto. }
    destruct E as (g' & E & S' & N). exists g'. split.
    + intros rest. unfold ws_add_random_edge. rewrite St, Sp. cbn [bind]. rewrite E. reflexivity.
    + intros a b. unfold adjb. rewrite N, existsb_app.
      rewrite <- orb_assoc. f_equal.
      destruct (Nat.eqb_spec a x) as [->|]; cbn [existsb andb].
      * destruct (Nat.eqb_spec x y); [congruence|]. cbn. rewrite orb_false_r. auto.
      * destruct (Nat.eqb_spec a y) as [->|]; cbn; rewrite ?orb_false_r; auto.
  - intros rest. unfold ws_add_random_edge. rewrite !St, Sp. reflexivity.
Qed.

Lemma rolls_two n ds : In ds (rolls [n; n]) <-> exists x y, ds = [x; y] /\ x < n /\ y < n.
Proof.
  rewrite rolls_In. split.
  - intros F. inversion F as [|? x ? l1 Hx F1]; subst. inversion F1 as [|? y ? l2 Hy F2]; subst. inversion F2; subst. eauto.
  - intros (x & y & -> & Hx & Hy). auto.
Qed.

Lemma count_rolls_two (f : list nat -> bool) n :
  count f (rolls [n; n]) = sum_over (fun x => sum_over (fun y => if f [x; y] then 1 else 0) (seq 0 n)) (seq 0 n).
Proof.
  unfold count. rewrite length_filter_sum. cbn [rolls].
  rewrite sum_over_flat_map. apply sum_over_ext. intros x _. rewrite sum_over_map, sum_over_flat_map.
  apply sum_over_ext. intros y _. rewrite sum_over_map, sum_over_one. auto.
Qed.

Lemma repeat_two (n k : nat) : repeat n (2 * k) = concat (repeat [n; n] k).
Proof. induction k as [|k IH]; auto. replace (2 * S k) with (S (S (2 * k))) by lia. cbn [repeat concat app]. congruence. Qed.

Lemma sum_unique (f : nat -> nat) n a : a < n -> (forall i, i <> a -> f i = 0) -> sum_over f (seq 0 n) = f a.
Proof.
  intros Ha H. replace (seq 0 n) with (seq 0 a ++ a :: seq (S a) (n - S a)).
  - rewrite sum_over_app, sum_over_cons, !sum_over_zero; [lia| |]; intros i Hi; apply in_seq in Hi; apply H; lia.
  - replace n with (a + S (n - S a)) at 2 by lia. rewrite seq_app. reflexivity.
Qed.

Lemma ws_place p g o a b k : simple_links g -> a < vertex_count g -> b < vertex_count g -> may_join g o a b = true ->
  count (fun ds => exactly (fun g' => adjb g' a b) (ws_add_random_edge p (g, ds) o))
    (rolls (repeat (vertex_count g) (2 * S k))) =
  count (fun ds => unfinished (ws_add_random_edge p (g, ds) o)) (rolls (repeat (vertex_count g) 2)) ^ k * 2.
Proof.
  intros H Ha Hb M. set (n := vertex_count g) in *. rewrite repeat_two. change (repeat n 2) with [n; n].
  assert (Nab : a <> b /\ adjb g a b = false).
  { unfold may_join in M. rewrite !andb_true_iff, !negb_true_iff in M. split; [apply Nat.eqb_neq|]; apply M. }
  assert (M' : may_join g o b a = true).
  { unfold may_join in *. rewrite (links_sym b a H), (Nat.eqb_sym b a).
    rewrite !andb_true_iff in *. tauto. }
  rewrite (@rejection _ (fun ds => ws_add_random_edge p (g, ds) o) [n; n]).
  - f_equal. rewrite count_rolls_two.
    assert (E : forall x y, x < n -> y < n ->
      exactly (fun g' => adjb g' a b) (ws_add_random_edge p (g, [x; y]) o) =
      ((x =? a) && (y =? b)) || ((x =? b) && (y =? a))).
    { intros x y Hx Hy. pose proof (add_step p o H Hx Hy) as St.
      destruct (may_join g o x y) eqn:Mxy.
      - destruct St as (g' & E & N). rewrite E. cbn [exactly]. rewrite N. rewrite (proj2 Nab). cbn [orb].
        rewrite (Nat.eqb_sym a x), (Nat.eqb_sym b y), (Nat.eqb_sym a y), (Nat.eqb_sym b x), (andb_comm (y =? a)). auto.
      - rewrite St. assert (Z : exactly (fun g' => adjb g' a b) (ws_add_random_edge p (g, []) o) = false).
        { unfold ws_add_random_edge. cbn [length ws_find_pair]. unfold gen_range.
          destruct (Nat.eqb_spec (vertex_count g) 0); [fold n in e; lia|]. reflexivity. }
        rewrite Z. symmetry. apply orb_false_iff. split; apply not_true_iff_false; rewrite andb_true_iff, !Nat.eqb_eq;
          intros [-> ->]; congruence. }
    rewrite (@sum_over_ext _ _ (fun x => sum_over (fun y =>
       (if (x =? a) && (y =? b) then 1 else 0) + (if (x =? b) && (y =? a) then 1 else 0)) (seq 0 n))).
    2:{ intros x Hx. apply sum_over_ext. intros y Hy. apply in_seq in Hx, Hy. rewrite E by lia.
        destruct (Nat.eqb_spec x a), (Nat.eqb_spec y b), (Nat.eqb_spec x b), (Nat.eqb_spec y a); cbn; auto; subst; tauto. }
    rewrite (@sum_over_ext _ _ (fun x => sum_over (fun y => if (x =? a) && (y =? b) then 1 else 0) (seq 0 n) +
       sum_over (fun y => if (x =? b) && (y =? a) then 1 else 0) (seq 0 n))) by (intros; apply sum_over_plus).
    rewrite sum_over_plus.
    rewrite (@sum_unique (fun x => sum_over (fun y => if (x =? a) && (y =? b) then 1 else 0) (seq 0 n)) n a Ha),
      (@sum_unique (fun x => sum_over (fun y => if (x =? b) && (y =? a) then 1 else 0) (seq 0 n)) n b Hb).
    + rewrite (@sum_unique (fun y => if (a =? a) && (y =? b) then 1 else 0) n b Hb),
        (@sum_unique (fun y => if (b =? b) && (y =? a) then 1 else 0) n a Ha).
      * rewrite !Nat.eqb_refl. reflexivity.
      * intros i Hi. apply Nat.eqb_neq in Hi. rewrite Hi, andb_false_r. auto.
      * intros i Hi. apply Nat.eqb_neq in Hi. rewrite Hi, andb_false_r. auto.
    + intros i Hi. apply sum_over_zero. intros y _. apply Nat.eqb_neq in Hi. rewrite Hi. auto.
    + intros i Hi. apply sum_over_zero. intros y _. apply Nat.eqb_neq in Hi. rewrite Hi. auto.
  - intros ds Hds. apply rolls_two in Hds as (x & y & -> & Hx & Hy).
    pose proof (add_step p o H Hx Hy) as St. destruct (may_join g o x y).
    + left. destruct St as (g' & E & _). exists g'. auto.
    + right. auto.
  - unfold ws_add_random_edge. cbn [length ws_find_pair]. unfold gen_range.
    destruct (Nat.eqb_spec (vertex_count g) 0); [fold n in e; lia|]. reflexivity.
  - discriminate.
Qed.

Lemma ws_rejections p g o : simple_links g -> 0 < vertex_count g ->
  count (fun ds => unfinished (ws_add_random_edge p (g, ds) o)) (rolls (repeat (vertex_count g) 2)) +
  2 * count (fun ij => may_join g o (fst ij) (snd ij)) (pairs_below (vertex_count g)) =
  vertex_count g * vertex_count g.
Proof.
  intros H Hn. set (n := vertex_count g) in *. change (repeat n 2) with [n; n]. rewrite count_rolls_two.
  assert (E : forall x y, x < n -> y < n -> unfinished (ws_add_random_edge p (g, [x; y]) o) = negb (may_join g o x y)).
  { intros x y Hx Hy. pose proof (add_step p o H Hx Hy) as St. destruct (may_join g o x y).
    - destruct St as (g' & E & _). rewrite E. auto.
    - rewrite St. unfold ws_add_random_edge. cbn [length ws_find_pair]. unfold gen_range.
      destruct (Nat.eqb_spec (vertex_count g) 0); [fold n in e; lia|]. reflexivity. }
  assert (P : 2 * count (fun ij => may_join g o (fst ij) (snd ij)) (pairs_below n) =
    sum_over (fun x => sum_over (fun y => if may_join g o x y then 1 else 0) (seq 0 n)) (seq 0 n)).
  { rewrite (@handshake (fun x y => if may_join g o x y then 1 else 0)).
    - f_equal. unfold count, pairs_below. rewrite length_filter_sum, sum_over_flat_map. apply sum_over_ext. intros j _.
      rewrite sum_over_map. auto.
    - intros i. unfold may_join. rewrite Nat.eqb_refl. auto.
    - intros i j. replace (may_join g o i j) with (may_join g o j i); auto. unfold may_join.
      rewrite (links_sym j i H), (Nat.eqb_sym j i).
      destruct (negb (i =? j) && negb (adjb g i j)), (negb ((j =? oe_from o) && (i =? oe_to o))),
        (negb ((i =? oe_from o) && (j =? oe_to o))); auto. }
  rewrite P, <- sum_over_plus.
  rewrite (@sum_over_ext _ _ (fun _ => n)).
  - rewrite sum_over_const, seq_length. auto.
  - intros x Hx. apply in_seq in Hx. rewrite <- sum_over_plus. rewrite (@sum_over_ext _ _ (fun _ => 1)).
    + rewrite sum_over_const, seq_length. lia.
    + intros y Hy. apply in_seq in Hy. rewrite E by lia. destruct (may_join g o x y); auto.
Qed.

(** *** The places in which edges are put during [randomize] *)

Lemma good_self n (ent : entmap) P : good n ent P -> good n ent (origs n ent).
Proof. intros G. constructor; try apply G. auto. Qed.

(** The probability of each place. *)
Lemma ws_probability p g o a b : simple_links g -> a < vertex_count g -> b < vertex_count g -> may_join g o a b = true ->
  probability 1 (count (fun ij => may_join g o (fst ij) (snd ij)) (pairs_below (vertex_count g))) (vertex_count g)
    (fun ds => ws_add_random_edge p (g, ds) o) (fun g' => adjb g' a b).
Proof.
  intros H Ha Hb M. set (n := vertex_count g) in *.
  pose proof (@ws_rejections p g o H ltac:(fold n; lia)) as Rj. fold n in Rj.
  set (F := count (fun ij => may_join g o (fst ij) (snd ij)) (pairs_below n)) in *.
  assert (PF : 0 < F).
  { pose proof (@ws_place p g o a b 0 H Ha Hb M) as E0. fold n in E0. change (2 * 1) with 2 in E0.
    cbn [Nat.pow Nat.mul] in E0.
    assert (Lt : count (fun ds => exactly (fun g' => adjb g' a b) (ws_add_random_edge p (g, ds) o)) (rolls (repeat n 2)) +
      count (fun ds => unfinished (ws_add_random_edge p (g, ds) o)) (rolls (repeat n 2)) <= n ^ 2).
    { rewrite <- (rolls_repeat_length n 2). generalize (rolls (repeat n 2)). unfold count.
      induction l as [|x l IH]; cbn [filter length]; auto.
      destruct (ws_add_random_edge p (g, x) o) as [[y [|? ?]]| | |]; cbn [exactly unfinished]; try destruct (adjb y a b); cbn [length]; lia. }
    rewrite E0 in Lt. cbn [Nat.pow] in Lt. lia. }
  apply (@limit_probability _ (fun ds => ws_add_random_edge p (g, ds) o) n 2); auto.
  - intros ds Hds. apply rolls_two in Hds as (x & y & -> & Hx & Hy).
    pose proof (add_step p o H Hx Hy) as St. destruct (may_join g o x y).
    + left. destruct St as (g' & E & _). exists g'. auto.
    + right. auto.
  - intros ds Hd. unfold ws_add_random_edge. destruct ds as [|x [|y ds]]; cbn [length] in Hd; try lia;
      cbn [length ws_find_pair]; unfold gen_range; destruct (Nat.eqb_spec (vertex_count g) 0); try (fold n in e; lia); reflexivity.
  - cbn [Nat.pow]. lia.
  - pose proof (@ws_place p g o a b 0 H Ha Hb M) as E0. fold n in E0. change (2 * 1) with 2 in E0.
    cbn [Nat.pow Nat.mul] in E0. rewrite E0. cbn [Nat.pow]. lia.
Qed.

Lemma vertex_adds p q n g P i rs : shape n g -> good n (ws_entries g) P -> i < n ->
  ws_randomize_vertex p q (g, rs) i = NoFuel \/
  exists g2 l rs2, ws_randomize_vertex p q (g, rs) i = foldM (ws_add_random_edge p) (g2, rs2) l /\
    forall l1 l2 g3 rs3, l = l1 ++ l2 -> foldM (ws_add_random_edge p) (g2, rs2) l1 = Done (g3, rs3) ->
      simple_links g3 /\ vertex_count g3 = n.
Proof.
  intros S G Hi. destruct (container_ws S Hi) as (c & Hc & Ec & Lc).
  rewrite (vertex_unfold p q rs Hc Lc).
  assert (E1 : wc_to c = map fst (ws_entries g i)) by (rewrite Ec, map_fst_combine; auto).
  assert (E2 : wc_original c = map snd (ws_entries g i)) by (rewrite Ec, map_snd_combine; auto).
  pose proof (@pick_runs False q _ (ws_entries g i) [] (le_n _) rs) as R. cbv beta in R.
  replace (foldM (ws_pick q) (wc_to c, wc_original c, [], rs) (rev (seq 0 (length (wc_original c))))) with
    (foldM (ws_pick q) (map fst (ws_entries g i), map snd (ws_entries g i), map snd (@nil (nat * original_edge)), rs)
       (rev (seq 0 (length (ws_entries g i))))).
  2:{ rewrite E1, E2, map_length. reflexivity. }
  destruct (foldM (ws_pick q) _ _) as [[s rs1]| | |]; try tauto.
  right. destruct R as ((l' & rv & -> & Pl & Fr & _) & _). cbn [app bind].
  destruct (vertex_removed S G Hi Hc Pl Fr) as (g2 & Er & S2 & _ & _ & G2 & _). rewrite Er. cbn [bind].
  exists g2, (map snd rv), rs1. split; auto. intros l1 l2 g3 rs3 El E3.
  assert (Hn : 0 < n) by lia.
  pose proof (@add_edges_runs T False p n l1 g2 _ S2 Hn G2 ltac:(tauto)) as R.
  apply (runs_done R) in E3. destruct E3 as (S3 & _ & _ & G3 & _). split; [|apply S3].
  apply (links_good S3 (good_self G3)).
Qed.

Lemma randomize_adds p (e : ws_ensemble T) n d :
  simple_graph (ws_graph e) -> vertex_count (ws_graph e) = n -> ws_distance e = d -> 2 * d < n ->
  exists g0, (forall rs, ws_randomize p e rs =
      do ' (g', rs') <- foldM (ws_randomize_vertex p (ws_rewire_prob e)) (g0, rs) (seq 0 n);
      Done (mk_wse g' (ws_rewire_prob e) d, rs')) /\
    forall l1 i l2 rs g rs1, seq 0 n = l1 ++ i :: l2 ->
      foldM (ws_randomize_vertex p (ws_rewire_prob e)) (g0, rs) l1 = Done (g, rs1) ->
      ws_randomize_vertex p (ws_rewire_prob e) (g, rs1) i = NoFuel \/
      exists g2 l rs2,
        ws_randomize_vertex p (ws_rewire_prob e) (g, rs1) i = foldM (ws_add_random_edge p) (g2, rs2) l /\
        forall l3 l4 g3 rs3, l = l3 ++ l4 -> foldM (ws_add_random_edge p) (g2, rs2) l3 = Done (g3, rs3) ->
          simple_links g3 /\ vertex_count g3 = n.
Proof.
  intros W V D Hd. rewrite <- V in Hd. destruct (ws_ring p W Hd) as (g & E & S & P & C & G & Or & Len).
  rewrite V in *. exists g. split.
  - intros rs. unfold ws_randomize. rewrite D, E. cbn [bind unwrap]. pose proof S as (_ & -> & _). reflexivity.
  - intros l1 i l2 rs g1 rs1 El E1.
    assert (Hl : forall x, In x (l1 ++ i :: l2) -> x < n) by (intros x; rewrite <- El, in_seq; lia).
    pose proof (@loop_runs T False p (ws_rewire_prob e) n (ring_both n d) l1 g S G
      (fun x Hx => Hl x (in_or_app _ _ _ (or_introl Hx))) ltac:(tauto)) as R.
    apply (runs_done R) in E1. destruct E1 as (S1 & _ & _ & G1 & _).
    apply (vertex_adds p (ws_rewire_prob e) rs1 S1 G1). apply Hl. apply in_app_iff. simpl. auto.
Qed.
End Model.
