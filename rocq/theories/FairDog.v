(** The further edges of a special vertex of the dog ensemble. *)
From Verif Require Import Base BaseFacts Sums Containers ContainerSpec ContainerFacts Graph GraphSpec GraphFacts GraphOps
  Rng RngFacts Runs ConfigFacts BaFacts Spacial SpacialSpec SpacialFacts Dog DogSpec DogFacts UniformSpec UniformFacts
  ConfigRounds SwitchStep SurelySpec SurelyFacts FairSpec FairFacts.
From Coq Require Import QArith.
Set Implicit Arguments.
Unset Strict Implicit.
Local Open Scope nat_scope.

Section Model.
Context {T : Type}.
Implicit Types g : sgraph T.

(** ** Ending *)

Lemma try_swift h p node sum g : simple_graph g -> node < vertex_count g -> 0 < h ->
  swift h 2 (fun r => match r with
    | inl g' => g' = g
    | inr g' => exists k, dog_target g node k /\ add_edge p g node k = Done (Ok tt, g')
    end) (dog_try p node sum g).
Proof.
  intros W Hn Hh. apply (@swift_post h _ False (fun _ => True) _ _ _ (@dog_try_runs T False p node sum g W Hn)).
  unfold dog_try.
  apply (@swift_bind h _ _ (fun k => k < vertex_count g) _ (gen_range (vertex_count g))
    (fun index rs1 => do d <- expect (degree g index);
       if index =? node then Done (inl g, rs1)
       else do ' (u, rs2) <- gen_f64 rs1;
         if dog_degree_test d sum u then
           do ' (r, g') <- add_edge p g node index;
           match r with Ok _ => Done (inr g', rs2) | Err _ => Done (inl g', rs2) end
         else Done (inl g, rs2)) 1 1).
  { apply swift_gen_range; auto. lia. }
  intros k Hk. rewrite (degree_spec k W). destruct (Nat.ltb_spec k (vertex_count g)); [|lia]. cbn [expect bind].
  destruct (Nat.eqb_spec k node) as [|Nk]; [apply swift_ret; auto|].
  apply (@swift_bind h _ _ (fun u => True) _ gen_f64
    (fun u rs2 => if dog_degree_test (length (nbrs g k)) sum u then
           do ' (r, g') <- add_edge p g node k;
           match r with Ok _ => Done (inr g', rs2) | Err _ => Done (inl g', rs2) end
         else Done (inl g, rs2)) 1 0).
  { apply (@swift_bind h _ _ (fun _ => True) _ draw (fun r t => Done (unit_float r, t)) 1 0).
    - apply swift_draw; auto.
    - intros. apply swift_ret. auto. }
  intros u _. destruct (dog_degree_test _ _ _) eqn:Et; [|apply swift_ret; auto].
  destruct (adj_dec g node k) as [A|A].
  - rewrite (add_edge_present p W A). cbn [bind]. apply swift_ret. auto.
  - destruct (@add_edge_absent _ _ _ _ p g node k W) as (g' & E & _); auto.
    rewrite E. cbn [bind]. apply swift_ret. auto.
Qed.

Lemma edge_swift h p node g sum : simple_graph g -> node < vertex_count g -> sum = 2 * edge_count g ->
  (exists k, dog_target g node k) -> vertex_count g <= h ->
  swift h 4 (fun _ => True) (fun rs => dog_edge p node ((g, sum), rs)).
Proof.
  intros W Hn Hs (k & Tk) Hh. unfold dog_edge.
  apply (@swift_bind h _ _ (fun g' => exists k, dog_target g node k /\ add_edge p g node k = Done (Ok tt, g')) _
    (fun rs => loop (S (length rs)) (dog_try p node sum) g rs) (fun g' rs1 => Done ((g', sum + 2), rs1)) 4 0).
  - apply (@swift_loop h _ _ (dog_try p node sum) (fun g' => g' = g) _ 2 2); auto.
    + intros s ->. apply try_swift; auto. lia.
    + intros s rs s' rs1 _. apply dog_try_uses.
    + intros s ->. pose proof Tk as (Hk & Nk & Ak & Dk).
      destruct (@add_edge_absent _ _ _ _ p g node k W) as (g' & E & _); auto.
      exists [k; 0], g'. splits; auto; [repeat first [apply Forall_cons; [lia|]|apply Forall_nil]|eauto|].
      intros rest. cbn [app length loop]. unfold dog_try at 1.
      rewrite gen_range_small by auto. cbn [bind]. rewrite (degree_spec k W).
      destruct (Nat.ltb_spec k (vertex_count g)); [|lia]. cbn [expect bind].
      destruct (Nat.eqb_spec k node); [congruence|]. cbn [gen_f64 draw bind].
      rewrite dog_test_pos.
      * rewrite E. reflexivity.
      * destruct (nbrs g k); [congruence|cbn; lia].
      * pose proof (nonempty_edges W Dk). lia.
  - intros g' H. apply swift_ret. auto.
Qed.

Lemma edges_swift h p node g m : simple_graph g -> node < vertex_count g -> vertex_count g <= h ->
  (exists l, NoDup l /\ m <= length l /\ forall k, In k l -> dog_target g node k) ->
  swift h (m * 4) (fun _ => True)
    (fun rs => foldM (fun s _ => dog_edge p node s) ((g, 2 * edge_count g), rs) (seq 0 m)).
Proof.
  intros W Hn Hh (tl & ND & Ll & Ht).
  set (I := fun (seen : list nat) (s : sgraph T * nat) (_ : list nat) =>
    snd s = 2 * edge_count (fst s) /\ exists new, length new = length seen /\ dog_grown g node new (fst s)).
  eapply swift_weaken; [intros s _; exact Logic.I| |
    apply (@swift_foldM_along h _ _ I (fun s _ => dog_edge p node s) 4 (seq 0 m) [] (g, 2 * edge_count g))].
  - rewrite seq_length. auto.
  - intros l x l' [g1 s1] El (H1 & new & H2 & H3). cbn [fst snd] in *. cbn [app] in El.
    assert (Lm : S (length l) <= m).
    { apply (f_equal (@length nat)) in El. rewrite seq_length, app_length in El. cbn in El. lia. }
    assert (W1 : simple_graph g1) by apply H3.
    assert (Hn1 : node < vertex_count g1) by (rewrite (dg_count H3); auto).
    eapply swift_post; [|apply (@edge_swift h p node g1 s1); auto].
    + eapply runs_weaken; [|apply (@dog_edge_runs T p node g1 s1); auto].
      intros [g2 s2] (E2 & k & Tk & Ek). cbn [fst snd] in *.
      pose proof (dog_grown_add Hn H3 Tk Ek) as G2. split; cbn [fst snd].
      * rewrite E2, (dg_edges G2), H1, (dg_edges H3), app_length. cbn. lia.
      * exists (new ++ [k]). rewrite !app_length. cbn. split; auto.
    + destruct (@pick_new tl new ND) as (k & Ik & Nk); [lia|].
      exists k. apply (dog_grown_target k Hn H3). auto.
    + rewrite (dg_count H3). auto.
  - split; auto. exists []. split; auto. apply dog_grown_start; auto.
Qed.

(** ** One round *)

Section Round.
Variables (p : profile) (node : nat) (g : sgraph T) (M : nat).
Hypothesis W : simple_graph g.
Hypothesis Hn : node < vertex_count g.
Hypothesis HM : Z.of_nat M = 9007199254740992%Z.
Let n := vertex_count g.
Let s := 2 * edge_count g.
Let h := M * n.
Let f := fun rs => dog_edge p node ((g, s), rs).
Let pass (x u : nat) := dog_degree_test (length (nbrs g (Nat.modulo x n))) s (unit_float u).

Lemma M_pos : 0 < M. Proof using All. lia. Qed.
Lemma n_pos : 0 < n. Proof using All. unfold n. lia. Qed.
Lemma h_pos : 0 < h. Proof using All. unfold h. pose proof M_pos. pose proof n_pos. nia. Qed.

Lemma fuel_irrelevant k rs : length rs < k ->
  loop k (dog_try p node s) g rs = loop (S (length rs)) (dog_try p node s) g rs.
Proof using All.
  intros Hk. apply (@loop_fuel False _ _ (dog_try p node s) (fun g' => g' = g) (fun g' => exists k, dog_target g node k /\ add_edge p g node k = Done (Ok tt, g'))); auto.
  - intros t ->. apply dog_try_runs; auto.
  - intros t r t' r1 _. apply dog_try_uses.
Qed.

Lemma round_self x rest : Nat.modulo x n = node -> f (x :: rest) = f rest.
Proof using All.
  intros E. unfold f, dog_edge. cbn [length].
  change (loop (S (S (length rest))) (dog_try p node s) g (x :: rest)) with
    (do ' (r, rs1) <- dog_try p node s g (x :: rest);
     match r with inl s' => loop (S (length rest)) (dog_try p node s) s' rs1 | inr y => Done (y, rs1) end).
  unfold dog_try at 1. rewrite gen_range_cons by apply n_pos. fold n. cbn [bind]. rewrite E, (degree_spec node W).
  destruct (Nat.ltb_spec node (vertex_count g)); [|lia]. cbn [expect bind]. rewrite Nat.eqb_refl. reflexivity.
Qed.

Lemma round_two x u : Nat.modulo x n <> node ->
  if pass x u && negb (adjb g node (Nat.modulo x n)) then
    exists g', (forall rest, f (x :: u :: rest) = Done ((g', s + 2), rest)) /\
      nbrs g' node = nbrs g node ++ [Nat.modulo x n]
  else forall rest, f (x :: u :: rest) = f rest.
Proof using All.
  intros Nx. assert (Hx : Nat.modulo x n < n) by (apply Nat.mod_upper_bound; pose proof n_pos; lia).
  assert (U : forall rest, loop (S (S (S (length rest)))) (dog_try p node s) g (x :: u :: rest) =
    do ' (r, rs1) <- dog_try p node s g (x :: u :: rest);
    match r with inl s' => loop (S (S (length rest))) (dog_try p node s) s' rs1 | inr y => Done (y, rs1) end) by reflexivity.
  assert (D : forall rest, dog_try p node s g (x :: u :: rest) =
    if pass x u then
      do ' (r, g') <- add_edge p g node (Nat.modulo x n);
      match r with Ok _ => Done (inr g', rest) | Err _ => Done (inl g', rest) end
    else Done (inl g, rest)).
  { intros rest. unfold dog_try. rewrite gen_range_cons by apply n_pos. fold n. cbn [bind].
    rewrite (degree_spec _ W). rewrite (proj2 (Nat.ltb_lt (Nat.modulo x n) (vertex_count g)) Hx). cbn [expect bind].
    destruct (Nat.eqb_spec (Nat.modulo x n) node); [congruence|]. cbn [gen_f64 draw bind]. reflexivity. }
  destruct (pass x u) eqn:Ep; cbn [andb].
  - destruct (adjb g node (Nat.modulo x n)) eqn:Ea; cbn [negb].
    + intros rest. unfold f, dog_edge. cbn [length]. rewrite U, D, (add_edge_present p W (proj1 (adjb_adj _ _ _) Ea)).
      cbn [bind]. rewrite fuel_irrelevant by lia. reflexivity.
    + destruct (@add_edge_absent _ _ _ _ p g node (Nat.modulo x n) W) as (g' & E & _ & _ & _ & _ & N); auto.
      { intros A. apply adjb_adj in A. congruence. }
      exists g'. split.
      * intros rest. unfold f, dog_edge. cbn [length]. rewrite U, D, E. reflexivity.
      * rewrite N, Nat.eqb_refl. auto.
  - intros rest. unfold f, dog_edge. cbn [length]. rewrite U, D. cbn [bind]. rewrite fuel_irrelevant by lia. reflexivity.
Qed.

Lemma round_none : f [] = NoFuel.
Proof using All.
  unfold f, dog_edge. cbn [length loop]. unfold dog_try, gen_range. destruct (Nat.eqb_spec (vertex_count g) 0); [lia|]. reflexivity.
Qed.

Lemma round_half x : Nat.modulo x n <> node -> f [x] = NoFuel.
Proof using All.
  intros Nx. assert (Hx : Nat.modulo x n < n) by (apply Nat.mod_upper_bound; pose proof n_pos; lia).
  unfold f, dog_edge. cbn [length loop]. unfold dog_try at 1. rewrite gen_range_cons by apply n_pos. fold n. cbn [bind].
  rewrite (degree_spec _ W). rewrite (proj2 (Nat.ltb_lt (Nat.modulo x n) (vertex_count g)) Hx). cbn [expect bind].
  destruct (Nat.eqb_spec (Nat.modulo x n) node); [congruence|]. reflexivity.
Qed.

(** ** Counting *)

Lemma pass_spec d u : 0 < s -> u < M -> dog_degree_test d s (unit_float u) = (u * s <? M * d).
Proof using All.
  intros Ps Hu. unfold dog_degree_test. destruct s as [|k] eqn:Es; [lia|].
  unfold unit_float. rewrite Z.mod_small by lia.
  apply eq_true_iff_eq. rewrite negb_true_iff, <- not_true_iff_false, Qle_bool_iff, Nat.ltb_lt. unfold Qle. cbn [Qnum Qden].
  rewrite Zpos_P_of_succ_nat, Nat2Z.inj_lt, !Nat2Z.inj_mul, HM, Nat2Z.inj_succ. lia.
Qed.

Lemma count_below c m : count (fun u => u <? c) (seq 0 m) = Nat.min c m.
Proof.
  unfold count. induction m as [|m IH]; [cbn; lia|]. rewrite seq_S, filter_app, app_length, IH. cbn [filter plus].
  destruct (Nat.ltb_spec m c); cbn [length]; lia.
Qed.

Lemma pass_count d : 0 < s -> d <= s -> count (fun u => dog_degree_test d s (unit_float u)) (seq 0 M) = floats_below M d s.
Proof using All.
  intros Ps Hd. unfold floats_below. set (c := (M * d + (s - 1)) / s).
  pose proof (Nat.div_mod (M * d + (s - 1)) s ltac:(lia)) as E. fold c in E.
  pose proof (Nat.mod_upper_bound (M * d + (s - 1)) s ltac:(lia)) as B. set (r := Nat.modulo (M * d + (s - 1)) s) in *.
  transitivity (count (fun u => u <? c) (seq 0 M)).
  - unfold count. f_equal. apply filter_ext_in. intros u Hu. apply in_seq in Hu. rewrite pass_spec by lia.
    clearbody c r. destruct (Nat.ltb_spec (u * s) (M * d)), (Nat.ltb_spec u c); auto; exfalso; nia.
  - rewrite count_below. clearbody c r. nia.
Qed.

(** Sums over draws. *)
Lemma sum_low (F : nat -> nat) : sum_over (fun x => F (Nat.modulo x n)) (seq 0 h) = M * sum_over F (seq 0 n).
Proof using All. apply sum_mod. apply n_pos. Qed.

Lemma unit_float_mod u : unit_float (Nat.modulo u M) = unit_float u.
Proof using All.
  unfold unit_float. f_equal. rewrite Nat2Z.inj_mod, HM. apply Z.mod_mod. lia.
Qed.

Lemma sum_float (t : Q -> bool) :
  sum_over (fun u => if t (unit_float u) then 1 else 0) (seq 0 h) = n * count (fun u => t (unit_float u)) (seq 0 M).
Proof using All.
  rewrite (@sum_over_ext _ _ (fun u => (fun v => if t (unit_float v) then 1 else 0) (Nat.modulo u M))).
  2:{ intros u _. cbv beta. rewrite unit_float_mod. auto. }
  unfold h. rewrite (Nat.mul_comm M n), (sum_mod (fun v => if t (unit_float v) then 1 else 0)) by apply M_pos.
  unfold count. rewrite length_filter_sum. auto.
Qed.

Let c k := floats_below M (length (nbrs g k)) s.
Let weight k := if (k =? node) || adjb g node k then 0 else c k.

Lemma degree_low k : length (nbrs g k) <= s.
Proof using All.
  destruct (Nat.lt_ge_cases k (vertex_count g)) as [Hk|Hk].
  - unfold s. rewrite <- (simple_degsum W). unfold degsum.
    assert (I : In k (seq 0 (vertex_count g))) by (apply in_seq; lia).
    apply in_split in I as (l1 & l2 & ->). rewrite sum_over_app, sum_over_cons. lia.
  - destruct (nbrs g k) as [|y l] eqn:E; [cbn; lia|]. exfalso.
    assert (A : adj g k y) by (unfold adj; rewrite E; simpl; auto). pose proof (proj1 (adj_lt W A)). lia.
Qed.

Lemma count_pass x : 0 < s -> count (pass x) (seq 0 h) = n * c (Nat.modulo x n).
Proof using All.
  intros Ps. unfold c. rewrite <- pass_count by (auto; apply degree_low).
  rewrite <- (sum_float (fun q => dog_degree_test (length (nbrs g (Nat.modulo x n))) s q)).
  unfold count. rewrite length_filter_sum. reflexivity.
Qed.

Let again x := Nat.modulo x n =? node.

Lemma again_count : count again (seq 0 h) = M.
Proof using All.
  transitivity (sum_over (fun x => (fun k => if k =? node then 1 else 0) (Nat.modulo x n)) (seq 0 h)); [apply length_filter_sum|].
  rewrite (sum_low (fun k => if k =? node then 1 else 0)).
  replace (sum_over _ (seq 0 n)) with (count (Nat.eqb node) (seq 0 n)).
  - rewrite (@count_unique _ _ _ node); [lia|apply seq_NoDup|apply in_seq; unfold n; lia|apply Nat.eqb_refl|].
    intros y _ E. apply Nat.eqb_eq in E. auto.
  - unfold count. rewrite length_filter_sum. apply sum_over_ext. intros k _. rewrite Nat.eqb_sym. auto.
Qed.

Lemma unfinished_pass x u : Nat.modulo x n <> node ->
  unfinished (f [x; u]) = negb (pass x u && negb (adjb g node (Nat.modulo x n))).
Proof using All.
  intros Nx. pose proof (@round_two x u Nx) as R. destruct (_ && _).
  - destruct R as (g' & E & _). rewrite E. auto.
  - rewrite R, round_none. auto.
Qed.

Lemma exactly_pass j x u : ~ adj g node j ->
  exactly (fun st => adjb (fst st) node j) (f [x; u]) =
  negb (again x) && (pass x u && negb (adjb g node (Nat.modulo x n)) && (Nat.modulo x n =? j)).
Proof using All.
  intros Na. unfold again. destruct (Nat.eqb_spec (Nat.modulo x n) node) as [E|Nx]; cbn [negb andb].
  - rewrite round_self by auto. destruct (Nat.eq_dec (Nat.modulo u n) node) as [Eu|Nu].
    + rewrite round_self, round_none by auto. auto.
    + rewrite round_half by auto. auto.
  - pose proof (@round_two x u Nx) as R. destruct (pass x u && negb (adjb g node (Nat.modulo x n))); cbn [andb].
    + destruct R as (g' & E & N). rewrite E. cbn [exactly fst]. unfold adjb. rewrite N, existsb_app. cbn [existsb].
      replace (existsb (Nat.eqb j) (nbrs g node)) with false.
      * cbn [orb]. rewrite orb_false_r. apply Nat.eqb_sym.
      * symmetry. apply not_true_iff_false. intros X. apply Na. apply adjb_adj. auto.
    + rewrite R, round_none. auto.
Qed.

Lemma dog_hits j : 0 < s -> j < n -> j <> node -> ~ adj g node j ->
  count (fun ds => exactly (fun st => adjb (fst st) node j) (f ds)) (rolls [h; h]) = M * n * c j.
Proof using All.
  intros Ps Hj Nj Na. unfold count. rewrite length_filter_sum. cbn [rolls]. rewrite sum_over_flat_map.
  rewrite (@sum_over_ext _ _ (fun x => (fun k => if k =? j then n * c j else 0) (Nat.modulo x n))).
  - rewrite (sum_low (fun k => if k =? j then n * c j else 0)).
    rewrite (@sum_over_ext _ _ (fun k => n * c j * (if j =? k then 1 else 0))).
    + rewrite sum_over_mul.
      replace (sum_over _ (seq 0 n)) with 1; [lia|]. symmetry.
      transitivity (count (Nat.eqb j) (seq 0 n)).
      * unfold count. rewrite length_filter_sum. auto.
      * apply (@count_unique _ _ _ j); [apply seq_NoDup|apply in_seq; lia|apply Nat.eqb_refl|].
        intros y _ E. apply Nat.eqb_eq in E. auto.
    + intros k _. rewrite (Nat.eqb_sym k j). destruct (j =? k); lia.
  - intros x _. rewrite sum_over_map, sum_over_flat_map.
    rewrite (@sum_over_ext _ _ (fun u => if pass x u && (Nat.modulo x n =? j) then 1 else 0)).
    + cbv beta. destruct (Nat.eqb_spec (Nat.modulo x n) j) as [E|].
      * rewrite <- E, <- count_pass by auto. unfold count. rewrite length_filter_sum. apply sum_over_ext.
        intros u _. rewrite andb_true_r. auto.
      * apply sum_over_zero. intros u _. rewrite andb_false_r. auto.
    + intros u _. rewrite sum_over_map, sum_over_one, exactly_pass by auto.
      destruct (Nat.eqb_spec (Nat.modulo x n) j) as [E|]; [|rewrite !andb_false_r; auto].
      rewrite !andb_true_r. unfold again. rewrite E.
      destruct (Nat.eqb_spec j node); [congruence|]. cbn [negb andb].
      destruct (adjb g node j) eqn:Ea; [apply adjb_adj in Ea; tauto|]. rewrite andb_true_r. auto.
Qed.

Lemma dog_retries : 0 < s ->
  sum_over (fun x => if again x then 0 else count (fun u => unfinished (f [x; u])) (seq 0 h)) (seq 0 h) +
  M * h + M * n * sum_over weight (seq 0 n) = h * h.
Proof using All.
  intros Ps.
  assert (L : forall k, k < n -> n * c k <= h).
  { intros k _. unfold h, c, floats_below. pose proof (degree_low k) as D. pose proof M_pos.
    assert ((M * length (nbrs g k) + (s - 1)) / s <= M); [|nia].
    assert (s <> 0) by lia. apply Nat.lt_succ_r. apply Nat.div_lt_upper_bound; auto. nia. }
  rewrite (@sum_over_ext _ _ (fun x => (fun k => if k =? node then 0 else if adjb g node k then h else h - n * c k) (Nat.modulo x n))).
  2:{ intros x _. cbv beta. unfold again. destruct (Nat.eqb_spec (Nat.modulo x n) node) as [|Nx]; auto.
      destruct (adjb g node (Nat.modulo x n)) eqn:Ea.
      - transitivity (length (seq 0 h)); [|apply seq_length]. unfold count. f_equal. apply filter_true. intros u _.
        rewrite unfinished_pass, Ea, andb_false_r by auto. auto.
      - rewrite <- count_pass by auto. rewrite <- (seq_length h 0) at 2. 
        transitivity (count (fun u => negb (pass x u)) (seq 0 h)).
        + unfold count. f_equal. apply filter_ext. intros u. rewrite unfinished_pass, Ea, andb_true_r by auto. auto.
        + clear. unfold count. induction (seq 0 h) as [|u l IH]; auto. cbn [filter length].
          assert (length (filter (pass x) l) <= length l) by apply (count_le (pass x) l).
          destruct (pass x u); cbn [negb length]; lia. }
  rewrite (sum_low (fun k => if k =? node then 0 else if adjb g node k then h else h - n * c k)).
  assert (Sp : sum_over (fun k => if k =? node then 0 else if adjb g node k then h else h - n * c k) (seq 0 n) +
    h + n * sum_over weight (seq 0 n) = n * h).
  { assert (Hs : sum_over (fun k => if node =? k then h else 0) (seq 0 n) = h).
    { rewrite (@sum_over_ext _ _ (fun k => h * (if node =? k then 1 else 0))) by (intros k _; destruct (node =? k); lia).
      rewrite sum_over_mul. replace (sum_over _ (seq 0 n)) with 1; [lia|]. symmetry.
      transitivity (count (Nat.eqb node) (seq 0 n)).
      - unfold count. rewrite length_filter_sum. auto.
      - apply (@count_unique _ _ _ node); [apply seq_NoDup|apply in_seq; unfold n; lia|apply Nat.eqb_refl|].
        intros y _ E. apply Nat.eqb_eq in E. auto. }
    transitivity (sum_over (fun k => if k =? node then 0 else if adjb g node k then h else h - n * c k) (seq 0 n) +
      sum_over (fun k => if node =? k then h else 0) (seq 0 n) + sum_over (fun k => n * weight k) (seq 0 n)).
    { rewrite Hs, sum_over_mul. auto. }
    rewrite <- !sum_over_plus.
    rewrite (@sum_over_ext _ _ (fun _ => h)).
    - rewrite <- (seq_length n 0) at 2. generalize (seq 0 n). intros l. induction l as [|y l IH]; auto.
      rewrite sum_over_cons, IH. cbn [length]. lia.
    - intros k Hk. apply in_seq in Hk. pose proof (L k ltac:(lia)). unfold weight. rewrite (Nat.eqb_sym node k).
      destruct (k =? node); cbn [orb]; [lia|]. destruct (adjb g node k); lia. }
  assert (Eh : h * h = M * (n * h)) by (unfold h; lia).
  rewrite Eh, <- Sp. lia.
Qed.

Lemma dog_probability j : dog_target g node j ->
  probability (c j) (sum_over weight (seq 0 n)) h f (fun st => adjb (fst st) node j).
Proof using All.
  intros Tj. pose proof Tj as (Hj & Nj & Na & Dj). fold n in Hj.
  assert (Ps : 0 < s) by (unfold s; pose proof (nonempty_edges W Dj); lia).
  pose proof h_pos as Ph.
  assert (Pc : 0 < c j).
  { unfold c, floats_below. apply Nat.div_str_pos. pose proof M_pos.
    assert (0 < length (nbrs g j)) by (destruct (nbrs g j); [congruence|cbn; lia]). nia. }
  apply (@two_probability _ f h again).
  - intros x _ E rest. apply round_self. apply Nat.eqb_eq. auto.
  - intros x u _ _ E. apply Nat.eqb_neq in E. pose proof (@round_two x u E) as R. destruct (_ && _).
    + left. destruct R as (g' & R & _). eauto.
    + right. auto.
  - apply round_none.
  - intros x _ E. apply round_half. apply Nat.eqb_neq. auto.
  - assert (I : In j (seq 0 n)) by (apply in_seq; lia).
    apply in_split in I as (l1 & l2 & ->). rewrite sum_over_app, sum_over_cons. unfold weight at 2.
    destruct (Nat.eqb_spec j node); [congruence|]. destruct (adjb g node j) eqn:Ea; [apply adjb_adj in Ea; tauto|].
    cbn [orb]. lia.
  - eapply swift_surely; [exact Ph|]. apply (@edge_swift h p node g s); eauto.
    unfold h. fold n. pose proof M_pos. nia.
  - rewrite again_count, dog_hits by auto. pose proof (dog_retries Ps) as E.
    set (R := sum_over (fun x => if again x then 0 else _) (seq 0 h)) in *.
    set (Y := sum_over weight (seq 0 n)) in *. rewrite <- E. clearbody R Y. 
    generalize (c j) M n h. intros. nia.
Qed.

End Round.
End Model.
