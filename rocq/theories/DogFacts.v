(** Proofs about Latin hypercube sampling and the dog ensemble. *)
From Verif Require Import Base BaseFacts Sums Containers ContainerSpec ContainerFacts Graph GraphSpec GraphFacts GraphOps
  Rng RngFacts Runs ErC ErCFacts ConfigFacts BaFacts Spacial SpacialSpec SpacialFacts Dog DogSpec.
From Coq Require Import QArith Qround Lqa.
Set Implicit Arguments.
Unset Strict Implicit.
Local Open Scope nat_scope.

(** ** Latin hypercube sampling *)

Lemma lhs_next_nil ys rs : lhs_next (mk_lhs [] ys) rs = Done (None, mk_lhs [] ys, rs).
Proof. reflexivity. Qed.

Lemma lhs_next_cons l a b rs : 0 < length (lhs_x l) -> length (lhs_y l) = length (lhs_x l) ->
  exists x y l', lhs_next l (a :: b :: rs) = Done (Some (x, y), l', rs) /\
    nth_error (lhs_x l) (a mod length (lhs_x l)) = Some x /\
    nth_error (lhs_y l) (b mod length (lhs_x l)) = Some y /\
    swap_remove (lhs_x l) (a mod length (lhs_x l)) = Done (lhs_x l') /\
    swap_remove (lhs_y l) (b mod length (lhs_x l)) = Done (lhs_y l') /\
    Permutation (lhs_x l) (x :: lhs_x l') /\ Permutation (lhs_y l) (y :: lhs_y l').
Proof.
  intros Hp El. unfold lhs_next. destruct l as [xs ys]. cbn [lhs_x lhs_y] in *.
  assert (Ha : a mod length xs < length xs) by (apply Nat.mod_upper_bound; lia).
  assert (Hb : b mod length xs < length ys) by (rewrite El; apply Nat.mod_upper_bound; lia).
  destruct (vget_lt xs Ha) as [x Ex]. destruct (vget_lt ys Hb) as [y Ey].
  destruct (swap_remove_spec _ _ Ex) as (xs' & Sx & Px). destruct (swap_remove_spec _ _ Ey) as (ys' & Sy & Py).
  exists x, y, (mk_lhs xs' ys'). cbn [lhs_x lhs_y]. splits; auto.
  destruct xs as [|x0 xs0] eqn:Exs; [cbn in Hp; lia|]. rewrite <- Exs in *.
  rewrite gen_range_cons by lia. cbn [bind]. rewrite gen_range_cons by lia. cbn [bind].
  unfold vget. rewrite Ex, Ey. cbn [bind]. rewrite Sx. cbn [bind]. rewrite Sy. reflexivity.
Qed.

Lemma lhs_next_short l rs : 0 < length (lhs_x l) -> length rs < 2 -> lhs_next l rs = NoFuel.
Proof.
  intros Hp H. unfold lhs_next. destruct (lhs_x l) as [|x0 xs0] eqn:E; [cbn in Hp; lia|].
  destruct rs as [|a [|b rs]]; [reflexivity|reflexivity|cbn in H; lia].
Qed.

(** The first [k] calls. *)
Lemma lhs_take_spec k : forall l rs, length (lhs_y l) = length (lhs_x l) ->
  2 * Nat.min k (length (lhs_x l)) <= length rs ->
  exists pts l', lhs_take k l rs =
      Done (map Some pts ++ repeat None (k - length (lhs_x l)), l', skipn (2 * Nat.min k (length (lhs_x l))) rs) /\
    length pts = Nat.min k (length (lhs_x l)) /\
    Permutation (lhs_x l) (map fst pts ++ lhs_x l') /\ Permutation (lhs_y l) (map snd pts ++ lhs_y l') /\
    length (lhs_y l') = length (lhs_x l').
Proof.
  induction k as [|k IH]; intros l rs El Len.
  - exists [], l. cbn. splits; auto.
  - destruct (Nat.eq_dec (length (lhs_x l)) 0) as [Z|NZ].
    + destruct l as [[|] ys]; [|discriminate]. cbn [lhs_x lhs_y length] in *.
      destruct (IH (mk_lhs [] ys) rs) as (pts & l' & E & Lp & Px & Py & El'); auto.
      { cbn [lhs_x length]. lia. }
      cbn [lhs_x lhs_y length] in *. rewrite Nat.min_0_r in *. destruct pts; [|discriminate].
      exists [], l'. cbn [lhs_take]. rewrite lhs_next_nil. cbn [bind]. rewrite E. cbn [bind].
      splits; auto. rewrite !Nat.sub_0_r. reflexivity.
    + destruct rs as [|a [|b rs]]; [cbn [length] in Len; lia|cbn [length] in Len; lia|].
      destruct (@lhs_next_cons l a b rs) as (x & y & l1 & E1 & _ & _ & Sx & Sy & Px & Py); auto; [lia|].
      pose proof (swap_remove_length _ _ Sx) as Lx. pose proof (swap_remove_length _ _ Sy) as Ly.
      destruct (IH l1 rs) as (pts & l' & E & Lp & Px' & Py' & El'); [lia|cbn [length] in Len; lia|].
      exists ((x, y) :: pts), l'. cbn [lhs_take]. rewrite E1. cbn [bind]. rewrite E. cbn [bind].
      rewrite Lx. cbn [Nat.sub Nat.min length map app fst snd].
      replace (2 * S (Nat.min k (length (lhs_x l1)))) with (S (S (2 * Nat.min k (length (lhs_x l1))))) by lia.
      cbn [skipn]. splits; auto; try lia.
      * rewrite Px, Px'. reflexivity.
      * rewrite Py, Py'. reflexivity.
Qed.

Lemma lhs_take_short k : forall l rs, length (lhs_y l) = length (lhs_x l) ->
  length rs < 2 * Nat.min k (length (lhs_x l)) -> lhs_take k l rs = NoFuel.
Proof.
  induction k as [|k IH]; intros l rs El Len; [cbn in Len; lia|].
  assert (NZ : 0 < length (lhs_x l)) by (destruct (length (lhs_x l)); [rewrite Nat.min_0_r in Len|]; lia).
  cbn [lhs_take]. destruct (Nat.lt_ge_cases (length rs) 2) as [H|H].
  - rewrite lhs_next_short by auto. reflexivity.
  - destruct rs as [|a [|b rs]]; [cbn [length] in H; lia|cbn [length] in H; lia|].
    destruct (@lhs_next_cons l a b rs) as (x & y & l1 & E1 & _ & _ & Sx & Sy & _); auto.
    pose proof (swap_remove_length _ _ Sx) as Lx. pose proof (swap_remove_length _ _ Sy) as Ly.
    rewrite E1. cbn [bind]. rewrite IH; [reflexivity|lia|cbn [length] in Len; lia].
Qed.

(** Every pair of orders can be drawn. *)
Lemma lhs_take_reach pts : forall l, length (lhs_y l) = length (lhs_x l) ->
  Permutation (lhs_x l) (map fst pts) -> Permutation (lhs_y l) (map snd pts) ->
  exists ds, lhs_draws (length pts) (length pts) ds /\
    forall rest, exists l', lhs_take (length pts) l (ds ++ rest) = Done (map Some pts, l', rest).
Proof.
  induction pts as [|[x y] pts IH]; intros l El Px Py; cbn [map fst snd length] in *.
  - exists []. split; [cbn; auto|]. intros rest. exists l. reflexivity.
  - assert (Lx : length (lhs_x l) = S (length pts)) by (rewrite (Permutation_length Px); cbn; rewrite map_length; auto).
    assert (Ix : In x (lhs_x l)) by (apply (Permutation_in _ (Permutation_sym Px)); simpl; auto).
    assert (Iy : In y (lhs_y l)) by (apply (Permutation_in _ (Permutation_sym Py)); simpl; auto).
    apply In_nth_error in Ix as [a Ea]. apply In_nth_error in Iy as [b Eb].
    pose proof (nth_error_lt _ _ Ea) as Ha. pose proof (nth_error_lt _ _ Eb) as Hb.
    destruct (@lhs_next_cons l a b []) as (x' & y' & l1 & _ & Ex & Ey & Sx & Sy & Qx & Qy); auto; [lia|].
    rewrite Nat.mod_small in Ex, Ey, Sx, Sy by lia.
    assert (x' = x) by congruence. assert (y' = y) by congruence. subst x' y'.
    pose proof (swap_remove_length _ _ Sx) as L1. pose proof (swap_remove_length _ _ Sy) as L2.
    destruct (IH l1) as (ds & Hd & H).
    { lia. }
    { apply (Permutation_cons_inv (a := x)). rewrite <- Qx. auto. }
    { apply (Permutation_cons_inv (a := y)). rewrite <- Qy. auto. }
    exists (a :: b :: ds). split.
    { cbn [lhs_draws]. rewrite Nat.sub_0_r || idtac. cbn [Nat.sub]. rewrite Nat.sub_0_r. splits; auto; lia. }
    intros rest. destruct (H rest) as (l' & E). exists l'. cbn [app lhs_take].
    destruct (@lhs_next_cons l a b (ds ++ rest)) as (x' & y' & l1' & E1 & Ex' & Ey' & Sx' & Sy' & _); auto; [lia|].
    rewrite Nat.mod_small in Ex', Ey', Sx', Sy' by lia.
    assert (l1' = l1) by (destruct l1, l1'; cbn in *; congruence). subst l1'.
    rewrite E1. cbn [bind]. rewrite E. cbn [bind map]. congruence.
Qed.

(** Different draws in range give different points. *)
Lemma lhs_take_inj k : forall l ds ds' os l1 rs1 l2 rs2, length (lhs_y l) = length (lhs_x l) ->
  NoDup (lhs_x l) -> NoDup (lhs_y l) ->
  lhs_draws k (length (lhs_x l)) ds -> lhs_draws k (length (lhs_x l)) ds' ->
  lhs_take k l ds = Done (os, l1, rs1) -> lhs_take k l ds' = Done (os, l2, rs2) -> ds = ds'.
Proof.
  induction k as [|k IH]; intros l ds ds' os l1 rs1 l2 rs2 El Nx Ny D D' E E'.
  - destruct ds; [|destruct D]. destruct ds'; [|destruct D']. auto.
  - destruct ds as [|a [|b ds]]; try (destruct D; fail). destruct ds' as [|a' [|b' ds']]; try (destruct D'; fail).
    cbn [lhs_draws] in D, D'. destruct D as (Ha & Hb & D). destruct D' as (Ha' & Hb' & D').
    destruct (@lhs_next_cons l a b ds) as (x & y & m & E1 & Ex & Ey & Sx & Sy & Px & Py); auto; [lia|].
    destruct (@lhs_next_cons l a' b' ds') as (x' & y' & m' & E1' & Ex' & Ey' & Sx' & Sy' & Px' & Py'); auto; [lia|].
    rewrite Nat.mod_small in Ex, Ey, Sx, Sy, Ex', Ey', Sx', Sy' by lia.
    cbn [lhs_take] in E, E'. rewrite E1 in E. rewrite E1' in E'. cbn [bind] in E, E'.
    apply bind_done in E as ([[os1 k1] q1] & Eq & E). apply bind_done in E' as ([[os2 k2] q2] & Eq' & E').
    injection E as <- _ _. injection E' as Exx Eyy Eoo _ _. subst x' y' os2.
    assert (a = a').
    { apply (proj1 (NoDup_nth_error (lhs_x l)) Nx); auto. congruence. }
    assert (b = b').
    { apply (proj1 (NoDup_nth_error (lhs_y l)) Ny); [lia|congruence]. }
    subst a' b'. assert (m' = m) by (destruct m, m'; cbn in *; congruence). subst m'.
    pose proof (swap_remove_length _ _ Sx) as L1. pose proof (swap_remove_length _ _ Sy) as L2.
    rewrite L1 in D, D'. cbn [Nat.sub] in D, D'. rewrite Nat.sub_0_r in D, D'.
    do 2 f_equal. eapply (IH m); eauto; [lia|..].
    + apply (Permutation_NoDup Px) in Nx. apply NoDup_cons_iff in Nx. tauto.
    + apply (Permutation_NoDup Py) in Ny. apply NoDup_cons_iff in Ny. tauto.
Qed.

(** ** The first phase *)

Lemma dog_pairs_In n i j : In (i, j) (dog_pairs n) <-> j < i /\ i < n.
Proof.
  unfold dog_pairs. rewrite in_flat_map. split.
  - intros (x & Hx & H). apply in_map_iff in H as (y & E & Hy). injection E as -> ->.
    apply in_seq in Hx, Hy. lia.
  - intros [H1 H2]. exists i. split; [apply in_seq; lia|]. apply in_map. apply in_seq. lia.
Qed.

Lemma dog_pairs_NoDup n : NoDup (dog_pairs n).
Proof.
  unfold dog_pairs. generalize (seq_NoDup n 0). generalize (seq 0 n). induction l as [|i l IH]; intros N; cbn.
  - constructor.
  - apply NoDup_cons_iff in N as [Ni N]. apply NoDup_app_iff. splits; auto.
    + apply FinFun.Injective_map_NoDup; [intros a b E; congruence|apply seq_NoDup].
    + intros [a b] H1 H2. apply in_map_iff in H1 as (y & E & _). injection E as -> ->.
      apply in_flat_map in H2 as (x & Hx & H2). apply in_map_iff in H2 as (y & E & _).
      injection E as -> ->. auto.
Qed.

Section Facts.
Context {T : Type}.
Implicit Types g : sgraph T.
Implicit Types e : dog T.

Lemma dog_pair_cons p acc g i j r rs : simple_graph g -> j < i -> i < vertex_count g -> ~ adj g i j ->
  exists g1, add_edge p g i j = Done (Ok tt, g1) /\
    dog_pair p acc (g, r :: rs) (i, j) = Done (if accepts acc (positions g) i j r then g1 else g, rs).
Proof.
  intros W Hj Hi H. assert (Hjn : j < vertex_count g) by lia. assert (N : i <> j) by lia.
  destruct (container_lt W Hi) as (ci & Ei & _ & Ii & Ni).
  destruct (container_lt W Hjn) as (cj & Ej & _ & Ij & Nj).
  cbn [ac_id ac_neighbors SpacialContainer] in *.
  assert (K : contains (spc_adj ci) (spc_id cj) = false).
  { apply not_true_iff_false. intros X. apply contains_In in X. apply H.
    unfold adj. rewrite <- Ni, <- Ij. auto. }
  eexists. split.
  - unfold add_edge. rewrite (get_2_mut_ok p W Hi Hjn N Ei Ej). cbn [bind].
    cbn [ac_push SpacialContainer]. unfold spc_push. rewrite K. cbn [bind]. reflexivity.
  - unfold dog_pair. rewrite (get_2_mut_ok p W Hi Hjn N Ei Ej). cbn [bind gen_f64 draw].
    unfold accepts. rewrite (positions_nth Ei), (positions_nth Ej).
    destruct (acc _ _ _); [|reflexivity]. unfold spc_push. rewrite K. reflexivity.
Qed.

Lemma dog_pair_nil p acc g i j : simple_graph g -> j < i -> i < vertex_count g ->
  dog_pair p acc (g, []) (i, j) = NoFuel.
Proof.
  intros W Hj Hi. assert (Hjn : j < vertex_count g) by lia. assert (N : i <> j) by lia.
  destruct (container_lt W Hi) as (ci & Ei & _). destruct (container_lt W Hjn) as (cj & Ej & _).
  unfold dog_pair. rewrite (get_2_mut_ok p W Hi Hjn N Ei Ej). reflexivity.
Qed.

Lemma dog_pairs_loop p acc l : forall g rs,
  simple_graph g -> (forall i j, In (i, j) l -> j < i /\ i < vertex_count g /\ ~ adj g i j) ->
  NoDup l -> length l <= length rs ->
  exists g', foldM (dog_pair p acc) (g, rs) l = Done (g', skipn (length l) rs) /\
    simple_graph g' /\ vertex_count g' = vertex_count g /\ payloads g' = payloads g /\
    positions g' = positions g /\
    (forall x y, adj g' x y <-> adj g x y \/
       exists k i j r, nth_error l k = Some (i, j) /\ nth_error rs k = Some r /\
         accepts acc (positions g) i j r = true /\ is_pair i j x y).
Proof.
  induction l as [|[i j] l IH]; intros g rs W R N Len.
  - exists g. split; [auto|]. split; [auto|]. split; [auto|]. split; [auto|]. split; [auto|].
    intros x y. split; auto. intros [H|(k & i & j & r & H & _)]; auto. destruct k; discriminate.
  - destruct rs as [|r rs]; [simpl in Len; lia|].
    apply NoDup_cons_iff in N as [Nij N].
    destruct (R i j (or_introl eq_refl)) as (Hij & Hj & Hnew).
    cbn [foldM]. destruct (@dog_pair_cons p acc g i j r rs W Hij Hj Hnew) as (g1 & Ea & ->).
    cbn [bind length firstn skipn].
    destruct (accepts acc (positions g) i j r) eqn:Acc.
    + destruct (add_edge_ok W Ea) as (_ & W1 & V1 & C1 & P1 & A1).
      assert (Q1 : positions g1 = positions g) by apply (pos_add_edge W Ea).
      destruct (IH g1 rs) as (g' & E & W' & V' & P' & Q' & A'); auto; try (simpl in Len; lia).
      { intros a b Hab. destruct (R a b (or_intror Hab)) as (X1 & X2 & X3). splits; try lia.
        rewrite A1. intros [Y|[[-> ->]|[-> ->]]]; auto. lia. }
      rewrite Q1 in A'.
      exists g'. split; [auto|]. split; [auto|]. split; [congruence|]. split; [congruence|]. split; [congruence|].
      intros x y. rewrite A', A1. split.
      * intros [[H|H]|(k & a & b & q & H1 & H2 & H3 & H4)]; auto.
        ++ right. exists 0, i, j, r. auto.
        ++ right. exists (S k), a, b, q. auto.
      * intros [H|([|k] & a & b & q & H1 & H2 & H3 & H4)]; auto.
        ++ simpl in H1, H2. injection H1 as <- <-. auto.
        ++ right. exists k, a, b, q. auto.
    + destruct (IH g rs) as (g' & E & W' & V' & P' & Q' & A'); auto; try (simpl in Len; lia).
      { intros a b Hab. apply R. right; auto. }
      exists g'. split; [auto|]. split; [auto|]. split; [congruence|]. split; [congruence|]. split; [congruence|].
      intros x y. rewrite A'. split.
      * intros [H|(k & a & b & q & H1 & H2 & H3 & H4)]; auto.
        right. exists (S k), a, b, q. auto.
      * intros [H|([|k] & a & b & q & H1 & H2 & H3 & H4)]; auto.
        ++ simpl in H1, H2. congruence.
        ++ right. exists k, a, b, q. auto.
Qed.

(** The state after the first phase. *)
Definition dog_first e (rs : rng) g : Prop :=
  simple_graph g /\ vertex_count g = vertex_count (dog_graph e) /\
  payloads g = payloads (dog_graph e) /\ positions g = positions (dog_graph e) /\
  forall k i j r, nth_error (dog_pairs (vertex_count (dog_graph e))) k = Some (i, j) -> nth_error rs k = Some r ->
    (adj g i j <-> dog_accepts e i j r = true).

Lemma dog_first_spec p e rs :
  let l := dog_pairs (vertex_count (dog_graph e)) in
  simple_graph (dog_graph e) -> length l <= length rs ->
  exists g, foldM (dog_pair p (dog_accept e)) (clear_edges (dog_graph e), rs) l = Done (g, skipn (length l) rs) /\
    dog_first e rs g.
Proof.
  intros l W Len. destruct (clear_edges_spec W) as (W0 & V0 & C0 & P0 & N0).
  pose proof (pos_clear_edges W) as Q0. change (positions (clear_edges (dog_graph e)) = positions (dog_graph e)) in Q0.
  destruct (@dog_pairs_loop p (dog_accept e) l (clear_edges (dog_graph e)) rs)
    as (g' & E & W' & V' & P' & Q' & A'); auto.
  { intros i j H. apply dog_pairs_In in H. splits; try (rewrite V0); try tauto.
    unfold adj. rewrite N0. auto. }
  { apply dog_pairs_NoDup. }
  exists g'. split; auto. unfold dog_first.
  split; [auto|]. split; [congruence|]. split; [congruence|]. split; [congruence|].
  intros k i j r Hk Hr. rewrite A'. unfold adj at 1. rewrite N0, Q0.
  change (dog_accepts e i j r) with (accepts (dog_accept e) (positions (dog_graph e)) i j r). split.
  - intros [[]|(k' & a & b & q & H1 & H2 & H3 & H4)].
    pose proof (nth_error_In _ _ Hk) as I1. pose proof (nth_error_In _ _ H1) as I2.
    apply dog_pairs_In in I1, I2.
    assert ((a, b) = (i, j)) as Eab by (destruct H4 as [[-> ->]|[-> ->]]; [auto|lia]).
    assert (k = k').
    { apply (proj1 (NoDup_nth_error l) (dog_pairs_NoDup _)).
      - apply nth_error_Some. unfold l. congruence.
      - unfold l in *. congruence. }
    subst k'. assert (q = r) by congruence. congruence.
  - intros Acc. right. exists k, i, j, r. splits; auto. left; auto.
Qed.

Lemma dog_first_short p e rs :
  simple_graph (dog_graph e) -> length rs < length (dog_pairs (vertex_count (dog_graph e))) ->
  foldM (dog_pair p (dog_accept e)) (clear_edges (dog_graph e), rs)
    (dog_pairs (vertex_count (dog_graph e))) = NoFuel.
Proof.
  intros W Len. destruct (clear_edges_spec W) as (W0 & V0 & C0 & P0 & N0).
  set (l := dog_pairs (vertex_count (dog_graph e))) in *.
  set (a := firstn (length rs) l). set (b := skipn (length rs) l).
  assert (El : l = a ++ b) by (symmetry; apply firstn_skipn).
  destruct (@dog_pairs_loop p (dog_accept e) a (clear_edges (dog_graph e)) rs) as (g' & E & W' & V' & _); auto.
  { intros i j H. assert (In (i, j) l) as H2 by (rewrite El; apply in_app_iff; auto).
    apply dog_pairs_In in H2. splits; try (rewrite V0); try tauto. unfold adj. rewrite N0. auto. }
  { pose proof (dog_pairs_NoDup (vertex_count (dog_graph e))) as ND. fold l in ND. rewrite El in ND.
    apply NoDup_app_iff in ND. tauto. }
  { unfold a. rewrite firstn_length. lia. }
  rewrite El, foldM_app, E. cbn [bind].
  assert (La : length a = length rs) by (unfold a; rewrite firstn_length; lia).
  rewrite skipn_all2 by lia. clearbody b. destruct b as [|[i j] b].
  { exfalso. rewrite app_nil_r in El. rewrite El, La in Len. lia. }
  cbn [foldM]. assert (In (i, j) l) as H2 by (rewrite El; apply in_app_iff; simpl; auto).
  apply dog_pairs_In in H2. rewrite dog_pair_nil; [reflexivity|auto|lia|]. rewrite V', V0. lia.
Qed.

(** ** Further edges *)

Lemma dog_test_zero sum u : (0 <= u)%Q -> dog_degree_test 0 sum u = false.
Proof.
  intros H. unfold dog_degree_test. destruct sum as [|k]; auto. apply negb_false_iff, Qle_bool_iff.
  unfold Qle in *. cbn in *. lia.
Qed.

Lemma dog_test_pos d sum : 0 < d -> 0 < sum -> dog_degree_test d sum (unit_float 0) = true.
Proof.
  intros H K. unfold dog_degree_test. destruct sum as [|k]; [lia|]. apply negb_true_iff, not_true_iff_false.
  rewrite Qle_bool_iff. unfold Qle, unit_float. cbn [Qnum Qden]. rewrite Z.mod_0_l by lia. lia.
Qed.

Lemma dog_try_runs live p node sum g : simple_graph g -> node < vertex_count g ->
  runs live (fun r => match r with
    | inl g' => g' = g
    | inr g' => exists k, dog_target g node k /\ add_edge p g node k = Done (Ok tt, g')
    end) (dog_try p node sum g).
Proof.
  intros W Hn. unfold dog_try.
  apply (@runs_bind live _ _ (fun k => k < vertex_count g) _ (gen_range (vertex_count g))
    (fun index rs1 => do d <- expect (degree g index);
       if index =? node then Done (inl g, rs1)
       else do ' (u, rs2) <- gen_f64 rs1;
         if dog_degree_test d sum u then
           do ' (r, g') <- add_edge p g node index;
           match r with Ok _ => Done (inr g', rs2) | Err _ => Done (inl g', rs2) end
         else Done (inl g, rs2))).
  { apply runs_gen_range. lia. }
  intros k Hk. rewrite (degree_spec k W). destruct (Nat.ltb_spec k (vertex_count g)); [|lia]. cbn [expect bind].
  destruct (Nat.eqb_spec k node) as [|Nk]; [apply runs_ret; auto|].
  apply (@runs_bind live _ _ (fun u => exists r, u = unit_float r) _ gen_f64
    (fun u rs2 => if dog_degree_test (length (nbrs g k)) sum u then
           do ' (r, g') <- add_edge p g node k;
           match r with Ok _ => Done (inr g', rs2) | Err _ => Done (inl g', rs2) end
         else Done (inl g, rs2))); [apply runs_gen_f64|].
  intros u [r ->]. destruct (dog_degree_test _ _ _) eqn:Et; [|apply runs_ret; auto].
  destruct (adj_dec g node k) as [A|A].
  - rewrite (add_edge_present p W A). cbn [bind]. apply runs_ret. auto.
  - destruct (@add_edge_absent _ _ _ _ p g node k W) as (g' & E & _); auto.
    rewrite E. cbn [bind]. apply runs_ret. exists k. split; auto. unfold dog_target. splits; auto.
    intros En. rewrite En in Et. cbn [length] in Et. rewrite dog_test_zero in Et; [discriminate|].
    apply unit_float_range.
Qed.

Lemma dog_try_uses p node sum g rs g' rs' :
  dog_try p node sum g rs = Done (inl g', rs') -> length rs' < length rs.
Proof.
  intros E. unfold dog_try in E. apply bind_done in E as ([k rs1] & E1 & E).
  apply gen_range_done in E1 as (_ & ? & -> & _). apply bind_done in E as (d & _ & E).
  destruct (k =? node); [injection E as <- <-; cbn; lia|].
  apply bind_done in E as ([u rs2] & E2 & E). destruct rs1 as [|q rs1]; [discriminate|].
  cbn in E2. injection E2 as <- <-. destruct (dog_degree_test _ _ _); [|injection E as <- <-; cbn; lia].
  apply bind_done in E as ([[|] g1] & _ & E); [discriminate|]. injection E as <- <-. cbn. lia.
Qed.

Lemma nonempty_edges g k : simple_graph g -> nbrs g k <> [] -> 0 < edge_count g.
Proof.
  intros W N. destruct (Nat.eq_dec (edge_count g) 0) as [Z|]; [|lia]. destruct N. apply no_edges_nbrs; auto.
Qed.

(** One more edge can be made exactly if there is a target for it. *)
Lemma dog_edge_runs p node g sum : simple_graph g -> node < vertex_count g -> sum = 2 * edge_count g ->
  runs (exists k, dog_target g node k)
    (fun s => snd s = sum + 2 /\ exists k, dog_target g node k /\ add_edge p g node k = Done (Ok tt, fst s))
    (fun rs => dog_edge p node ((g, sum), rs)).
Proof.
  intros W Hn Hs. unfold dog_edge.
  apply (@runs_bind _ _ _ (fun g' => exists k, dog_target g node k /\ add_edge p g node k = Done (Ok tt, g')) _
    (fun rs => loop (S (length rs)) (dog_try p node sum) g rs) (fun g' rs1 => Done ((g', sum + 2), rs1))).
  - apply (@runs_loop _ _ _ (dog_try p node sum) (fun g' => g' = g)); auto.
    + intros s ->. apply dog_try_runs; auto.
    + intros s rs s' rs1 _. apply dog_try_uses.
    + intros (k & Tk) s ->. pose proof Tk as (Hk & Nk & Ak & Dk).
      destruct (@add_edge_absent _ _ _ _ p g node k W) as (g' & E & _); auto.
      exists [k; 0], g'. split; [eauto|]. intros rest. cbn [app length loop]. unfold dog_try at 1.
      rewrite gen_range_small by auto. cbn [bind]. rewrite (degree_spec k W).
      destruct (Nat.ltb_spec k (vertex_count g)); [|lia]. cbn [expect bind].
      destruct (Nat.eqb_spec k node); [congruence|]. cbn [gen_f64 draw bind].
      rewrite dog_test_pos.
      * rewrite E. reflexivity.
      * destruct (nbrs g k); [congruence|cbn; lia].
      * pose proof (nonempty_edges W Dk). lia.
  - intros g' H. apply runs_ret. auto.
Qed.

Lemma dog_grown_start g node : simple_graph g -> dog_grown g node [] g.
Proof.
  intros W. constructor; auto.
  - constructor.
  - intros k [].
  - intros x y. split; auto. intros [H|(k & [] & _)]; auto.
Qed.

Lemma dog_grown_target g node new g' k : node < vertex_count g -> dog_grown g node new g' ->
  (dog_target g' node k <-> dog_target g node k /\ ~ In k new).
Proof.
  intros Hn G. unfold dog_target. rewrite (dg_count G), (dg_adj G). split.
  - intros (Hk & Nk & Ak & Dk). assert (Nn : ~ In k new) by (intros I; apply Ak; right; exists k; auto).
    splits; auto. intros En. apply Dk. destruct (nbrs g' k) as [|y t] eqn:Ey; auto. exfalso.
    assert (A : adj g' k y) by (unfold adj; rewrite Ey; simpl; auto).
    apply (dg_adj G) in A as [A|(q & Iq & [[-> _]|[-> _]])]; auto. unfold adj in A. rewrite En in A. destruct A.
  - intros [(Hk & Nk & Ak & Dk) Nn]. splits; auto.
    + intros [A|(q & Iq & [[_ ->]|[-> ->]])]; auto.
    + intros En. apply Dk. destruct (nbrs g k) as [|y t] eqn:Ey; auto. exfalso.
      assert (A : adj g' k y) by (apply (dg_adj G); left; unfold adj; rewrite Ey; simpl; auto).
      unfold adj in A. rewrite En in A. destruct A.
Qed.

Lemma dog_grown_add p g node new g' k g2 : node < vertex_count g -> dog_grown g node new g' ->
  dog_target g' node k -> add_edge p g' node k = Done (Ok tt, g2) -> dog_grown g node (new ++ [k]) g2.
Proof.
  intros Hn G Tk E. destruct (add_edge_ok (dg_simple G) E) as (_ & W2 & V2 & C2 & P2 & A2).
  pose proof (pos_add_edge (dg_simple G) E) as Q2. change (positions g2 = positions g') in Q2.
  apply (dog_grown_target k Hn G) in Tk as [Tk Nk].
  constructor; auto.
  - rewrite V2. apply G.
  - rewrite P2. apply G.
  - rewrite Q2. apply G.
  - rewrite C2, (dg_edges G), app_length. cbn. lia.
  - apply NoDup_app_iff. splits; auto.
    + apply G.
    + repeat constructor; auto.
    + intros x Hx [<-|[]]. auto.
  - intros x Hx. apply in_app_iff in Hx as [Hx|[<-|[]]]; auto. apply (dg_target G). auto.
  - intros x y. rewrite A2, (dg_adj G). unfold is_pair. split.
    + intros [[H|(q & Iq & H)]|H]; auto; right.
      * exists q. split; auto. apply in_app_iff. auto.
      * exists k. split; [apply in_app_iff; simpl; auto|]. tauto.
    + intros [H|(q & Iq & H)]; auto. apply in_app_iff in Iq as [Iq|[<-|[]]].
      * left. right. eauto.
      * right. tauto.
Qed.

(** [m] edges of one vertex. *)
Lemma dog_edges_runs p node g sum m : simple_graph g -> node < vertex_count g -> sum = 2 * edge_count g ->
  runs (exists l, NoDup l /\ m <= length l /\ forall k, In k l -> dog_target g node k)
    (fun s => snd s = 2 * edge_count (fst s) /\ exists new, length new = m /\ dog_grown g node new (fst s))
    (fun rs => foldM (fun s _ => dog_edge p node s) ((g, sum), rs) (seq 0 m)).
Proof.
  intros W Hn Hs.
  set (I := fun (seen : list nat) (s : sgraph T * nat) (_ : list nat) =>
    snd s = 2 * edge_count (fst s) /\ exists new, length new = length seen /\ dog_grown g node new (fst s)).
  eapply runs_weaken; [|apply (@runs_foldM_along _ _ _ I (fun s _ => dog_edge p node s) (seq 0 m) [] (g, sum))].
  - intros s (H1 & new & H2 & H3). split; auto. exists new. rewrite H2. cbn [app]. rewrite seq_length. auto.
  - intros l x l' [g1 s1] El (H1 & new & H2 & H3). cbn [fst snd] in *. cbn [app] in El.
    assert (Lm : S (length l) <= m).
    { apply (f_equal (@length nat)) in El. rewrite seq_length, app_length in El. cbn in El. lia. }
    eapply runs_live; [|eapply runs_weaken; [|apply (@dog_edge_runs p node g1 s1)]].
    + intros (tl & ND & Ll & Ht). destruct (@pick_new tl new ND) as (k & Ik & Nk); [lia|].
      exists k. apply (dog_grown_target k Hn H3). auto.
    + intros [g2 s2] (E2 & k & Tk & Ek). cbn [fst snd] in *.
      pose proof (dog_grown_add Hn H3 Tk Ek) as G2. split; cbn [fst snd].
      * rewrite E2, (dg_edges G2), H1, (dg_edges H3), app_length. cbn. lia.
      * exists (new ++ [k]). rewrite !app_length. cbn. split; auto.
    + apply H3.
    + rewrite (dg_count H3). auto.
    + auto.
  - split; auto. exists []. split; auto. apply dog_grown_start; auto.
Qed.

(** ** All special vertices *)

Definition dog_state (g0 : sgraph T) (special : list nat) (s : sgraph T * nat) : Prop :=
  let g := fst s in
  simple_graph g /\ vertex_count g = vertex_count g0 /\ payloads g = payloads g0 /\ positions g = positions g0 /\
  snd s = 2 * edge_count g /\
  (forall x y, adj g0 x y -> adj g x y) /\
  (forall x y, adj g x y -> adj g0 x y \/ In x special \/ In y special).

Lemma dog_node_runs p g0 special s node : dog_state g0 special s -> In node special ->
  (forall x, In x special -> x < vertex_count g0) ->
  runs False (dog_state g0 special) (fun rs => dog_node p (s, rs) node).
Proof.
  intros (W & V & P & Q & Sm & A1 & A2) In0 Hs. destruct s as [g sum]. cbn [fst snd] in *. unfold dog_node.
  apply (@runs_bind _ _ _ (fun _ => True) _ draw
    (fun m rs1 => foldM (fun s _ => dog_edge p node s) ((g, sum), rs1) (seq 0 m))); [apply runs_draw|].
  intros m _. eapply runs_live; [intros []|]. eapply runs_weaken; [|apply dog_edges_runs; auto].
  2:{ rewrite V. auto. }
  intros [g2 s2] (H1 & new & H2 & G). cbn [fst snd] in *. unfold dog_state. cbn [fst snd].
  split; [apply G|]. split; [rewrite (dg_count G); auto|]. split; [rewrite (dg_payloads G); auto|].
  split; [rewrite (dg_positions G); auto|]. split; [auto|]. split.
  - intros x y H. apply (dg_adj G). auto.
  - intros x y H. apply (dg_adj G) in H as [H|(k & Ik & [[-> ->]|[-> ->]])]; auto.
Qed.

(** ** [randomize] *)

Definition dog_good e : Prop :=
  0 < vertex_count (dog_graph e) /\ 0 < dog_lambda e /\
  dog_special (vertex_count (dog_graph e)) (dog_tau e) <= vertex_count (dog_graph e).

Lemma dog_good_dec e : dog_good e \/ ~ dog_good e.
Proof.
  unfold dog_good. destruct (Nat.lt_ge_cases 0 (vertex_count (dog_graph e))); [|right; lia].
  destruct (Nat.lt_ge_cases 0 (dog_lambda e)); [|right; lia].
  destruct (Nat.le_gt_cases (dog_special (vertex_count (dog_graph e)) (dog_tau e)) (vertex_count (dog_graph e)));
    [left; auto|right; lia].
Qed.

Definition dog_post e (rs : rng) (e' : dog T) : Prop :=
  simple_graph (dog_graph e') /\ payloads (dog_graph e') = payloads (dog_graph e) /\
  positions (dog_graph e') = positions (dog_graph e) /\ vertex_count (dog_graph e') = vertex_count (dog_graph e) /\
  dog_accept e' = dog_accept e /\ dog_tau e' = dog_tau e /\ dog_lambda e' = dog_lambda e /\
  exists special, NoDup special /\
    length special = dog_special (vertex_count (dog_graph e)) (dog_tau e) /\
    (forall x, In x special -> x < vertex_count (dog_graph e)) /\
    forall k i j r, nth_error (dog_pairs (vertex_count (dog_graph e))) k = Some (i, j) -> nth_error rs k = Some r ->
      (dog_accepts e i j r = true -> adj (dog_graph e') i j) /\
      (adj (dog_graph e') i j -> dog_accepts e i j r = true \/ In i special \/ In j special).

Lemma firstn_perm_special n num (nodes : list nat) : num <= n -> Permutation (seq 0 n) nodes ->
  NoDup (firstn num nodes) /\ length (firstn num nodes) = num /\ forall x, In x (firstn num nodes) -> x < n.
Proof.
  intros H P. pose proof (Permutation_length P) as L. rewrite seq_length in L.
  pose proof (Permutation_NoDup P (seq_NoDup n 0)) as ND. rewrite <- (firstn_skipn num nodes) in ND.
  apply NoDup_app_iff in ND as (ND & _ & _). split; [auto|]. split; [rewrite firstn_length; lia|].
  intros x Hx. assert (I : In x nodes) by (rewrite <- (firstn_skipn num nodes); apply in_app_iff; auto).
  apply (Permutation_in _ (Permutation_sym P)), in_seq in I. lia.
Qed.

(** The second phase for a graph left by the first. *)
Definition dog_second p e g (rs1 : rng) : outcome (dog T * rng) :=
  let n := vertex_count (dog_graph e) in
  let num := dog_special n (dog_tau e) in
  do ' (nodes, rs2) <- shuffle (seq 0 n) rs1;
  if n <? num then Panic
  else if dog_lambda e =? 0 then Panic
  else if n =? 0 then Panic
  else
    do ' (g', _, rs3) <- foldM (dog_node p) ((g, list_sum (degree_vec g)), rs2) (firstn num nodes);
    Done (mk_dog g' (dog_accept e) (dog_tau e) (dog_lambda e), rs3).

Lemma dog_randomize_phases p e rs : simple_graph (dog_graph e) ->
  dog_randomize p e rs =
  do ' (g, rs1) <- foldM (dog_pair p (dog_accept e)) (clear_edges (dog_graph e), rs)
                     (dog_pairs (vertex_count (dog_graph e)));
  dog_second p e g rs1.
Proof.
  intros W. destruct (clear_edges_spec W) as (_ & V0 & _). unfold dog_randomize, dog_second. cbv zeta.
  rewrite V0. reflexivity.
Qed.

Lemma dog_second_runs p e rs g : dog_good e -> dog_first e rs g ->
  runs False (dog_post e rs) (dog_second p e g).
Proof.
  intros (G1 & G2 & G3) (W & V & P & Q & A). unfold dog_second. cbv zeta.
  set (n := vertex_count (dog_graph e)) in *. set (num := dog_special n (dog_tau e)) in *.
  apply (@runs_bind _ _ _ (fun o => Permutation (seq 0 n) o) _ (fun rs => shuffle (seq 0 n) rs)
    (fun nodes rs2 => if n <? num then Panic else if dog_lambda e =? 0 then Panic else if n =? 0 then Panic
      else do ' (g', _, rs3) <- foldM (dog_node p) ((g, list_sum (degree_vec g)), rs2) (firstn num nodes);
           Done (mk_dog g' (dog_accept e) (dog_tau e) (dog_lambda e), rs3))); [apply runs_shuffle|].
  intros nodes Pn. destruct (Nat.ltb_spec n num); [lia|]. destruct (Nat.eqb_spec (dog_lambda e) 0); [lia|].
  destruct (Nat.eqb_spec n 0); [lia|].
  destruct (firstn_perm_special G3 Pn) as (S1 & S2 & S3). set (special := firstn num nodes) in *.
  apply runs_ext with (m := fun rs2 => do ' (s, rs3) <- foldM (dog_node p) ((g, list_sum (degree_vec g)), rs2) special;
    Done (mk_dog (fst s) (dog_accept e) (dog_tau e) (dog_lambda e), rs3)).
  { intros rs2. destruct (foldM _ _ _) as [[[g' s'] rs3]| | |]; reflexivity. }
  apply (@runs_bind _ _ _ (dog_state g special) _
    (fun rs2 => foldM (dog_node p) ((g, list_sum (degree_vec g)), rs2) special)
    (fun s rs3 => Done (mk_dog (fst s) (dog_accept e) (dog_tau e) (dog_lambda e), rs3))).
  - apply (@runs_foldM _ _ _ (dog_state g special) (dog_node p) special).
    + intros s node Hs Hn. apply dog_node_runs; auto. intros x Hx. rewrite V. auto.
    + unfold dog_state. cbn [fst snd]. split; [auto|]. split; [auto|]. split; [auto|]. split; [auto|].
      split; [apply degree_sum; auto|]. split; auto.
  - intros [g' s'] (W' & V' & P' & Q' & Sm & A1 & A2). cbn [fst snd] in *. apply runs_ret.
    unfold dog_post. cbn [dog_graph dog_accept dog_tau dog_lambda].
    split; [auto|]. split; [congruence|]. split; [congruence|]. split; [rewrite V', V; auto|].
    split; [auto|]. split; [auto|]. split; [auto|]. exists special. split; [auto|]. split; [auto|]. split; [auto|].
    intros k i j r Hk Hr. pose proof (A k i j r Hk Hr) as K. split.
    + intros X. apply A1, K. auto.
    + intros X. apply A2 in X as [X|X]; auto. left. apply K. auto.
Qed.

Lemma dog_second_panics p e g rs : ~ dog_good e -> vertex_count (dog_graph e) - 1 <= length rs ->
  dog_second p e g rs = Panic.
Proof.
  intros B Len. unfold dog_second. cbv zeta. set (n := vertex_count (dog_graph e)) in *.
  destruct (@shuffle_spec _ (seq 0 n) rs) as (nodes & E & _); [rewrite seq_length; auto|]. rewrite E. cbn [bind].
  destruct (Nat.ltb_spec n (dog_special n (dog_tau e))); auto. destruct (Nat.eqb_spec (dog_lambda e) 0); auto.
  destruct (Nat.eqb_spec n 0); auto. exfalso. apply B. unfold dog_good. fold n. lia.
Qed.

Lemma dog_second_bad p e g rs : ~ dog_good e -> dog_second p e g rs = Panic \/ dog_second p e g rs = NoFuel.
Proof.
  intros B. pose proof (@runs_shuffle False _ (seq 0 (vertex_count (dog_graph e))) rs) as R.
  unfold dog_second. cbv zeta. set (n := vertex_count (dog_graph e)) in *.
  destruct (shuffle (seq 0 n) rs) as [[nodes rs2]| | |]; cbn [bind]; try tauto. left.
  destruct (Nat.ltb_spec n (dog_special n (dog_tau e))); auto. destruct (Nat.eqb_spec (dog_lambda e) 0); auto.
  destruct (Nat.eqb_spec n 0); auto. exfalso. apply B. unfold dog_good. fold n. lia.
Qed.

Lemma dog_randomize_cases p e rs : simple_graph (dog_graph e) ->
  match dog_randomize p e rs with
  | Done (e', _) => dog_good e /\ dog_post e rs e'
  | Panic => ~ dog_good e
  | UB => False
  | NoFuel => True
  end.
Proof.
  intros W. rewrite dog_randomize_phases by auto. set (l := dog_pairs (vertex_count (dog_graph e))).
  destruct (Nat.lt_ge_cases (length rs) (length l)) as [H|H].
  - unfold l. rewrite dog_first_short by auto. exact I.
  - destruct (@dog_first_spec p e rs W H) as (g & E & F). fold l in E. rewrite E. cbn [bind].
    destruct (dog_good_dec e) as [G|B].
    + pose proof (dog_second_runs p G F (skipn (length l) rs)) as R.
      destruct (dog_second p e g _) as [[e' rs']| | |]; try tauto.
    + destruct (dog_second_bad p g (skipn (length l) rs) B) as [-> | ->]; auto.
Qed.

Lemma dog_randomize_panics p e rs : simple_graph (dog_graph e) -> ~ dog_good e ->
  length (dog_pairs (vertex_count (dog_graph e))) + vertex_count (dog_graph e) <= length rs ->
  dog_randomize p e rs = Panic.
Proof.
  intros W B Len. rewrite dog_randomize_phases by auto.
  destruct (@dog_first_spec p e rs W) as (g & E & F); [lia|]. rewrite E. cbn [bind].
  apply dog_second_panics; auto. rewrite skipn_length. lia.
Qed.

(** The draws of the first phase and of the shuffle, whatever they are. *)
Lemma dog_prefix p e ds : simple_graph (dog_graph e) -> dog_good e ->
  length ds = length (dog_pairs (vertex_count (dog_graph e))) ->
  exists g sh nodes, dog_first e ds g /\ Permutation (seq 0 (vertex_count (dog_graph e))) nodes /\
  forall rest, dog_randomize p e (ds ++ sh ++ rest) =
    do ' (g', _, rs3) <- foldM (dog_node p) ((g, list_sum (degree_vec g)), rest)
        (firstn (dog_special (vertex_count (dog_graph e)) (dog_tau e)) nodes);
    Done (mk_dog g' (dog_accept e) (dog_tau e) (dog_lambda e), rs3).
Proof.
  intros W (G1 & G2 & G3) Len. set (n := vertex_count (dog_graph e)) in *.
  destruct (@dog_first_spec p e ds W) as (g & E & F); [fold n; lia|]. fold n in E.
  destruct (@shuffle_reach _ (seq 0 n) (seq 0 n) (Permutation_refl _)) as (sh & Hsh).
  exists g, sh, (seq 0 n). split; auto. split; auto. intros rest. rewrite dog_randomize_phases by auto.
  fold n. destruct (@dog_first_spec p e (ds ++ sh ++ rest) W) as (g2 & E2 & _); [rewrite app_length; fold n; lia|].
  fold n in E2. rewrite E2. cbn [bind]. rewrite <- Len in E, E2 |- *.
  assert (Eg : g2 = g).
  { assert (K : forall l g rs g1 rs1 more, foldM (dog_pair p (dog_accept e)) (g, rs) l = Done (g1, rs1) ->
      foldM (dog_pair p (dog_accept e)) (g, rs ++ more) l = Done (g1, rs1 ++ more)).
    { clear. induction l as [|[i j] l IH]; intros g rs g1 rs1 more H; cbn [foldM] in *.
      - injection H as <- <-. auto.
      - apply bind_done in H as ([g2 rs2] & H1 & H2).
        assert (X : dog_pair p (dog_accept e) (g, rs ++ more) (i, j) = Done (g2, rs2 ++ more)).
        { clear - H1. unfold dog_pair in *. apply bind_done in H1 as ([a b] & -> & H1). cbn [bind].
          destruct rs as [|r rs]; [discriminate|]. cbn [gen_f64 draw bind app] in *.
          unfold gen_f64, draw in *. cbn [bind] in *.
          destruct (dog_accept e _ _ _); [|injection H1 as <- <-; auto].
          apply bind_done in H1 as (r2 & -> & H1). cbn [bind]. destruct r2 as [[a' b']|]; injection H1 as <- <-; auto. }
        rewrite X. cbn [bind]. auto. }
    apply (K _ _ _ _ _ (sh ++ rest)) in E. rewrite E2 in E. injection E as <- _. auto. }
  subst g2. rewrite skipn_app, Nat.sub_diag, skipn_all. cbn [app skipn]. unfold dog_second. cbv zeta. fold n.
  rewrite Hsh. cbn [bind]. destruct (Nat.ltb_spec n (dog_special n (dog_tau e))); [lia|].
  destruct (Nat.eqb_spec (dog_lambda e) 0); [lia|]. destruct (Nat.eqb_spec n 0); [lia|]. reflexivity.
Qed.

(** Asking for more edges than there are targets. *)
Lemma dog_node_stuck p g sum node m rs : simple_graph g -> node < vertex_count g -> sum = 2 * edge_count g ->
  (forall l, NoDup l -> (forall k, In k l -> dog_target g node k) -> length l < m) ->
  dog_node p ((g, sum), m :: rs) node = NoFuel.
Proof.
  intros W Hn Hs F. unfold dog_node. cbn [draw bind].
  pose proof (@dog_edges_runs p node g sum m W Hn Hs rs) as R.
  cbv beta in R. destruct (foldM _ _ (seq 0 m)) as [[s rs']| | |]; try tauto.
  destruct R as [(_ & new & L & G) _]. pose proof (F new (dg_nodup G) (dg_target G)). lia.
Qed.

Lemma dog_targets_few g node l : simple_graph g -> node < vertex_count g -> NoDup l ->
  (forall k, In k l -> dog_target g node k) -> length l + length (nbrs g node) < vertex_count g.
Proof.
  intros W Hn ND F.
  assert (N2 : NoDup (node :: l ++ nbrs g node)).
  { constructor.
    - rewrite in_app_iff. intros [I|I]; [apply F in I as (_ & X & _); auto|apply (sg_irrefl W _ I)].
    - apply NoDup_app_iff. split; [auto|]. split; [apply (sg_nodup W)|].
      intros x I1 I2. apply F in I1 as (_ & _ & X & _). auto. }
  assert (Inc : incl (node :: l ++ nbrs g node) (seq 0 (vertex_count g))).
  { intros x [<-|I]; [apply in_seq; lia|]. apply in_seq. apply in_app_iff in I as [I|I].
    - apply F in I as (X & _). lia.
    - apply (sg_range W) in I. lia. }
  pose proof (NoDup_incl_length N2 Inc) as L. cbn [length] in L. rewrite app_length, seq_length in L. lia.
Qed.

Lemma dog_randomize_stuck p e ds : simple_graph (dog_graph e) -> dog_good e ->
  0 < dog_special (vertex_count (dog_graph e)) (dog_tau e) ->
  length ds = length (dog_pairs (vertex_count (dog_graph e))) ->
  exists pre, forall more, dog_randomize p e (ds ++ pre ++ more) = NoFuel.
Proof.
  intros W G Hs Len. destruct (dog_prefix p W G Len) as (g & sh & nodes & (Wg & Vg & _) & Pn & H).
  set (n := vertex_count (dog_graph e)) in *.
  exists (sh ++ [n]). intros more. rewrite <- app_assoc, H.
  destruct G as (_ & _ & G3). destruct (firstn_perm_special G3 Pn) as (_ & S2 & S3).
  destruct (firstn _ nodes) as [|x t]; [fold n in S2; cbn [length] in S2; lia|].
  cbn [foldM app]. assert (Hx : x < vertex_count g) by (rewrite Vg; apply S3; simpl; auto).
  rewrite dog_node_stuck; auto; [apply degree_sum; auto|].
  intros l ND F. pose proof (dog_targets_few Wg Hx ND F). lia.
Qed.

Lemma dog_randomize_edgeless p e ds : simple_graph (dog_graph e) -> dog_good e ->
  0 < dog_special (vertex_count (dog_graph e)) (dog_tau e) ->
  length ds = length (dog_pairs (vertex_count (dog_graph e))) ->
  (forall a b r, In r ds -> dog_accept e a b (unit_float r) = false) ->
  exists sh, forall m more, 0 < m -> dog_randomize p e (ds ++ sh ++ m :: more) = NoFuel.
Proof.
  intros W G Hs Len Rej. destruct (dog_prefix p W G Len) as (g & sh & nodes & (Wg & Vg & _ & _ & Ag) & Pn & H).
  set (n := vertex_count (dog_graph e)) in *.
  assert (N0 : forall i j, j < i -> i < n -> ~ adj g i j).
  { intros i j Hj Hi A. assert (I : In (i, j) (dog_pairs n)) by (apply dog_pairs_In; auto).
    apply In_nth_error in I as [k Ek]. pose proof (nth_error_lt _ _ Ek) as Hk. rewrite <- Len in Hk.
    destruct (vget_lt ds Hk) as [r Er]. apply (Ag k i j r Ek Er) in A. unfold dog_accepts in A.
    rewrite Rej in A; [discriminate|]. apply nth_error_In in Er. auto. }
  assert (NN : forall k, nbrs g k = []).
  { intros k. destruct (nbrs g k) as [|y t] eqn:Ey; auto. exfalso.
    assert (A : adj g k y) by (unfold adj; rewrite Ey; simpl; auto). pose proof (adj_lt Wg A) as [L1 L2].
    destruct (Nat.lt_trichotomy k y) as [L|[L|L]].
    - apply (N0 y k); auto; [lia|]. apply (sg_sym Wg). auto.
    - subst y. apply (sg_irrefl Wg _ A).
    - apply (N0 k y); auto. lia. }
  exists sh. intros m more Hm. rewrite H.
  destruct G as (_ & _ & G3). destruct (firstn_perm_special G3 Pn) as (_ & S2 & S3).
  destruct (firstn _ nodes) as [|x t]; [fold n in S2; cbn [length] in S2; lia|].
  cbn [foldM app]. assert (Hx : x < vertex_count g) by (rewrite Vg; apply S3; simpl; auto).
  rewrite dog_node_stuck; auto; [apply degree_sum; auto|].
  intros [|k l] _ F; [cbn; lia|]. destruct (F k) as (_ & _ & _ & D); [simpl; auto|]. destruct D. auto.
Qed.

(** If the number of further edges is 0 for every vertex the procedure returns. *)
Lemma dog_randomize_returns p e ds : simple_graph (dog_graph e) -> dog_good e ->
  length ds = length (dog_pairs (vertex_count (dog_graph e))) ->
  exists more e', forall rest, dog_randomize p e (ds ++ more ++ rest) = Done (e', rest).
Proof.
  intros W G Len. destruct (dog_prefix p W G Len) as (g & sh & nodes & _ & _ & H).
  set (l := firstn _ nodes) in H.
  assert (K : forall (s : sgraph T * nat) rest, foldM (dog_node p) (s, repeat 0 (length l) ++ rest) l = Done (s, rest)).
  { clearbody l. clear. induction l as [|x l IH]; intros [g s] rest; cbn [foldM length repeat app]; auto.
    unfold dog_node at 1. cbn [draw bind seq foldM]. auto. }
  exists (sh ++ repeat 0 (length l)). eexists. intros rest. rewrite <- app_assoc, H, K. cbn [bind]. reflexivity.
Qed.

End Facts.

(** ** [new] *)

Lemma Forall2_len {X Y} (R : X -> Y -> Prop) l l' : Forall2 R l l' -> length l = length l'.
Proof. induction 1; cbn; auto. Qed.

Definition same_spc {T} (c c' : spacial_container pos T) : Prop :=
  spc_id c' = spc_id c /\ spc_adj c' = spc_adj c /\ spc_node c' = spc_node c.

Lemma same_spc_simple {T} (g : sgraph T) vs : simple_graph g -> Forall2 same_spc (vertices g) vs ->
  let g' := mk_graph (next_id g) (edge_count g) vs in
  simple_graph g' /\ vertex_count g' = vertex_count g /\ payloads g' = payloads g.
Proof.
  intros W F g'.
  assert (L : length vs = length (vertices g)) by (symmetry; apply (Forall2_len F)).
  assert (Nth : forall i c', nth_error vs i = Some c' -> exists c, nth_error (vertices g) i = Some c /\ same_spc c c').
  { clear -F. induction F as [|a b l l' H F IH]; intros [|i] c' E; try discriminate; cbn in *.
    - injection E as <-. eauto.
    - eauto. }
  assert (Nb : forall i, nbrs g' i = nbrs g i).
  { intros i. unfold nbrs, g'. cbn [vertices]. destruct (nth_error vs i) as [c'|] eqn:E.
    - destruct (Nth _ _ E) as (c & -> & _ & X & _). exact X.
    - apply nth_error_None in E. rewrite L in E. apply nth_error_None in E. rewrite E. auto. }
  split; [|split; [reflexivity|]].
  - constructor.
    + unfold g'. cbn [vertices]. rewrite L. apply (sg_len W).
    + intros i c' E. destruct (Nth _ _ E) as (c & E0 & X & _). split; [exact I|].
      destruct (sg_cont W _ E0) as [_ J]. cbn in *. congruence.
    + intros i j. unfold adj. rewrite Nb. apply (sg_range W).
    + intros i. unfold adj. rewrite Nb. apply (sg_irrefl W).
    + intros i. rewrite Nb. apply (sg_nodup W).
    + intros i j. unfold adj. rewrite !Nb. apply (sg_sym W).
    + change (edge_count g') with (edge_count g). rewrite (sg_count W). unfold number_of_edges.
      change (vertex_count g') with (vertex_count g). unfold count. f_equal. apply filter_ext.
      intros [i j]. unfold adjb. cbn [fst snd]. rewrite Nb. auto.
  - unfold payloads, g'. cbn [vertices]. clear -F. induction F as [|a b l l' (_ & _ & H) F IH]; cbn; auto.
    f_equal; auto.
Qed.

Lemma lhs_next_runs live l : 0 < length (lhs_x l) -> length (lhs_y l) = length (lhs_x l) ->
  runs live (fun r => exists x y, fst r = Some (x, y) /\
    Permutation (lhs_x l) (x :: lhs_x (snd r)) /\ Permutation (lhs_y l) (y :: lhs_y (snd r)))
    (lhs_next l).
Proof.
  intros Hp El rs. destruct (Nat.lt_ge_cases (length rs) 2) as [H|H].
  - rewrite lhs_next_short by auto. intros _.
    destruct rs as [|a [|b rs]]; cbn [length] in H; try lia.
    + destruct (@lhs_next_cons l 0 0 [] Hp El) as (x & y & l' & _ & E1 & E2 & E3 & E4 & P1 & P2).
      exists [0; 0], (Some (x, y), l'). split; [|cbn; eauto]. intros rest. cbn [app].
      destruct (@lhs_next_cons l 0 0 rest Hp El) as (x2 & y2 & l2 & E & F1 & F2 & F3 & F4 & _). rewrite E.
      assert (l2 = l') by (destruct l2, l'; cbn in *; congruence). congruence.
    + destruct (@lhs_next_cons l a 0 [] Hp El) as (x & y & l' & _ & E1 & E2 & E3 & E4 & P1 & P2).
      exists [0], (Some (x, y), l'). split; [|cbn; eauto]. intros rest. cbn [app].
      destruct (@lhs_next_cons l a 0 rest Hp El) as (x2 & y2 & l2 & E & F1 & F2 & F3 & F4 & _). rewrite E.
      assert (l2 = l') by (destruct l2, l'; cbn in *; congruence). congruence.
  - destruct rs as [|a [|b rs]]; cbn [length] in H; try lia.
    destruct (@lhs_next_cons l a b rs Hp El) as (x & y & l' & E & E1 & E2 & E3 & E4 & P1 & P2). rewrite E.
    split; [cbn; eauto|]. exists [a; b]. split; auto. intros rest. cbn [app].
    destruct (@lhs_next_cons l a b rest Hp El) as (x2 & y2 & l2 & F & F1 & F2 & F3 & F4 & _). rewrite F.
    assert (l2 = l') by (destruct l2, l'; cbn in *; congruence). congruence.
Qed.

Definition cell_corner (n : nat) (xy : nat * nat) : option pos :=
  Some (Z.of_nat (fst xy) # Pos.of_nat n, Z.of_nat (snd xy) # Pos.of_nat n).

Lemma dog_place_runs {T} live n (g : sgraph T) : simple_graph g -> vertex_count g = n ->
  runs live (fun g' => simple_graph g' /\ vertex_count g' = n /\ payloads g' = payloads g /\
    exists pts, Permutation (map fst pts) (seq 0 n) /\ Permutation (map snd pts) (seq 0 n) /\
      positions g' = map (cell_corner n) pts) (dog_place n g).
Proof.
  intros W V. unfold dog_place.
  set (f := fun (s : list (spacial_container pos T) * lhs * rng) c => _).
  set (I := fun (seen : list (spacial_container pos T)) (s : list (spacial_container pos T) * lhs)
    (unseen : list (spacial_container pos T)) =>
    let '(vs, l) := s in
    Forall2 same_spc seen vs /\ length (lhs_x l) = length unseen /\ length (lhs_y l) = length unseen /\
    exists pts, Permutation (map fst pts ++ lhs_x l) (seq 0 n) /\ Permutation (map snd pts ++ lhs_y l) (seq 0 n) /\
      map (@spc_pos pos T) vs = map (cell_corner n) pts).
  apply runs_ext with (m := fun rs => do ' (s, rs') <- foldM f (([], lhs_new n), rs) (vertices g);
    Done (mk_graph (next_id g) (edge_count g) (fst s), rs')).
  { intros rs. destruct (foldM f _ _) as [[[vs l] rs']| | |]; reflexivity. }
  apply (@runs_bind _ _ _ (fun s => I (vertices g) s []) _ (fun rs => foldM f (([], lhs_new n), rs) (vertices g))
    (fun s rs' => Done (mk_graph (next_id g) (edge_count g) (fst s), rs'))).
  - apply (@runs_foldM_along live _ _ I f (vertices g) [] ([], lhs_new n)).
    + intros l c l' [vs h] _ (F & Lx & Ly & pts & Px & Py & Q). cbn [length] in Lx, Ly. unfold f.
      apply runs_ext with (m := fun rs => do ' (r, rs1) <- lhs_next h rs;
        match fst r with
        | Some (x, y) =>
          Done ((vs ++ [mk_spc (spc_id c) (spc_adj c) (spc_node c)
                         (Some (Z.of_nat x # Pos.of_nat n, Z.of_nat y # Pos.of_nat n))], snd r), rs1)
        | None => Done ((vs ++ [c], snd r), rs1)
        end).
      { intros rs. destruct (lhs_next h rs) as [[[o l1] rs1]| | |]; reflexivity. }
      eapply (@runs_bind _ _ _ _ _ (lhs_next h) (fun r rs1 => match fst r with
        | Some (x, y) =>
          Done ((vs ++ [mk_spc (spc_id c) (spc_adj c) (spc_node c)
                         (Some (Z.of_nat x # Pos.of_nat n, Z.of_nat y # Pos.of_nat n))], snd r), rs1)
        | None => Done ((vs ++ [c], snd r), rs1)
        end)); [apply lhs_next_runs; lia|].
      intros [o h'] (x & y & Eo & Qx & Qy). cbn [fst snd] in *. subst o. apply runs_ret. unfold I.
      pose proof (Permutation_length Qx) as L1. pose proof (Permutation_length Qy) as L2. cbn [length] in L1, L2.
      split; [|split; [lia|split; [lia|]]].
      * apply Forall2_app; auto. repeat constructor.
      * exists (pts ++ [(x, y)]). rewrite !map_app, <- !app_assoc. cbn [map fst snd app].
        split; [|split].
        -- rewrite <- Qx. auto.
        -- rewrite <- Qy. auto.
        -- rewrite Q. reflexivity.
    + unfold I. cbn [lhs_new lhs_x lhs_y]. rewrite !seq_length, (sg_len W), V. split; [constructor|].
      split; [auto|]. split; [auto|]. exists []. cbn. auto.
  - intros [vs l] (F & Lx & Ly & pts & Px & Py & Q). cbn [fst]. apply runs_ret.
    destruct (same_spc_simple W F) as (W' & V' & P'). cbv zeta in *.
    split; [auto|]. split; [rewrite V'; auto|]. split; [auto|]. exists pts.
    destruct (lhs_x l); [|discriminate]. destruct (lhs_y l); [|discriminate]. rewrite app_nil_r in Px, Py.
    split; [auto|]. split; [auto|]. exact Q.
Qed.

(** [q'] is [q] moved by less than a cell. *)
Definition jittered (n : nat) (q q' : option pos) : Prop :=
  forall x y, q = Some (x, y) -> exists u v : Q, ((0 <= u /\ u < 1) /\ (0 <= v /\ v < 1))%Q /\
    q' = Some ((x + u * (1 # Pos.of_nat n))%Q, (y + v * (1 # Pos.of_nat n))%Q).

Lemma dog_jitter_runs {T} live n (g : sgraph T) : simple_graph g ->
  runs live (fun g' => simple_graph g' /\ vertex_count g' = vertex_count g /\ payloads g' = payloads g /\
    Forall2 (jittered n) (positions g) (positions g')) (dog_jitter n g).
Proof.
  intros W. unfold dog_jitter.
  set (f := fun (s : list (spacial_container pos T) * rng) c => _).
  set (I := fun (seen vs unseen : list (spacial_container pos T)) => Forall2 same_spc seen vs /\
    Forall2 (jittered n) (map (@spc_pos pos T) seen) (map (@spc_pos pos T) vs)).
  apply (@runs_bind _ _ _ (fun vs => I (vertices g) vs []) _ (fun rs => foldM f ([], rs) (vertices g))
    (fun vs rs' => Done (mk_graph (next_id g) (edge_count g) vs, rs'))).
  - apply (@runs_foldM_along live _ _ I f (vertices g) [] []).
    + intros l c l' vs _ (F & J). unfold f.
      apply (@runs_bind _ _ _ (fun u => exists r, u = unit_float r) _ gen_f64 (fun u rs1 =>
        do ' (v, rs2) <- gen_f64 rs1;
        Done (vs ++ [mk_spc (spc_id c) (spc_adj c) (spc_node c)
          (option_map (fun xy => (fst xy + u * (1 # Pos.of_nat n), snd xy + v * (1 # Pos.of_nat n))%Q)
                        (spc_pos c))], rs2))); [apply runs_gen_f64|].
      intros u [ru Eu].
      apply (@runs_bind _ _ _ (fun u => exists r, u = unit_float r) _ gen_f64 (fun v rs2 =>
        Done (vs ++ [mk_spc (spc_id c) (spc_adj c) (spc_node c)
          (option_map (fun xy => (fst xy + u * (1 # Pos.of_nat n), snd xy + v * (1 # Pos.of_nat n))%Q)
                        (spc_pos c))], rs2))); [apply runs_gen_f64|].
      intros v [rv Ev]. apply runs_ret. split.
      * apply Forall2_app; auto. repeat constructor.
      * rewrite !map_app. apply Forall2_app; auto. cbn [map spc_pos]. constructor; [|constructor].
        intros x y ->. exists u, v. subst u v. split; [split; apply unit_float_range|]. reflexivity.
    + split; constructor.
  - intros vs (F & J). apply runs_ret. destruct (same_spc_simple W F) as (W' & V' & P'). cbv zeta in *.
    split; [auto|]. split; [auto|]. split; [auto|]. exact J.
Qed.

Lemma cell_move n k (u : Q) : 0 < n -> (0 <= u /\ u < 1)%Q ->
  in_cell n k ((Z.of_nat k # Pos.of_nat n) + u * (1 # Pos.of_nat n))%Q.
Proof.
  intros Hn [H1 H2]. unfold in_cell.
  assert (E : (Z.of_nat (S k) # Pos.of_nat n == (Z.of_nat k # Pos.of_nat n) + (1 # Pos.of_nat n))%Q).
  { rewrite Nat2Z.inj_succ. unfold Qeq, Qplus. cbn [Qnum Qden]. lia. }
  assert (Hp : (0 < 1 # Pos.of_nat n)%Q) by reflexivity. rewrite E.
  set (d := (1 # Pos.of_nat n)%Q) in *. set (c := (Z.of_nat k # Pos.of_nat n)%Q).
  assert (U0 : (0 <= u * d)%Q) by (apply Qmult_le_0_compat; auto; apply Qlt_le_weak; auto).
  assert (U1 : (u * d < 1 * d)%Q) by (apply Qmult_lt_compat_r; auto).
  split; lra.
Qed.

Lemma dog_new_cases {T} p (mk : nat -> T) n accept tau lambda rs :
  match dog_new p mk n accept tau lambda rs with
  | Done (e, _) => simple_graph (dog_graph e) /\ vertex_count (dog_graph e) = n /\
      payloads (dog_graph e) = map mk (seq 0 n) /\ latin n (positions (dog_graph e)) /\
      dog_accept e = accept /\ dog_tau e = tau /\ dog_lambda e = lambda /\
      0 < n /\ 0 < lambda /\ dog_special n tau <= n
  | Panic => ~ (0 < n /\ 0 < lambda /\ dog_special n tau <= n)
  | UB => False
  | NoFuel => True
  end.
Proof.
  unfold dog_new. destruct (Nat.eqb_spec n 0) as [|Nn]; [lia|].
  pose proof (@graph_new_spec T (spacial_container pos T) _ _ mk n) as (W & V & Ec & P & Nb). cbv zeta in *.
  pose proof (dog_place_runs True W V rs) as R1. destruct (dog_place n _ rs) as [[g1 rs1]| | |]; cbn [bind]; auto.
  destruct R1 as [(W1 & V1 & P1 & pts & Px & Py & Q1) _].
  pose proof (@dog_jitter_runs T True n g1 W1 rs1) as R2.
  destruct (dog_jitter n g1 rs1) as [[g2 rs2]| | |]; cbn [bind]; auto.
  destruct R2 as [(W2 & V2 & P2 & J) _].
  assert (La : latin n (positions g2)).
  { exists pts. split; [auto|]. split; [auto|].
    assert (Lp : length pts = n) by (rewrite <- (map_length fst), (Permutation_length Px), seq_length; auto).
    split.
    - rewrite <- (Forall2_len J), Q1, map_length. auto.
    - intros i k l E. rewrite Q1 in J.
      assert (K : forall (a b : list (option pos)), Forall2 (jittered n) a b -> forall i q, nth_error a i = Some q ->
        exists q', nth_error b i = Some q' /\ jittered n q q').
      { clear. induction 1 as [|a b l l' H F IH]; intros [|i] q E; try discriminate; cbn in *; eauto.
        injection E as <-. eauto. }
      destruct (K _ _ J i (cell_corner n (k, l))) as (q' & Eq & Jq); [rewrite nth_error_map, E; auto|].
      destruct (Jq _ _ eq_refl) as (u & v & [Hu Hv] & ->). eexists _, _. split; [exact Eq|].
      split; apply cell_move; auto; lia. }
  pose proof (@dog_randomize_cases T p (mk_dog g2 accept tau lambda) rs2 W2) as R.
  unfold dog_good in R. cbn [dog_graph dog_lambda dog_tau] in R. rewrite V2, V1 in R.
  destruct (dog_randomize p _ rs2) as [[e rs3]| | |]; auto.
  destruct R as ((G1 & G2 & G3) & W' & P' & Q' & V' & A' & T' & L' & _).
  cbn [dog_graph dog_accept dog_tau dog_lambda] in *.
  split; [auto|]. split; [congruence|]. split; [congruence|]. split; [rewrite Q'; auto|]. auto 10.
Qed.
