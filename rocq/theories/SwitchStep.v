(** The steps of the configuration model as switches. *)
From Verif Require Import Base BaseFacts Containers ContainerSpec ContainerFacts Graph GraphSpec
  Sums GraphFacts GraphOps GraphBuild Rng RngFacts Runs Markov EnsembleFacts Config ConfigSpec ConfigFacts ConfigRun ConfigStep
  ErMFacts UniformSpec UniformFacts SwitchSpec SwitchFacts.
Set Implicit Arguments.
Unset Strict Implicit.
Local Open Scope nat_scope.

Section Steps.
Context {T : Type}.
Local Notation G := (graph (node_container T)).
Implicit Types (g : G) (e : config T).

(** The operations after the draws. *)
Lemma step_tail_exact p v e v0 j v1 l : cm_ok v e ->
  adj (cm_graph e) v0 j -> adj (cm_graph e) v1 l -> v0 <> v1 ->
  exists s e', (forall rs, step_tail p e v0 j v1 l rs = Done (s, e', rs)) /\ cm_ok v e' /\ step_effect e s e' /\
    ((s = Cm_Error /\ (j = l \/ adj (cm_graph e) v0 v1 \/ adj (cm_graph e) j l)) \/ s = Cm_Added (v0, j) (v1, l)).
Proof.
  intros K A0 A1 N. destruct (step_tail_spec p K A0 A1 N) as (s & e' & E & K' & Ef).
  exists s, e'. split; auto. split; auto. split; auto.
  specialize (E []). unfold step_tail in E. pose proof K as [W _ _ _].
  destruct (adj_lt W A0) as [H0 Hj]. destruct (adj_lt W A1) as [H1 Hl].
  destruct (Nat.eqb_spec v1 v0) as [->|_]; [congruence|].
  destruct (Nat.eqb_spec j l) as [Ejl|Njl]; cbn [orb] in E; [injection E as <- _; auto|].
  destruct (@add_case _ _ _ _ p (cm_graph e) v0 v1 W) as [[X E1]|(X1 & g1 & E1 & W1 & V1 & P1 & Ad1 & D1)]; auto;
    rewrite E1 in E; cbn [bind] in E; [injection E as <- _; auto|].
  destruct (@add_case _ _ _ _ p g1 j l W1) as [[X E2]|(X2 & g2 & E2 & W2 & V2 & P2 & Ad2 & D2)]; auto; try congruence;
    rewrite E2 in E; cbn [bind] in E.
  - apply bind_done in E as (g3 & _ & E). injection E as <- _. left. split; auto.
    apply Ad1 in X as [X|X]; auto. exfalso. destruct X as [[X Y]|[X Y]]; cbn [fst snd] in X, Y; subst.
    + apply (sg_irrefl W _ A0).
    + apply X1; auto.
  - apply bind_done in E as (g3 & _ & E). apply bind_done in E as (g4 & _ & E). injection E as <- _. auto.
Qed.

(** *** The draws *)

Lemma round_at b t1 t2 rs : t1 < length b - 1 -> t2 < length b ->
  cm_draw_round b tt (t1 :: t2 :: rs) =
  let x := nth (if t1 =? t2 then length b - 1 else t1) b 0 in
  let y := nth t2 b 0 in
  if x =? y then Done (inl tt, rs) else Done (inr (x, y), rs).
Proof.
  intros H1 H2. unfold cm_draw_round. rewrite choose_two_unfold by lia.
  rewrite gen_range_small by lia. cbn [bind]. rewrite gen_range_small by lia. cbn [bind].
  unfold vget. rewrite (nth_error_nth' b 0) by (destruct (t1 =? t2); lia).
  rewrite (nth_error_nth' b 0) by lia. cbn. destruct (_ =? _); auto.
Qed.

Lemma choose_at (l : list nat) r rs : l <> [] -> choose_unwrap l (r :: rs) = Done (nth (r mod length l) l 0, rs).
Proof.
  intros N. assert (H : 0 < length l) by (destruct l; [congruence|cbn; lia]).
  unfold choose_unwrap. rewrite gen_range_cons by auto. cbn [bind]. unfold vget.
  rewrite (nth_error_nth' l 0) by (apply Nat.mod_upper_bound; lia). reflexivity.
Qed.

Lemma container_at v e x : cm_ok v e -> In x (cm_backup e) ->
  exists c, nth_error (vertices (cm_graph e)) x = Some c /\ nc_adj c = nbrs (cm_graph e) x /\ nbrs (cm_graph e) x <> [].
Proof.
  intros [W [V D] Dv B] I. apply (count_occ_In Nat.eq_dec) in I. rewrite B, <- D in I.
  unfold nbrs in *. destruct (nth_error (vertices (cm_graph e)) x) as [c|] eqn:E; [|cbn in I; lia].
  exists c. split; auto. split; auto. intros Z. rewrite Z in I. cbn in I. lia.
Qed.

Lemma step_at p v e t1 t2 r1 r2 rs : cm_ok v e -> t1 < length (cm_backup e) - 1 -> t2 < length (cm_backup e) ->
  let b := cm_backup e in
  let x := nth (if t1 =? t2 then length b - 1 else t1) b 0 in
  let y := nth t2 b 0 in
  let nx := nbrs (cm_graph e) x in
  let ny := nbrs (cm_graph e) y in
  x <> y -> cm_m_step p e (t1 :: t2 :: r1 :: r2 :: rs) =
    step_tail p e x (nth (r1 mod length nx) nx 0) y (nth (r2 mod length ny) ny 0) rs.
Proof.
  intros K H1 H2 b x y nx ny N. unfold cm_m_step. cbn [length loop]. rewrite round_at by auto.
  cbv zeta. fold b x y. destruct (Nat.eqb_spec x y) as [|_]; [congruence|]. cbn [bind].
  destruct (@container_at v e x K) as (c & E & Ec & Nc); [apply nth_In; fold b; destruct (t1 =? t2); unfold b; lia|].
  destruct (@container_at v e y K) as (c' & E' & Ec' & Nc'); [apply nth_In; auto|].
  unfold vget. rewrite E, E'. cbn [bind]. rewrite Ec, Ec'. rewrite choose_at by auto. cbn [bind].
  rewrite choose_at by auto. cbn [bind]. reflexivity.
Qed.

(** Two equal vertices are drawn again. *)
Lemma step_retry p v e t1 t2 rs : cm_ok v e -> t1 < length (cm_backup e) - 1 -> t2 < length (cm_backup e) ->
  nth (if t1 =? t2 then length (cm_backup e) - 1 else t1) (cm_backup e) 0 = nth t2 (cm_backup e) 0 ->
  cm_m_step p e (t1 :: t2 :: rs) = cm_m_step p e rs.
Proof.
  intros K H1 H2 E. unfold cm_m_step. cbn [length].
  change (loop (S (S (S (length rs)))) (cm_draw_round (cm_backup e)) tt (t1 :: t2 :: rs)) with
    (do ' (r, rs1) <- cm_draw_round (cm_backup e) tt (t1 :: t2 :: rs);
     match r with inl s' => loop (S (S (length rs))) (cm_draw_round (cm_backup e)) s' rs1 | inr x => Done (x, rs1) end).
  rewrite round_at by auto. cbv zeta. rewrite E, Nat.eqb_refl. cbn [bind].
  rewrite (@loop_fuel True _ _ (cm_draw_round (cm_backup e)) (fun _ => True)
    (fun r => In (fst r) (cm_backup e) /\ In (snd r) (cm_backup e) /\ fst r <> snd r)); auto.
  - intros [] _. eapply runs_weaken; [|apply runs_draw_round; lia]. intros [[]|[x y]]; auto.
  - intros [] us [] us1 _ E0. unfold cm_draw_round in E0. apply bind_done in E0 as ([r us2] & E1 & E0).
    apply choose_two_uses in E1; [|lia]. apply bind_done in E0 as (x & _ & E0). apply bind_done in E0 as (y & _ & E0).
    destruct (x =? y); [|discriminate]. injection E0 as <-. auto.
Qed.

Lemma round_uses_two b rs r rs' : 2 <= length b -> cm_draw_round b tt rs = Done (r, rs') -> length rs' + 2 = length rs.
Proof.
  intros H E. unfold cm_draw_round in E.
  apply bind_done in E as ([l us] & E1 & E3). apply bind_done in E3 as (a & _ & E3). apply bind_done in E3 as (c & _ & E3).
  assert (us = rs') by (destruct (a =? c); injection E3; auto). subst us.
  rewrite choose_two_unfold in E1 by auto.
  apply bind_done in E1 as ([t1 us1] & F1 & E1). apply bind_done in E1 as ([t2 us2] & F2 & E1).
  apply bind_done in E1 as (x & _ & E1). apply bind_done in E1 as (y & _ & E1). injection E1 as _ <-.
  apply gen_range_done in F1 as (_ & ? & -> & _). apply gen_range_done in F2 as (_ & ? & -> & _). cbn. lia.
Qed.

Lemma loop_uses_two b : 2 <= length b -> forall f rs x rs',
  loop f (cm_draw_round b) tt rs = Done (x, rs') -> length rs' + 2 <= length rs.
Proof.
  intros H. induction f as [|f IH]; intros rs x rs' E; [discriminate|]. cbn [loop] in E.
  apply bind_done in E as ([r us] & E1 & E). apply (round_uses_two H) in E1.
  destruct r as [[]|y]; [apply IH in E; lia|]. injection E as _ <-. lia.
Qed.

(** Two draws are not enough. *)
Lemma step_short p e rs r : 2 <= length (cm_backup e) -> length rs <= 2 -> cm_m_step p e rs <> Done r.
Proof.
  intros H L E. unfold cm_m_step in E. apply bind_done in E as ([[v0 v1] rs1] & E1 & E).
  apply (loop_uses_two H) in E1. apply bind_done in E as (c0 & _ & E). apply bind_done in E as ([j rs2] & E2 & _).
  unfold choose_unwrap in E2. apply bind_done in E2 as ([k rs4] & E2 & _).
  apply gen_range_done in E2 as (_ & q & -> & _). cbn in E1. lia.
Qed.
End Steps.

(** *** Sums *)

Lemma count_rolls (f : list nat -> bool) h t :
  count f (rolls (h :: t)) = sum_over (fun r => count (fun ds => f (r :: ds)) (rolls t)) (seq 0 h).
Proof.
  unfold count. rewrite length_filter_sum. cbn [rolls]. rewrite sum_over_flat_map. apply sum_over_ext.
  intros r _. rewrite length_filter_sum, sum_over_map. auto.
Qed.

Lemma count_rolls_nil (f : list nat -> bool) : count f (rolls []) = b2n (f []).
Proof. unfold count. cbn. destruct (f []); auto. Qed.

Lemma sum_shift m : forall (f : nat -> nat) s, sum_over f (seq s m) = sum_over (fun r => f (s + r)) (seq 0 m).
Proof.
  induction m as [|m IH]; intros f s; auto. cbn [seq]. rewrite !sum_over_cons, Nat.add_0_r. f_equal.
  rewrite (IH f (S s)), (IH _ 1). apply sum_over_ext. intros r _. f_equal. lia.
Qed.

Lemma sum_mod (f : nat -> nat) d q : 0 < d -> sum_over (fun r => f (r mod d)) (seq 0 (q * d)) = q * sum_over f (seq 0 d).
Proof.
  intros Hd. induction q as [|q IH]; auto. replace (S q * d) with (d + q * d) by lia.
  rewrite seq_app, sum_over_app. cbn [Nat.add Nat.mul]. f_equal.
  - apply sum_over_ext. intros r Hr. apply in_seq in Hr. rewrite Nat.mod_small; auto. lia.
  - rewrite sum_shift, <- IH. apply sum_over_ext. intros r _. f_equal.
    replace (d + r) with (r + 1 * d) by lia. apply Nat.mod_add. lia.
Qed.

Lemma sum_nth (f : nat -> nat) (l : list nat) : sum_over (fun r => f (nth r l 0)) (seq 0 (length l)) = sum_over f l.
Proof.
  induction l as [|a l IH]; auto. cbn [length seq]. rewrite !sum_over_cons. f_equal.
  rewrite sum_shift, <- IH. apply sum_over_ext. auto.
Qed.

Lemma sum_mod_nth (f : nat -> nat) (l : list nat) q : l <> [] ->
  sum_over (fun r => f (nth (r mod length l) l 0)) (seq 0 (q * length l)) = q * sum_over f l.
Proof.
  intros N. rewrite (sum_mod (fun r => f (nth r l 0))) by (destruct l; [congruence|cbn; lia]). rewrite sum_nth. auto.
Qed.

(** The two draws of [choose_multiple] make every ordered pair of different positions once. *)
Lemma sum_positions (f : nat -> nat -> nat) len : (forall x, f x x = 0) ->
  sum_over (fun t1 => sum_over (fun t2 => f (if t1 =? t2 then len - 1 else t1) t2) (seq 0 len)) (seq 0 (len - 1)) =
  sum_over (fun x => sum_over (f x) (seq 0 len)) (seq 0 len).
Proof.
  intros Z. rewrite sum_over_exchange, (sum_over_exchange (fun x y => f x y)). apply sum_over_ext. intros t2 H2. apply in_seq in H2.
  destruct len as [|k]; [lia|]. replace (S k - 1) with k by lia.
  rewrite (seq_S k), sum_over_app, sum_over_one. cbn [Nat.add].
  destruct (Nat.eq_dec t2 k) as [->|N].
  - rewrite Z, Nat.add_0_r. apply sum_over_ext. intros t1 H1. apply in_seq in H1.
    destruct (Nat.eqb_spec t1 k); [lia|auto].
  - pose proof (@sum_over_seq_upd (fun t1 => f (if t1 =? t2 then k else t1) t2) (fun t1 => f t1 t2) k t2) as U.
    cbv beta in U. rewrite Nat.eqb_refl, Z, Nat.add_0_r in U. apply U; [lia|]. intros t1 N1.
    destruct (Nat.eqb_spec t1 t2); [congruence|auto].
Qed.

Lemma sum_halfs (f : nat -> nat) (v b : list nat) : (forall i, count_occ Nat.eq_dec b i = nth i v 0) ->
  sum_over f b = sum_over (fun x => nth x v 0 * f x) (seq 0 (length v)).
Proof.
  intros H. rewrite (sum_over_perm f (halfs_perm H)). clear H. unfold edge_halfs, enumerate.
  rewrite sum_over_flat_map.
  assert (Go : forall k w, sum_over (fun x => sum_over f (repeat (fst x) (snd x))) (enumerate_from k w) =
    sum_over (fun x => nth x w 0 * f (k + x)) (seq 0 (length w))).
  { intros k w. revert k. induction w as [|d w IH]; intros k; auto. cbn [enumerate_from length seq].
    rewrite !sum_over_cons, IH. cbn [fst snd nth]. f_equal.
    - rewrite Nat.add_0_r. clear. induction d as [|d IH]; auto. cbn [repeat]. rewrite sum_over_cons, IH. lia.
    - rewrite (sum_shift (length w) _ 1). apply sum_over_ext. intros x _. cbn [Nat.add nth]. do 2 f_equal. lia. }
  apply Go.
Qed.

Lemma sum_subset (f : nat -> nat) (l m : list nat) : NoDup l -> NoDup m -> incl l m ->
  (forall x, In x m -> ~ In x l -> f x = 0) -> sum_over f m = sum_over f l.
Proof.
  intros N N' I Z.
  assert (P : Permutation m (l ++ filter (fun x => negb (existsb (Nat.eqb x) l)) m)).
  { apply NoDup_Permutation; auto.
    - apply NoDup_app_iff. split; auto. split; [apply NoDup_filter; auto|].
      intros x Hx Hf. apply filter_In in Hf as [_ Hf]. apply negb_true_iff, not_true_iff_false in Hf.
      apply Hf, contains_In. auto.
    - intros x. rewrite in_app_iff, filter_In, negb_true_iff. split.
      + intros Hx. destruct (existsb (Nat.eqb x) l) eqn:E; auto. left. apply contains_In. auto.
      + intros [H|[H _]]; auto. }
  rewrite (sum_over_perm f P), sum_over_app, (sum_over_zero f (filter _ m)); [lia|].
  intros x Hx. apply filter_In in Hx as [Hx E]. apply Z; auto. intros Hl.
  apply negb_true_iff, not_true_iff_false in E. apply E, contains_In. auto.
Qed.

(** *** Switches of graphs *)

Section Graphs.
Context {T A : Type} {C : AdjContainer T A} {L : AdjLaws C}.

Lemma adjb_proper (g : graph A) : simple_graph g -> proper (vertex_count g) (adjb g).
Proof.
  intros W. split; [|split].
  - intros x y H. apply adjb_spec in H. apply (adj_lt W H).
  - intros x y. apply eq_true_iff_eq. rewrite !adjb_spec. split; apply (sg_sym W).
  - intros x. apply not_true_iff_false. rewrite adjb_spec. apply (sg_irrefl W).
Qed.

Lemma adjb_degree (g : graph A) x : simple_graph g -> count (adjb g x) (seq 0 (vertex_count g)) = length (nbrs g x).
Proof.
  intros W. unfold count. apply Permutation_length. apply NoDup_Permutation.
  - apply NoDup_filter, seq_NoDup.
  - apply (sg_nodup W).
  - intros j. rewrite filter_In, adjb_spec, in_seq. fold (adj g x j).
    split; [tauto|]. intros H. pose proof (sg_range W _ _ H). split; auto. lia.
Qed.

End Graphs.

Section TwoGraphs.
Context {T A : Type} {C : AdjContainer T A} {L : AdjLaws C}.
Context {T' A' : Type} {C' : AdjContainer T' A'} {L' : AdjLaws C'}.

Lemma switch_sw (g : graph A) (h : graph A') a b c d : simple_graph g -> simple_graph h ->
  vertex_count h = vertex_count g -> (switch g h [a; b; c; d] = true <-> sw (adjb g) a b c d (adjb h)).
Proof.
  intros W W' V. cbn [switch]. unfold sw.
  rewrite !andb_true_iff, !negb_true_iff, !Nat.eqb_neq, forallb_forall. split.
  - intros ((((((H1 & H2) & H3) & H4) & H5) & H6) & H). splits; auto.
    destruct (proj1 (adjb_proper W) _ _ H1) as [La Lb], (proj1 (adjb_proper W) _ _ H2) as [Lc Ld].
    assert (Q : forall x y, x < y -> y < vertex_count g -> adjb h x y = switched (adjb g) a b c d x y).
    { intros x y Lt Ly. specialize (H (x, y)). cbv beta iota in H. apply eqb_prop. apply H.
      apply In_pairs_below. auto. }
    assert (S : forall x y, switched (adjb g) a b c d x y = switched (adjb g) a b c d y x).
    { intros x y. unfold switched. rewrite (proj1 (proj2 (adjb_proper W)) x y), !(joins_sym _ _ x y). auto. }
    assert (Out : forall x y, x < y -> vertex_count g <= y -> adjb h x y = switched (adjb g) a b c d x y).
    { intros x y Lt Ly. apply eq_true_iff_eq. rewrite switched_spec. split.
      - intros K. apply (proj1 (adjb_proper W')) in K. lia.
      - intros [[K _]|K]; [apply (proj1 (adjb_proper W)) in K|]; lia. }
    assert (Lt : forall x y, x < y -> adjb h x y = switched (adjb g) a b c d x y).
    { intros x y Hxy. destruct (Nat.lt_ge_cases y (vertex_count g)); auto. }
    intros x y. destruct (lt_eq_lt_dec x y) as [[K| ->]|K]; auto.
    + rewrite (proj2 (proj2 (adjb_proper W'))). symmetry. apply not_true_iff_false. rewrite switched_spec.
      rewrite (proj2 (proj2 (adjb_proper W))). intros [[K _]|K]; [discriminate|lia].
    + rewrite (proj1 (proj2 (adjb_proper W'))), S. auto.
  - intros (H1 & H2 & H3 & H4 & H5 & H6 & H). splits; auto. intros [x y] _. rewrite H. apply eqb_reflx.
Qed.

Lemma same_adjb (g : graph A) (h : graph A') : simple_graph g -> simple_graph h -> vertex_count g = vertex_count h ->
  (same_edges g h = true <-> forall x y, adjb g x y = adjb h x y).
Proof.
  intros W W' V. rewrite (same_edges_all W W' V). split; intros H x y.
  - apply eq_true_iff_eq. rewrite !adjb_spec. auto.
  - rewrite <- !adjb_spec, H. tauto.
Qed.

End TwoGraphs.

Lemma switches_sum {T A T' A' : Type} {C : AdjContainer T A} {C' : AdjContainer T' A'} (g : graph A) (h : graph A') :
  switches g h = sum_over (fun a => sum_over (fun b => sum_over (fun c => sum_over (fun d =>
    b2n (switch g h [a; b; c; d])) (seq 0 (vertex_count g))) (seq 0 (vertex_count g))) (seq 0 (vertex_count g))) (seq 0 (vertex_count g)).
Proof.
  unfold switches. rewrite count_rolls. apply sum_over_ext. intros a _. rewrite count_rolls. apply sum_over_ext.
  intros b _. rewrite count_rolls. apply sum_over_ext. intros c _. rewrite count_rolls. apply sum_over_ext.
  intros d _. rewrite count_rolls_nil. auto.
Qed.

Lemma switches_sym {T A : Type} {C : AdjContainer T A} {L : AdjLaws C} {T' A' : Type} {C' : AdjContainer T' A'} {L' : AdjLaws C'}
  (g : graph A) (h : graph A') : simple_graph g -> simple_graph h -> vertex_count h = vertex_count g ->
  switches g h = switches h g.
Proof.
  intros W W' V. rewrite !switches_sum, V. apply sum_over_ext. intros a _.
  rewrite sum_over_exchange. apply sum_over_ext. intros c _. apply sum_over_ext. intros b _. apply sum_over_ext. intros d _.
  f_equal. apply eq_true_iff_eq. rewrite (switch_sw _ _ _ _ W W' V), (switch_sw _ _ _ _ W' W (eq_sym V)). split.
  - apply (sw_sym (adjb_proper W)).
  - apply (sw_sym (adjb_proper W')).
Qed.

Section Count.
Context {T : Type} {T' A' : Type} {C' : AdjContainer T' A'} {L' : AdjLaws C'}.
Variables (p : profile) (v : list nat) (e : config T) (h : graph A').
Hypothesis K : cm_ok v e.
Hypothesis Wh : simple_graph h.
Hypothesis Vh : vertex_count h = length v.
Hypothesis Diff : same_edges (cm_graph e) h = false.

Local Notation g := (cm_graph e).

Lemma step_hits x j y l rs : adj g x j -> adj g y l -> x <> y ->
  match step_tail p e x j y l rs with Done (_, e', _) => same_edges (cm_graph e') h | _ => false end =
  switch g h [x; j; y; l].
Proof.
  intros A1 A2 N. pose proof (co_simple K) as W. pose proof (proj1 (co_degrees K)) as V.
  destruct (step_tail_exact p K A1 A2 N) as (s & e' & E & K' & Ef & Cs). rewrite E.
  apply eq_true_iff_eq. rewrite (switch_sw x j y l W Wh) by congruence.
  destruct Cs as [[-> Cs]| ->].
  - cbn in Ef. subst e'. rewrite Diff. split; [discriminate|]. intros (_ & _ & _ & H4 & H5 & H6 & _).
    rewrite <- !adjb_spec in Cs. rewrite H5, H6 in Cs. intuition congruence.
  - destruct Ef as (_ & _ & X1 & X2 & _ & N2 & Ad & _). pose proof (co_simple K') as W'. pose proof (proj1 (co_degrees K')) as V'.
    rewrite (same_adjb W' Wh) by congruence.
    assert (Q : forall a b, adjb (cm_graph e') a b = switched (adjb g) x j y l a b).
    { intros a b. apply eq_true_iff_eq. rewrite switched_spec, !adjb_spec, Ad. unfold ends. cbn [fst snd]. tauto. }
    split.
    + intros H. unfold sw. rewrite !adjb_spec. splits; auto.
      * apply not_true_iff_false. rewrite adjb_spec. auto.
      * apply not_true_iff_false. rewrite adjb_spec. auto.
      * intros a b. rewrite <- H. auto.
    + intros (_ & _ & _ & _ & _ & _ & H) a b. rewrite H. auto.
Qed.

(** The ways in which the vertices [x] and [y] can be switched. *)
Definition ways (x y : nat) : nat :=
  if x =? y then 0
  else sum_over (fun j => sum_over (fun l => b2n (switch g h [x; j; y; l])) (nbrs g y)) (nbrs g x).

Lemma ways_sum : switches g h = sum_over (fun x => sum_over (ways x) (seq 0 (length v))) (seq 0 (length v)).
Proof.
  pose proof (co_simple K) as W. pose proof (proj1 (co_degrees K)) as V.
  rewrite switches_sum, V. apply sum_over_ext. intros a _. rewrite sum_over_exchange. apply sum_over_ext. intros c _.
  unfold ways. destruct (Nat.eqb_spec a c) as [->|N].
  - apply sum_over_zero. intros b _. apply sum_over_zero. intros d _. cbn [switch]. rewrite Nat.eqb_refl. cbn [negb].
    rewrite !andb_false_r. auto.
  - rewrite (@sum_subset (fun j => sum_over (fun l => b2n (switch g h [a; j; c; l])) (seq 0 (length v))) (nbrs g a) (seq 0 (length v))).
    + apply sum_over_ext. intros b _. apply sum_subset; [apply (sg_nodup W)|apply seq_NoDup|..].
      * intros d Hd. apply in_seq. pose proof (sg_range W _ _ Hd). lia.
      * intros d _ Hd. cbn [switch]. replace (adjb g c d) with false; [rewrite andb_false_r; auto|].
        symmetry. apply not_true_iff_false. rewrite adjb_spec. auto.
    + apply (sg_nodup W).
    + apply seq_NoDup.
    + intros d Hd. apply in_seq. pose proof (sg_range W _ _ Hd). lia.
    + intros b _ Hb. apply sum_over_zero. intros d _. cbn [switch]. replace (adjb g a b) with false; auto.
      symmetry. apply not_true_iff_false. rewrite adjb_spec. auto.
Qed.

Definition hits (ds : list nat) : bool :=
  match cm_m_step p e ds with Done (_, e', _) => same_edges (cm_graph e') h | _ => false end.

Variable D : nat.
Hypothesis DD : forall i, nth i v 0 <> 0 -> exists q, D = q * nth i v 0.

Lemma nbrs_length i : length (nbrs g i) = nth i v 0.
Proof. apply (proj2 (co_degrees K)). Qed.

(** For given positions, the number of outcomes of the last two draws. *)
Lemma hits_two t1 t2 : t1 < length (cm_backup e) - 1 -> t2 < length (cm_backup e) ->
  let x := nth (if t1 =? t2 then length (cm_backup e) - 1 else t1) (cm_backup e) 0 in
  let y := nth t2 (cm_backup e) 0 in
  sum_over (fun r1 => sum_over (fun r2 => b2n (hits [t1; t2; r1; r2])) (seq 0 D)) (seq 0 D) =
  D / nth x v 0 * (D / nth y v 0) * ways x y.
Proof.
  intros H1 H2 x y. unfold ways.
  assert (Ix : In x (cm_backup e)) by (apply nth_In; destruct (t1 =? t2); lia).
  assert (Iy : In y (cm_backup e)) by (apply nth_In; auto).
  destruct (Nat.eqb_spec x y) as [Exy|N].
  - rewrite Nat.mul_0_r. apply sum_over_zero. intros r1 _. apply sum_over_zero. intros r2 _. unfold hits.
    rewrite (step_retry p _ K H1 H2 Exy). destruct (cm_m_step p e [r1; r2]) as [r| | |] eqn:E; auto.
    exfalso. revert E. apply step_short; cbn; auto. lia.
  - destruct (container_at K Ix) as (c & _ & _ & Nx). destruct (container_at K Iy) as (c' & _ & _ & Ny).
    assert (Px : nth x v 0 <> 0) by (rewrite <- nbrs_length; destruct (nbrs g x); [congruence|discriminate]).
    assert (Py : nth y v 0 <> 0) by (rewrite <- nbrs_length; destruct (nbrs g y); [congruence|discriminate]).
    destruct (DD Px) as [qx Ex], (DD Py) as [qy Ey].
    assert (Qx : D / nth x v 0 = qx) by (rewrite Ex; apply Nat.div_mul; auto).
    assert (Qy : D / nth y v 0 = qy) by (rewrite Ey; apply Nat.div_mul; auto).
    rewrite Qx, Qy.
    rewrite <- Nat.mul_assoc.
    rewrite (@sum_over_ext _ (fun r1 => sum_over (fun r2 => b2n (hits [t1; t2; r1; r2])) (seq 0 D))
      (fun r1 => qy * sum_over (fun l => b2n (switch g h [x; nth (r1 mod length (nbrs g x)) (nbrs g x) 0; y; l])) (nbrs g y))).
    + replace (seq 0 D) with (seq 0 (qx * length (nbrs g x))) by (rewrite nbrs_length, Ex; auto).
      rewrite (@sum_mod_nth (fun j => qy * sum_over (fun l => b2n (switch g h [x; j; y; l])) (nbrs g y))) by auto.
      rewrite sum_over_mul. auto.
    + intros r1 _.
      rewrite <- (@sum_mod_nth (fun l => b2n (switch g h [x; nth (r1 mod length (nbrs g x)) (nbrs g x) 0; y; l])) (nbrs g y) qy) by auto.
      rewrite (nbrs_length y), <- Ey. apply sum_over_ext. intros r2 _. f_equal. unfold hits.
      rewrite (step_at p r1 r2 [] K H1 H2 N). fold x y. rewrite step_hits.
      * rewrite !nbrs_length. auto.
      * apply nth_In, Nat.mod_upper_bound. rewrite nbrs_length. auto.
      * apply nth_In, Nat.mod_upper_bound. rewrite nbrs_length. auto.
      * auto.
Qed.

Lemma hits_count : count hits (rolls [list_sum v - 1; list_sum v; D; D]) = D * D * switches g h.
Proof.
  pose proof (backup_length (co_backup K)) as Lb. rewrite <- Lb. set (b := cm_backup e) in *.
  set (f := fun x y => D / nth x v 0 * (D / nth y v 0) * ways x y).
  rewrite count_rolls.
  rewrite (@sum_over_ext _ _ (fun t1 => sum_over (fun t2 =>
    f (nth (if t1 =? t2 then length b - 1 else t1) b 0) (nth t2 b 0)) (seq 0 (length b)))).
  2: { intros t1 H1. apply in_seq in H1. rewrite count_rolls. apply sum_over_ext. intros t2 H2. apply in_seq in H2.
       unfold f. rewrite <- hits_two by (fold b; lia). rewrite count_rolls. apply sum_over_ext. intros r1 _.
       rewrite count_rolls. apply sum_over_ext. intros r2 _. rewrite count_rolls_nil. auto. }
  assert (Z : forall x, f x x = 0) by (intros x; unfold f, ways; rewrite Nat.eqb_refl; lia).
  rewrite (@sum_positions (fun x y => f (nth x b 0) (nth y b 0))) by auto.
  rewrite (@sum_over_ext _ _ (fun x => sum_over (f (nth x b 0)) b)) by (intros x _; apply (sum_nth (f (nth x b 0)))).
  rewrite (sum_nth (fun x => sum_over (f x) b)).
  rewrite (sum_halfs _ (co_backup K)), ways_sum, <- sum_over_mul. apply sum_over_ext. intros x _.
  rewrite (sum_halfs _ (co_backup K)), <- !sum_over_mul. apply sum_over_ext. intros y _. unfold f.
  destruct (Nat.eq_dec (ways x y) 0) as [->|Nw]; [lia|].
  assert (Px : nth x v 0 <> 0 /\ nth y v 0 <> 0).
  { unfold ways in Nw. destruct (x =? y); [congruence|]. rewrite <- !nbrs_length. split.
    - intros Q. apply length_zero_iff_nil in Q. rewrite Q in Nw. auto.
    - intros Q. apply length_zero_iff_nil in Q. rewrite Q in Nw. apply Nw. apply sum_over_zero. auto. }
  destruct Px as [Px Py]. destruct (DD Px) as [qx Ex], (DD Py) as [qy Ey].
  assert (Dx : nth x v 0 * (D / nth x v 0) = D) by (rewrite Ex, Nat.div_mul; auto; lia).
  assert (Dy : nth y v 0 * (D / nth y v 0) = D) by (rewrite Ey, Nat.div_mul; auto; lia).
  transitivity ((nth x v 0 * (D / nth x v 0)) * (nth y v 0 * (D / nth y v 0)) * ways x y); [lia|].
  rewrite Dx, Dy. auto.
Qed.
End Count.

(** *** Every switch can be drawn *)

Lemma In_roll (l : list nat) x : In x l -> exists r, r < length l /\ nth (r mod length l) l 0 = x.
Proof.
  intros I. destruct (In_nth l x 0 I) as (r & Hr & E). exists r. split; auto. rewrite Nat.mod_small; auto.
Qed.

Lemma In_pair (b : list nat) x y : In x b -> In y b -> x <> y -> exists t1 t2,
  t1 < length b - 1 /\ t2 < length b /\
  nth (if t1 =? t2 then length b - 1 else t1) b 0 = x /\ nth t2 b 0 = y.
Proof.
  intros Ix Iy N. destruct (In_nth b x 0 Ix) as (i & Hi & Ei), (In_nth b y 0 Iy) as (j & Hj & Ej).
  destruct (Nat.eq_dec i (length b - 1)) as [->|Ni].
  - exists j, j. rewrite Nat.eqb_refl. splits; auto. destruct (Nat.eq_dec j (length b - 1)); [congruence|lia].
  - exists i, j. destruct (Nat.eqb_spec i j) as [->|_]; [congruence|]. splits; auto. lia.
Qed.

Section Reach.
Context {T : Type} (p : profile) (v : list nat).

Lemma backup_adj (e : config T) x j : cm_ok v e -> adj (cm_graph e) x j -> In x (cm_backup e).
Proof.
  intros K A. apply (count_occ_In Nat.eq_dec). rewrite (co_backup K), <- (proj2 (co_degrees K)).
  unfold adj in A. destruct (nbrs (cm_graph e) x); [contradiction|cbn; lia].
Qed.

Lemma switch_draws (e : config T) x j y l : cm_ok v e -> adj (cm_graph e) x j -> adj (cm_graph e) y l -> x <> y ->
  exists t1 t2 r1 r2, In [t1; t2; r1; r2] (rolls [list_sum v - 1; list_sum v; nth x v 0; nth y v 0]) /\
    forall rs, cm_m_step p e (t1 :: t2 :: r1 :: r2 :: rs) = step_tail p e x j y l rs.
Proof.
  intros K A1 A2 N. destruct (In_pair (backup_adj K A1) (backup_adj K A2) N) as (t1 & t2 & H1 & H2 & E1 & E2).
  destruct (In_roll A1) as (r1 & L1 & F1), (In_roll A2) as (r2 & L2 & F2).
  exists t1, t2, r1, r2. split.
  - apply rolls_In. rewrite <- (backup_length (co_backup K)). rewrite !(proj2 (co_degrees K)) in *. auto.
  - intros rs. rewrite (step_at p r1 r2 rs K H1 H2); rewrite E1, E2; auto. rewrite F1, F2. auto.
Qed.

Lemma sw_draws (e : config T) a b c d B : cm_ok v e -> sw (adjb (cm_graph e)) a b c d B ->
  exists ds e', length ds = 4 /\ (forall rs, cm_m_step p e (ds ++ rs) = Done (Cm_Added (a, b) (c, d), e', rs)) /\
    cm_ok v e' /\ payloads (cm_graph e') = payloads (cm_graph e) /\ forall x y, adjb (cm_graph e') x y = B x y.
Proof.
  intros K (H1 & H2 & H3 & H4 & H5 & H6 & H). apply adjb_spec in H1, H2.
  destruct (switch_draws K H1 H2 H3) as (t1 & t2 & r1 & r2 & _ & E).
  destruct (step_tail_exact p K H1 H2 H3) as (s & e' & F & K' & Ef & Cs).
  apply not_true_iff_false in H5, H6. rewrite adjb_spec in H5, H6.
  destruct Cs as [[-> Cs]| ->]; [tauto|].
  exists [t1; t2; r1; r2], e'. split; auto. split; [intros rs; cbn [app]; rewrite E; auto|]. split; auto.
  destruct Ef as (_ & _ & _ & _ & _ & _ & Ad & Pl & _). split; auto.
  intros x y. rewrite H. apply eq_true_iff_eq. rewrite switched_spec, !adjb_spec, Ad. unfold ends. cbn [fst snd]. tauto.
Qed.

Lemma reach_draws A B : reach A B -> forall e : config T, cm_ok v e -> (forall x y, A x y = adjb (cm_graph e) x y) ->
  exists ds steps k e', length steps = k /\ (forall rs, m_steps (cm_m_step p) k e (ds ++ rs) = Done (steps, e', rs)) /\
    ~ In Cm_Error steps /\ length ds = 4 * k /\
    cm_ok v e' /\ payloads (cm_graph e') = payloads (cm_graph e) /\ forall x y, adjb (cm_graph e') x y = B x y.
Proof.
  induction 1 as [A B E|A a b c d B D H1 H2 IH]; intros e K Q.
  - exists [], [], 0, e. splits; auto. intros x y. rewrite <- E, Q. auto.
  - destruct (@sw_draws e a b c d B K (sw_ext Q H1)) as (ds & e1 & Ld & E1 & K1 & P1 & Q1).
    destruct (IH e1 K1) as (ds2 & steps & k & e' & Lk & E2 & Ne & L2 & K2 & P2 & Q2); [intros; symmetry; auto|].
    exists (ds ++ ds2), (Cm_Added (a, b) (c, d) :: steps), (S k), e'. splits; auto.
    + cbn. lia.
    + intros rs. cbn [m_steps]. rewrite <- app_assoc, E1. cbn [bind]. rewrite E2. reflexivity.
    + intros [F|F]; [discriminate|auto].
    + rewrite app_length. lia.
    + congruence.
Qed.

Lemma chain_reach {T' A' : Type} {C' : AdjContainer T' A'} {L' : AdjLaws C'} (e : config T) (h : graph A') :
  cm_ok v e -> simple_graph h -> has_degrees v h ->
  exists ds steps k e', length steps = k /\ (forall rs, m_steps (cm_m_step p) k e (ds ++ rs) = Done (steps, e', rs)) /\
    ~ In Cm_Error steps /\ length ds = 4 * k /\
    cm_ok v e' /\ payloads (cm_graph e') = payloads (cm_graph e) /\ forall x y, adj (cm_graph e') x y <-> adj h x y.
Proof.
  intros K W [V D]. pose proof (co_simple K) as We. pose proof (co_degrees K) as [Ve De].
  assert (R : reach (adjb (cm_graph e)) (adjb h)).
  { apply (@all_reach (length v)).
    - rewrite <- Ve. apply adjb_proper; auto.
    - rewrite <- V. apply adjb_proper; auto.
    - intros x. rewrite <- V at 2. rewrite <- Ve at 1. rewrite !adjb_degree, D, De; auto. }
  destruct (reach_draws R K) as (ds & steps & k & e' & H1 & H2 & H3 & H4 & H5 & H6 & H7); [auto|].
  exists ds, steps, k, e'. splits; auto. intros x y. rewrite <- !adjb_spec, H7. tauto.
Qed.
End Reach.

(** *** How often a pair of vertices is accepted *)

Lemma pairs_differ (v b : list nat) : (forall i, count_occ Nat.eq_dec b i = nth i v 0) ->
  sum_over (fun x => sum_over (fun y => b2n (negb (x =? y))) b) b + sum_over (fun d => d * d) v = list_sum v * list_sum v.
Proof.
  intros H.
  assert (Q : forall x, sum_over (fun y => b2n (negb (x =? y))) b + nth x v 0 = length b).
  { intros x. rewrite <- H. clear H. induction b as [|a b IH]; auto. rewrite sum_over_cons. cbn [count_occ length].
    destruct (Nat.eqb_spec x a) as [->|N]; destruct (Nat.eq_dec a _); try congruence; cbn [negb b2n]; lia. }
  assert (Z : sum_over (fun d => d * d) v = sum_over (fun x => nth x v 0) b).
  { rewrite (sum_halfs (fun x => nth x v 0) H). rewrite <- (sum_nth (fun d => d * d) v). auto. }
  rewrite Z, <- (backup_length H).
  rewrite <- sum_over_plus. rewrite (@sum_over_ext _ _ (fun _ => length b)) by auto. apply sum_over_const.
Qed.

Lemma accepted {T : Type} p v (e : config T) D : cm_ok v e ->
  count (fun ds => match cm_m_step p e ds with Done _ => true | _ => false end)
    (rolls [list_sum v - 1; list_sum v; D; D]) + D * D * sum_over (fun d => d * d) v =
  D * D * (list_sum v * list_sum v).
Proof.
  intros K. pose proof (backup_length (co_backup K)) as Lb. rewrite <- (pairs_differ (co_backup K)), <- Lb. clear Lb.
  rewrite Nat.mul_add_distr_l. f_equal. set (b := cm_backup e) in *.
  rewrite <- (sum_nth (fun x => sum_over (fun y => b2n (negb (x =? y))) b)).
  rewrite (@sum_over_ext _ _ (fun i => sum_over (fun j => b2n (negb (nth i b 0 =? nth j b 0))) (seq 0 (length b)))).
  2: { intros i _. symmetry. apply (sum_nth (fun y => b2n (negb (nth i b 0 =? y)))). }
  rewrite <- (@sum_positions (fun i j => b2n (negb (nth i b 0 =? nth j b 0)))) by (intros x; rewrite Nat.eqb_refl; auto).
  rewrite count_rolls, <- sum_over_mul. apply sum_over_ext. intros t1 H1. apply in_seq in H1.
  rewrite count_rolls, <- sum_over_mul. apply sum_over_ext. intros t2 H2. apply in_seq in H2.
  set (x := nth (if t1 =? t2 then length b - 1 else t1) b 0). set (y := nth t2 b 0).
  assert (Q : forall r1 r2, match cm_m_step p e [t1; t2; r1; r2] with Done _ => true | _ => false end = negb (x =? y)).
  { intros r1 r2. destruct (Nat.eqb_spec x y) as [E|N]; cbn [negb].
    - rewrite (step_retry p [r1; r2] K) by (fold b; auto; lia).
      destruct (cm_m_step p e [r1; r2]) as [r| | |] eqn:F; auto.
      exfalso. revert F. apply step_short; cbn; auto. fold b. lia.
    - destruct (@container_at _ v e x K) as (c & _ & _ & N1); [apply nth_In; fold b; destruct (t1 =? t2); lia|].
      destruct (@container_at _ v e y K) as (c' & _ & _ & N2); [apply nth_In; fold b; lia|].
      rewrite (@step_at _ p v e t1 t2 r1 r2 [] K) by (fold b; auto; lia). fold b. fold x y.
      destruct (@step_tail_exact _ p v e x (nth (r1 mod length (nbrs (cm_graph e) x)) (nbrs (cm_graph e) x) 0)
        y (nth (r2 mod length (nbrs (cm_graph e) y)) (nbrs (cm_graph e) y) 0) K) as (s & e' & E & _); auto.
      + apply nth_In, Nat.mod_upper_bound. destruct (nbrs (cm_graph e) x); [congruence|discriminate].
      + apply nth_In, Nat.mod_upper_bound. destruct (nbrs (cm_graph e) y); [congruence|discriminate].
      + rewrite E. auto. }
  rewrite count_rolls. rewrite (@sum_over_ext _ _ (fun _ => D * b2n (negb (x =? y)))).
  2: { intros r1 _. rewrite count_rolls. rewrite (@sum_over_ext _ _ (fun _ => b2n (negb (x =? y)))).
       - rewrite sum_over_const, seq_length. auto.
       - intros r2 _. rewrite count_rolls_nil, Q. auto. }
  rewrite sum_over_const, seq_length. lia.
Qed.
