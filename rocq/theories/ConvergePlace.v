(** The chain of [SwEnsemble] forgets its start. *)
From Verif Require Import Base BaseFacts Sums Containers ContainerSpec ContainerFacts Graph GraphSpec GraphFacts GraphOps
  Rng RngFacts Markov Sw SwSpec SwFacts SwChain UniformSpec UniformFacts PlaceSpec PlaceFacts SwReach BalanceSpec BalanceFacts
  SurelyFacts FairSpec ConvergeSpec ConvergeFacts ConvergeBack Properties_Place.
From Coq Require Import QArith.
Set Implicit Arguments.
Unset Strict Implicit.
Local Open Scope nat_scope.

Lemma In_words (l ws : list nat) : Forall (fun c => In c l) ws -> In ws (words (length ws) l).
Proof.
  induction 1 as [|c ws Hc Hw IH]; cbn [length words]; [simpl; auto|].
  apply in_flat_map. exists c. split; auto. apply in_map. auto.
Qed.

Section Sw.
Context {T : Type}.
Variables (p : profile) (n : nat) (q : Q) (coins : list nat) (pl : list T).
Hypothesis Hn : 6 <= n.

Local Notation D := (rewiring_draws q n coins).
Definition swi (e : sw_ensemble T) : Prop := sw_inv n 2 (sw_graph e) /\ sw_r_prob e = q /\ payloads (sw_graph e) = pl.
Definition sweqv (x y : sw_ensemble T) : bool := same_places n (sw_graph x) (sw_graph y).
Local Notation go := (nxt (sw_m_step (T := T) p)).

Lemma sw_m_step_local (e : sw_ensemble T) : local (sw_m_step p e).
Proof.
  unfold sw_m_step.
  assert (L1 : local (fun rs => do ' (i0, i1, rs1) <- sw_draw_edge e rs; Done ((i0, i1), rs1))).
  { intros rs x rs' E rest. unfold sw_draw_edge in *.
    apply bind_done in E as ([[i0 i1] rs1] & E & E1). apply bind_done in E as ([r rs2] & E & E2).
    rewrite (local_gen_range E rest). cbn [bind].
    destruct (container (sw_graph e) (r / 2)) as [c| | |]; try discriminate. cbn [bind] in *.
    destruct (expect _) as [y| | |]; try discriminate. cbn [bind] in *. injection E2 as <- <- <-. injection E1 as <- <-. auto. }
  assert (L2 : forall i0 i1, local (sw_randomize_edge p e i0 i1)).
  { intros i0 i1. unfold sw_randomize_edge. apply (local_bind local_gen_f64). intros x.
    apply local_if.
    - apply local_pure. intros h. intros rs y rs' E rest.
      apply bind_done in E as ([k rs1] & E1 & E2). unfold draw_remaining in *.
      apply bind_done in E1 as ([z rs2] & E1 & E3). rewrite (local_gen_range E1 rest). cbn [bind]. injection E3 as <- <-.
      cbn [bind]. destruct (sw_rewire_edge _ _ _ _ _) as [[s g]| | |]; try discriminate. cbn [bind] in *. injection E2 as <- <-. auto.
    - intros rs y rs' E rest. destruct (sw_reset_edge _ _ _ _) as [[s g]| | |]; try discriminate. cbn [bind] in *. injection E as <- <-. auto. }
  intros rs y rs' E rest. apply bind_done in E as ([[i0 i1] rs1] & E1 & E2).
  assert (E3 : (do ' (i0, i1, rs1) <- sw_draw_edge e rs; Done ((i0, i1), rs1)) = Done ((i0, i1), rs1)) by (rewrite E1; auto).
  specialize (L1 _ _ _ E3 rest). clear E3. rename L1 into E3. apply bind_done in E3 as ([[j0 j1] rs2] & E3 & E4). injection E4 as -> -> ->.
  rewrite E3. cbn [bind]. apply L2. auto.
Qed.

(** What the three draws do, and that the last is not looked at if the edge is to be put back. *)
Lemma draws_step e r c t : swi e -> exists s e', swi e' /\
  sw_m_step p e [r; c; t] = Done (s, e', if Qle_bool (unit_float c) q then [] else [t]) /\
  (Qle_bool (unit_float c) q = false -> sw_m_step p e [r; c] = Done (s, e', [])).
Proof using Hn.
  intros (I & Q & P). pose proof (@m_step_spec T p n e [r; c; t] I ltac:(lia)) as S.
  destruct (sw_m_step p e [r; c; t]) as [[[s e'] rs']| | |] eqn:E; try contradiction; [|cbn in S; lia].
  destruct S as (i0 & i1 & R & C & Q'). destruct (changed_inv I C) as [I' P'].
  exists s, e'. split; [unfold swi; splits; auto; congruence|]. unfold sw_m_step in *.
  destruct (@draw_edge_spec T n e r [c; t] I ltac:(lia)) as (j & E1 & _ & N1).
  destruct (@draw_edge_spec T n e r [c] I ltac:(lia)) as (j' & E2 & _ & N2).
  assert (j' = j) by congruence. subst j'. rewrite E1 in E. rewrite E2. cbn [bind] in *.
  unfold sw_randomize_edge, gen_f64 in *. cbn [draw bind] in *. rewrite Q in *.
  destruct (Qle_bool (unit_float c) q).
  - split; [|discriminate]. destruct (usub _ _ _) as [h| | |]; try discriminate. cbn [bind] in E.
    unfold draw_remaining, gen_range in E. destruct (h =? 0); try discriminate. cbn [draw bind] in E.
    destruct (sw_rewire_edge _ _ _ _ _) as [[s1 g1]| | |]; try discriminate. cbn [bind] in E. injection E as <- <- <-. auto.
  - destruct (sw_reset_edge _ _ _ _) as [[s1 g1]| | |]; try discriminate. cbn [bind] in *. injection E as <- <- <-. auto.
Qed.

Lemma In_D d : In d D <-> exists r c t, r < 2 * n /\ In c coins /\ t < n - 1 /\
  d = if Qle_bool (unit_float c) q then [r; c; t] else [r; c].
Proof using Hn.
  unfold rewiring_draws. rewrite in_flat_map. split.
  - intros (r & Hr & H). apply in_seq in Hr. apply in_flat_map in H as (c & Hc & H). exists r, c.
    destruct (Qle_bool _ _).
    + apply in_map_iff in H as (t & <- & Ht). apply in_seq in Ht. exists t. splits; auto; lia.
    + apply repeat_spec in H. exists 0. splits; auto; lia.
  - intros (r & c & t & Hr & Hc & Ht & ->). exists r. split; [apply in_seq; lia|]. apply in_flat_map. exists c. split; auto.
    destruct (Qle_bool _ _); [apply (in_map (fun t => [r; c; t])), in_seq; lia|].
    destruct (n - 1); [lia|]. cbn. auto.
Qed.

Lemma sw_step e d : swi e -> In d D -> exists s e', sw_m_step p e d = Done (s, e', []) /\ swi e'.
Proof using Hn.
  intros I H. apply In_D in H as (r & c & t & _ & _ & _ & ->).
  destruct (@draws_step e r c t I) as (s & e' & I' & E & E'). exists s, e'. split; auto.
  destruct (Qle_bool _ _); auto.
Qed.

Lemma sweqv_iff x y : swi x -> swi y -> (sweqv x y = true <-> forall i o, place (sw_graph x) i o = place (sw_graph y) i o).
Proof. intros (I & _) (I' & _). unfold sweqv. apply (same_places_iff I I'). Qed.

Lemma sweqv_refl x : swi x -> sweqv x x = true.
Proof. intros I. apply sweqv_iff; auto. Qed.

Lemma sweqv_sym x y : swi x -> swi y -> sweqv x y = true -> sweqv y x = true.
Proof. intros I I'. unfold sweqv, same_places. rewrite displaced_sym. auto. Qed.

Lemma sweqv_trans x y z : swi x -> swi y -> swi z -> sweqv x y = true -> sweqv y z = true -> sweqv x z = true.
Proof. intros I I' I''. rewrite !sweqv_iff by auto. intros H H' i o. rewrite H. auto. Qed.

Lemma count_gives x c : swi x -> swi c ->
  count (fun d => sweqv c (go x d)) D = count (gives n p x (sw_graph c)) (step_draws n coins).
Proof using Hn.
  intros I I'. unfold count. rewrite !length_filter_sum. unfold rewiring_draws, step_draws. rewrite !sum_over_flat_map.
  apply sum_over_ext. intros r _. rewrite !sum_over_flat_map. apply sum_over_ext. intros k _.
  assert (G : forall t, b2n (sweqv c (go x (if Qle_bool (unit_float k) q then [r; k; t] else [r; k]))) =
    b2n (gives n p x (sw_graph c) [r; k; t])).
  { intros t. destruct (@draws_step x r k t I) as (s & e' & I1 & E & E'). unfold gives, nxt. rewrite E.
    replace (sw_m_step p x (if Qle_bool (unit_float k) q then [r; k; t] else [r; k])) with (Done (s, e', @nil nat)).
    - f_equal. unfold sweqv, same_places. rewrite displaced_sym. auto.
    - destruct (Qle_bool _ _); [rewrite E; auto|rewrite E'; auto]. }
  rewrite (sum_over_map _ (fun t => [r; k; t])). rewrite <- (sum_over_ext _ _ _ (fun t _ => G t)).
  destruct (Qle_bool _ _); [rewrite sum_over_map; auto|].
  rewrite sum_over_const, seq_length. generalize (n - 1) as h. intros h.
  induction h as [|h IH]; auto. cbn [repeat]. rewrite sum_over_cons, IH. lia.
Qed.

Lemma sw_count x c : swi x -> swi c -> sweqv x c = false ->
  count (fun d => sweqv c (go x d)) D =
  match displaced n (sw_graph x) (sw_graph c) with
  | [(i, o)] => for_rewiring q coins +
                (if same_place (place (sw_graph c) i o) (Some o) then against_rewiring q coins * (n - 1) else 0)
  | _ => 0
  end.
Proof using Hn.
  intros I I' F. rewrite count_gives by auto. pose proof I as (I1 & Q & _). pose proof I' as (I2 & _ & _).
  rewrite (@C85_step T p n x (sw_graph c) coins); try apply sw_ok_inv; auto; [|lia]. rewrite Q. auto.
Qed.

Lemma sw_lump x y c : swi x -> swi y -> swi c -> sweqv x y = true -> sweqv x c = false ->
  count (fun d => sweqv c (go x d)) D = count (fun d => sweqv c (go y d)) D.
Proof using Hn.
  intros I1 I2 I3 E F.
  assert (F' : sweqv y c = false).
  { apply not_true_iff_false. intros K. apply not_true_iff_false in F. apply F. apply (@sweqv_trans x y); auto. }
  rewrite !sw_count by auto. replace (displaced n (sw_graph y) (sw_graph c)) with (displaced n (sw_graph x) (sw_graph c)); auto.
  unfold displaced. apply filter_ext. intros io. rewrite sweqv_iff in E by auto. rewrite E. auto.
Qed.

Hypothesis Ha : 0 < for_rewiring q coins.

Lemma some_coin : exists c, In c coins /\ Qle_bool (unit_float c) q = true.
Proof using Ha. apply some_count. exact Ha. Qed.

Lemma sw_stay x : swi x -> exists d, In d D /\ sweqv x (go x d) = true.
Proof using Hn Ha.
  intros I. pose proof I as (I1 & Q & _). destruct some_coin as (c & Ic & Qc).
  destruct (@draw_edge_spec T n x 0 [c; 0] I1 ltac:(lia)) as (j & _ & R & N1).
  destruct (@draw_edge_spec T n x 0 [c; j - 1] I1 ltac:(lia)) as (j' & E & _ & N2).
  assert (j' = j) by congruence. subst j'. rewrite Nat.mod_0_l in * by lia. change (0 / 2) with 0 in *. pose proof R as [o Ro].
  pose proof I1 as (W & V & _ & _ & P). destruct (root_end W P Ro) as (N3 & H0 & H1 & _). rewrite V in *.
  exists [0; c; j - 1]. split.
  - apply In_D. exists 0, c, (j - 1). rewrite Qc. splits; auto; lia.
  - unfold nxt, sw_m_step. rewrite E. cbn [bind].
    unfold sw_randomize_edge, gen_f64. cbn [draw bind]. rewrite Q, Qc, V.
    unfold usub. destruct (Nat.leb_spec 1 n) as [L|L]; [|lia]. cbn [bind].
    rewrite draw_remaining_cons by lia. cbn [bind]. rewrite Nat.mod_small by lia.
    unfold sw_rewire_edge. replace (if j - 1 <? 0 then j - 1 else j - 1 + 1) with j by (cbn; lia).
    rewrite Nat.eqb_refl. cbn [bind sw_set sw_graph]. unfold sweqv. cbn [sw_graph]. apply (same_places_iff I1 I1). auto.
Qed.

Lemma mv_displaced (e e' : sw_ensemble T) i0 i1 x o : mv p n e i0 i1 x o e' -> displaced n (sw_graph e) (sw_graph e') = [(i0, o)].
Proof using Hn Ha.
  intros M. destruct (mv_after M) as [I' _]. destruct M as [I R N1 N2 N3 H0 H1 Hx A Mo Q _].
  pose proof (place_moved I I' N1 N2 N3 R Mo) as PM. pose proof (proj2 (place_iff _ _ _ I) R) as Pg.
  assert (Ph : place (sw_graph e') i0 o = Some x) by (rewrite PM, !Nat.eqb_refl; auto).
  apply filter_single.
  - apply ring_edges_NoDup. lia.
  - apply (rooted_edge I R).
  - cbn [fst snd]. rewrite Pg, Ph. cbn. apply negb_true_iff, Nat.eqb_neq. auto.
  - intros [a b] _ E. cbn [fst snd] in E. rewrite PM in E.
    destruct (Nat.eqb_spec a i0), (Nat.eqb_spec b o); cbn [andb] in E; try congruence;
      rewrite (proj2 (same_place_eq (place (sw_graph e) a b) _) eq_refl) in E; discriminate.
Qed.

Lemma sw_walk (x y : sw_ensemble T) : reach p n x y -> swi x -> exists w, Forall (fun d => In d D) w /\ sweqv (walk (sw_m_step p) x w) y = true.
Proof using Hn Ha.
  induction 1 as [e|e i0 i1 x o e1 e2 M R IH]; intros I.
  - exists []. split; auto. apply sweqv_refl; auto.
  - destruct (mv_after M) as [I1 P1]. pose proof I as (_ & Q & P).
    assert (J1 : swi e1) by (unfold swi; splits; auto; [rewrite (mv_prob M); auto|congruence]).
    destruct (IH J1) as (w & Fw & Ew). destruct (reach_after R I1) as (I2 & P2 & Q2).
    assert (J2 : swi e2) by (unfold swi; destruct J1 as (? & ? & ?); splits; auto; congruence).
    pose proof (mv_displaced M) as Dp.
    assert (F : sweqv e e1 = false) by (unfold sweqv, same_places; rewrite Dp; auto).
    assert (C : 0 < count (fun d => sweqv e1 (go e d)) D) by (rewrite (sw_count I J1 F), Dp; lia).
    apply some_count in C as (d & Id & Ed).
    destruct (sw_step I Id) as (s & e' & Es & I').
    assert (Eg : go e d = e') by (unfold nxt; rewrite Es; auto). rewrite Eg in Ed.
    destruct (@follow _ _ (sw_m_step p) D swi sweqv sw_step sweqv_refl sweqv_sym sweqv_trans sw_lump sw_stay w e1 e' J1 I' Ed Fw)
      as (w' & Fw' & _ & Ew').
    exists (d :: w'). split; auto. cbn [walk fold_left]. fold (walk (sw_m_step p) (go e d) w'). rewrite Eg.
    assert (Wi : forall x w, swi x -> Forall (fun d => In d D) w -> swi (walk (sw_m_step p) x w)).
    { intros y v Iy Fv. apply (walk_inv sw_step Fv Iy). }
    apply (@sweqv_trans _ (walk (sw_m_step p) e1 w)); auto. apply sweqv_sym; auto.
Qed.

Hypothesis Hq : (0 <= q)%Q.

Lemma sw_reach x y : swi x -> swi y -> exists w, Forall (fun d => In d D) w /\ sweqv (walk (sw_m_step p) x w) y = true.
Proof using Hn Ha Hq.
  intros Ix Iy. pose proof Ix as (I & Q & P). pose proof Iy as (I' & Q' & P').
  destruct (@reach_any T p n x (sw_graph y) Hn I I') as (e' & R & A); [congruence|rewrite Q; auto|].
  destruct (sw_walk R Ix) as (w & Fw & Ew). exists w. split; auto.
  destruct (reach_after R I) as (I2 & P2 & Q2). assert (J : swi e') by (unfold swi; splits; auto; congruence).
  assert (Wi : swi (walk (sw_m_step p) x w)) by apply (walk_inv sw_step Fw Ix).
  apply (@sweqv_trans _ e'); auto. apply sweqv_sym; auto. apply sweqv_iff; auto. apply (alike_places I' I2 A).
Qed.

Definition sw_code (e : sw_ensemble T) : list nat :=
  map (fun io => match place (sw_graph e) (fst io) (snd io) with Some t => t | None => 0 end) (ring_edges n).

Lemma sw_code_in x : swi x -> In (sw_code x) (words (2 * n) (seq 0 n)).
Proof.
  intros (I & _). replace (2 * n) with (length (sw_code x)) by (unfold sw_code; rewrite map_length; apply ring_edges_length).
  apply In_words, Forall_forall. intros t Ht. apply in_map_iff in Ht as ([i o] & <- & Hio). cbn [fst snd].
  destruct (place_some I Hio) as (t & Rt). rewrite (proj2 (place_iff _ _ _ I) Rt). apply in_seq.
  pose proof I as (W & V & _ & _ & P). destruct (root_end W P Rt) as (_ & _ & H1 & _). lia.
Qed.

Lemma sw_code_eqv x y : swi x -> swi y -> sw_code x = sw_code y -> sweqv x y = true.
Proof.
  intros Ix Iy E. pose proof Ix as (I & _). pose proof Iy as (I' & _). apply sweqv_iff; auto. intros i o.
  destruct (in_dec pair_dec (i, o) (ring_edges n)) as [J|J]; [|eapply place_outside; eauto].
  unfold sw_code in E. pose proof (ext_in_map E (i, o) J) as K. cbn [fst snd] in K.
  destruct (place_some I J) as (t & Rt). destruct (place_some I' J) as (t' & Rt').
  rewrite (proj2 (place_iff _ _ _ I) Rt), (proj2 (place_iff _ _ _ I') Rt') in *. congruence.
Qed.

Definition sww (e : sw_ensemble T) : nat :=
  (for_rewiring q coins + against_rewiring q coins * (n - 1)) ^ at_origin n (sw_graph e) *
  for_rewiring q coins ^ (2 * n - at_origin n (sw_graph e)).

Lemma sww_pos x : swi x -> 0 < sww x.
Proof using Hn Ha.
  intros _. unfold sww. apply Nat.mul_pos_pos; apply Nat.neq_0_lt_0, Nat.pow_nonzero; intros X; rewrite ?Nat.eq_add_0 in X; lia.
Qed.

Lemma sww_eqv x y : swi x -> swi y -> sweqv x y = true -> sww x = sww y.
Proof.
  intros Ix Iy E. rewrite sweqv_iff in E by auto. unfold sww.
  replace (at_origin n (sw_graph y)) with (at_origin n (sw_graph x)); auto.
  unfold at_origin, count. f_equal. apply filter_ext. intros io. rewrite E. auto.
Qed.

Lemma sw_balance x y : swi x -> swi y -> sweqv x y = false ->
  sww x * count (fun d => sweqv y (go x d)) D = sww y * count (fun d => sweqv x (go y d)) D.
Proof using Hn Ha.
  intros Ix Iy E. rewrite !count_gives by auto. pose proof Ix as (I & Q & P). pose proof Iy as (I' & Q' & P').
  pose proof (@C85_balance T p n x (sw_graph y) coins ltac:(lia) (proj2 (sw_ok_inv _ _ _) I) (proj2 (sw_ok_inv _ _ _) I') E) as B.
  cbv zeta in B. rewrite Q in B. replace (sw_set x (sw_graph y)) with y in B; [exact B|].
  destruct y as [gy qy]. unfold sw_set. cbn in *. congruence.
Qed.

Lemma sw_ratio s g h : swi s -> swi g -> swi h ->
  tends_to_ratio (sww g) (sww h) (sw_m_step p) D s (sweqv g) (sweqv h).
Proof using Hn Ha Hq.
  intros Is Ig Ih.
  apply (@ratio_limit _ _ (sw_m_step p) D swi sweqv sw_m_step_local sw_step sweqv_refl sweqv_sym sweqv_trans
    _ sw_code _ sw_code_in sw_code_eqv sw_lump sw_stay sw_reach sww sww_pos sww_eqv sw_balance); auto.
  intros X. destruct (sw_stay Is) as (d & Id & _). rewrite X in Id. destruct Id.
Qed.
End Sw.
