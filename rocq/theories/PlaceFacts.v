(** Proofs about the states of the small-world ensemble and the steps between them. *)
From Verif Require Import Base BaseFacts Sums Containers ContainerSpec ContainerFacts Graph GraphSpec GraphFacts GraphOps
  GraphBuild Rng RngFacts Markov Sw SwSpec SwFacts SwChain UniformSpec UniformFacts PlaceSpec.
From Coq Require Import QArith.
Set Implicit Arguments.
Unset Strict Implicit.
Local Open Scope nat_scope.

(** ** Lists and sums *)

Lemma filter_single {X} (f : X -> bool) a : forall l, NoDup l -> In a l -> f a = true ->
  (forall b, In b l -> f b = true -> b = a) -> filter f l = [a].
Proof.
  induction l as [|b l IH]; intros N I F H; [destruct I|]. apply NoDup_cons_iff in N as [Nb N]. cbn [filter].
  destruct I as [->|I].
  - rewrite F. f_equal. destruct (filter f l) as [|c m] eqn:E; auto.
    assert (Ic : In c (filter f l)) by (rewrite E; simpl; auto). apply filter_In in Ic as [Ic Fc].
    destruct Nb. rewrite <- (H c); simpl; auto.
  - destruct (f b) eqn:Fb.
    + destruct Nb. rewrite (H b); simpl; auto.
    + apply IH; auto. intros c Hc. apply H. simpl; auto.
Qed.

Lemma sum_halves (f : nat -> nat -> nat) n :
  sum_over (fun r => f (r / 2) (r mod 2)) (seq 0 (2 * n)) = sum_over (fun i => f i 0 + f i 1) (seq 0 n).
Proof.
  induction n as [|n IH]; auto. rewrite seq_S, sum_over_app, sum_over_one, <- IH.
  replace (2 * S n) with (2 * n + 2) by lia. rewrite seq_app, sum_over_app. f_equal.
  rewrite Nat.add_0_l. cbn [seq]. rewrite sum_over_cons, sum_over_one.
  replace (2 * n) with (n * 2) by lia. replace (S (n * 2)) with (1 + n * 2) by lia.
  rewrite Nat.div_mul, Nat.mod_mul, Nat.div_add, Nat.mod_add by lia.
  change (1 / 2) with 0. change (1 mod 2) with 1. rewrite Nat.add_0_l. auto.
Qed.

Lemma sum_hit (f : nat -> bool) a m : a < m -> f a = true -> (forall t, t < m -> f t = true -> t = a) ->
  sum_over (fun t => b2n (f t)) (seq 0 m) = 1.
Proof.
  intros H F U. rewrite <- length_filter_sum. rewrite (@filter_single _ f a); auto.
  - apply seq_NoDup.
  - apply in_seq. lia.
  - intros b Hb. apply U. apply in_seq in Hb. lia.
Qed.

(** ** Places *)

Lemma same_place_eq a b : same_place a b = true <-> a = b.
Proof.
  destruct a as [a|], b as [b|]; cbn; try (split; congruence). rewrite Nat.eqb_eq. split; congruence.
Qed.

Lemma ring_targets_two n i : ring_targets n 2 i = [(i + 1) mod n; (i + 2) mod n].
Proof. reflexivity. Qed.

Lemma ring_targets_NoDup n i : 3 <= n -> i < n -> NoDup (ring_targets n 2 i).
Proof.
  intros Hn Hi. rewrite ring_targets_two. constructor; [|constructor; [simpl; tauto|constructor]].
  intros [E|[]]. destruct (Nat.ltb_spec (i + 2) n).
  - rewrite !Nat.mod_small in E by lia. lia.
  - destruct (Nat.ltb_spec (i + 1) n).
    + rewrite (Nat.mod_small (i + 1)) in E by lia. replace (i + 2) with (0 + 1 * n) in E by lia.
      rewrite Nat.mod_add, Nat.mod_small in E by lia. lia.
    + replace (i + 2) with (1 + 1 * n) in E by lia. replace (i + 1) with (0 + 1 * n) in E by lia.
      rewrite !Nat.mod_add, !Nat.mod_small in E by lia. lia.
Qed.

Lemma ring_edges_In n i o : In (i, o) (ring_edges n) <-> i < n /\ In o (ring_targets n 2 i).
Proof.
  unfold ring_edges. rewrite in_flat_map. split.
  - intros (x & Hx & H). apply in_map_iff in H as (y & E & H). injection E as -> ->. apply in_seq in Hx. split; auto; lia.
  - intros [Hi H]. exists i. split; [apply in_seq; lia|]. apply in_map; auto.
Qed.

Lemma ring_edges_NoDup n : 3 <= n -> NoDup (ring_edges n).
Proof.
  intros Hn. unfold ring_edges. apply NoDup_flat_map.
  - apply seq_NoDup.
  - intros x Hx. apply in_seq in Hx. apply FinFun.Injective_map_NoDup; [intros a b E; congruence|].
    apply ring_targets_NoDup; lia.
  - intros x y z _ _ H1 H2. apply in_map_iff in H1 as (a & <- & _). apply in_map_iff in H2 as (b & E & _). congruence.
Qed.

Lemma ring_edges_length n : length (ring_edges n) = 2 * n.
Proof.
  unfold ring_edges. rewrite <- (seq_length n 0) at 2. generalize (seq 0 n). intros l. induction l as [|x l IH]; auto.
  cbn [flat_map]. rewrite app_length, IH, map_length. unfold ring_targets. rewrite map_length, seq_length. cbn [length]. lia.
Qed.

Section Places.
Context {T : Type}.
Implicit Types g h : graph (sw_container T).

Lemma origin_unique (l : list sw_edge) x y o :
  NoDup (flat_map (fun e => match se_orig e with Some o => [o] | None => [] end) l) ->
  In x l -> In y l -> se_orig x = Some o -> se_orig y = Some o -> x = y.
Proof.
  induction l as [|a l IH]; intros N Hx Hy Ex Ey; [destruct Hx|]. cbn [flat_map] in N.
  assert (K : forall z, In z l -> se_orig z = Some o ->
    In o (flat_map (fun e => match se_orig e with Some o => [o] | None => [] end) l)).
  { intros z Hz Ez. apply in_flat_map. exists z. rewrite Ez. simpl; auto. }
  destruct Hx as [->|Hx], Hy as [->|Hy]; auto.
  - rewrite Ex in N. apply NoDup_cons_iff in N as [N _]. destruct N. eapply K; eauto.
  - rewrite Ey in N. apply NoDup_cons_iff in N as [N _]. destruct N. eapply K; eauto.
  - apply IH; auto. destruct (se_orig a); auto. apply NoDup_cons_iff in N. tauto.
Qed.

Lemma inv_size n g : sw_inv n 2 g -> 0 < n -> 5 <= n.
Proof. intros I H. pose proof (sw_inv_size I H). lia. Qed.

Lemma rooted_edge n g i t o : sw_inv n 2 g -> rooted_from g i t o -> In (i, o) (ring_edges n).
Proof.
  intros I R. pose proof I as (W & V & _ & Pr & P). destruct (root_end W P R) as (_ & Hi & _). rewrite V in Hi.
  apply ring_edges_In. split; auto. rewrite <- Pr by auto. eapply rooted_from_target; eauto.
Qed.

Lemma place_iff n g i o t : sw_inv n 2 g -> place g i o = Some t <-> rooted_from g i t o.
Proof.
  intros I. pose proof I as (W & V & _ & Pr & P). unfold place. split.
  - destruct (find _ (entries g i)) as [x|] eqn:E; [|discriminate]. intros H. injection H as <-.
    apply find_some in E as [E F]. destruct x as [s [o'|]]; cbn in F; [|discriminate]. apply Nat.eqb_eq in F. subst.
    exact E.
  - intros R. destruct (root_end W P R) as (_ & Hi & _). rewrite V in Hi.
    destruct (find _ (entries g i)) as [x|] eqn:E.
    + apply find_some in E as [E F]. destruct x as [s [o'|]]; cbn in F; [|discriminate]. apply Nat.eqb_eq in F. subst o'.
      assert (X : mk_se s (Some o) = mk_se t (Some o)).
      { apply (@origin_unique (entries g i) _ _ o); auto.
        eapply Permutation_NoDup; [symmetry; apply (Pr i Hi)|]. apply ring_targets_NoDup; auto.
        pose proof (inv_size I). lia. }
      cbn. congruence.
    + apply (find_none _ _ E) in R. cbn in R. rewrite Nat.eqb_refl in R. discriminate.
Qed.

Lemma place_some n g i o : sw_inv n 2 g -> In (i, o) (ring_edges n) -> exists t, rooted_from g i t o.
Proof.
  intros (W & V & _ & Pr & P) H. apply ring_edges_In in H as [Hi H]. rewrite <- Pr in H by auto.
  unfold root_targets in H. apply in_flat_map in H as ([t [o'|]] & H & F); [|destruct F].
  destruct F as [->|[]]. exists t. exact H.
Qed.

Lemma place_ext (a b : option nat) : (forall t, a = Some t <-> b = Some t) -> a = b.
Proof.
  intros H. destruct a as [a|]; [symmetry; apply H; auto|]. destruct b as [b|]; auto. apply H. auto.
Qed.

Lemma place_moved n g i0 i1 i2 o g' : sw_inv n 2 g -> sw_inv n 2 g' ->
  i0 <> i1 -> i0 <> i2 -> i1 <> i2 -> rooted_from g i0 i1 o -> moved g i0 i1 i2 o g' ->
  forall i x, place g' i x = if (i =? i0) && (x =? o) then Some i2 else place g i x.
Proof.
  intros I I' N1 N2 N3 R M i x. pose proof (moved_In (proj1 I) N1 N2 N3 M) as J.
  destruct (Nat.eqb_spec i i0) as [->|Ni]; cbn [andb].
  - destruct (Nat.eqb_spec x o) as [->|No].
    + apply (place_iff i0 o i2 I'). apply J. auto.
    + apply place_ext. intros t. rewrite (place_iff _ _ _ I'), (place_iff _ _ _ I). unfold rooted_from. rewrite J.
      split; [|intros H; left; splits; auto; intros [? ?]; congruence].
      intros [(H & _)|[[_ H]|[_ H]]]; auto; congruence.
  - apply place_ext. intros t. rewrite (place_iff _ _ _ I'), (place_iff _ _ _ I). unfold rooted_from. rewrite J.
    split; [|intros H; left; splits; auto; intros [? ?]; congruence].
    intros [(H & _)|[[H _]|[_ H]]]; auto; congruence.
Qed.

Lemma places_alike n g h : sw_inv n 2 g -> sw_inv n 2 h -> payloads h = payloads g ->
  (forall i o, place g i o = place h i o) -> sw_alike g h.
Proof.
  intros I I' Pl H. pose proof I as (W & V & E & _ & P). pose proof I' as (W' & V' & E' & _ & P').
  unfold sw_alike. splits; auto; try congruence. intros i.
  assert (R : forall a t o, rooted_from g a t o <-> rooted_from h a t o).
  { intros a t o. rewrite <- (place_iff _ _ _ I), <- (place_iff _ _ _ I'), H. tauto. }
  apply NoDup_Permutation; try (apply entries_NoDup; auto).
  intros [t [o|]]; [apply (R i t o)|]. rewrite (P i t), (P' i t). unfold rooted.
  split; intros [o Ho]; exists o; apply R; auto.
Qed.

Lemma alike_places n g h : sw_inv n 2 g -> sw_inv n 2 h -> sw_alike g h -> forall i o, place g i o = place h i o.
Proof.
  intros I I' (_ & _ & _ & P) i o. apply place_ext. intros t.
  rewrite (place_iff _ _ _ I), (place_iff _ _ _ I'). unfold rooted_from. rewrite (P i). tauto.
Qed.

Lemma displaced_In n g h i o : In (i, o) (displaced n g h) <-> In (i, o) (ring_edges n) /\ place g i o <> place h i o.
Proof.
  unfold displaced. rewrite filter_In. cbn [fst snd]. rewrite negb_true_iff, <- not_true_iff_false, same_place_eq. tauto.
Qed.

Lemma place_outside n g h i o : sw_inv n 2 g -> sw_inv n 2 h -> ~ In (i, o) (ring_edges n) -> place g i o = place h i o.
Proof.
  intros I I' H. apply place_ext. intros t. rewrite (place_iff _ _ _ I), (place_iff _ _ _ I').
  split; intros R; destruct H; [apply (rooted_edge I R)|apply (rooted_edge I' R)].
Qed.

Lemma place_same n g h i o : sw_inv n 2 g -> sw_inv n 2 h -> ~ In (i, o) (displaced n g h) -> place g i o = place h i o.
Proof.
  intros I I' H. destruct (in_dec pair_dec (i, o) (ring_edges n)) as [J|J]; [|eapply place_outside; eauto].
  rewrite displaced_In in H. destruct (place g i o) as [a|], (place h i o) as [b|]; try tauto.
  - destruct (Nat.eq_dec a b); [congruence|]. destruct H. split; auto. congruence.
  - destruct H. split; auto. discriminate.
  - destruct H. split; auto. discriminate.
Qed.

Lemma same_places_iff n g h : sw_inv n 2 g -> sw_inv n 2 h ->
  same_places n g h = true <-> forall i o, place g i o = place h i o.
Proof.
  intros I I'. unfold same_places. destruct (displaced n g h) as [|[i o] l] eqn:E.
  - split; auto. intros _ i o. apply (place_same I I'). rewrite E. simpl; tauto.
  - split; [discriminate|]. intros H. assert (J : In (i, o) (displaced n g h)) by (rewrite E; simpl; auto).
    apply displaced_In in J. destruct (proj2 J). auto.
Qed.

(** ** Which move gives [h] *)

Lemma hit_allowed n g h i0 i1 o x : sw_inv n 2 g -> sw_inv n 2 h -> rooted_from g i0 i1 o ->
  displaced n g h = [(i0, o)] -> place h i0 o = Some x -> i1 <> x /\ i0 <> x /\ x < n /\ ~ adj g i0 x.
Proof.
  intros I I' R D H. pose proof I as (W & V & _ & _ & P). pose proof I' as (W' & V' & _ & _ & P').
  pose proof (proj1 (place_iff _ _ _ I') H) as Rh. destruct (root_end W' P' Rh) as (N & _ & Hx & _). rewrite V' in Hx.
  assert (N1 : i1 <> x).
  { intros ->. assert (J : In (i0, o) (displaced n g h)) by (rewrite D; simpl; auto).
    apply displaced_In in J as [_ J]. apply J. rewrite H. apply (place_iff _ _ _ I). auto. }
  assert (S : forall a b, (a, b) <> (i0, o) -> place g a b = place h a b).
  { intros a b Nab. apply (place_same I I'). rewrite D. intros [Y|[]]. congruence. }
  splits; auto. intros A. apply adj_entries in A as ([y [o'|]] & He & Ey); cbn in Ey; subst y.
  - destruct (Nat.eq_dec o' o) as [->|No].
    + apply (place_iff i0 o x I) in He. apply (place_iff i0 o i1 I) in R. congruence.
    + apply (place_iff i0 o' x I) in He. rewrite S in He by congruence. apply (place_iff _ _ _ I') in He.
      assert (X : mk_se x (Some o') = mk_se x (Some o)) by (apply (entry_unique W' He Rh); auto). congruence.
  - apply P in He as [o' He]. apply (place_iff _ _ _ I) in He. rewrite S in He by congruence.
    apply (place_iff _ _ _ I') in He. assert (Y : In (mk_se x None) (entries h i0)) by (apply P'; exists o'; auto).
    assert (X : mk_se x None = mk_se x (Some o)) by (apply (entry_unique W' Y Rh); auto). congruence.
Qed.

Lemma hit_moved n g h i0 i1 o x g' : sw_inv n 2 g -> sw_inv n 2 g' -> sw_inv n 2 h -> rooted_from g i0 i1 o ->
  same_places n g h = false -> i0 <> i1 -> i0 <> x -> i1 <> x -> moved g i0 i1 x o g' ->
  same_places n g' h = true <-> displaced n g h = [(i0, o)] /\ place h i0 o = Some x.
Proof.
  intros I Ig I' R F N1 N2 N3 M. pose proof (place_moved I Ig N1 N2 N3 R M) as PM.
  rewrite (same_places_iff Ig I'). split.
  - intros S. assert (Hh : place h i0 o = Some x).
    { rewrite <- S, PM, !Nat.eqb_refl. auto. }
    split; auto. apply filter_single.
    + apply ring_edges_NoDup. pose proof (inv_size I). pose proof (root_end (proj1 I) (proj2 (proj2 (proj2 (proj2 I)))) R) as (_ & Hi & _).
      pose proof (proj1 (proj2 I)). lia.
    + apply (rooted_edge I R).
    + cbn [fst snd]. rewrite Hh, (proj2 (place_iff _ _ _ I) R). cbn. apply negb_true_iff, Nat.eqb_neq. auto.
    + intros [a b] _ E. cbn [fst snd] in E. apply negb_true_iff in E. specialize (S a b). rewrite PM in S.
      destruct (Nat.eqb_spec a i0) as [Ea|Na], (Nat.eqb_spec b o) as [Eb|Nb]; cbn [andb] in S; try congruence;
        apply same_place_eq in S; congruence.
  - intros [D Hh] a b. rewrite PM. destruct (Nat.eqb_spec a i0) as [->|Na], (Nat.eqb_spec b o) as [->|Nb]; cbn [andb]; auto;
      apply (place_same I I'); rewrite D; intros [Y|[]]; congruence.
Qed.

(** ** Counting the draws *)

Definition skip (i t : nat) : nat := if t <? i then t else t + 1.

Definition edge_gives n p (e : sw_ensemble T) h i0 i1 (ds : list nat) : bool :=
  match sw_randomize_edge p e i0 i1 ds with Done (_, e', _) => same_places n (sw_graph e') h | _ => false end.

Lemma rewire_hit p n (e : sw_ensemble T) h i0 i1 o c t : sw_inv n 2 (sw_graph e) -> sw_inv n 2 h ->
  same_places n (sw_graph e) h = false -> rooted_from (sw_graph e) i0 i1 o ->
  Qle_bool (unit_float c) (sw_r_prob e) = true -> t < n - 1 ->
  edge_gives n p e h i0 i1 [c; t] = true <-> displaced n (sw_graph e) h = [(i0, o)] /\ place h i0 o = Some (skip i0 t).
Proof.
  intros I I' F R Q Ht. pose proof I as (W & V & _ & _ & P). destruct (root_end W P R) as (N1 & H0 & H1 & _). rewrite V in *.
  unfold edge_gives, sw_randomize_edge, gen_f64. cbn [draw bind]. rewrite Q, V.
  unfold usub. destruct (Nat.leb_spec 1 n) as [Hn|Hn]; [|lia]. cbn [bind].
  rewrite draw_remaining_cons by lia. cbn [bind]. rewrite Nat.mod_small by auto. fold (skip i0 t).
  assert (Ks : skip i0 t < n /\ skip i0 t <> i0) by (unfold skip; destruct (Nat.ltb_spec t i0); lia).
  set (x := skip i0 t) in *. destruct Ks as [K1 K2].
  assert (R' : rooted (sw_graph e) i0 i1) by (exists o; auto).
  destruct (Nat.eq_dec i1 x) as [Ex|N3]; [|destruct (adj_dec (sw_graph e) i0 x) as [A|A]].
  - unfold sw_rewire_edge. rewrite (proj2 (Nat.eqb_eq _ _) Ex). cbn [bind sw_set sw_graph]. rewrite F.
    split; [discriminate|]. intros [D H]. destruct (hit_allowed I I' R D H). congruence.
  - rewrite (rewire_blocked p I R N3 ltac:(auto) A). cbn [bind sw_set sw_graph]. rewrite F.
    split; [discriminate|]. intros [D H]. destruct (hit_allowed I I' R D H). tauto.
  - destruct (rewire_ok p I R N3 ltac:(auto) K1 A) as (g' & -> & M). cbn [bind sw_set sw_graph].
    apply (hit_moved (i1 := i1)); auto. apply (moved_inv I N1 (not_eq_sym K2) N3 H0 H1 K1 A M).
Qed.

Lemma reset_hit p n (e : sw_ensemble T) h i0 i1 o c t : sw_inv n 2 (sw_graph e) -> sw_inv n 2 h ->
  same_places n (sw_graph e) h = false -> rooted_from (sw_graph e) i0 i1 o ->
  Qle_bool (unit_float c) (sw_r_prob e) = false ->
  edge_gives n p e h i0 i1 [c; t] = true <-> displaced n (sw_graph e) h = [(i0, o)] /\ place h i0 o = Some o.
Proof.
  intros I I' F R Q. pose proof I as (W & V & _ & _ & P). destruct (root_end W P R) as (N1 & H0 & H1 & _). rewrite V in *.
  unfold edge_gives, sw_randomize_edge, gen_f64. cbn [draw bind]. rewrite Q.
  destruct (rooted_from_range I R) as [K1 K2].
  destruct (Nat.eq_dec o i1) as [Ex|N3]; [|destruct (adj_dec (sw_graph e) i0 o) as [A|A]].
  - subst o. rewrite (reset_nothing p I R). cbn [bind sw_set sw_graph]. rewrite F.
    split; [discriminate|]. intros [D H]. destruct (hit_allowed I I' R D H). congruence.
  - rewrite (reset_blocked p I R N3 A). cbn [bind sw_set sw_graph]. rewrite F.
    split; [discriminate|]. intros [D H]. destruct (hit_allowed I I' R D H). tauto.
  - destruct (reset_ok p I R N3 ltac:(auto) K1 A) as (g' & -> & M). cbn [bind sw_set sw_graph].
    apply (hit_moved (i1 := i1)); auto. apply (moved_inv I N1 (not_eq_sym K2) (not_eq_sym N3) H0 H1 K1 A M).
Qed.

(** What one edge contributes. *)
Definition weight n g h (a b : nat) (io : nat * nat) : nat :=
  match displaced n g h with
  | [jo] => if (fst io =? fst jo) && (snd io =? snd jo)
            then a + (if same_place (place h (fst io) (snd io)) (Some (snd io)) then b * (n - 1) else 0)
            else 0
  | _ => 0
  end.

Lemma b2n_if (b : bool) : b2n b = if b then 1 else 0.
Proof. destruct b; auto. Qed.

Lemma edge_weight p n (e : sw_ensemble T) h i0 i1 o coins : sw_inv n 2 (sw_graph e) -> sw_inv n 2 h ->
  same_places n (sw_graph e) h = false -> rooted_from (sw_graph e) i0 i1 o ->
  sum_over (fun c => sum_over (fun t => b2n (edge_gives n p e h i0 i1 [c; t])) (seq 0 (n - 1))) coins =
  weight n (sw_graph e) h (for_rewiring (sw_r_prob e) coins) (against_rewiring (sw_r_prob e) coins) (i0, o).
Proof.
  intros I I' F R.
  set (hit := match displaced n (sw_graph e) h with [jo] => (i0 =? fst jo) && (o =? snd jo) | _ => false end).
  assert (Hit : hit = true <-> displaced n (sw_graph e) h = [(i0, o)]).
  { unfold hit. destruct (displaced n (sw_graph e) h) as [|[a b] [|y l]]; try (split; discriminate).
    cbn [fst snd]. rewrite andb_true_iff, !Nat.eqb_eq. split; [intros [-> ->]; auto|]. intros Y. injection Y as -> ->. auto. }
  assert (Hi : i0 < n).
  { pose proof I as (W & V & _ & _ & P). destruct (root_end W P R) as (_ & H0 & _). lia. }
  assert (A : forall c, Qle_bool (unit_float c) (sw_r_prob e) = true ->
    sum_over (fun t => b2n (edge_gives n p e h i0 i1 [c; t])) (seq 0 (n - 1)) = b2n hit).
  { intros c Q.
    assert (RH : forall t, t < n - 1 -> edge_gives n p e h i0 i1 [c; t] = true <->
      displaced n (sw_graph e) h = [(i0, o)] /\ place h i0 o = Some (skip i0 t)) by (intros t Ht; apply rewire_hit; auto).
    destruct hit.
    - pose proof (proj1 Hit eq_refl) as D.
      destruct (place_some I' (rooted_edge I R)) as [x Rx]. apply (place_iff _ _ _ I') in Rx.
      destruct (hit_allowed I I' R D Rx) as (_ & N & Hx & _).
      set (t0 := if x <? i0 then x else x - 1).
      assert (S0 : skip i0 t0 = x).
      { unfold skip, t0. destruct (Nat.ltb_spec x i0); [destruct (Nat.ltb_spec x i0)|destruct (Nat.ltb_spec (x - 1) i0)]; lia. }
      apply sum_hit with (a := t0).
      + unfold t0. destruct (Nat.ltb_spec x i0); lia.
      + apply RH; [|split; congruence]. unfold t0. destruct (Nat.ltb_spec x i0); lia.
      + intros t Ht H. apply RH in H; auto. destruct H as [_ H]. rewrite Rx in H. injection H as H.
        unfold skip, t0 in *. destruct (Nat.ltb_spec t i0), (Nat.ltb_spec x i0); lia.
    - rewrite (@sum_over_ext _ _ (fun _ => 0)); [apply sum_over_zero; auto|]. intros t Ht. apply in_seq in Ht.
      destruct (edge_gives n p e h i0 i1 [c; t]) eqn:E; auto. apply RH in E; [|lia].
      destruct E as [E _]. apply Hit in E. discriminate. }
  set (home := same_place (place h i0 o) (Some o)).
  assert (B : forall c, Qle_bool (unit_float c) (sw_r_prob e) = false ->
    sum_over (fun t => b2n (edge_gives n p e h i0 i1 [c; t])) (seq 0 (n - 1)) = (n - 1) * b2n (hit && home)).
  { intros c Q. rewrite (@sum_over_ext _ _ (fun _ => b2n (hit && home))); [rewrite sum_over_const, seq_length; auto|].
    intros t _. f_equal. apply eq_true_iff_eq. rewrite (@reset_hit p n e h i0 i1 o c t) by auto.
    unfold home. rewrite andb_true_iff, Hit, same_place_eq. tauto. }
  rewrite (@sum_over_ext _ _ (fun c => b2n hit * b2n (Qle_bool (unit_float c) (sw_r_prob e)) +
    (n - 1) * b2n (hit && home) * b2n (negb (Qle_bool (unit_float c) (sw_r_prob e))))).
  2:{ intros c _. destruct (Qle_bool (unit_float c) (sw_r_prob e)) eqn:Q; cbn [negb b2n]; [rewrite A|rewrite B]; auto; lia. }
  rewrite sum_over_plus, !sum_over_mul, <- !length_filter_sum. fold (count (fun c => Qle_bool (unit_float c) (sw_r_prob e)) coins).
  fold (count (fun c => negb (Qle_bool (unit_float c) (sw_r_prob e))) coins).
  fold (for_rewiring (sw_r_prob e) coins). fold (against_rewiring (sw_r_prob e) coins).
  unfold weight. cbn [fst snd]. fold home. unfold hit.
  destruct (displaced n (sw_graph e) h) as [|jo [|y l]]; cbn [b2n andb]; try lia.
  destruct ((i0 =? fst jo) && (o =? snd jo)); cbn [b2n andb]; [|lia]. destruct home; cbn [b2n]; lia.
Qed.

Lemma gives_weight p n (e : sw_ensemble T) h coins : sw_inv n 2 (sw_graph e) -> sw_inv n 2 h -> 0 < n ->
  same_places n (sw_graph e) h = false ->
  count (gives n p e h) (step_draws n coins) =
  sum_over (weight n (sw_graph e) h (for_rewiring (sw_r_prob e) coins) (against_rewiring (sw_r_prob e) coins)) (ring_edges n).
Proof.
  intros I I' Hn F. unfold count. rewrite length_filter_sum. unfold step_draws. rewrite sum_over_flat_map.
  set (w := weight n (sw_graph e) h (for_rewiring (sw_r_prob e) coins) (against_rewiring (sw_r_prob e) coins)).
  set (roots := fun i => filter se_is_root (entries (sw_graph e) i)).
  set (wx := fun i (x : sw_edge) => match se_orig x with Some o => w (i, o) | None => 0 end).
  rewrite (@sum_over_ext _ _ (fun r => wx (r / 2) (nth (r mod 2) (roots (r / 2)) (mk_se 0 None)))).
  2:{ intros r Hr. apply in_seq in Hr. rewrite sum_over_flat_map.
      assert (Hd : r / 2 < n) by (apply Nat.div_lt_upper_bound; lia).
      pose proof (roots_length I Hd) as L. fold (roots (r / 2)) in L.
      assert (Hm : r mod 2 < length (roots (r / 2))) by (rewrite L; apply Nat.mod_upper_bound; lia).
      assert (Ix : In (nth (r mod 2) (roots (r / 2)) (mk_se 0 None)) (roots (r / 2))) by (apply nth_In; auto).
      apply filter_In in Ix as [Ix Ir]. set (x := nth (r mod 2) (roots (r / 2)) (mk_se 0 None)) in *.
      destruct x as [j [o|]] eqn:X; [|discriminate].
      unfold wx. cbn [se_orig]. unfold w. rewrite <- (@edge_weight p n e h (r / 2) j o coins I I' F Ix). apply sum_over_ext. intros c _. rewrite sum_over_map.
      apply sum_over_ext. intros t _. f_equal. unfold gives, sw_m_step.
      destruct (@draw_edge_spec T n e r [c; t] I Hn) as (j' & E & _ & N). rewrite (Nat.mod_small r) in * by lia. rewrite E.
      cbn [bind]. assert (j' = j).
      { rewrite nth_error_map in N. fold (roots (r / 2)) in N.
        rewrite (nth_error_nth' (roots (r / 2)) (mk_se 0 None) Hm) in N. fold x in N. rewrite X in N. cbn in N. congruence. }
      subst j'. reflexivity. }
  rewrite (sum_halves (fun i k => wx i (nth k (roots i) (mk_se 0 None)))).
  unfold ring_edges. rewrite sum_over_flat_map. apply sum_over_ext. intros i Hi. apply in_seq in Hi.
  assert (Hi' : i < n) by lia. pose proof (roots_length I Hi') as L. fold (roots i) in L.
  rewrite sum_over_map. rewrite <- (sum_over_perm (fun o => w (i, o)) (proj1 (proj2 (proj2 (proj2 I))) i Hi')).
  unfold root_targets. rewrite sum_over_flat_map.
  assert (S : sum_over (fun e0 => sum_over (fun o => w (i, o)) (match se_orig e0 with Some o => [o] | None => [] end))
    (entries (sw_graph e) i) = sum_over (wx i) (roots i)).
  { unfold roots. induction (entries (sw_graph e) i) as [|[t [o|]] l IH]; auto; cbn [filter se_is_root se_orig];
      rewrite !sum_over_cons; cbn [se_orig]; rewrite IH; auto.
    unfold wx at 2. cbn [se_orig]. rewrite sum_over_one. auto. }
  transitivity (sum_over (wx i) (roots i)); [|symmetry; exact S].
  destruct (roots i) as [|x [|y [|z l]]]; cbn [length] in L; try lia.
  rewrite sum_over_cons, sum_over_one. reflexivity.
Qed.

Lemma weight_sum n g h a b : 3 <= n ->
  sum_over (weight n g h a b) (ring_edges n) =
  match displaced n g h with
  | [(i, o)] => a + (if same_place (place h i o) (Some o) then b * (n - 1) else 0)
  | _ => 0
  end.
Proof.
  intros Hn. unfold weight. destruct (displaced n g h) as [|[i o] [|y l]] eqn:D; try (apply sum_over_zero; auto; fail).
  assert (J : In (i, o) (ring_edges n)).
  { assert (J : In (i, o) (displaced n g h)) by (rewrite D; simpl; auto). apply displaced_In in J. tauto. }
  apply in_split in J as (l1 & l2 & E). pose proof (ring_edges_NoDup Hn) as N. rewrite E in *.
  rewrite sum_over_app, sum_over_cons. cbn [fst snd]. rewrite !Nat.eqb_refl. cbn [andb].
  apply NoDup_remove_2 in N.
  assert (Z : forall l', (forall x, In x l' -> In x (l1 ++ l2)) -> sum_over (fun io : nat * nat =>
    if (fst io =? i) && (snd io =? o) then a + (if same_place (place h (fst io) (snd io)) (Some (snd io)) then b * (n - 1) else 0)
    else 0) l' = 0).
  { intros l' Hl. apply sum_over_zero. intros [i' o'] H. cbn [fst snd].
    destruct (Nat.eqb_spec i' i) as [->|], (Nat.eqb_spec o' o) as [->|]; auto. destruct N. apply Hl; auto. }
  rewrite !Z; [lia| |]; intros x Hx; apply in_app_iff; auto.
Qed.

(** ** Balance *)

Lemma displaced_sym n g h : displaced n h g = displaced n g h.
Proof.
  unfold displaced. apply filter_ext. intros [i o]. cbn [fst snd]. f_equal.
  apply eq_true_iff_eq. rewrite !same_place_eq. split; auto.
Qed.

Lemma home_step n g h i o : 3 <= n -> displaced n g h = [(i, o)] ->
  at_origin n g + b2n (same_place (place h i o) (Some o)) = at_origin n h + b2n (same_place (place g i o) (Some o)).
Proof.
  intros Hn D. unfold at_origin, count. rewrite !length_filter_sum.
  assert (J : In (i, o) (ring_edges n) /\ place g i o <> place h i o).
  { apply displaced_In. rewrite D. simpl; auto. }
  destruct J as [J _]. apply in_split in J as (l1 & l2 & E). pose proof (ring_edges_NoDup Hn) as N. rewrite E in *.
  apply NoDup_remove_2 in N. rewrite !sum_over_app, !sum_over_cons. cbn [fst snd].
  assert (Z : forall l', (forall x, In x l' -> In x (l1 ++ l2)) ->
    sum_over (fun x : nat * nat => b2n (same_place (place g (fst x) (snd x)) (Some (snd x)))) l' =
    sum_over (fun x : nat * nat => b2n (same_place (place h (fst x) (snd x)) (Some (snd x)))) l').
  { intros l' Hl. apply sum_over_ext. intros [a b] H. cbn [fst snd]. f_equal. f_equal.
    destruct (same_place (place g a b) (place h a b)) eqn:S; [apply same_place_eq; auto|].
    assert (K : In (a, b) (displaced n g h)).
    { apply displaced_In. split.
      - rewrite E. specialize (Hl _ H). apply in_app_iff in Hl. apply in_app_iff. simpl. tauto.
      - intros Y. apply same_place_eq in Y. congruence. }
    rewrite D in K. destruct K as [K|[]]. destruct N. rewrite K. apply Hl; auto. }
  rewrite !Z; [lia| |]; intros x Hx; apply in_app_iff; auto.
Qed.

Lemma at_origin_le n g : at_origin n g <= 2 * n.
Proof.
  rewrite <- ring_edges_length. unfold at_origin, count. generalize (ring_edges n). intros l.
  induction l as [|x l IH]; auto. cbn [filter]. destruct (same_place _ _); cbn [length]; lia.
Qed.

End Places.
