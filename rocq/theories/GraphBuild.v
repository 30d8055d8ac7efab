(** Complete graphs, ring lattices, conversions between containers. *)
From Verif Require Import Base BaseFacts Sums Containers ContainerSpec ContainerFacts Graph GraphSpec GraphFacts GraphOps.
From Coq Require Import Sorted.
Set Implicit Arguments.
Unset Strict Implicit.

(** ** Complete graph *)

Lemma In_complete_list n i j :
  i < n -> In j (seq 0 i ++ seq (i + 1) (n - (i + 1))) <-> j < n /\ j <> i.
Proof. intros H. rewrite in_app_iff, !in_seq. lia. Qed.

Lemma NoDup_complete_list n i : NoDup (seq 0 i ++ seq (i + 1) (n - (i + 1))).
Proof.
  apply (NoDup_remove_1 (seq 0 i) (seq (i + 1) (n - (i + 1))) i).
  replace (seq 0 i ++ i :: seq (i + 1) (n - (i + 1))) with (seq 0 (i + (1 + (n - (i + 1))))).
  - apply seq_NoDup.
  - rewrite seq_app. f_equal. rewrite seq_app. simpl. do 2 f_equal.
Qed.

Definition complete_vertices {T} (mk : nat -> T) n :=
  map (fun i => mk_nc i (seq 0 i ++ seq (i + 1) (n - (i + 1))) (mk i)) (seq 0 n).

Lemma nth_complete {T} (mk : nat -> T) n i :
  nth_error (complete_vertices mk n) i =
  if i <? n then Some (mk_nc i (seq 0 i ++ seq (i + 1) (n - (i + 1))) (mk i)) else None.
Proof.
  unfold complete_vertices. rewrite nth_error_map, nth_error_seq. destruct (i <? n); auto.
Qed.

Lemma half_square n : 2 * Nat.div (n * (n - 1)) 2 = n * (n - 1).
Proof.
  assert (E : Nat.Even (n * (n - 1))).
  { destruct (Nat.Even_or_Odd n) as [[k ->]|[k ->]].
    - exists (k * (2 * k - 1)). lia.
    - exists ((2 * k + 1) * k). replace (2 * k + 1 - 1) with (2 * k) by lia. lia. }
  destruct E as [k ->]. rewrite (Nat.mul_comm 2 k), Nat.div_mul; lia.
Qed.

Lemma complete_spec {T} (mk : nat -> T) n ec :
  2 * ec = n * (n - 1) ->
  let g := mk_graph n ec (complete_vertices mk n) in
  simple_graph g /\ payloads g = map mk (seq 0 n) /\
  (forall i j, adj g i j <-> i < n /\ j < n /\ i <> j).
Proof.
  intros He g.
  assert (A : forall i j, adj g i j <-> i < n /\ j < n /\ i <> j).
  { intros i j. unfold adj, nbrs. simpl vertices. rewrite nth_complete.
    destruct (Nat.ltb_spec i n) as [H|H].
    - simpl. rewrite In_complete_list by auto. intuition congruence.
    - simpl. lia. }
  assert (N : forall i, i < n -> nbrs g i = seq 0 i ++ seq (i + 1) (n - (i + 1))).
  { intros i H. unfold nbrs. simpl vertices. rewrite nth_complete.
    apply Nat.ltb_lt in H; rewrite H; auto. }
  splits; auto.
  - apply simple_intro.
    + simpl. unfold complete_vertices. rewrite map_length, seq_length; auto.
    + intros i c. simpl vertices. rewrite nth_complete. destruct (i <? n); [|discriminate].
      injection 1 as <-. simpl; auto.
    + intros i j H. apply A in H. unfold vertex_count; simpl; tauto.
    + intros i H. apply A in H. tauto.
    + intros i. unfold nbrs. simpl vertices. rewrite nth_complete.
      destruct (i <? n); [|constructor]. apply NoDup_complete_list.
    + intros i j H. apply A in H. apply A. intuition.
    + simpl edge_count. rewrite He. unfold degsum, vertex_count; simpl next_id.
      rewrite (@sum_over_ext _ _ (fun _ => n - 1)).
      * rewrite sum_over_const, seq_length; auto.
      * intros i Hi. apply in_seq in Hi. rewrite N by lia.
        rewrite app_length, !seq_length. lia.
  - unfold payloads; simpl. unfold complete_vertices. rewrite map_map. apply map_ext; auto.
Qed.

(** ** Ring lattice *)

(** Number of steps from [i] to [j] going round a cycle of [n] vertices. *)
Definition steps_round (n i j : nat) : nat := (j + n - i) mod n.
Definition cyclic_distance (n i j : nat) : nat :=
  Nat.min (steps_round n i j) (steps_round n j i).

Lemma steps_round_eq n i j : i < n -> j < n ->
  steps_round n i j = if i <=? j then j - i else j + n - i.
Proof.
  intros Hi Hj. unfold steps_round. destruct (Nat.leb_spec i j).
  - replace (j + n - i) with ((j - i) + 1 * n) by lia.
    rewrite Nat.mod_add by lia. apply Nat.mod_small; lia.
  - apply Nat.mod_small; lia.
Qed.

Lemma In_ring_pairs n d i j :
  In (i, j) (ring_pairs n d) <->
  i < n /\ exists a, 1 <= a <= d /\ j = (if n <=? i + a then i + a - n else i + a).
Proof.
  unfold ring_pairs. rewrite in_flat_map. split.
  - intros (k & Hk & H). apply in_seq in Hk. apply in_map_iff in H as (a & E & Ha).
    apply in_seq in Ha. simpl in E. injection E as -> <-. split; [lia|].
    exists a. split; [lia|auto].
  - intros (Hi & a & Ha & ->). exists i. split; [apply in_seq; lia|].
    apply in_map_iff. exists a. split; auto. apply in_seq; lia.
Qed.

Lemma In_ring_steps n d i j : d < n ->
  In (i, j) (ring_pairs n d) <-> i < n /\ j < n /\ 1 <= steps_round n i j <= d.
Proof.
  intros Hd. rewrite In_ring_pairs. split.
  - intros (Hi & a & Ha & ->). split; auto.
    assert (Hj : (if n <=? i + a then i + a - n else i + a) < n)
      by (destruct (Nat.leb_spec n (i + a)); lia).
    split; auto. rewrite steps_round_eq by auto.
    destruct (Nat.leb_spec n (i + a));
      match goal with |- context [?x <=? ?y] => destruct (Nat.leb_spec x y) end; lia.
  - intros (Hi & Hj & H). split; auto. rewrite steps_round_eq in H by auto.
    destruct (Nat.leb_spec i j).
    + exists (j - i). split; auto.
      destruct (Nat.leb_spec n (i + (j - i))); lia.
    + exists (j + n - i). split; auto.
      destruct (Nat.leb_spec n (i + (j + n - i))); lia.
Qed.

Lemma NoDup_flat_map {X Y} (f : X -> list Y) l :
  NoDup l -> (forall x, In x l -> NoDup (f x)) ->
  (forall x y z, In x l -> In y l -> In z (f x) -> In z (f y) -> x = y) ->
  NoDup (flat_map f l).
Proof.
  induction 1 as [|a l Ha N IH]; simpl; intros H1 H2; [constructor|].
  assert (D : forall z, In z (f a) -> ~ In z (flat_map f l)).
  { intros z Hz Hf. apply in_flat_map in Hf as (y & Hy & Hzy).
    assert (a = y) by (eapply H2; eauto). subst; auto. }
  assert (IH' : NoDup (flat_map f l)) by (apply IH; eauto).
  specialize (H1 a (or_introl eq_refl)). clear - D IH' H1.
  induction H1; simpl; auto. constructor.
  - rewrite in_app_iff. intros [K|K]; auto. apply (D x); simpl; auto.
  - apply IHNoDup. intros; apply D; simpl; auto.
Qed.

Lemma NoDup_ring_pairs n d : d < n -> NoDup (ring_pairs n d).
Proof.
  intros Hd. apply NoDup_flat_map.
  - apply seq_NoDup.
  - intros i Hi. apply in_seq in Hi.
    apply NoDup_map_in; [|apply seq_NoDup].
    intros a b Ha Hb E. apply in_seq in Ha. apply in_seq in Hb. simpl in E.
    assert (E' := f_equal snd E). cbv [snd] in E'.
    destruct (Nat.leb_spec n (i + a)), (Nat.leb_spec n (i + b)); lia.
  - intros x y z _ _ Hx Hy. apply in_map_iff in Hx as (a & <- & _).
    apply in_map_iff in Hy as (b & E & _). injection E as E _. auto.
Qed.

Lemma ring_pairs_length n d : length (ring_pairs n d) = n * d.
Proof.
  unfold ring_pairs.
  transitivity (sum_over (fun _ => 1) (flat_map (fun i => map (fun add =>
     (i, if n <=? i + add then i + add - n else i + add)) (seq 1 d)) (seq 0 n))).
  - rewrite sum_over_const. unfold ring_pairs; simpl. lia.
  - rewrite sum_over_flat_map.
    rewrite (@sum_over_ext _ _ (fun _ => d)).
    + rewrite sum_over_const, seq_length; auto.
    + intros i _. rewrite sum_over_const, map_length, seq_length. lia.
Qed.

Lemma ForallOrdPairs_intro {X} (R : X -> X -> Prop) l :
  NoDup l -> (forall a b, In a l -> In b l -> a <> b -> R a b) -> ForallOrdPairs R l.
Proof.
  induction 1 as [|a l Ha N IH]; intros H; constructor.
  - apply Forall_forall. intros b Hb. apply H; simpl; auto. intros ->; auto.
  - apply IH. intros; apply H; simpl; auto.
Qed.

Lemma ForallOrdPairs_elim {X} (R : X -> X -> Prop) l a b :
  ForallOrdPairs R l -> In a l -> In b l -> a <> b -> R a b \/ R b a.
Proof.
  induction 1 as [|x l Fx F IH]; simpl; [tauto|].
  rewrite Forall_forall in Fx.
  intros [->|Ha] [->|Hb] N; auto. congruence.
Qed.

Section Ring.
Context {T A : Type} {C : AdjContainer T A} {L : AdjLaws C}.
Implicit Types g : graph A.

Lemma init_ring_range_ok n d : d < n -> pairs_ok n (ring_pairs n d).
Proof.
  intros Hd. apply Forall_forall. intros [i j] H. apply In_ring_steps in H as (Hi & Hj & S); auto.
  simpl. splits; auto. intros ->. rewrite steps_round_eq in S by auto.
  rewrite Nat.leb_refl in S. lia.
Qed.

Lemma ring_fresh n d g : 2 * d < n -> (forall i, nbrs g i = []) -> fresh g (ring_pairs n d).
Proof.
  intros Hd Hg. split.
  - apply Forall_forall. intros e _. unfold adj. rewrite Hg; auto.
  - apply ForallOrdPairs_intro; [apply NoDup_ring_pairs; lia|].
    intros [i j] [k l] H1 H2 N E. unfold same_edge, is_pair in E. simpl in E.
    destruct E as [[-> ->]|[-> ->]]; [auto|].
    apply In_ring_steps in H1 as (Hi & Hj & S1); [|lia].
    apply In_ring_steps in H2 as (_ & _ & S2); [|lia].
    rewrite steps_round_eq in S1, S2 by auto.
    destruct (Nat.leb_spec k l), (Nat.leb_spec l k); lia.
Qed.

Lemma cyclic_distance_le n i j d : 
  1 <= cyclic_distance n i j <= d <->
  (1 <= steps_round n i j /\ 1 <= steps_round n j i) /\
  (steps_round n i j <= d \/ steps_round n j i <= d).
Proof. unfold cyclic_distance. lia. Qed.

Lemma init_ring_ok p g d :
  simple_graph g -> 2 * d < vertex_count g ->
  exists g', init_ring p g d = Done (Ok tt, g') /\ simple_graph g' /\
    vertex_count g' = vertex_count g /\ payloads g' = payloads g /\
    edge_count g' = vertex_count g * d /\
    (forall i j, adj g' i j <-> i < vertex_count g /\ j < vertex_count g /\
                               1 <= cyclic_distance (vertex_count g) i j <= d) /\
    (forall i, i < vertex_count g -> length (nbrs g' i) = 2 * d).
Proof.
  intros W Hd. destruct (clear_edges_spec W) as (W0 & V0 & C0 & P0 & N0).
  unfold init_ring. rewrite V0.
  set (n := vertex_count g) in *.
  destruct (@add_edges_spec T A C L p (ring_pairs n d) (clear_edges g) W0)
    as (r & g' & E & W' & V' & P' & D).
  { rewrite V0. apply init_ring_range_ok; lia. }
  destruct D as [(-> & F & C' & A')|(-> & F)].
  2:{ destruct F. apply ring_fresh; auto. }
  assert (Ad : forall i j, adj g' i j <-> i < n /\ j < n /\ 1 <= cyclic_distance n i j <= d).
  { intros i j. rewrite A', !In_ring_steps by lia. unfold adj at 1. rewrite N0.
    rewrite cyclic_distance_le. simpl. split.
    - intros [[]|[(Hi & Hj & S)|(Hj & Hi & S)]]; splits; auto; try lia;
        rewrite steps_round_eq in * by auto;
        destruct (Nat.leb_spec i j), (Nat.leb_spec j i); lia.
    - intros (Hi & Hj & (S1 & S2) & [S3|S3]); right; [left|right]; splits; auto; lia. }
  exists g'. splits; auto; try congruence.
  - rewrite C', C0, ring_pairs_length. auto.
  - intros i Hi.
    set (l := map (fun a => if n <=? i + a then i + a - n else i + a) (seq 1 d) ++
              map (fun a => if a <=? i then i - a else i + n - a) (seq 1 d)).
    assert (P : Permutation (nbrs g' i) l).
    { apply NoDup_Permutation.
      - apply W'.
      - unfold l. 
        assert (N1 : NoDup (map (fun a => if n <=? i + a then i + a - n else i + a) (seq 1 d))).
        { apply NoDup_map_in; [|apply seq_NoDup].
          intros a b Ha Hb Eab. apply in_seq in Ha. apply in_seq in Hb.
          destruct (Nat.leb_spec n (i + a)), (Nat.leb_spec n (i + b)); lia. }
        assert (N2 : NoDup (map (fun a => if a <=? i then i - a else i + n - a) (seq 1 d))).
        { apply NoDup_map_in; [|apply seq_NoDup].
          intros a b Ha Hb Eab. apply in_seq in Ha. apply in_seq in Hb.
          destruct (Nat.leb_spec a i), (Nat.leb_spec b i); lia. }
        assert (Dj : forall x, In x (map (fun a => if n <=? i + a then i + a - n else i + a) (seq 1 d)) ->
                     ~ In x (map (fun a => if a <=? i then i - a else i + n - a) (seq 1 d))).
        { intros x H1 H2. apply in_map_iff in H1 as (a & E1 & Ha).
          apply in_map_iff in H2 as (b & E2 & Hb).
          apply in_seq in Ha. apply in_seq in Hb.
          destruct (Nat.leb_spec n (i + a)), (Nat.leb_spec b i); lia. }
        apply NoDup_app_iff. auto.
      - intros j. change (adj g' i j <-> In j l). rewrite Ad, cyclic_distance_le. unfold l.
        rewrite in_app_iff, !in_map_iff. split.
        + intros (_ & Hj & (S1 & S2) & S3).
          rewrite (steps_round_eq Hi Hj) in *. rewrite (steps_round_eq Hj Hi) in *.
          destruct S3 as [S3|S3].
          * left. exists (if i <=? j then j - i else j + n - i).
            destruct (Nat.leb_spec i j), (Nat.leb_spec j i);
            match goal with |- context [n <=? ?y] => destruct (Nat.leb_spec n y) end;
              (split; [|apply in_seq]); lia.
          * right. exists (if j <=? i then i - j else i + n - j).
            destruct (Nat.leb_spec j i), (Nat.leb_spec i j);
            match goal with |- context [?y <=? i] => destruct (Nat.leb_spec y i) end;
              (split; [|apply in_seq]); lia.
        + intros H.
          assert (Hj : j < n).
          { destruct H as [(a & <- & Ha)|(a & <- & Ha)]; apply in_seq in Ha.
            - destruct (Nat.leb_spec n (i + a)); lia.
            - destruct (Nat.leb_spec a i); lia. }
          rewrite !steps_round_eq by auto.
          destruct H as [(a & Ea & Ha)|(a & Ea & Ha)]; apply in_seq in Ha.
          * destruct (Nat.leb_spec n (i + a)), (Nat.leb_spec i j), (Nat.leb_spec j i); lia.
          * destruct (Nat.leb_spec a i), (Nat.leb_spec i j), (Nat.leb_spec j i); lia. }
    rewrite (Permutation_length P). unfold l. rewrite app_length, !map_length, !seq_length. lia.
Qed.

Lemma init_ring_small p g d :
  simple_graph g -> d < vertex_count g -> vertex_count g <= 2 * d ->
  exists g', init_ring p g d = Done (Err EdgeExists, g').
Proof.
  intros W Hd Hs. destruct (clear_edges_spec W) as (W0 & V0 & C0 & P0 & N0).
  unfold init_ring. rewrite V0.
  set (n := vertex_count g) in *.
  destruct (@add_edges_spec T A C L p (ring_pairs n d) (clear_edges g) W0)
    as (r & g' & E & W' & V' & P' & D).
  { rewrite V0. apply init_ring_range_ok; lia. }
  destruct D as [(-> & F & C' & A')|(-> & F)]; [|eauto].
  exfalso. destruct F as [_ F].
  assert (H1 : In (0, n - d) (ring_pairs n d)).
  { apply In_ring_steps; auto. splits; try lia; rewrite steps_round_eq by lia; simpl; lia. }
  assert (H2 : In (n - d, 0) (ring_pairs n d)).
  { apply In_ring_steps; auto. splits; try lia; rewrite steps_round_eq by lia;
      destruct (Nat.leb_spec (n - d) 0); lia. }
  destruct (ForallOrdPairs_elim F H1 H2) as [K|K].
  - injection 1; lia.
  - apply K. right; auto.
  - apply K. right; auto.
Qed.

Lemma add_edges_app p l1 l2 : forall g g1,
  add_edges_try p g l1 = Done (Ok tt, g1) ->
  add_edges_try p g (l1 ++ l2) = add_edges_try p g1 l2.
Proof.
  induction l1 as [|[i j] l1 IH]; simpl; intros g g1 E.
  - injection E as <-; auto.
  - destruct (add_edge p g i j) as [[r g']| | |]; simpl in *; try discriminate.
    destruct r; [auto|discriminate].
Qed.

Lemma init_ring_tiny p g d :
  simple_graph g -> 1 <= vertex_count g <= d ->
  init_ring p g d = match p with Debug => Panic | Release => UB end.
Proof.
  intros W Hd. destruct (clear_edges_spec W) as (W0 & V0 & C0 & P0 & N0).
  unfold init_ring. rewrite V0.
  set (n := vertex_count g) in *.
  assert (S : exists l, ring_pairs n d = map (fun a => (0, a)) (seq 1 (n - 1)) ++ (0, 0) :: l).
  { unfold ring_pairs. destruct n as [|n'] eqn:En; [lia|]. rewrite <- En in *.
    replace d with ((n - 1) + (1 + (d - n))) by lia.
    replace (seq 0 n) with (0 :: seq 1 n') by (rewrite En; auto).
    cbn [flat_map]. rewrite seq_app, map_app, seq_app, map_app.
    rewrite <- app_assoc. eexists. f_equal.
    - apply map_ext_in. intros a Ha. apply in_seq in Ha. simpl.
      destruct (Nat.leb_spec n a); [lia|auto].
    - cbn [seq map app]. f_equal. f_equal.
      destruct (Nat.leb_spec n (0 + (1 + (n - 1)))); lia. }
  destruct S as [l ->].
  destruct (@add_edges_spec T A C L p (map (fun a => (0, a)) (seq 1 (n - 1))) (clear_edges g) W0)
    as (r & g' & E & W' & V' & P' & D).
  { rewrite V0. apply Forall_forall. intros e He. apply in_map_iff in He as (a & <- & Ha).
    apply in_seq in Ha. simpl. lia. }
  destruct D as [(-> & F & C' & A')|(-> & F)].
  - rewrite (@add_edges_app p _ ((0, 0) :: l) _ _ E). simpl.
    unfold add_edge. destruct p.
    + rewrite get_2_mut_bad_debug by (intros (? & ? & ?); lia). auto.
    + rewrite get_2_mut_bad_release by (auto; intros (? & ? & ?); lia). auto.
  - exfalso. apply F. split.
    + apply Forall_forall. intros e He. unfold adj. rewrite N0. auto.
    + apply ForallOrdPairs_intro.
      * apply NoDup_map_in; [|apply seq_NoDup]. intros a b _ _ Eab.
        injection Eab; auto.
      * intros a b Ha Hb Nab K. apply in_map_iff in Ha as (x & <- & Hx).
        apply in_map_iff in Hb as (y & <- & Hy). apply in_seq in Hx, Hy.
        unfold same_edge, is_pair in K. simpl in K. destruct K as [[_ ->]|[K1 K2]]; [auto|lia].
Qed.

End Ring.

(** ** Conversions *)

Section Convert.
Context {T A : Type} {C : AdjContainer T A} {L : AdjLaws C}.

(** Two graphs over possibly different containers with the same adjacency. *)
Lemma transfer_nbrs {T' A'} {C' : AdjContainer T' A'} {L' : AdjLaws C'}
  (g : graph A) (g' : graph A') :
  simple_graph g ->
  length (vertices g') = vertex_count g' ->
  (forall i c, nth_error (vertices g') i = Some c -> ac_wf c /\ ac_id c = i) ->
  vertex_count g' = vertex_count g -> edge_count g' = edge_count g ->
  (forall i, nbrs g' i = nbrs g i) ->
  simple_graph g'.
Proof.
  intros W H1 H2 Hv He E.
  assert (K : forall i j, adj g' i j <-> adj g i j) by (intros; unfold adj; rewrite E; tauto).
  apply simple_intro; auto.
  - intros i j H. rewrite Hv. apply K in H. apply (sg_range W _ _ H).
  - intros i H. apply K in H. apply (sg_irrefl W _ H).
  - intros i. rewrite E. apply W.
  - intros i j H. apply K. apply K in H. apply W; auto.
  - rewrite He, <- (simple_degsum W). unfold degsum. rewrite Hv.
    apply sum_over_ext. intros i _. rewrite E; auto.
Qed.

Lemma clone_topology_spec {T2} (f : T -> T2) (g : graph A) :
  simple_graph g ->
  let g' := clone_topology f g in
  simple_graph g' /\ vertex_count g' = vertex_count g /\ edge_count g' = edge_count g /\
  payloads g' = map f (payloads g) /\ forall i, nbrs g' i = nbrs g i.
Proof.
  intros W g'.
  assert (Nth : forall i, nth_error (vertices g') i =
     option_map (fun c => mk_nc i (ac_neighbors c) (f (ac_contained c))) (nth_error (vertices g) i)).
  { intros i. unfold g', clone_topology; simpl. rewrite nth_error_map, nth_error_enumerate.
    destruct (nth_error (vertices g) i); auto. }
  assert (V : vertex_count g' = vertex_count g).
  { unfold g', clone_topology, vertex_count; simpl.
    rewrite map_length. unfold enumerate. rewrite enumerate_from_length. apply W. }
  assert (N : forall i, nbrs g' i = nbrs g i).
  { intros i. unfold nbrs. rewrite Nth. destruct (nth_error (vertices g) i); auto. }
  splits; auto.
  - apply (transfer_nbrs W); auto.
    intros i c. rewrite Nth. destruct (nth_error (vertices g) i); [|discriminate].
    simpl. injection 1 as <-. simpl; auto.
  - apply list_ext. intros i. unfold payloads. rewrite !nth_error_map, Nth.
    destruct (nth_error (vertices g) i); auto.
Qed.

Lemma graph_from_spec (g : graph A) :
  simple_graph g ->
  let g' := graph_from g in
  simple_graph g' /\ vertex_count g' = vertex_count g /\ edge_count g' = edge_count g /\
  payloads g' = payloads g /\ forall i, nbrs g' i = nbrs g i.
Proof.
  intros W g'.
  assert (Nth : forall i, nth_error (vertices g') i =
     option_map (fun c => mk_nc (ac_id c) (ac_neighbors c) (ac_contained c)) (nth_error (vertices g) i)).
  { intros i. unfold g', graph_from; simpl. rewrite nth_error_map. auto. }
  assert (N : forall i, nbrs g' i = nbrs g i).
  { intros i. unfold nbrs. rewrite Nth. destruct (nth_error (vertices g) i); auto. }
  splits; auto.
  - apply (transfer_nbrs W); auto.
    + simpl. rewrite map_length. apply W.
    + intros i c. rewrite Nth. destruct (nth_error (vertices g) i) eqn:E; [|discriminate].
      simpl. injection 1 as <-. simpl. split; auto. apply (sg_cont W _ E).
  - apply list_ext. intros i. unfold payloads. rewrite !nth_error_map, Nth.
    destruct (nth_error (vertices g) i); auto.
Qed.

End Convert.

Lemma from_iter_spec {T} (l : list T) :
  let g := from_iter l in
  simple_graph g /\ vertex_count g = length l /\ edge_count g = 0 /\
  payloads g = l /\ forall i, nbrs g i = [].
Proof. exact (@from_vec_spec T _ (NodeContainer T) _ l). Qed.

Lemma reset_loop {T} (ovs : list (node_container T)) m : forall vs : list (node_container T),
  m <= length vs -> m <= length ovs ->
  exists vs' : list (node_container T), foldM (fun (vs : list (node_container T)) (i : nat) =>
      do c <- vget vs i; do o <- vget ovs i;
      Done (upd vs i (mk_nc (nc_id c) (nc_adj c ++ nc_adj o) (nc_node c)))) vs (seq 0 m) = Done vs' /\
    forall i, nth_error vs' i =
      match nth_error vs i with
      | Some c => Some (if i <? m then
                   mk_nc (nc_id c) (nc_adj c ++ match nth_error ovs i with Some o => nc_adj o | None => [] end)
                         (nc_node c)
                 else c)
      | None => None
      end.
Proof.
  induction m as [|m IH]; intros vs H1 H2.
  - exists vs. split; auto. intros i. destruct (nth_error vs i); auto.
  - destruct (IH vs) as (vs1 & E & N); [lia|lia|].
    rewrite seq_S, foldM_app, E. simpl.
    destruct (@vget_lt _ vs m ltac:(lia)) as [c Ec].
    destruct (@vget_lt _ ovs m ltac:(lia)) as [o Eo].
    assert (Nm : nth_error vs1 m = Some c).
    { rewrite N, Ec. rewrite Nat.ltb_irrefl; auto. }
    rewrite (vget_done _ _ Nm); simpl. rewrite (vget_done _ _ Eo); simpl.
    eexists; split; [reflexivity|].
    intros i. rewrite nth_error_upd.
    assert (Lm : m <? length vs1 = true).
    { apply Nat.ltb_lt. apply (nth_error_lt _ _ Nm). }
    rewrite Lm. destruct (Nat.eqb_spec m i) as [<-|Ne]; simpl.
    + rewrite Ec, Eo. destruct (Nat.ltb_spec m (S m)); [auto|lia].
    + rewrite N. destruct (nth_error vs i); auto.
      destruct (Nat.ltb_spec i m), (Nat.ltb_spec i (S m)); auto; lia.
Qed.

Lemma reset_from_graph_spec {T} (g o : graph (node_container T)) :
  simple_graph g -> simple_graph o -> vertex_count o <= vertex_count g ->
  exists g', reset_from_graph g o = Done g' /\ simple_graph g' /\
    vertex_count g' = vertex_count g /\ edge_count g' = edge_count o /\
    payloads g' = payloads g /\ forall i, nbrs g' i = nbrs o i.
Proof.
  intros W Wo H. unfold reset_from_graph.
  destruct (Nat.leb_spec (vertex_count o) (vertex_count g)); [|lia].
  destruct (clear_edges_spec W) as (W0 & V0 & C0 & P0 & N0).
  destruct (@reset_loop T (vertices o) (vertex_count o) (vertices (clear_edges g))) as (vs & E & N).
  { rewrite (sg_len W0). lia. }
  { rewrite (sg_len Wo). lia. }
  rewrite E; simpl. eexists; split; [reflexivity|]. set (g' := mk_graph _ _ _).
  assert (Nb : forall i, nbrs g' i = nbrs o i).
  { intros i. unfold nbrs at 1; simpl vertices. rewrite N.
    specialize (N0 i). unfold nbrs in N0.
    destruct (nth_error (vertices (clear_edges g)) i) as [c|] eqn:Ec.
    - simpl in N0. destruct (Nat.ltb_spec i (vertex_count o)); simpl.
      + rewrite N0. unfold nbrs. destruct (nth_error (vertices o) i); auto.
      + rewrite nbrs_out; [auto|]. rewrite (sg_len Wo); lia.
    - rewrite nbrs_out; auto. rewrite (sg_len Wo).
      apply nth_error_None in Ec. rewrite (sg_len W0) in Ec. lia. }
  assert (Le : length vs = length (vertices (clear_edges g))).
  { apply Nat.le_antisymm; apply nth_error_None.
    - rewrite N, (proj2 (nth_error_None _ _) (le_n _)); auto.
    - specialize (N (length vs)). rewrite (proj2 (nth_error_None vs _) (le_n _)) in N.
      destruct (nth_error (vertices (clear_edges g)) (length vs)); [discriminate|auto]. }
  splits; auto.
  - assert (K : forall i j, adj g' i j <-> adj o i j) by (intros; unfold adj; rewrite Nb; tauto).
    apply simple_intro.
    + simpl. rewrite Le. apply W0.
    + intros i c. simpl. rewrite N. destruct (nth_error _ i) as [c0|] eqn:Ec; [|discriminate].
      injection 1 as <-. split; [constructor|].
      pose proof (proj2 (sg_cont W0 _ Ec)). simpl in *. destruct (i <? vertex_count o); auto.
    + intros i j Hij. apply K in Hij. apply (sg_range Wo) in Hij.
      change (vertex_count g') with (vertex_count (clear_edges g)). lia.
    + intros i Hij. apply K in Hij. apply (sg_irrefl Wo _ Hij).
    + intros i. rewrite Nb. apply Wo.
    + intros i j Hij. apply K. apply K in Hij. apply Wo; auto.
    + simpl edge_count. rewrite <- (simple_degsum Wo). unfold degsum.
      change (vertex_count g') with (vertex_count (clear_edges g)). rewrite V0.
      replace (vertex_count g) with (vertex_count o + (vertex_count g - vertex_count o)) by lia.
      rewrite seq_app, sum_over_app.
      rewrite (@sum_over_zero _ _ (seq (0 + vertex_count o) _)).
      * rewrite Nat.add_0_r. apply sum_over_ext. intros i _. rewrite Nb; auto.
      * intros i Hi. apply in_seq in Hi. rewrite Nb, nbrs_out; auto. rewrite (sg_len Wo); lia.
  - rewrite <- P0. apply list_ext. intros i. unfold payloads. rewrite !nth_error_map. simpl vertices.
    rewrite N. destruct (nth_error (vertices (clear_edges g)) i); auto.
    simpl. destruct (i <? vertex_count o); auto.
Qed.
