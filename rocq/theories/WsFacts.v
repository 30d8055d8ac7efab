(** Proofs about the Watts-Strogatz ensemble. *)
From Verif Require Import Base BaseFacts Sums Containers ContainerSpec ContainerFacts Graph GraphSpec GraphFacts GraphOps GraphBuild Rng RngFacts Runs Ws WsSpec.
From Coq Require Import QArith.
Set Implicit Arguments.
Unset Strict Implicit.
Local Open Scope nat_scope.

(** ** Entries as a function *)

Definition entmap := nat -> list (nat * original_edge).

Definition origs (n : nat) (ent : entmap) : list (nat * nat) :=
  flat_map (fun i => map (fun x => ends (snd x)) (ent i)) (seq 0 n).

Definition og (i j : nat) (o : original_edge) : Prop :=
  if oe_at_origin o then ends o = (i, j) else ends o <> (i, j) /\ ends o <> (j, i).

Record good (n : nat) (ent : entmap) (P : list (nat * nat)) : Prop := {
  gd_out : forall i, n <= i -> ent i = [];
  gd_range : forall i j o, In (j, o) (ent i) -> j < n;
  gd_irrefl : forall i j o, In (j, o) (ent i) -> j <> i;
  gd_nodup : forall i, NoDup (map fst (ent i));
  gd_partner : forall i j o, In (j, o) (ent i) -> In (i, oe_swap o) (ent j);
  gd_origin : forall i j o, In (j, o) (ent i) -> og i j o;
  gd_all : Permutation (origs n ent) P
}.

Lemma og_swap i j o : og i j o -> og j i (oe_swap o).
Proof.
  unfold og, ends, oe_swap. cbn. destruct (oe_at_origin o).
  - congruence.
  - intros [H1 H2]. split; congruence.
Qed.

Lemma oe_swap_swap o : oe_swap (oe_swap o) = o.
Proof. destruct o; reflexivity. Qed.

Lemma origs_perm n ent ent' : (forall i, Permutation (ent i) (ent' i)) ->
  Permutation (origs n ent) (origs n ent').
Proof.
  intros H. unfold origs. induction (seq 0 n) as [|i l IH]; cbn [flat_map]; auto.
  rewrite IH, (H i). reflexivity.
Qed.

Lemma good_perm n ent ent' P : good n ent P -> (forall i, Permutation (ent i) (ent' i)) -> good n ent' P.
Proof.
  intros [H1 H2 H3 H4 H5 H6 H7] E. constructor.
  - intros i Hi. specialize (E i). rewrite (H1 i Hi) in E. apply Permutation_nil in E. auto.
  - intros i j o. rewrite <- (E i). eauto.
  - intros i j o. rewrite <- (E i). eauto.
  - intros i. rewrite <- (E i). auto.
  - intros i j o. rewrite <- (E i), <- (E j). eauto.
  - intros i j o. rewrite <- (E i). eauto.
  - rewrite <- H7. symmetry. apply origs_perm; auto.
Qed.

Lemma good_ext n ent ent' P : good n ent P -> (forall i, ent i = ent' i) -> good n ent' P.
Proof. intros H E. apply (good_perm H). intros i. rewrite E. auto. Qed.

Lemma good_P n ent P P' : good n ent P -> Permutation P P' -> good n ent P'.
Proof. intros [H1 H2 H3 H4 H5 H6 H7] E. constructor; eauto. rewrite H7; auto. Qed.

(** One more entry at [i]. *)
Lemma origs_cons n ent ent' i x : i < n -> Permutation (ent i) (x :: ent' i) ->
  (forall k, k <> i -> ent k = ent' k) -> Permutation (origs n ent) (ends (snd x) :: origs n ent').
Proof.
  intros Hi H1 H2. unfold origs.
  assert (S : seq 0 n = seq 0 i ++ i :: seq (S i) (n - i - 1)).
  { replace n with (i + (1 + (n - i - 1))) at 1 by lia. rewrite seq_app. reflexivity. }
  rewrite S, !flat_map_app. cbn [flat_map].
  assert (E : forall l, ~ In i l ->
    flat_map (fun i => map (fun x => ends (snd x)) (ent i)) l =
    flat_map (fun i => map (fun x => ends (snd x)) (ent' i)) l).
  { induction l as [|a l IH]; intros H; auto. cbn [flat_map]. rewrite IH by (simpl in H; tauto).
    rewrite H2; auto. intros ->. apply H. simpl; auto. }
  rewrite (E (seq 0 i)), (E (seq (Datatypes.S i) (n - i - 1))) by (rewrite in_seq; lia).
  rewrite H1. cbn [map]. rewrite <- app_comm_cons. symmetry. apply Permutation_middle.
Qed.

Lemma origs_pair n ent ent' i j o : i < n -> j < n -> i <> j ->
  Permutation (ent i) ((j, o) :: ent' i) -> Permutation (ent j) ((i, oe_swap o) :: ent' j) ->
  (forall k, k <> i -> k <> j -> ent k = ent' k) ->
  Permutation (origs n ent) (ends o :: flip (ends o) :: origs n ent').
Proof.
  intros Hi Hj N P1 P2 K.
  set (em := fun k => if k =? i then ent' i else ent k).
  rewrite (@origs_cons n ent em i (j, o)); auto.
  - cbn [snd]. apply perm_skip.
    rewrite (@origs_cons n em ent' j (i, oe_swap o)); auto.
    + unfold em. destruct (Nat.eqb_spec j i); [congruence|auto].
    + intros k Nk. unfold em. destruct (Nat.eqb_spec k i) as [->|]; auto.
  - unfold em. rewrite Nat.eqb_refl. auto.
  - intros k Nk. unfold em. destruct (Nat.eqb_spec k i); congruence.
Qed.

Lemma good_remove n ent ent' P i j o :
  good n ent P -> i < n -> 
  Permutation (ent i) ((j, o) :: ent' i) -> Permutation (ent j) ((i, oe_swap o) :: ent' j) ->
  (forall k, k <> i -> k <> j -> ent k = ent' k) ->
  good n ent' (origs n ent') /\ Permutation P (ends o :: flip (ends o) :: origs n ent').
Proof.
  intros [H1 H2 H3 H4 H5 H6 H7] Hi P1 P2 K.
  assert (Hj : j < n) by (apply (H2 i j o); rewrite P1; simpl; auto).
  assert (N : j <> i) by (apply (H3 i j o); rewrite P1; simpl; auto).
  assert (D1 := H4 i). rewrite P1 in D1. cbn [map fst] in D1. apply NoDup_cons_iff in D1 as [D1 D1'].
  assert (D2 := H4 j). rewrite P2 in D2. cbn [map fst] in D2. apply NoDup_cons_iff in D2 as [D2 D2'].
  assert (Sub : forall k x, In x (ent' k) -> In x (ent k)).
  { intros k x H. destruct (Nat.eq_dec k i) as [->|Ni]; [rewrite P1; simpl; auto|].
    destruct (Nat.eq_dec k j) as [->|Nj]; [rewrite P2; simpl; auto|]. rewrite K; auto. }
  assert (NI : forall o', ~ In (j, o') (ent' i)) by (intros o' H; apply D1; apply (in_map fst) in H; auto).
  assert (NJ : forall o', ~ In (i, o') (ent' j)) by (intros o' H; apply D2; apply (in_map fst) in H; auto).
  split.
  - constructor; eauto.
    + intros k Hk. rewrite <- K; auto; lia.
    + intros k. destruct (Nat.eq_dec k i) as [->|Ni]; [auto|].
      destruct (Nat.eq_dec k j) as [->|Nj]; [auto|]. rewrite <- K; auto.
    + intros a b o' H. pose proof (H5 _ _ _ (Sub _ _ H)) as Q.
      destruct (Nat.eq_dec b i) as [Eb|Ni].
      * rewrite Eb in *. rewrite P1 in Q. destruct Q as [Q|Q]; auto.
        injection Q as Ea _. exfalso. rewrite <- Ea in H. apply (NJ _ H).
      * destruct (Nat.eq_dec b j) as [Eb|Nj]; [|rewrite <- K; auto].
        rewrite Eb in *. rewrite P2 in Q. destruct Q as [Q|Q]; auto.
        injection Q as Ea _. exfalso. rewrite <- Ea in H. apply (NI _ H).
  - rewrite <- H7. apply origs_pair with (i := i) (j := j); auto.
Qed.

Lemma good_add n ent ent' P i j o :
  good n ent P -> i < n -> j < n -> i <> j -> ~ In j (map fst (ent i)) -> og i j o ->
  Permutation (ent' i) ((j, o) :: ent i) -> Permutation (ent' j) ((i, oe_swap o) :: ent j) ->
  (forall k, k <> i -> k <> j -> ent' k = ent k) ->
  good n ent' (ends o :: flip (ends o) :: P).
Proof.
  intros [H1 H2 H3 H4 H5 H6 H7] Hi Hj N A O P1 P2 K.
  assert (A' : ~ In i (map fst (ent j))).
  { intros H. apply in_map_iff in H as ([x o'] & E & H). cbn in E. subst x. apply A.
    apply H5 in H. apply (in_map fst) in H. auto. }
  assert (Ex : forall k x, In x (ent' k) <-> In x (ent k) \/ (k = i /\ x = (j, o)) \/ (k = j /\ x = (i, oe_swap o))).
  { intros k x. destruct (Nat.eq_dec k i) as [->|Ni].
    - rewrite P1. simpl. split; [intros [<-|]; auto|intros [?|[[_ ->]|[? _]]]; auto; congruence].
    - destruct (Nat.eq_dec k j) as [->|Nj].
      + rewrite P2. simpl. split; [intros [<-|]; auto|intros [?|[[? _]|[_ ->]]]; auto; congruence].
      + rewrite K by auto. split; [auto|intros [?|[[? _]|[? _]]]; auto; congruence]. }
  constructor.
  - intros k Hk. rewrite K; auto; lia.
  - intros a b o' H. apply Ex in H as [H|[[_ H]|[_ H]]]; [eauto| |]; injection H as -> ->; auto.
  - intros a b o' H. apply Ex in H as [H|[[-> H]|[-> H]]]; [eauto| |]; injection H as -> ->; auto.
  - intros k. destruct (Nat.eq_dec k i) as [->|Ni].
    + rewrite P1. cbn [map fst]. constructor; auto.
    + destruct (Nat.eq_dec k j) as [->|Nj]; [|rewrite K; auto].
      rewrite P2. cbn [map fst]. constructor; auto.
  - intros a b o' H. apply Ex in H as [H|[[-> H]|[-> H]]]; apply Ex; auto; injection H as -> ->; auto.
    rewrite oe_swap_swap. auto.
  - intros a b o' H. apply Ex in H as [H|[[-> H]|[-> H]]]; auto; injection H as -> ->; auto.
    apply og_swap; auto.
  - rewrite <- H7. apply origs_pair with (i := i) (j := j); auto.
Qed.

Lemma origs_length n ent : length (origs n ent) = sum_over (fun i => length (ent i)) (seq 0 n).
Proof.
  unfold origs. induction (seq 0 n) as [|i l IH]; auto. cbn [flat_map].
  rewrite app_length, map_length, IH, sum_over_cons. auto.
Qed.

(** ** Counting *)

Lemma good_short n ent P i : good n ent P -> i < n -> length (ent i) <= n - 1.
Proof.
  intros G Hi.
  assert (L : length (i :: map fst (ent i)) <= length (seq 0 n)).
  { apply NoDup_incl_length.
    - constructor; [|apply G]. intros H. apply in_map_iff in H as ([x o] & E & H). cbn in E. subst x.
      apply (gd_irrefl G H). auto.
    - intros x [<-|H]; apply in_seq; [lia|]. apply in_map_iff in H as ([y o] & E & H). cbn in E. subst y.
      pose proof (gd_range G H). lia. }
  cbn [length] in L. rewrite map_length, seq_length in L. lia.
Qed.

Lemma sum_bound (f : nat -> nat) c n : (forall i, i < n -> f i <= c) -> sum_over f (seq 0 n) <= n * c.
Proof.
  intros H. induction n as [|n IH]; [apply Nat.le_refl|].
  rewrite seq_S, sum_over_app, sum_over_one. cbn [plus].
  specialize (IH ltac:(auto)). specialize (H n ltac:(lia)). nia.
Qed.

Lemma sum_full (f : nat -> nat) c n : (forall i, i < n -> f i <= c) -> sum_over f (seq 0 n) = n * c ->
  forall i, i < n -> f i = c.
Proof.
  induction n as [|n IH]; intros H E i Hi; [lia|].
  rewrite seq_S, sum_over_app, sum_over_one in E. cbn [plus] in E.
  pose proof (@sum_bound f c n ltac:(auto)) as B. pose proof (H n ltac:(lia)) as Hn.
  destruct (Nat.eq_dec i n) as [->|N]; [nia|]. apply IH; auto; [nia|lia].
Qed.

(** As many edges as there are pairs. *)
Lemma good_complete n ent P : good n ent P -> length P = n * (n - 1) ->
  forall i j, i < n -> j < n -> i <> j -> exists o, In (j, o) (ent i).
Proof.
  intros G L i j Hi Hj N.
  assert (E : length (ent i) = n - 1).
  { apply (@sum_full (fun i => length (ent i)) (n - 1) n); auto.
    - intros k Hk. apply (good_short G Hk).
    - rewrite <- origs_length, (Permutation_length (gd_all G)). auto. }
  assert (I : incl (seq 0 n) (i :: map fst (ent i))).
  { apply NoDup_length_incl.
    - constructor; [|apply G]. intros H. apply in_map_iff in H as ([x o] & Ex & H). cbn in Ex. subst x.
      apply (gd_irrefl G H). auto.
    - cbn [length]. rewrite map_length, seq_length. lia.
    - intros x [<-|H]; apply in_seq; [lia|]. apply in_map_iff in H as ([y o] & Ex & H). cbn in Ex. subst y.
      pose proof (gd_range G H). lia. }
  destruct (I j) as [H|H]; [apply in_seq; lia|congruence|].
  apply in_map_iff in H as ([x o] & Ex & H). cbn in Ex. subst x. eauto.
Qed.

Definition admissible n (ent : entmap) (o : original_edge) (a b : nat) : Prop :=
  a < n /\ b < n /\ a <> b /\ ends o <> (a, b) /\ ends o <> (b, a) /\ ~ In b (map fst (ent a)).

Lemma sum_low (f : nat -> nat) c n (bad : nat -> bool) :
  (forall i, i < n -> c <= f i + (if bad i then 1 else 0)) ->
  n * c <= sum_over f (seq 0 n) + length (filter bad (seq 0 n)).
Proof.
  intros H. induction n as [|n IH]; [apply Nat.le_refl|].
  rewrite seq_S, sum_over_app, sum_over_one, filter_app, app_length. cbn [plus filter].
  specialize (IH ltac:(auto)). specialize (H n ltac:(lia)). destruct (bad n); cbn [length]; nia.
Qed.

(** With two edges missing there is a place for a new edge. *)
Lemma admissible_exists n ent P o : good n ent P -> length P + 2 < n * (n - 1) ->
  exists a b, admissible n ent o a b.
Proof.
  intros G L.
  set (test := fun ab : nat * nat => let '(a, b) := ab in
    negb (a =? b) && negb ((oe_from o =? a) && (oe_to o =? b)) && negb ((oe_from o =? b) && (oe_to o =? a))
    && negb (existsb (Nat.eqb b) (map fst (ent a)))).
  destruct (find test (list_prod (seq 0 n) (seq 0 n))) as [[a b]|] eqn:F.
  - apply find_some in F as [H Q]. apply in_prod_iff in H as [Ha Hb].
    apply in_seq in Ha. apply in_seq in Hb. unfold test in Q.
    apply andb_prop in Q as [Q Q4]. apply andb_prop in Q as [Q Q3]. apply andb_prop in Q as [Q1 Q2].
    exists a, b. unfold admissible, ends. splits; try lia.
    + apply negb_true_iff, Nat.eqb_neq in Q1. auto.
    + intros E. injection E as E1 E2. rewrite E1, E2, !Nat.eqb_refl in Q2. discriminate.
    + intros E. injection E as E1 E2. rewrite E1, E2, !Nat.eqb_refl in Q3. discriminate.
    + apply negb_true_iff in Q4. intros H.
      assert (existsb (Nat.eqb b) (map fst (ent a)) = true); [|congruence].
      apply existsb_exists. exists b. split; auto. apply Nat.eqb_refl.
  - exfalso.
    assert (All : forall a b, a < n -> b < n -> a <> b -> ends o <> (a, b) -> ends o <> (b, a) ->
      In b (map fst (ent a))).
    { intros a b Ha Hb N N1 N2. assert (H : In (a, b) (list_prod (seq 0 n) (seq 0 n)))
        by (apply in_prod; apply in_seq; lia).
      pose proof (find_none _ _ F _ H) as Q. unfold test in Q.
      destruct (Nat.eqb_spec a b); [congruence|]. cbn [negb andb] in Q.
      assert (Q2 : (oe_from o =? a) && (oe_to o =? b) = false).
      { apply andb_false_iff. destruct (Nat.eqb_spec (oe_from o) a); auto.
        destruct (Nat.eqb_spec (oe_to o) b); auto. exfalso. apply N1. unfold ends. congruence. }
      assert (Q3 : (oe_from o =? b) && (oe_to o =? a) = false).
      { apply andb_false_iff. destruct (Nat.eqb_spec (oe_from o) b); auto.
        destruct (Nat.eqb_spec (oe_to o) a); auto. exfalso. apply N2. unfold ends. congruence. }
      rewrite Q2, Q3 in Q. cbn [negb andb] in Q. apply negb_false_iff in Q.
      apply existsb_exists in Q as (x & Hx & E). apply Nat.eqb_eq in E. congruence. }
    pose (bad := fun a => (a =? oe_from o) || (a =? oe_to o)).
    assert (Low : n * (n - 1) <= sum_over (fun i => length (ent i)) (seq 0 n) + length (filter bad (seq 0 n))).
    { apply sum_low. intros i Hi.
      assert (I : incl (seq 0 n) (i :: (if bad i then [if i =? oe_from o then oe_to o else oe_from o] else [])
                                    ++ map fst (ent i))).
      { intros b Hb. apply in_seq in Hb. destruct (Nat.eq_dec b i) as [->|N]; [simpl; auto|].
        right. apply in_app_iff. unfold bad.
        destruct (Nat.eqb_spec i (oe_from o)) as [E1|N1]; cbn [orb].
        - destruct (Nat.eq_dec b (oe_to o)) as [->|N2]; [simpl; auto|].
          destruct (Nat.eq_dec i (oe_to o)) as [E2|N3]; right; apply All; auto; try lia; unfold ends; congruence.
        - destruct (Nat.eqb_spec i (oe_to o)) as [E2|N3].
          + destruct (Nat.eq_dec b (oe_from o)) as [->|N2]; [simpl; auto|].
            right; apply All; auto; try lia; unfold ends; congruence.
          + right; apply All; auto; try lia; unfold ends; congruence. }
      apply (NoDup_incl_length (seq_NoDup n 0)) in I. rewrite seq_length in I.
      cbn [length] in I. rewrite app_length, map_length in I. destruct (bad i); cbn [length] in I; lia. }
    rewrite <- origs_length, (Permutation_length (gd_all G)) in Low.
    assert (B : length (filter bad (seq 0 n)) <= length [oe_from o; oe_to o]).
    { apply NoDup_incl_length; [apply NoDup_filter, seq_NoDup|].
      intros x H. apply filter_In in H as [_ H]. unfold bad in H. apply orb_prop in H as [H|H];
        apply Nat.eqb_eq in H; subst x; simpl; auto. }
    cbn [length] in B. lia.
Qed.

(** ** Graphs *)

Lemma combine_map_fst_snd {X Y} (l : list (X * Y)) : combine (map fst l) (map snd l) = l.
Proof. induction l as [|[a b] l IH]; cbn; congruence. Qed.

Lemma combine_app {X Y} (l l1 : list X) (m m1 : list Y) : length l = length m ->
  combine (l ++ l1) (m ++ m1) = combine l m ++ combine l1 m1.
Proof.
  revert m. induction l as [|x l IH]; intros [|y m] H; cbn in *; try lia; auto. rewrite IH; auto.
Qed.

Section Facts.
Context {T : Type}.
Implicit Types g : graph (ws_container T).

(** Everything but the edges. *)
Definition shape n g : Prop :=
  length (vertices g) = n /\ vertex_count g = n /\
  forall i c, nth_error (vertices g) i = Some c ->
    wc_id c = i /\ length (wc_to c) = length (wc_original c).

Lemma map_fst_entries n g i : shape n g -> map fst (ws_entries g i) = nbrs g i.
Proof.
  intros (_ & _ & H). unfold ws_entries, nbrs. destruct (nth_error (vertices g) i) as [c|] eqn:E; auto.
  cbn. destruct (H _ _ E) as [_ L]. apply map_fst_combine; auto.
Qed.

Lemma adj_ws n g i j : shape n g -> adj g i j <-> exists o, In (j, o) (ws_entries g i).
Proof.
  intros S. unfold adj. rewrite <- (map_fst_entries i S), in_map_iff. split.
  - intros ([x o] & E & H). cbn in E. subst x. eauto.
  - intros [o H]. exists (j, o). auto.
Qed.

Lemma simple_shape n g : simple_graph g -> vertex_count g = n -> shape n g.
Proof.
  intros W V. unfold shape. splits; auto.
  - rewrite (sg_len W). auto.
  - intros i c Hc. destruct (sg_cont W _ Hc) as [H1 H2]. auto.
Qed.

Lemma good_simple n g P : shape n g -> good n (ws_entries g) P -> 2 * edge_count g = length P ->
  simple_graph g.
Proof.
  intros S G L. pose proof S as (S1 & S2 & S3). apply simple_intro.
  - congruence.
  - intros i c Hc. destruct (S3 _ _ Hc). auto.
  - intros i j H. apply (adj_ws i j S) in H as [o H]. rewrite S2. apply (gd_range G H).
  - intros i H. apply (adj_ws i i S) in H as [o H]. apply (gd_irrefl G H). auto.
  - intros i. rewrite <- (map_fst_entries i S). apply G.
  - intros i j H. apply (adj_ws i j S) in H as [o H]. apply (adj_ws j i S). exists (oe_swap o). apply (gd_partner G H).
  - rewrite L, <- (Permutation_length (gd_all G)), origs_length. unfold degsum. rewrite S2.
    apply sum_over_ext. intros i _. rewrite <- (map_fst_entries i S), map_length. auto.
Qed.

(** Replacing the edges of one vertex. *)
Lemma entries_upd n g i c l l' k : shape n g -> i < n -> length l = length l' ->
  ws_entries (ws_with g (upd (vertices g) i (mk_wc (wc_id c) (wc_node c) l l'))) k =
  if k =? i then combine l l' else ws_entries g k.
Proof.
  intros (S1 & _ & _) Hi L. unfold ws_entries at 1. cbn [ws_with vertices].
  destruct (Nat.eqb_spec k i) as [->|N].
  - rewrite nth_error_upd_same by lia. reflexivity.
  - rewrite nth_error_upd_other by auto. reflexivity.
Qed.

Lemma shape_upd n g i c l l' : shape n g -> nth_error (vertices g) i = Some c -> length l = length l' ->
  let g' := ws_with g (upd (vertices g) i (mk_wc (wc_id c) (wc_node c) l l')) in
  shape n g' /\ payloads g' = payloads g.
Proof.
  intros (S1 & S2 & S3) Hc L g'. pose proof (nth_error_lt _ _ Hc) as Hi. splits.
  - unfold shape. cbn [g' ws_with vertices]. rewrite upd_length. splits; auto;
      intros k ck Hk; destruct (Nat.eq_dec k i) as [->|N].
    + rewrite nth_error_upd_same in Hk by auto. injection Hk as <-. cbn.
      split; auto. apply (S3 _ _ Hc).
    + rewrite nth_error_upd_other in Hk by auto. apply (S3 _ _ Hk).
  - unfold payloads. cbn [g' ws_with vertices]. apply list_ext. intros k. rewrite !nth_error_map.
    destruct (Nat.eq_dec k i) as [->|N].
    + rewrite nth_error_upd_same, Hc by auto. reflexivity.
    + rewrite nth_error_upd_other by auto. reflexivity.
Qed.

Lemma container_ws n g i : shape n g -> i < n -> exists c, nth_error (vertices g) i = Some c /\
  ws_entries g i = combine (wc_to c) (wc_original c) /\ length (wc_to c) = length (wc_original c).
Proof.
  intros (S1 & S2 & S3) Hi. destruct (vget_lt (vertices g) (i := i)) as [c Hc]; [lia|].
  exists c. splits; auto; [unfold ws_entries; rewrite Hc; auto|apply (S3 _ _ Hc)].
Qed.

(** ** The other end *)

Lemma wc_remove_elem (c : ws_container T) e o : length (wc_to c) = length (wc_original c) ->
  NoDup (wc_to c) -> In (e, o) (combine (wc_to c) (wc_original c)) ->
  exists l l', wc_swap_remove_elem c e = Done (mk_wc (wc_id c) (wc_node c) l l') /\
    length l = length l' /\ Permutation (combine (wc_to c) (wc_original c)) ((e, o) :: combine l l').
Proof.
  intros L ND H. set (z := combine (wc_to c) (wc_original c)) in *.
  assert (E1 : wc_to c = map fst z) by (unfold z; rewrite map_fst_combine; auto).
  assert (E2 : wc_original c = map snd z) by (unfold z; rewrite map_snd_combine; auto).
  unfold wc_swap_remove_elem.
  destruct (position_exists (Nat.eqb e) (wc_to c) e) as [k Ek];
    [rewrite E1; apply (in_map fst) in H; auto|apply Nat.eqb_refl|].
  rewrite Ek. cbn [expect bind]. destruct (position_nth _ _ Ek) as (x & Hx & Q). apply Nat.eqb_eq in Q. subst x.
  rewrite E1, nth_error_map in Hx. destruct (nth_error z k) as [[a b]|] eqn:Hz; [|discriminate].
  injection Hx as Hx. subst a.
  assert (b = o).
  { apply In_nth_error in H as [k' H]. rewrite NoDup_nth_error in ND.
    assert (k = k').
    { apply ND; [rewrite E1, map_length; eapply nth_error_lt; eauto|].
      rewrite E1, !nth_error_map, H, Hz. reflexivity. }
    congruence. }
  subst b. destruct (swap_remove_spec _ _ Hz) as (z' & Ez & Pz).
  rewrite E1, E2, (swap_remove_map fst _ _ Ez), (swap_remove_map snd _ _ Ez). cbn [bind].
  exists (map fst z'), (map snd z'). splits; auto.
  - rewrite !map_length; auto.
  - rewrite Pz. rewrite combine_map_fst_snd. auto.
Qed.

Lemma remove_others n i rv : forall g P,
  shape n g -> i < n ->
  (forall x, In x rv -> oe_from (snd x) = i /\ oe_to (snd x) = fst x /\ oe_at_origin (snd x) = true) ->
  good n (fun k => if k =? i then ws_entries g i ++ rv else ws_entries g k) P ->
  exists g', foldM ws_remove_other g (map snd rv) = Done g' /\ shape n g' /\
    payloads g' = payloads g /\ edge_count g' = edge_count g /\
    good n (ws_entries g') (origs n (ws_entries g')) /\
    Permutation P (map (fun x => ends (snd x)) rv ++ map (fun x => flip (ends (snd x))) rv
                   ++ origs n (ws_entries g')) /\
    ws_entries g' i = ws_entries g i /\
    (forall k x, In x (ws_entries g' k) -> In x (ws_entries g k)) /\
    (forall k x, In x (ws_entries g k) -> fst x <> i -> In x (ws_entries g' k)).
Proof.
  induction rv as [|[j o] rv IH]; intros g P S Hi Hrv G.
  - exists g. cbn [map foldM app]. 
    assert (G' : good n (ws_entries g) P).
    { apply (good_ext G). intros k. destruct (Nat.eqb_spec k i) as [->|]; auto. apply app_nil_r. }
    splits; auto.
    + apply (good_P G'). symmetry. apply G'.
    + symmetry. apply G'.
  - destruct (Hrv (j, o) (or_introl eq_refl)) as (F1 & F2 & F3). cbn [fst snd] in *.
    assert (Hin : In (j, o) ((fun k => if k =? i then ws_entries g i ++ (j, o) :: rv else ws_entries g k) i)).
    { cbv beta. rewrite Nat.eqb_refl. apply in_app_iff. simpl; auto. }
    assert (Hj : j < n) by (apply (gd_range G Hin)).
    assert (N : j <> i) by (apply (gd_irrefl G Hin)).
    pose proof (gd_partner G Hin) as Hp. cbv beta in Hp. destruct (Nat.eqb_spec j i); [congruence|].
    destruct (container_ws S Hj) as (c & Hc & Ec & Lc).
    assert (ND : NoDup (wc_to c)).
    { pose proof (gd_nodup G j) as D. cbv beta in D. destruct (Nat.eqb_spec j i); [congruence|].
      rewrite Ec, map_fst_combine in D; auto. }
    rewrite Ec in Hp. destruct (wc_remove_elem Lc ND Hp) as (l & l' & Er & Ll & Pl).
    cbn [map snd foldM]. unfold ws_remove_other at 1. rewrite F1, F2. unfold vget. rewrite Hc. cbn [bind].
    rewrite Er. cbn [bind].
    set (g1 := ws_with g (upd (vertices g) j (mk_wc (wc_id c) (wc_node c) l l'))).
    destruct (shape_upd S Hc Ll) as [S1 Pl1]. fold g1 in S1, Pl1.
    assert (E1 : forall k, ws_entries g1 k = if k =? j then combine l l' else ws_entries g k)
      by (intros k; apply (@entries_upd n); auto).
    destruct (@good_remove n _ (fun k => if k =? i then ws_entries g1 i ++ rv else ws_entries g1 k) P i j o G Hi)
      as [G1 P1].
    { cbv beta. rewrite Nat.eqb_refl, E1. destruct (Nat.eqb_spec i j); [congruence|].
      symmetry. apply Permutation_middle. }
    { cbv beta. destruct (Nat.eqb_spec j i); [congruence|]. rewrite Ec, E1, Nat.eqb_refl. auto. }
    { intros k N1 N2. cbv beta. destruct (Nat.eqb_spec k i); [congruence|]. rewrite E1.
      destruct (Nat.eqb_spec k j); [congruence|auto]. }
    destruct (IH g1 _ S1 Hi ltac:(intros; apply Hrv; simpl; auto) G1)
      as (g' & Ef & S' & Pa & Ce & G' & P' & Ei & Sub & Keep).
    exists g'. splits; auto; try congruence.
    + rewrite P1, P'. cbn [map app snd]. apply perm_skip. apply Permutation_middle.
    + rewrite Ei, E1. destruct (Nat.eqb_spec i j); congruence.
    + intros k x H. apply Sub in H. rewrite E1 in H. destruct (Nat.eqb_spec k j) as [->|]; auto.
      rewrite Ec, Pl. simpl; auto.
    + intros k x H Nx. apply Keep; auto. rewrite E1. destruct (Nat.eqb_spec k j) as [->|]; auto.
      rewrite Ec, Pl in H. destruct H as [<-|]; auto. exfalso; apply Nx; reflexivity.
Qed.

(** ** Adding random edges *)

Fixpoint find_pair_list g (o : original_edge) (rs : list nat) : outcome (nat * nat * list nat) :=
  match rs with
  | a :: b :: rs =>
      let first := Nat.modulo a (vertex_count g) in
      let second := Nat.modulo b (vertex_count g) in
      if (first =? second)
         || ((first =? oe_from o) && (second =? oe_to o))
         || ((first =? oe_to o) && (second =? oe_from o))
      then find_pair_list g o rs
      else
        do c <- vget (vertices g) first;
        if contains (wc_to c) second then find_pair_list g o rs
        else Done (first, second, rs)
  | _ => NoFuel
  end.

Lemma find_pair_eq g o : 0 < vertex_count g -> forall fuel rs, length rs < fuel ->
  ws_find_pair fuel g o rs = find_pair_list g o rs.
Proof.
  intros Hn. induction fuel as [|f IH]; intros rs Hf; [lia|].
  destruct rs as [|a [|b rs]].
  - cbn [ws_find_pair]. unfold gen_range. destruct (Nat.eqb_spec (vertex_count g) 0); [lia|]. reflexivity.
  - cbn [ws_find_pair]. rewrite gen_range_cons by auto. cbn [bind].
    unfold gen_range. destruct (Nat.eqb_spec (vertex_count g) 0); [lia|]. reflexivity.
  - cbn [ws_find_pair find_pair_list]. rewrite !gen_range_cons by auto. cbn [bind]. rewrite gen_range_cons by auto.
    cbn [bind]. cbv zeta. rewrite IH by (cbn [length] in Hf; lia). reflexivity.
Qed.

Definition skip_pair (ent : entmap) (o : original_edge) a b : bool :=
  (a =? b) || ((a =? oe_from o) && (b =? oe_to o)) || ((a =? oe_to o) && (b =? oe_from o))
  || contains (map fst (ent a)) b.

Lemma find_pair_step n g o a b rs : shape n g -> 0 < n ->
  find_pair_list g o (a :: b :: rs) =
  if skip_pair (ws_entries g) o (Nat.modulo a n) (Nat.modulo b n) then find_pair_list g o rs
  else Done (Nat.modulo a n, Nat.modulo b n, rs).
Proof.
  intros S Hn. pose proof S as (S1 & S2 & _). cbn [find_pair_list]. cbv zeta. rewrite S2. unfold skip_pair.
  destruct (_ || _ || _); auto. cbn [orb].
  destruct (container_ws S (i := a mod n)) as (c & Hc & Ec & L); [apply Nat.mod_upper_bound; lia|].
  unfold vget. rewrite Hc. cbn [bind]. rewrite Ec, map_fst_combine; auto.
Qed.

Lemma skip_admissible n ent o a b : a < n -> b < n ->
  skip_pair ent o a b = false <-> admissible n ent o a b.
Proof.
  intros Ha Hb. unfold skip_pair, admissible, ends. rewrite !orb_false_iff, !andb_false_iff, !Nat.eqb_neq.
  assert (C : contains (map fst (ent a)) b = false <-> ~ In b (map fst (ent a))).
  { rewrite <- not_true_iff_false. unfold contains. rewrite existsb_exists. split.
    - intros H X. apply H. exists b. split; auto. apply Nat.eqb_refl.
    - intros H (x & Hx & E). apply Nat.eqb_eq in E. congruence. }
  rewrite C. split.
  - intros [[[H1 H2] H3] H4]. splits; auto; intros E; injection E as E1 E2; intuition congruence.
  - intros (_ & _ & H1 & H2 & H3 & H4). splits; auto.
    + destruct (Nat.eq_dec a (oe_from o)) as [->|]; try (left; assumption); right; congruence.
    + destruct (Nat.eq_dec a (oe_to o)) as [->|]; try (left; assumption); right; congruence.
Qed.

Lemma find_pair_runs (live : Prop) n g o : shape n g -> 0 < n ->
  (live -> exists a b, admissible n (ws_entries g) o a b) ->
  runs live (fun ab => admissible n (ws_entries g) o (fst ab) (snd ab)) (find_pair_list g o).
Proof.
  intros S Hn Live.
  assert (More : live -> exists a b, forall rs,
    find_pair_list g o (a :: b :: rs) = Done (a, b, rs) /\ admissible n (ws_entries g) o a b).
  { intros A. destruct (Live A) as (a & b & H). exists a, b. intros rs.
    pose proof H as (Ha & Hb & _). rewrite (find_pair_step _ _ _ _ S Hn), !Nat.mod_small by auto.
    rewrite (proj2 (skip_admissible (n := n) (ws_entries g) o Ha Hb) H). auto. }
  intros rs. remember (length rs) as k eqn:Ek. revert rs Ek.
  induction k as [k IH] using lt_wf_ind. intros rs Ek.
  destruct rs as [|a [|b rs]].
  - cbn [find_pair_list]. intros A. destruct (More A) as (a & b & H).
    exists [a; b], (a, b). split; [|apply (H [])]. intros rest. apply H.
  - cbn [find_pair_list]. intros A. destruct (Live A) as (x & y & Hxy).
    pose proof Hxy as (Hx & Hy & _).
    (* the draw already made pairs with any second draw *)
    destruct (More A) as (a' & b' & H).
    destruct (skip_pair (ws_entries g) o (a mod n) (0 mod n)) eqn:Q.
    + exists [0; a'; b'], (a', b'). split; [|apply (H [])]. intros rest.
      cbn [app]. rewrite (find_pair_step _ _ _ _ S Hn), Q. apply H.
    + exists [0], (a mod n, 0 mod n). split.
      * intros rest. cbn [app]. rewrite (find_pair_step _ _ _ _ S Hn), Q. reflexivity.
      * cbn [fst snd]. apply skip_admissible; auto; apply Nat.mod_upper_bound; lia.
  - assert (Hl : length rs < k) by (cbn [length] in Ek; lia). specialize (IH _ Hl rs eq_refl).
    rewrite (find_pair_step _ _ _ _ S Hn).
    destruct (skip_pair (ws_entries g) o (a mod n) (b mod n)) eqn:Q.
    + destruct (find_pair_list g o rs) as [[x rs']| | |]; auto.
      * destruct IH as (Hx & u & Eu & Hu). split; auto. exists (a :: b :: u). split.
        -- cbn [app]. congruence.
        -- intros more. cbn [app]. rewrite (find_pair_step _ _ _ _ S Hn), Q. auto.
      * intros A. destruct (IH A) as (more & x & H1 & H2). exists more, x. split; auto.
        intros rest. cbn [app]. rewrite (find_pair_step _ _ _ _ S Hn), Q. auto.
    + split.
      * cbn [fst snd]. apply skip_admissible; auto; apply Nat.mod_upper_bound; lia.
      * exists [a; b]. split; auto. intros more. cbn [app].
        rewrite (find_pair_step _ _ _ _ S Hn), Q. reflexivity.
Qed.

(** Without an admissible pair the loop never ends. *)
Lemma find_pair_stuck n g o : shape n g -> 0 < n ->
  (forall a b, ~ admissible n (ws_entries g) o a b) -> forall rs, find_pair_list g o rs = NoFuel.
Proof.
  intros S Hn H rs. remember (length rs) as k eqn:Ek. revert rs Ek.
  induction k as [k IH] using lt_wf_ind. intros rs Ek.
  destruct rs as [|a [|b rs]]; auto. rewrite (find_pair_step _ _ _ _ S Hn).
  destruct (skip_pair (ws_entries g) o (a mod n) (b mod n)) eqn:Q.
  - apply (IH (length rs)); auto. cbn [length] in Ek. lia.
  - exfalso. apply (H (a mod n) (b mod n)). apply skip_admissible; auto; apply Nat.mod_upper_bound; lia.
Qed.

Lemma payloads_put g i j a b ca cb :
  nth_error (vertices g) i = Some ca -> nth_error (vertices g) j = Some cb ->
  wc_node a = wc_node ca -> wc_node b = wc_node cb -> i <> j ->
  payloads (ws_with g (put_2 (vertices g) i j a b)) = payloads g.
Proof.
  intros Ha Hb Na Nb N. unfold payloads. cbn [ws_with vertices]. apply list_ext. intros k.
  rewrite !nth_error_map, nth_error_put_2; [|eapply nth_error_lt; eauto|eapply nth_error_lt; eauto|auto].
  destruct (Nat.eqb_spec k i) as [->|]; [rewrite Ha; cbn; congruence|].
  destruct (Nat.eqb_spec k j) as [->|]; [rewrite Hb; cbn; congruence|auto].
Qed.

Lemma create_edge_spec p n g i j o : shape n g -> i < n -> j < n -> i <> j ->
  exists g', ws_create_edge p g i j o = Done g' /\ shape n g' /\ payloads g' = payloads g /\
    edge_count g' = edge_count g /\
    forall k, ws_entries g' k =
      if k =? i then ws_entries g i ++ [(j, oe_moved o)]
      else if k =? j then ws_entries g j ++ [(i, oe_swap (oe_moved o))] else ws_entries g k.
Proof.
  intros S Hi Hj N. pose proof S as (S1 & S2 & S3).
  destruct (container_ws S Hi) as (a & Ha & Ea & La).
  destruct (container_ws S Hj) as (b & Hb & Eb & Lb).
  assert (E : get_2_mut p g i j = Done (a, b)).
  { unfold get_2_mut. fold (vertex_count g). rewrite Ha, Hb, S2.
    destruct (Nat.ltb_spec i n), (Nat.ltb_spec j n); try lia.
    destruct (Nat.eqb_spec i j); [congruence|]. destruct p; reflexivity. }
  unfold ws_create_edge. rewrite E. cbn [bind]. cbv zeta. eexists. split; [reflexivity|].
  set (A := wc_append a j (oe_moved o)). set (B := wc_append b i (oe_swap (oe_moved o))).
  assert (Nx : forall k, nth_error (put_2 (vertices g) i j A B) k =
    if k =? i then Some A else if k =? j then Some B else nth_error (vertices g) k)
    by (intros k; apply nth_error_put_2; auto; lia).
  splits; auto.
  - unfold shape. cbn [ws_with vertices]. rewrite put_2_length. splits; auto;
      intros k c Hk; rewrite Nx in Hk;
      (destruct (Nat.eqb_spec k i) as [->|]; [injection Hk as <-; cbn|
       destruct (Nat.eqb_spec k j) as [->|]; [injection Hk as <-; cbn|apply (S3 _ _ Hk)]]).
    + rewrite !app_length. cbn. split; [apply (S3 _ _ Ha)|lia].
    + rewrite !app_length. cbn. split; [apply (S3 _ _ Hb)|lia].
  - eapply payloads_put; eauto.
  - intros k. unfold ws_entries at 1. cbn [ws_with vertices]. rewrite Nx.
    destruct (k =? i); [rewrite Ea; unfold A, wc_append; cbn [wc_to wc_original]; rewrite combine_app; auto|].
    destruct (k =? j); [rewrite Eb; unfold B, wc_append; cbn [wc_to wc_original]; rewrite combine_app; auto|]. reflexivity.
Qed.

(** The two directions stored in the two branches come to the same. *)
Lemma add_edge_good p n g P o a b : shape n g -> good n (ws_entries g) P ->
  admissible n (ws_entries g) o a b ->
  exists g', (if (a =? oe_to o) || (b =? oe_from o)
              then ws_create_edge p g b a (oe_swap o) else ws_create_edge p g a b o) = Done g' /\
    shape n g' /\ payloads g' = payloads g /\ edge_count g' = edge_count g /\
    good n (ws_entries g') (ends o :: flip (ends o) :: P) /\
    (forall k x, In x (ws_entries g k) -> In x (ws_entries g' k)) /\
    (forall k x, In x (ws_entries g' k) -> In x (ws_entries g k) \/ oe_at_origin (snd x) = false) /\
    In (b, oe_moved o) (ws_entries g' a).
Proof.
  intros S G (Ha & Hb & N & N1 & N2 & Na).
  assert (K : exists g', (if (a =? oe_to o) || (b =? oe_from o)
              then ws_create_edge p g b a (oe_swap o) else ws_create_edge p g a b o) = Done g' /\
    shape n g' /\ payloads g' = payloads g /\ edge_count g' = edge_count g /\
    forall k, ws_entries g' k =
      if k =? a then ws_entries g a ++ [(b, oe_moved o)]
      else if k =? b then ws_entries g b ++ [(a, oe_swap (oe_moved o))] else ws_entries g k).
  { destruct (_ || _).
    - destruct (create_edge_spec p (oe_swap o) S Hb Ha (not_eq_sym N)) as (g' & E & S' & P' & C' & X).
      exists g'. splits; auto. intros k. rewrite X.
      destruct (Nat.eqb_spec k b) as [Eb|Nb], (Nat.eqb_spec k a) as [Ea|Na']; auto; try congruence.
    - apply create_edge_spec; auto. }
  destruct K as (g' & E & S' & P' & C' & X). exists g'. splits; auto.
  - change (ends o) with (ends (oe_moved o)).
    apply good_add with (ent := ws_entries g) (i := a) (j := b); auto.
    + unfold og. cbn. auto.
    + rewrite X, Nat.eqb_refl. symmetry. apply Permutation_cons_append.
    + rewrite X, Nat.eqb_refl. destruct (Nat.eqb_spec b a); [congruence|].
      symmetry. apply Permutation_cons_append.
    + intros k K1 K2. rewrite X. destruct (Nat.eqb_spec k a), (Nat.eqb_spec k b); congruence.
  - intros k x H. rewrite X. destruct (Nat.eqb_spec k a) as [->|]; [apply in_app_iff; auto|].
    destruct (Nat.eqb_spec k b) as [->|]; [apply in_app_iff; auto|auto].
  - intros k x H. rewrite X in H. destruct (Nat.eqb_spec k a) as [->|].
    { apply in_app_iff in H as [H|[<-|[]]]; auto. }
    destruct (Nat.eqb_spec k b) as [->|]; auto.
    apply in_app_iff in H as [H|[<-|[]]]; auto.
  - rewrite X, Nat.eqb_refl. apply in_app_iff. simpl. auto.
Qed.

Lemma add_edges_runs (live : Prop) p n l : forall g P,
  shape n g -> 0 < n -> good n (ws_entries g) P ->
  (live -> length P + 2 * length l < n * (n - 1)) ->
  runs live (fun g' => shape n g' /\ payloads g' = payloads g /\ edge_count g' = edge_count g /\
      good n (ws_entries g') (map ends l ++ map (fun o => flip (ends o)) l ++ P) /\
      (forall k x, In x (ws_entries g k) -> In x (ws_entries g' k)) /\
      (forall k x, In x (ws_entries g' k) -> In x (ws_entries g k) \/ oe_at_origin (snd x) = false))
    (fun rs => foldM (ws_add_random_edge p) (g, rs) l).
Proof.
  induction l as [|o l IH]; intros g P S Hn G Live.
  - cbn [foldM]. apply runs_ret. cbn [map app]. splits; auto.
  - apply runs_ext with (m := fun rs => do ' (ab, rs1) <- find_pair_list g o rs;
      (fun ab rs1 => do g' <- (if (fst ab =? oe_to o) || (snd ab =? oe_from o)
            then ws_create_edge p g (snd ab) (fst ab) (oe_swap o)
            else ws_create_edge p g (fst ab) (snd ab) o);
         foldM (ws_add_random_edge p) (g', rs1) l) ab rs1).
    { intros rs. cbn [foldM]. unfold ws_add_random_edge at 2.
      rewrite find_pair_eq; [|destruct S as (_ & -> & _); auto|lia].
      destruct (find_pair_list g o rs) as [[[a b] rs1]| | |]; cbn [bind]; auto. cbn [fst snd].
      destruct (_ || _); [destruct (ws_create_edge p g b a _)|destruct (ws_create_edge p g a b o)]; reflexivity. }
    apply (@runs_bind live (nat * nat) _ (fun ab => admissible n (ws_entries g) o (fst ab) (snd ab)) _
      (find_pair_list g o) _).
    { apply find_pair_runs; auto. intros A. apply (admissible_exists o G).
      specialize (Live A). cbn [length] in Live. lia. }
    intros [a b] Ad. cbn [fst snd] in *.
    destruct (add_edge_good p S G Ad) as (g1 & E1 & S1 & P1 & C1 & G1 & K1 & O1 & _).
    eapply runs_pure; [exact E1|].
    eapply runs_weaken; [|apply (IH g1 _ S1 Hn G1)].
    + intros g2 (S2 & P2 & C2 & G2 & K2 & O2). splits; auto; try congruence.
      * apply (good_P G2). cbn [map]. rewrite <- !app_comm_cons.
        etransitivity; [|apply perm_skip; apply Permutation_middle].
        rewrite <- Permutation_middle. rewrite app_assoc, <- Permutation_middle, <- Permutation_middle.
        rewrite <- app_assoc. apply perm_skip. rewrite <- Permutation_middle. reflexivity.
      * intros k x H. destruct (O2 _ _ H) as [H'|]; auto.
    + intros A. specialize (Live A). cbn [length] in *. lia.
Qed.

End Facts.
