(** Facts about the configuration model. *)
From Verif Require Import Base BaseFacts Containers ContainerSpec ContainerFacts Graph GraphSpec
  Sums GraphFacts GraphOps GraphBuild Rng RngFacts Runs EnsembleFacts ErMFacts Config ConfigSpec.
Set Implicit Arguments.
Unset Strict Implicit.
Local Open Scope nat_scope.

Local Notation cnt := (count_occ Nat.eq_dec).

(** *** Half edges *)

Lemma pop_snoc {X} (l : list X) x : pop (l ++ [x]) = Some (l, x).
Proof. unfold pop. rewrite rev_app_distr. cbn. rewrite rev_involutive. auto. Qed.

Lemma pop_some {X} (l : list X) : l <> [] -> exists r x, l = r ++ [x] /\ pop l = Some (r, x).
Proof.
  intros H. destruct (exists_last H) as (r & x & ->). exists r, x. split; auto. apply pop_snoc.
Qed.

Lemma count_occ_snoc l (x i : nat) : cnt (l ++ [x]) i = cnt l i + (if Nat.eq_dec x i then 1 else 0).
Proof. rewrite count_occ_app. cbn. destruct (Nat.eq_dec x i); auto. Qed.

Lemma count_occ_repeat x d i : cnt (repeat x d) i = if Nat.eq_dec x i then d else 0.
Proof.
  induction d as [|d IH]; cbn; [destruct (Nat.eq_dec x i); auto|].
  destruct (Nat.eq_dec x i); lia.
Qed.

Lemma edge_halfs_from v : forall k i,
  cnt (flat_map (fun it => repeat (fst it) (snd it)) (enumerate_from k v)) (k + i) = nth i v 0 /\
  forall j, j < k -> cnt (flat_map (fun it => repeat (fst it) (snd it)) (enumerate_from k v)) j = 0.
Proof.
  induction v as [|d v IH]; intros k i; cbn [enumerate_from flat_map fst snd].
  - destruct i; auto.
  - split.
    + rewrite count_occ_app, count_occ_repeat. destruct i as [|i].
      * rewrite Nat.add_0_r. destruct (Nat.eq_dec k k); [|lia].
        destruct (IH (S k) 0) as [_ H]. rewrite H by lia. cbn. lia.
      * destruct (Nat.eq_dec k (k + S i)); [lia|]. destruct (IH (S k) i) as [H _].
        replace (k + S i) with (S k + i) by lia. cbn in *. auto.
    + intros j Hj. rewrite count_occ_app, count_occ_repeat. destruct (Nat.eq_dec k j); [lia|].
      destruct (IH (S k) 0) as [_ H]. rewrite H by lia. auto.
Qed.

Lemma edge_halfs_count v i : cnt (edge_halfs v) i = nth i v 0.
Proof. apply (edge_halfs_from v 0 i). Qed.

Lemma edge_halfs_length v : length (edge_halfs v) = list_sum v.
Proof.
  unfold edge_halfs, enumerate. generalize 0. induction v as [|d v IH]; intros k; auto.
  cbn [enumerate_from flat_map fst snd list_sum]. rewrite app_length, repeat_length, IH. auto.
Qed.

Lemma halfs_perm l v : (forall i, cnt l i = nth i v 0) -> Permutation l (edge_halfs v).
Proof.
  intros H. apply (Permutation_count_occ Nat.eq_dec). intros i. rewrite H, edge_halfs_count. auto.
Qed.

Lemma halfs_lt l v x : (forall i, cnt l i = nth i v 0) -> In x l -> x < length v.
Proof.
  intros H I. apply (count_occ_In Nat.eq_dec) in I. rewrite H in I.
  destruct (Nat.lt_ge_cases x (length v)); auto. rewrite nth_overflow in I; lia.
Qed.

Lemma fold_add l : forall a, fold_left Nat.add l a = a + list_sum l.
Proof.
  induction l as [|x l IH]; intros a; cbn [fold_left]; [cbn; lia|]. rewrite IH.
  change (list_sum (x :: l)) with (x + list_sum l). lia.
Qed.

Lemma degree_vec_is_valid_spec v : degree_vec_is_valid v = true <-> valid_degrees v.
Proof.
  unfold degree_vec_is_valid, valid_degrees. rewrite fold_add. cbn [Nat.add].
  destruct (Nat.leb_spec (length v) 1) as [H|H].
  - split; [discriminate|lia].
  - destruct (forallb (fun d => d <? length v - 1) v) eqn:F; cbn [negb].
    + rewrite Nat.even_spec. split; [|tauto]. intros E. splits; auto; try lia.
      intros d Hd. rewrite forallb_forall in F. apply F in Hd. apply Nat.ltb_lt in Hd. lia.
    + split; [discriminate|]. intros (_ & K & _). exfalso.
      apply not_true_iff_false in F. apply F. apply forallb_forall. intros d Hd.
      apply Nat.ltb_lt. apply K in Hd. lia.
Qed.

(** *** Degrees and edges *)

Definition one (x i : nat) : nat := if x =? i then 1 else 0.

Section Edges.
Context {T A : Type} {C : AdjContainer T A} {L : AdjLaws C}.
Implicit Types g h : graph A.

Lemma add_case p g i j :
  simple_graph g -> i < vertex_count g -> j < vertex_count g -> i <> j ->
  (adj g i j /\ add_edge p g i j = Done (Err EdgeExists, g)) \/
  (~ adj g i j /\ exists g', add_edge p g i j = Done (Ok tt, g') /\ simple_graph g' /\
     vertex_count g' = vertex_count g /\ payloads g' = payloads g /\
     (forall x y, adj g' x y <-> adj g x y \/ ends (i, j) x y) /\
     (forall k, length (nbrs g' k) = length (nbrs g k) + one i k + one j k)).
Proof.
  intros W Hi Hj N. destruct (adj_dec g i j) as [H|H]; [left|right]; split; auto.
  - apply add_edge_present; auto.
  - destruct (add_edge_absent p W Hi Hj N H) as (g' & E & W' & V & _ & P & Nb).
    exists g'. splits; auto.
    + apply (add_edge_ok W E).
    + intros k. rewrite Nb. unfold one.
      destruct (Nat.eqb_spec k i), (Nat.eqb_spec k j), (Nat.eqb_spec i k), (Nat.eqb_spec j k); try lia;
      subst; rewrite ?app_length; cbn; lia.
Qed.

Lemma remove_case p g i j :
  simple_graph g -> i < vertex_count g -> j < vertex_count g -> i <> j ->
  (~ adj g i j /\ remove_edge p g i j = Done (Err EdgeDoesNotExist, g)) \/
  (adj g i j /\ exists g', remove_edge p g i j = Done (Ok tt, g') /\ simple_graph g' /\
     vertex_count g' = vertex_count g /\ payloads g' = payloads g /\
     (forall x y, adj g' x y <-> adj g x y /\ ~ ends (i, j) x y) /\
     (forall k, length (nbrs g k) = length (nbrs g' k) + one i k + one j k)).
Proof.
  intros W Hi Hj N. destruct (adj_dec g i j) as [H|H]; [right|left]; split; auto.
  - destruct (remove_edge_present p W H) as (g' & E & W' & V & _ & P & R1 & R2 & Nb).
    exists g'. splits; auto.
    + apply (remove_edge_ok W E).
    + intros k. apply removed_first_perm, Permutation_length in R1, R2. cbn in R1, R2. unfold one.
      destruct (Nat.eqb_spec i k), (Nat.eqb_spec j k); subst; try lia; rewrite ?Nb by auto; lia.
  - apply remove_edge_absent; auto.
Qed.

Lemma degrees_vec v g : simple_graph g -> has_degrees v g -> degree_vec g = v.
Proof.
  intros W [V D]. rewrite degree_vec_nbrs by auto. rewrite V.
  rewrite (map_ext (fun i => length (nbrs g i)) (fun i => nth i v 0)) by auto.
  apply nth_ext with (d := 0) (d' := 0); [rewrite map_length, seq_length; auto|].
  intros i Hi. rewrite map_length, seq_length in Hi.
  rewrite (nth_indep _ 0 (nth (length v) v 0)) by (rewrite map_length, seq_length; auto).
  rewrite (map_nth (fun i => nth i v 0)). rewrite seq_nth by auto. auto.
Qed.

Lemma vec_degrees g : simple_graph g -> has_degrees (degree_vec g) g.
Proof.
  intros W. rewrite degree_vec_nbrs by auto. split.
  - rewrite map_length, seq_length. auto.
  - intros i. destruct (Nat.lt_ge_cases i (vertex_count g)) as [H|H].
    + rewrite (nth_indep _ 0 (length (nbrs g (vertex_count g)))) by (rewrite map_length, seq_length; auto).
      rewrite (map_nth (fun i => length (nbrs g i))), seq_nth by auto. auto.
    + rewrite nth_overflow by (rewrite map_length, seq_length; auto).
      unfold nbrs. rewrite <- (sg_len W) in H. apply nth_error_None in H. rewrite H. auto.
Qed.

Lemma degrees_sum v g : simple_graph g -> has_degrees v g -> list_sum v = 2 * edge_count g.
Proof. intros W D. rewrite <- (degrees_vec W D). apply degree_sum; auto. Qed.

Lemma adjb_spec g i j : adjb g i j = true <-> adj g i j.
Proof.
  unfold adjb, adj. rewrite existsb_exists. split.
  - intros (x & H & E). apply Nat.eqb_eq in E. congruence.
  - intros H. exists j. split; auto. apply Nat.eqb_refl.
Qed.

Lemma degrees_graphical v g : simple_graph g -> has_degrees v g -> graphical v.
Proof.
  intros W [V D]. exists (adjb g). splits.
  - intros i. apply not_true_iff_false. rewrite adjb_spec. apply (sg_irrefl W).
  - intros i j. apply eq_true_iff_eq. rewrite !adjb_spec. split; apply (sg_sym W).
  - intros i Hi. rewrite <- D. unfold count. apply Permutation_length. apply NoDup_Permutation.
    + apply NoDup_filter, seq_NoDup.
    + apply (sg_nodup W).
    + intros j. rewrite filter_In, adjb_spec, in_seq. fold (adj g i j).
      split; [tauto|]. intros H. pose proof (sg_range W _ _ H). split; auto. lia.
Qed.
End Edges.

(** *** One attempt at building the graph *)

Lemma cm_scan_spec node l : forall c, c < length l ->
  cm_scan node l c = Done None \/
  exists k x, cm_scan node l c = Done (Some k) /\ k <= c /\ nth_error l k = Some x /\ x <> node.
Proof.
  induction c as [|c IH]; intros Hc; cbn [cm_scan]; destruct (vget_lt l Hc) as [x Ex];
    unfold vget; rewrite Ex; cbn [bind]; destruct (Nat.eqb_spec node x) as [->|N].
  - auto.
  - right. exists 0, x. auto.
  - destruct IH as [IH|(k & y & E & Hk & Ey & Ny)]; [lia|auto|]. right. exists k, y. auto.
  - right. exists (S c), x. splits; auto.
Qed.

Section Graphs.
Context {T : Type}.
Local Notation G := (graph (node_container T)).
Implicit Types g : G.

Lemma add_multiple_spec p n B f : forall g halfs,
  simple_graph g -> vertex_count g = n -> (forall x, In x halfs -> x < n) ->
  halfs <> [] -> length halfs < f ->
  (forall i, length (nbrs g i) + cnt halfs i = cnt B i) ->
  match cm_add_multiple f p g halfs with
  | Done (b, g', h') =>
      simple_graph g' /\ vertex_count g' = n /\ payloads g' = payloads g /\
      (b = true -> (forall i, length (nbrs g' i) + cnt h' i = cnt B i) /\
                   (Nat.Even (length halfs) -> h' = []))
  | Panic => Nat.Odd (length halfs)
  | _ => False
  end.
Proof.
  induction f as [|f IH]; intros g halfs W V Hx Hne Hf HB; [lia|]. cbn [cm_add_multiple].
  destruct (pop_some Hne) as (h1 & node1 & E1 & Ep). rewrite Ep. cbn [expect bind].
  subst halfs. rewrite app_length in *. cbn [length] in *.
  destruct h1 as [|y h1'] eqn:Eh1.
  { assert (O : Nat.Odd (length (@nil nat) + 1)) by (exists 0; auto).
    unfold usub. cbn [length Nat.leb]. generalize (0 + usize_modulus tt - 1). intros c.
    destruct p; cbn [bind]; auto; destruct c; exact O. }
  rewrite <- Eh1 in *. assert (L1 : 0 < length h1) by (rewrite Eh1; cbn; lia). clear Ep.
  unfold usub. destruct (Nat.leb_spec 1 (length h1)); [|lia]. cbn [bind].
  destruct (@cm_scan_spec node1 h1 (length h1 - 1)) as [->|(k & node2 & -> & Hk & Ek & Nk)]; [lia| |];
    cbn [bind].
  { splits; auto. discriminate. }
  unfold vget. rewrite Ek. cbn [bind].
  destruct (swap_remove_spec h1 k Ek) as (h2 & E2 & P2). rewrite E2. cbn [bind].
  assert (H1 : node1 < n) by (apply Hx; rewrite in_app_iff; cbn; auto).
  assert (H2 : node2 < n) by (apply Hx; rewrite in_app_iff; left; eapply nth_error_In; eauto).
  assert (Lh : length h1 = S (length h2)) by (apply Permutation_length in P2; auto).
  destruct (@add_case _ _ _ _ p g node1 node2 W) as [[_ Ea]|(Na & g' & Ea & W' & V' & P' & _ & D')];
    try congruence; rewrite Ea; cbn [bind].
  { splits; auto. discriminate. }
  assert (D2 : forall i, length (nbrs g' i) + cnt h2 i = cnt B i).
  { intros i. rewrite D', <- HB, count_occ_snoc.
    apply (Permutation_count_occ Nat.eq_dec) with (x := i) in P2. rewrite P2. cbn [count_occ].
    unfold one. destruct (Nat.eq_dec node2 i), (Nat.eq_dec node1 i),
      (Nat.eqb_spec node1 i), (Nat.eqb_spec node2 i); lia. }
  destruct (Nat.ltb_spec 1 (length h2)) as [L2|L2].
  - specialize (IH g' h2 W'). rewrite V', P' in IH.
    assert (Ne : h2 <> []) by (intros ->; cbn in L2; lia).
    assert (K : forall x, In x h2 -> x < n).
    { intros x I. apply Hx. rewrite in_app_iff. left. rewrite P2. simpl. auto. }
    specialize (IH V K Ne ltac:(lia) D2).
    destruct (cm_add_multiple f p g' h2) as [[[b g2] h3]| | |]; auto.
    + destruct IH as (A1 & A2 & A3 & A4). splits; auto. intros Hb. destruct (A4 Hb) as [A5 A6].
      split; auto. intros Ev. apply A6. destruct Ev as [m Em]. exists (m - 1). lia.
    + destruct IH as [m Em]. exists (S m). lia.
  - splits; auto; try congruence. intros _. split; auto. intros [m Em].
    destruct h2; auto. cbn [length] in *. lia.
Qed.

(** An arrangement of the half edges that gives the edges [es]. *)
Fixpoint arr (es : list (nat * nat)) : list nat :=
  match es with
  | [] => []
  | (i, j) :: es => arr es ++ [j; i]
  end.

Lemma arr_length es : length (arr es) = 2 * length es.
Proof. induction es as [|[i j] es IH]; cbn [arr length]; auto. rewrite app_length. cbn. lia. Qed.

Lemma add_multiple_arr p es : forall f g,
  simple_graph g -> pairs_ok (vertex_count g) es -> fresh g es -> es <> [] ->
  length (arr es) < f ->
  exists g', cm_add_multiple f p g (arr es) = Done (true, g', []).
Proof.
  induction es as [|[i j] es IH]; intros f g W Pk Fr Hne Hf; [congruence|].
  destruct f as [|f]; [lia|]. cbn [arr cm_add_multiple] in *.
  replace (arr es ++ [j; i]) with ((arr es ++ [j]) ++ [i]) in * by (rewrite <- app_assoc; auto).
  rewrite pop_snoc. cbn [expect bind]. rewrite !app_length in *. cbn [length] in *.
  inversion Pk as [|? ? (Hi & Hj & N) Pk']; subst. cbn [fst snd] in *.
  unfold usub. destruct (Nat.leb_spec 1 (length (arr es) + 1)); [|lia]. cbn [bind].
  replace (length (arr es) + 1 - 1) with (length (arr es)) by lia.
  assert (Ej : nth_error (arr es ++ [j]) (length (arr es)) = Some j).
  { rewrite nth_error_app2, Nat.sub_diag by lia. auto. }
  assert (Es : cm_scan i (arr es ++ [j]) (length (arr es)) = Done (Some (length (arr es)))).
  { destruct (length (arr es)) eqn:El; cbn [cm_scan]; unfold vget; rewrite Ej; cbn [bind];
    destruct (Nat.eqb_spec i j); congruence. }
  rewrite Es. cbn [bind]. unfold vget. rewrite Ej. cbn [bind].
  rewrite swap_remove_snoc by lia. rewrite Nat.eqb_refl. cbn [bind].
  destruct Fr as [F1 F2]. inversion F1 as [|? ? Fa Fb]; subst. inversion F2 as [|? ? Fc Fd]; subst.
  cbn [fst snd] in *.
  destruct (@add_case _ _ _ _ p g i j W) as [[K _]|(_ & g' & -> & W' & V' & _ & A' & _)]; auto; try tauto.
  cbn [bind]. destruct (Nat.ltb_spec 1 (length (arr es))) as [L1|L1].
  - apply IH; auto; try lia.
    + rewrite V'; auto.
    + split; auto. rewrite Forall_forall in *. intros [a b] I. cbn [fst snd]. rewrite A'. intros [K|K].
      * apply (Fb _ I); auto.
      * apply (Fc _ I). unfold same_edge, is_pair, ends in *. cbn [fst snd] in *. intuition.
    + intros ->. cbn in L1. lia.
  - destruct es as [|e es]; [|rewrite arr_length in L1; cbn in L1; lia]. cbn. eauto.
Qed.
End Graphs.

(** *** Graphical sequences have such an arrangement *)

Lemma arr_count es i : Forall (fun e => fst e <> snd e) es ->
  cnt (arr es) i = count (fun e => (fst e =? i) || (snd e =? i)) es.
Proof.
  unfold count. induction 1 as [|[a b] es N _ IH]; auto. cbn [arr filter fst snd] in *.
  rewrite count_occ_app, IH. cbn [count_occ].
  destruct (Nat.eq_dec b i), (Nat.eq_dec a i), (Nat.eqb_spec a i), (Nat.eqb_spec b i);
    cbn [orb length]; lia.
Qed.

Definition edges_of (R : nat -> nat -> bool) (n : nat) : list (nat * nat) :=
  filter (fun e => R (fst e) (snd e)) (pairs_below n).

Lemma edges_of_degree R n i : (forall i, R i i = false) -> (forall i j, R i j = R j i) -> i < n ->
  count (fun e => (fst e =? i) || (snd e =? i)) (edges_of R n) = count (R i) (seq 0 n).
Proof.
  intros Ir Sy Hi. unfold count.
  rewrite <- (map_length (fun y => if y <? i then (y, i) else (i, y)) (filter (R i) (seq 0 n))).
  apply Permutation_length. apply NoDup_Permutation.
  - unfold edges_of. apply NoDup_filter, NoDup_filter, NoDup_pairs_below.
  - apply FinFun.Injective_map_NoDup; [|apply NoDup_filter, seq_NoDup].
    intros x y. cbv beta. destruct (Nat.ltb_spec x i), (Nat.ltb_spec y i); intros E; injection E; intros; lia.
  - intros [a b]. unfold edges_of. rewrite !filter_In, In_pairs_below, in_map_iff. cbn [fst snd].
    rewrite orb_true_iff, !Nat.eqb_eq. split.
    + intros [[[H1 H2] H3] [->| ->]].
      * exists b. split; [destruct (Nat.ltb_spec b i); [lia|auto]|]. rewrite filter_In, in_seq. split; [lia|auto].
      * exists a. split; [destruct (Nat.ltb_spec a i); [auto|lia]|]. rewrite filter_In, in_seq, Sy. split; [lia|auto].
    + intros (y & E & H). apply filter_In in H as [H1 H2]. apply in_seq in H1.
      assert (y <> i) by (intros ->; rewrite Ir in H2; discriminate).
      destruct (Nat.ltb_spec y i); injection E as <- <-; splits; auto; try lia. rewrite Sy; auto.
Qed.

Lemma edges_of_ok R n : pairs_ok n (edges_of R n).
Proof.
  apply Forall_forall. intros [a b] H. apply filter_In in H as [H _]. apply In_pairs_below in H.
  cbn. lia.
Qed.

Lemma edges_of_fresh {T} (g : graph (node_container T)) R n :
  (forall i, nbrs g i = []) -> fresh g (edges_of R n).
Proof.
  intros H. split.
  - apply Forall_forall. intros e _. unfold adj. rewrite H. auto.
  - assert (ND : NoDup (edges_of R n)) by apply NoDup_filter, NoDup_pairs_below.
    assert (K : forall e, In e (edges_of R n) -> fst e < snd e).
    { intros [a b] I. apply filter_In in I as [I _]. apply In_pairs_below in I. cbn. lia. }
    induction ND as [|e l N ND IH]; constructor.
    + apply Forall_forall. intros f I S. apply N. unfold same_edge, is_pair in S.
      pose proof (K e (or_introl eq_refl)). pose proof (K f (or_intror I)).
      destruct e as [a b], f as [c d]. cbn [fst snd] in *. destruct S as [[-> ->]|[-> ->]]; auto. lia.
    + apply IH. intros; apply K; simpl; auto.
Qed.

Lemma graphical_arr v l : graphical v -> (forall i, cnt l i = nth i v 0) ->
  exists es, pairs_ok (length v) es /\ Permutation l (arr es) /\
    forall T (g : graph (node_container T)), (forall i, nbrs g i = []) -> fresh g es.
Proof.
  intros (R & Ir & Sy & D) H. exists (edges_of R (length v)). splits.
  - apply edges_of_ok.
  - apply (Permutation_count_occ Nat.eq_dec). intros i. rewrite H, arr_count.
    + destruct (Nat.lt_ge_cases i (length v)) as [Hi|Hi].
      * rewrite edges_of_degree by auto. symmetry; auto.
      * rewrite nth_overflow by auto. unfold count.
        destruct (filter _ (edges_of R (length v))) as [|[a b] t] eqn:E; auto. exfalso.
        assert (I : In (a, b) ((a, b) :: t)) by (simpl; auto). rewrite <- E in I.
        apply filter_In in I as [I1 I2]. apply filter_In in I1 as [I1 _]. apply In_pairs_below in I1.
        rewrite orb_true_iff, !Nat.eqb_eq in I2. cbn in I2. lia.
    + eapply Forall_impl; [|apply edges_of_ok]. intros e. cbn. tauto.
  - intros T g Hg. apply edges_of_fresh; auto.
Qed.

(** *** Constant degrees can be realised *)

(** Vertices on a circle, joined at distance at most [k], and opposite ones if [odd]. *)
Definition circ (n k : nat) (odd : bool) (d : nat) : bool :=
  (1 <=? d) && ((d <=? k) || (n - k <=? d) || (odd && (2 * d =? n))).

Lemma count_app {X} (f : X -> bool) l l' : count f (l ++ l') = count f l + count f l'.
Proof. unfold count. rewrite filter_app, app_length. auto. Qed.

Lemma count_all {X} (f : X -> bool) l : (forall x, In x l -> f x = true) -> count f l = length l.
Proof.
  unfold count. induction l as [|x l IH]; intros H; auto. cbn [filter]. rewrite H by (simpl; auto).
  cbn [length]. rewrite IH; auto. intros; apply H; simpl; auto.
Qed.

Lemma count_none {X} (f : X -> bool) l : (forall x, In x l -> f x = false) -> count f l = 0.
Proof.
  unfold count. induction l as [|x l IH]; intros H; auto. cbn [filter]. rewrite H by (simpl; auto).
  apply IH. intros; apply H; simpl; auto.
Qed.

Lemma count_shift (f g : nat -> bool) len : forall a b, (forall t, t < len -> f (a + t) = g (b + t)) ->
  count f (seq a len) = count g (seq b len).
Proof.
  unfold count. induction len as [|len IH]; intros a b H; auto. cbn [seq filter].
  pose proof (H 0 ltac:(lia)) as H0. rewrite !Nat.add_0_r in H0. rewrite H0.
  assert (IH' : length (filter f (seq (S a) len)) = length (filter g (seq (S b) len))).
  { apply IH. intros t Ht. specialize (H (S t)). rewrite <- !plus_n_Sm in H. apply H. lia. }
  destruct (g b); cbn [length]; auto.
Qed.

Lemma count_single (f : nat -> bool) m a len : a <= m < a + len ->
  (forall x, a <= x < a + len -> f x = (x =? m)) -> count f (seq a len) = 1.
Proof.
  intros Hm H. replace len with ((m - a) + S (a + len - S m)) by lia.
  rewrite seq_app, count_app. cbn [seq]. replace (a + (m - a)) with m by lia.
  rewrite count_none. 2:{ intros x Hx. apply in_seq in Hx. rewrite H by lia. apply Nat.eqb_neq. lia. }
  unfold count. cbn [filter]. rewrite H by lia. rewrite Nat.eqb_refl. cbn [length].
  fold (count f (seq (S m) (a + len - S m))). rewrite count_none; auto.
  intros x Hx. apply in_seq in Hx. rewrite H by lia. apply Nat.eqb_neq. lia.
Qed.

Lemma circ_count n k (odd : bool) : 2 * k + (if odd then 1 else 0) < n -> (odd = true -> Nat.Even n) ->
  count (circ n k odd) (seq 0 n) = 2 * k + (if odd then 1 else 0).
Proof.
  intros H Ev. replace n with (1 + (k + ((n - 1 - 2 * k) + k))) at 2 by (destruct odd; lia).
  rewrite !seq_app, !count_app. cbn [Nat.add].
  rewrite (count_none (l := seq 0 1)); [|intros x Hx; apply in_seq in Hx; replace x with 0 by lia; auto].
  rewrite (count_all (l := seq 1 k)).
  2:{ intros x Hx. apply in_seq in Hx. unfold circ. apply andb_true_iff. split; [apply Nat.leb_le; lia|].
      apply orb_true_iff. left. apply orb_true_iff. left. apply Nat.leb_le. lia. }
  rewrite (count_all (l := seq _ k)).
  2:{ intros x Hx. apply in_seq in Hx. unfold circ. apply andb_true_iff. split; [apply Nat.leb_le; lia|].
      apply orb_true_iff. left. apply orb_true_iff. right. apply Nat.leb_le. destruct odd; lia. }
  assert (M : forall x, S k <= x < S k + (n - 1 - 2 * k) -> circ n k odd x = odd && (2 * x =? n)).
  { intros x Hx. unfold circ. destruct (Nat.leb_spec 1 x); [|lia]. destruct (Nat.leb_spec x k); [lia|].
    destruct (Nat.leb_spec (n - k) x); [lia|]. reflexivity. }
  rewrite !seq_length. destruct odd.
  - destruct (Ev eq_refl) as [m Em].
    rewrite (@count_single _ m); [lia|lia|]. intros x Hx. rewrite M by lia. cbn [andb].
    destruct (Nat.eqb_spec (2 * x) n), (Nat.eqb_spec x m); lia.
  - rewrite count_none; [lia|]. intros x Hx. apply in_seq in Hx. rewrite M by lia. auto.
Qed.

Lemma circ_flip n k odd d : 1 <= d < n -> k < n -> circ n k odd (n - d) = circ n k odd d.
Proof.
  intros H Hk. apply eq_true_iff_eq. unfold circ.
  rewrite !andb_true_iff, !orb_true_iff, !andb_true_iff, !Nat.leb_le, !Nat.eqb_eq.
  destruct odd; intuition lia.
Qed.

Lemma nth_repeat_small {X} (x d : X) n i : i < n -> nth i (repeat x n) d = x.
Proof. revert i. induction n as [|n IH]; intros [|i] H; cbn; try lia; auto. apply IH. lia. Qed.

Lemma constant_graphical c n : c < n -> Nat.Even (n * c) -> graphical (repeat c n).
Proof.
  intros Hc Ev.
  assert (K : exists k odd, c = 2 * k + (if odd : bool then 1 else 0) /\ (odd = true -> Nat.Even n)).
  { destruct (Nat.Even_or_Odd c) as [[k Ek]|[k Ek]].
    - exists k, false. split; [lia|discriminate].
    - exists k, true. split; auto. intros _. destruct (Nat.Even_or_Odd n) as [E|[m Em]]; auto.
      destruct Ev as [q Eq]. subst. lia. }
  destruct K as (k & odd & -> & Eo). set (c := 2 * k + (if odd then 1 else 0)) in *.
  exists (fun i j => circ n k odd (if i <=? j then j - i else i - j)). rewrite repeat_length. splits.
  - intros i. destruct (Nat.leb_spec i i); [|lia]. rewrite Nat.sub_diag. reflexivity.
  - intros i j. destruct (Nat.leb_spec i j), (Nat.leb_spec j i); f_equal; lia.
  - intros i Hi. rewrite nth_repeat_small by auto. unfold c. rewrite <- (circ_count Hc Eo).
    assert (E1 : seq 0 n = seq 0 i ++ seq i (n - i)).
    { replace n with (i + (n - i)) at 1 by lia. apply seq_app. }
    assert (E2 : seq 0 n = seq 0 (n - i) ++ seq (n - i) i).
    { replace n with ((n - i) + i) at 1 by lia. apply seq_app. }
    rewrite E2 at 2. rewrite E1. rewrite !count_app.
    rewrite (count_shift (f := fun j => circ n k odd (if i <=? j then j - i else i - j))
      (g := circ n k odd) (len := i) (a := 0) (b := n - i)).
    + rewrite (count_shift (f := fun j => circ n k odd (if i <=? j then j - i else i - j))
        (g := circ n k odd) (len := n - i) (a := i) (b := 0)); [lia|].
      intros t Ht. destruct (Nat.leb_spec i (i + t)); [|lia]. f_equal. lia.
    + intros t Ht. cbn [Nat.add]. destruct (Nat.leb_spec i t); [lia|].
      rewrite <- (@circ_flip n k odd (i - t)) by (unfold c in Hc; destruct odd; lia). f_equal. lia.
Qed.
