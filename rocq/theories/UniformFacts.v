(** Facts about uniform draws: the shuffle is unbiased, and so is the ensemble with a
    constant number of edges. *)
From Verif Require Import Base BaseFacts Containers ContainerSpec ContainerFacts Graph GraphSpec Sums GraphFacts
  GraphOps GraphBuild Rng RngFacts Markov ErC ErCFacts ErM ErMSpec ErMFacts MeasureFacts UniformSpec.
From Coq Require Import Factorial QArith.
Local Open Scope nat_scope.
Set Implicit Arguments.
Unset Strict Implicit.

Lemma nth_error_ext {X} (l : list X) : forall l', (forall q, nth_error l q = nth_error l' q) -> l = l'.
Proof.
  induction l as [|a l IH]; intros [|b l'] H; auto; try (specialize (H 0); discriminate).
  pose proof (H 0) as H0. cbn in H0. injection H0 as ->. f_equal. apply IH. intros q. apply (H (S q)).
Qed.

Lemma app_inj_length {X} (a : list X) : forall a' b b', length a = length a' -> a ++ b = a' ++ b' -> a = a' /\ b = b'.
Proof.
  induction a as [|x a IH]; intros [|y a'] b b' L E; try discriminate; auto.
  cbn in E. injection E as -> E. apply IH in E as [-> ->]; auto.
Qed.

Lemma filter_length {X} (s : X -> bool) l :
  length (filter s l) + length (filter (fun y => negb (s y)) l) = length l.
Proof. induction l as [|a l IH]; auto. cbn [filter]. destruct (s a); cbn [negb length]; lia. Qed.

(** ** [rolls] *)

Lemma rolls_cons_In h t r ds : In (r :: ds) (rolls (h :: t)) <-> r < h /\ In ds (rolls t).
Proof.
  cbn [rolls]. rewrite in_flat_map. split.
  - intros (x & Hx & H). apply in_map_iff in H as (y & E & H). injection E as -> ->.
    apply in_seq in Hx. split; auto. lia.
  - intros [Hr H]. exists r. split; [apply in_seq; lia|]. apply in_map; auto.
Qed.

Lemma rolls_In ranges : forall ds, In ds (rolls ranges) <-> Forall2 (fun h r => r < h) ranges ds.
Proof.
  induction ranges as [|h t IH]; intros ds.
  - cbn. split; [intros [<-|[]]; constructor|intros H; inversion H; auto].
  - destruct ds as [|r ds].
    + split; [|intros H; inversion H]. cbn [rolls]. intros H. apply in_flat_map in H as (x & _ & H).
      apply in_map_iff in H as (y & E & _). discriminate.
    + rewrite rolls_cons_In, IH. split; [intros []; auto|intros H; inversion H; auto].
Qed.

Lemma rolls_NoDup ranges : NoDup (rolls ranges).
Proof.
  induction ranges as [|h t IH]; [constructor; [intros []|constructor]|]. cbn [rolls].
  generalize (seq_NoDup h 0). generalize (seq 0 h) as l. induction l as [|r l IHl]; intros N; [constructor|].
  inversion_clear N as [|? ? Nr Nl]. cbn [flat_map]. apply NoDup_app_iff. split; [|split; auto].
  - apply FinFun.Injective_map_NoDup; auto. intros x y E. congruence.
  - intros x H1 H2. apply in_map_iff in H1 as (y & <- & _). apply in_flat_map in H2 as (r' & Hr & H2).
    apply in_map_iff in H2 as (z & E & _). injection E as -> _. auto.
Qed.

Lemma rolls_length ranges : length (rolls ranges) = fold_right Nat.mul 1 ranges.
Proof.
  induction ranges as [|h t IH]; auto. cbn [rolls fold_right]. rewrite <- IH.
  rewrite <- (seq_length h 0) at 2. generalize (seq 0 h) as l.
  induction l as [|r l IHl]; auto. cbn [flat_map length]. rewrite app_length, map_length, IHl. lia.
Qed.

Lemma down_fact n : length (rolls (down n)) = fact n.
Proof.
  rewrite rolls_length. induction n as [|n IH]; auto. destruct n as [|n]; auto.
  change (down (S (S n))) with (S (S n) :: down (S n)). cbn [fold_right].
  rewrite IH. reflexivity.
Qed.

(** ** The shuffle *)

Lemma shuffle_down_step {X} k (l : list X) rs : shuffle_down (S (S k)) l rs =
  do ' (j, t) <- gen_range (S (S k)) rs; do l' <- swap l (S k) j; shuffle_down (S k) l' t.
Proof. reflexivity. Qed.

Lemma shuffle_down_tail {X} k : forall (l : list X) rs l' rs',
  shuffle_down k l rs = Done (l', rs') -> forall q, k <= q -> nth_error l' q = nth_error l q.
Proof.
  induction k as [|k IH]; intros l rs l' rs' E q Hq; [injection E as <- _; auto|].
  destruct k as [|k]; [injection E as <- _; auto|].
  rewrite shuffle_down_step in E. apply bind_done in E as ([j t] & Ej & E).
  apply bind_done in E as (l1 & Es & E). apply gen_range_done in Ej as (Hj & _).
  rewrite (IH _ _ _ _ E) by lia. destruct (swap_inv Es) as (H1 & H2 & _ & _ & _).
  destruct (swap_done H1 H2) as (l2 & Es' & _ & _ & N). rewrite Es in Es'. injection Es' as <-.
  rewrite N. destruct (Nat.eqb_spec q j); [lia|]. destruct (Nat.eqb_spec q (S k)); [lia|]. auto.
Qed.

Lemma shuffle_down_unique {X} k : forall (l l' : list X), NoDup l -> k <= length l -> Permutation l l' ->
  (forall q, k <= q -> nth_error l' q = nth_error l q) ->
  exists ds, In ds (rolls (down k)) /\
    (forall rest, shuffle_down k l (ds ++ rest) = Done (l', rest)) /\
    forall ds' rest rest', In ds' (rolls (down k)) ->
      shuffle_down k l (ds' ++ rest) = Done (l', rest') -> ds' = ds.
Proof.
  induction k as [|k IH]; intros l l' Nl Hk P H.
  - exists []. split; [cbn; auto|]. split.
    + intros rest. cbn. f_equal. f_equal. apply nth_error_ext. intros q. symmetry. apply H. lia.
    + intros ds' _ _ [<-|[]] _. auto.
  - destruct k as [|k].
    { exists []. split; [cbn; auto|]. split.
      - intros rest. cbn. f_equal. f_equal. pose proof (Permutation_length P) as Lp.
        destruct l as [|a l]; [cbn in Hk; lia|]. destruct l' as [|b l']; [discriminate|].
        assert (l' = l) as ->.
        { apply nth_error_ext. intros q. apply (H (S q)). lia. }
        f_equal. apply Permutation_sym in P. 
        assert (I : In a (b :: l)) by (apply (Permutation_in a (Permutation_sym P)); simpl; auto).
        destruct I as [->|I]; auto. inversion Nl; contradiction.
      - intros ds' _ _ [<-|[]] _. auto. }
    pose proof (Permutation_length P) as Lp.
    pose proof (Permutation_NoDup P Nl) as Nl'.
    destruct (nth_error l' (S k)) as [x|] eqn:Ex; [|apply nth_error_None in Ex; lia].
    assert (I : In x l) by (apply (Permutation_in x (Permutation_sym P)); eapply nth_error_In; eauto).
    apply In_nth_error in I as [j Ej].
    assert (Hj : j < S (S k)).
    { destruct (Nat.lt_ge_cases j (S (S k))) as [|G]; auto. exfalso.
      rewrite <- (H j G) in Ej. assert (j = S k); [|lia].
      apply (proj1 (NoDup_nth_error l') Nl'); [|congruence]. apply nth_error_Some. congruence. }
    destruct (@swap_done X l (S k) j) as (l1 & Es & L1 & P1 & N1); [lia|lia|].
    assert (NS : nth_error l1 (S k) = Some x).
    { rewrite N1. destruct (Nat.eqb_spec (S k) j) as [->|_]; auto. rewrite Nat.eqb_refl. auto. }
    destruct (IH l1 l') as (ds & Id & Ed & U).
    { apply (Permutation_NoDup P1 Nl). } { lia. } { rewrite <- P1. auto. }
    { intros q Hq. destruct (Nat.eq_dec q (S k)) as [->|Ne]; [congruence|].
      rewrite H by lia. rewrite N1. destruct (Nat.eqb_spec q j); [lia|].
      destruct (Nat.eqb_spec q (S k)); [lia|]. auto. }
    exists (j :: ds). change (down (S (S k))) with (S (S k) :: down (S k)).
    split; [apply rolls_cons_In; auto|]. split.
    + intros rest. cbn [app]. rewrite shuffle_down_step, gen_range_small by lia. cbn [bind]. rewrite Es. cbn [bind]. apply Ed.
    + intros ds' rest rest' I' E. destruct ds' as [|j' ds'].
      { apply rolls_In in I'. inversion I'. }
      apply rolls_cons_In in I' as [Hj' I']. cbn [app] in E. rewrite shuffle_down_step, gen_range_small in E by lia.
      cbn [bind] in E. apply bind_done in E as (l2 & Es2 & E).
      destruct (@swap_done X l (S k) j') as (l3 & Es3 & _ & _ & N3); [lia|lia|].
      rewrite Es2 in Es3. injection Es3 as <-.
      assert (Ej' : nth_error l j' = Some x).
      { rewrite <- Ex. rewrite (shuffle_down_tail E) by lia. rewrite N3.
        destruct (Nat.eqb_spec (S k) j') as [<-|_]; auto. rewrite Nat.eqb_refl. auto. }
      assert (j' = j) as ->.
      { apply (proj1 (NoDup_nth_error l) Nl); [|congruence]. apply nth_error_Some. congruence. }
      rewrite Es in Es2. injection Es2 as <-. f_equal. eapply U; eauto.
Qed.

Lemma shuffle_unique {X} (l l' : list X) : NoDup l -> Permutation l l' ->
  exists ds, In ds (rolls (down (length l))) /\
    (forall rest, shuffle l (ds ++ rest) = Done (l', rest)) /\
    forall ds' rest rest', In ds' (rolls (down (length l))) ->
      shuffle l (ds' ++ rest) = Done (l', rest') -> ds' = ds.
Proof.
  intros N P. apply shuffle_down_unique; auto. intros q Hq.
  rewrite !(proj2 (nth_error_None _ _)); auto. rewrite <- (Permutation_length P). auto.
Qed.

Lemma down_length n : length (down n) = n - 1.
Proof.
  induction n as [|n IH]; auto. destruct n as [|n]; auto.
  change (down (S (S n))) with (S (S n) :: down (S n)). cbn [length]. rewrite IH. lia.
Qed.

Lemma Forall2_len {X Y} (R : X -> Y -> Prop) l l' : Forall2 R l l' -> length l = length l'.
Proof. induction 1; cbn; auto. Qed.

Lemma rolls_shuffle {X} (l : list X) ds : In ds (rolls (down (length l))) ->
  exists l', shuffle l ds = Done (l', []) /\ Permutation l l'.
Proof.
  intros I. apply rolls_In in I. apply Forall2_len in I. rewrite down_length in I.
  destruct (@shuffle_spec X l ds) as (l' & E & P); [lia|]. exists l'. split; auto.
  rewrite E, skipn_all2; auto. lia.
Qed.

(** All arrangements of a list. *)
Definition arrangements {X} (l : list X) : list (list X) :=
  map (fun ds => match shuffle l ds with Done (x, _) => x | _ => [] end) (rolls (down (length l))).

Lemma NoDup_map_in {X Y} (f : X -> Y) l : NoDup l ->
  (forall x y, In x l -> In y l -> f x = f y -> x = y) -> NoDup (map f l).
Proof.
  induction l as [|a l IH]; intros N H; [constructor|]. inversion_clear N as [|? ? Na Nl]. cbn [map]. constructor.
  - intros I. apply in_map_iff in I as (y & E & I). assert (y = a) by (apply H; simpl; auto). congruence.
  - apply IH; auto. intros; apply H; simpl; auto.
Qed.

Lemma arrangements_NoDup {X} (l : list X) : NoDup l -> NoDup (arrangements l).
Proof.
  intros N. apply NoDup_map_in; [apply rolls_NoDup|]. intros x y Ix Iy E.
  destruct (rolls_shuffle Ix) as (l1 & E1 & P1). destruct (rolls_shuffle Iy) as (l2 & E2 & P2).
  rewrite E1, E2 in E. subst l2. destruct (shuffle_unique N P1) as (ds & _ & _ & U).
  rewrite (U x [] []), (U y [] []); auto; rewrite app_nil_r; auto.
Qed.

Lemma arrangements_In {X} (l l' : list X) : NoDup l -> (In l' (arrangements l) <-> Permutation l l').
Proof.
  intros N. unfold arrangements. rewrite in_map_iff. split.
  - intros (ds & E & I). destruct (rolls_shuffle I) as (l1 & E1 & P1). rewrite E1 in E. congruence.
  - intros P. destruct (shuffle_unique N P) as (ds & I & E & _). exists ds. split; auto.
    specialize (E []). rewrite app_nil_r in E. rewrite E. auto.
Qed.

Lemma arrangements_length {X} (l : list X) : length (arrangements l) = fact (length l).
Proof. unfold arrangements. rewrite map_length. apply down_fact. Qed.

Lemma NoDup_list_prod {X Y} (l : list X) (l' : list Y) : NoDup l -> NoDup l' -> NoDup (list_prod l l').
Proof.
  induction l as [|a l IH]; intros N N'; [constructor|]. inversion_clear N as [|? ? Na Nl]. cbn [list_prod].
  apply NoDup_app_iff. split; [|split; auto].
  - apply FinFun.Injective_map_NoDup; auto. intros x y E. congruence.
  - intros [x y] H1 H2. apply in_map_iff in H1 as (z & E & _). injection E as -> ->.
    apply in_prod_iff in H2. tauto.
Qed.

(** The arrangements of [l] that begin with the [m] elements of a set. *)
Lemma arrangements_count {X} (l : list X) (s : X -> bool) m (f : list X -> bool) : NoDup l -> count s l = m ->
  (forall x, Permutation l x -> (f x = true <-> forall y, In y l -> (In y (firstn m x) <-> s y = true))) ->
  count f (arrangements l) = fact m * fact (length l - m).
Proof.
  intros N Hm Hf. set (A := filter s l). set (B := filter (fun y => negb (s y)) l).
  assert (NA : NoDup A) by (apply NoDup_filter; auto).
  assert (NB : NoDup B) by (apply NoDup_filter; auto).
  assert (LA : length A = m) by exact Hm.
  assert (LB : length B = length l - m).
  { pose proof (filter_length s l) as K. fold A B in K. lia. }
  assert (Pm : Permutation (filter f (arrangements l))
    (map (fun ab => fst ab ++ snd ab) (list_prod (arrangements A) (arrangements B)))).
  { apply NoDup_Permutation.
    - apply NoDup_filter, arrangements_NoDup; auto.
    - apply NoDup_map_in; [apply NoDup_list_prod; apply arrangements_NoDup; auto|].
      intros [a b] [a' b'] I I' E. apply in_prod_iff in I as [I1 I2], I' as [I1' I2'].
      apply arrangements_In in I1, I1'; auto. cbn [fst snd] in E.
      assert (La : length a = length a').
      { rewrite <- (Permutation_length I1), <- (Permutation_length I1'). auto. }
      apply app_inj_length in E; auto. destruct E; congruence.
    - intros x. rewrite filter_In, arrangements_In, in_map_iff by auto. split.
      + intros [P Fx0]. pose proof (proj1 (Hf x P) Fx0) as Fx. pose proof (Permutation_NoDup P N) as Nx.
        rewrite <- (firstn_skipn m x) in Nx. apply NoDup_app_iff in Nx as (N1 & N2 & D).
        exists (firstn m x, skipn m x). split; [cbn; apply firstn_skipn|].
        apply in_prod_iff. rewrite !arrangements_In by auto. split; apply NoDup_Permutation; auto.
        * intros y. unfold A. rewrite filter_In. split; [intros [I S]; apply Fx; auto|].
          intros I. assert (Il : In y l).
          { apply (Permutation_in y (Permutation_sym P)). rewrite <- (firstn_skipn m x). apply in_app_iff. auto. }
          split; auto. apply Fx; auto.
        * intros y. unfold B. rewrite filter_In. split.
          -- intros [I S]. apply (Permutation_in y P) in I as Ix. rewrite <- (firstn_skipn m x) in Ix.
             apply in_app_iff in Ix as [Ix|Ix]; auto. apply Fx in Ix; auto. rewrite Ix in S. discriminate.
          -- intros I. assert (Il : In y l).
             { apply (Permutation_in y (Permutation_sym P)). rewrite <- (firstn_skipn m x). apply in_app_iff. auto. }
             split; auto. destruct (s y) eqn:Sy; auto. exfalso. apply (D y); auto. apply Fx; auto.
      + intros ([a b] & <- & I). cbn [fst snd]. apply in_prod_iff in I as [I1 I2].
        apply arrangements_In in I1, I2; auto.
        assert (P : Permutation l (a ++ b)).
        { rewrite <- I1, <- I2. unfold A, B. clear. induction l as [|z l IH]; auto. cbn [filter].
          destruct (s z); cbn [negb app]; [constructor; auto|]. apply Permutation_cons_app. auto. }
        split; auto. apply (Hf _ P). intros y Iy.
        assert (La : length a = m) by (rewrite <- (Permutation_length I1); auto).
        rewrite firstn_app, <- La, firstn_all, Nat.sub_diag, app_nil_r.
        split.
        * intros I. apply (Permutation_in y (Permutation_sym I1)) in I. apply filter_In in I. tauto.
        * intros S. apply (Permutation_in y I1). apply filter_In. auto. }
  unfold count. rewrite (Permutation_length Pm), map_length, prod_length, !arrangements_length, LA, LB. auto.
Qed.

(** ** Edge sets *)

Section Compare.
Context {T A T' A' : Type} {C : AdjContainer T A} {L : AdjLaws C} {C' : AdjContainer T' A'} {L' : AdjLaws C'}.
Implicit Types (g : graph A) (h : graph A').

Lemma eqb_iff b c : Bool.eqb b c = true <-> (b = true <-> c = true).
Proof. destruct b, c; cbn; intuition congruence. Qed.

Lemma same_edges_spec g h :
  same_edges g h = true <-> forall i j, i < j -> j < vertex_count h -> (adj g i j <-> adj h i j).
Proof.
  unfold same_edges. rewrite forallb_forall. split.
  - intros H i j Hij Hj. specialize (H (i, j)). cbn [fst snd] in H. rewrite eqb_iff, !adjb_adj in H.
    apply H, In_pairs_below. auto.
  - intros H [i j] I. apply In_pairs_below in I. cbn [fst snd]. rewrite eqb_iff, !adjb_adj. apply H; tauto.
Qed.

Lemma same_edges_all g h : simple_graph g -> simple_graph h -> vertex_count g = vertex_count h ->
  (same_edges g h = true <-> forall i j, adj g i j <-> adj h i j).
Proof.
  intros W W' V. rewrite same_edges_spec. split; [|intros H i j _ _; apply H].
  intros H i j. destruct (lt_eq_lt_dec i j) as [[Lt| ->]|Gt].
  - destruct (Nat.lt_ge_cases j (vertex_count h)); [apply H; auto|].
    split; intros K; [apply (GraphFacts.adj_lt W) in K|apply (GraphFacts.adj_lt W') in K]; lia.
  - split; intros K; exfalso; [apply (@sg_irrefl _ _ _ _ _ W _ K)|apply (@sg_irrefl _ _ _ _ _ W' _ K)].
  - destruct (Nat.lt_ge_cases i (vertex_count h)).
    + split; intros K; [apply (sg_sym W')|apply (sg_sym W)]; apply H; auto; [apply (sg_sym W)|apply (sg_sym W')]; auto.
    + split; intros K; [apply (GraphFacts.adj_lt W) in K|apply (GraphFacts.adj_lt W') in K]; lia.
Qed.
End Compare.

(** ** [ErEnsembleM] *)

Section ErMUniform.
Context {T A : Type} {C : AdjContainer T A} {L : AdjLaws C}.
Implicit Types (e : er_m T) (h : graph A).

Lemma pair_eqb_spec (x y : nat * nat) : (fst x =? fst y) && (snd x =? snd y) = true <-> x = y.
Proof.
  rewrite andb_true_iff, !Nat.eqb_eq. destruct x, y; cbn. split; [intros []; congruence|intros E; injection E; auto].
Qed.

Lemma all_edges_count n e h : lists_once (erm_all e) (fun i j => i < j /\ j < n) ->
  simple_graph h -> vertex_count h = n ->
  count (fun ij => adjb h (fst ij) (snd ij)) (erm_all e) = edge_count h.
Proof.
  intros [N I] W V. rewrite (sg_count W). unfold number_of_edges. apply count_permutation.
  apply NoDup_Permutation; auto; [apply NoDup_pairs_below|]. intros [i j]. rewrite I, In_pairs_below, V. tauto.
Qed.

Lemma erm_count p n m e h :
  simple_graph (erm_graph e) -> vertex_count (erm_graph e) = n -> erm_m e = m ->
  lists_once (erm_all e) (fun i j => i < j /\ j < n) ->
  length (erm_current e) = m -> length (erm_possible e) + m = length (erm_all e) ->
  simple_graph h -> vertex_count h = n -> edge_count h = m ->
  count (fun ds => match erm_randomize p e ds with
                   | Done (e', _) => same_edges (erm_graph e') h
                   | _ => false
                   end) (rolls (down (length (erm_all e)))) =
  fact m * fact (length (erm_all e) - m).
Proof.
  intros W V M O Lc Lp Wh Vh Eh.
  set (f := fun x => forallb (fun ij => Bool.eqb
     (existsb (fun y => (fst y =? fst ij) && (snd y =? snd ij)) (firstn m x)) (adjb h (fst ij) (snd ij)))
     (erm_all e)).
  assert (Hf : forall x, f x = true <->
    forall y, In y (erm_all e) -> (In y (firstn m x) <-> adjb h (fst y) (snd y) = true)).
  { intros x. unfold f. rewrite forallb_forall. assert (FI : forall (Q R : nat * nat -> Prop), (forall y, Q y <-> R y) -> ((forall y, Q y) <-> (forall y, R y))) by firstorder. apply FI. clear FI. intros y.
    assert (K : existsb (fun z => (fst z =? fst y) && (snd z =? snd y)) (firstn m x) = true <-> In y (firstn m x)).
    { rewrite existsb_exists. split.
      - intros (z & I & E). apply pair_eqb_spec in E. congruence.
      - intros I. exists y. split; auto. apply pair_eqb_spec. auto. }
    rewrite eqb_iff, K. tauto. }
  rewrite <- (@arrangements_count _ (erm_all e) (fun ij => adjb h (fst ij) (snd ij)) m f).
  - unfold arrangements. rewrite count_map. apply count_ext_in. intros ds I.
    destruct (rolls_shuffle I) as (all & Es & P). rewrite Es.
    destruct (@erm_randomize_spec T p n m e ds W V M O Lc Lp all [] Es) as (e' & -> & Ok & _ & Ea & Ea').
    apply eq_true_iff_eq. rewrite same_edges_spec, Hf.
    assert (Ec : firstn m all = erm_current e').
    { rewrite <- Ea, Ea'. destruct (erm_ok_lengths Ok) as (L1 & _).
      rewrite firstn_app, <- L1, firstn_all, Nat.sub_diag, app_nil_r. auto. }
    rewrite Ec. destruct (eo_current Ok) as [_ Ic]. destruct O as [_ Io]. split.
    + intros H [i j] Iij. cbn [fst snd]. rewrite Ic, adjb_adj. apply Io in Iij as [H1 H2].
      rewrite (H i j) by (rewrite ?Vh; auto). tauto.
    + intros H i j H1 H2. rewrite Vh in H2. specialize (H (i, j)). cbn [fst snd] in H.
      rewrite Ic, adjb_adj in H. rewrite <- H by (apply Io; auto). tauto.
  - apply O.
  - rewrite (all_edges_count O Wh Vh). auto.
  - intros x _. apply Hf.
Qed.
End ErMUniform.

(** *** Counting *)

Lemma count_unique {X} (f : X -> bool) l x : NoDup l -> In x l -> f x = true ->
  (forall y, In y l -> f y = true -> y = x) -> count f l = 1.
Proof.
  intros N I Fx U. unfold count. pose proof (NoDup_filter f N) as Nf.
  assert (I1 : In x (filter f l)) by (apply filter_In; auto).
  destruct (filter f l) as [|a [|b t]] eqn:E; [destruct I1|auto|]. exfalso.
  assert (H : forall y, In y (a :: b :: t) -> y = x).
  { intros y Iy. rewrite <- E in Iy. apply filter_In in Iy. apply U; tauto. }
  inversion Nf as [|? ? Na _]. apply Na. rewrite (H a), (H b); simpl; auto.
Qed.

Lemma count_one {X} (f : X -> bool) l : count f l = 1 ->
  exists x, In x l /\ f x = true /\ forall y, In y l -> f y = true -> y = x.
Proof.
  unfold count. destruct (filter f l) as [|x [|? ?]] eqn:E; try discriminate. intros _. exists x.
  assert (I : In x (filter f l)) by (rewrite E; simpl; auto). apply filter_In in I.
  split; [tauto|]. split; [tauto|]. intros y I1 I2.
  assert (I3 : In y (filter f l)) by (apply filter_In; auto). rewrite E in I3. destruct I3 as [|[]]; auto.
Qed.

Lemma count_zero {X} (f : X -> bool) l : (forall x, In x l -> f x = false) -> count f l = 0.
Proof.
  intros H. unfold count. induction l as [|a l IH]; auto. cbn [filter]. rewrite H by (simpl; auto).
  apply IH. intros; apply H; simpl; auto.
Qed.

Lemma count_remove_one {X} (f f' : X -> bool) l a : NoDup l -> In a l -> f a = true ->
  (forall x, In x l -> (f' x = true <-> f x = true /\ x <> a)) -> count f l = S (count f' l).
Proof.
  intros N I Fa H. unfold count. induction l as [|b l IH]; [destruct I|]. inversion_clear N as [|? ? Nb Nl].
  cbn [filter]. assert (Hb := H b (or_introl eq_refl)). destruct I as [->|I].
  - rewrite Fa. assert (F : f' a = false) by (apply not_true_iff_false; rewrite Hb; tauto). rewrite F.
    cbn [length]. f_equal. f_equal. apply filter_ext_in. intros x Ix. apply eq_true_iff_eq.
    rewrite (H x) by (simpl; auto). split; [|tauto]. intros K. split; auto. congruence.
  - assert (b <> a) by congruence. assert (f' b = f b) as -> by (apply eq_true_iff_eq; tauto).
    assert (K := IH Nl I (fun x Ix => H x (or_intror Ix))). destruct (f b); cbn [length]; lia.
Qed.

Lemma pair_dec (x y : nat * nat) : {x = y} + {x <> y}.
Proof. repeat decide equality. Qed.

Lemma count_split {X} (f g : X -> bool) l :
  count f l = count (fun x => f x && g x) l + count (fun x => f x && negb (g x)) l.
Proof.
  unfold count. induction l as [|a l IH]; auto. cbn [filter].
  destruct (f a), (g a); cbn [andb negb length]; lia.
Qed.

Section Missing.
Context {T A T' A' : Type} {C : AdjContainer T A} {L : AdjLaws C} {C' : AdjContainer T' A'} {L' : AdjLaws C'}.
Implicit Types (g : graph A) (h : graph A').

Lemma missing_sym g h : simple_graph g -> simple_graph h -> vertex_count g = vertex_count h ->
  edge_count g = edge_count h -> missing g h = missing h g.
Proof.
  intros W W' V E. rewrite (sg_count W), (sg_count W') in E. unfold number_of_edges in E.
  unfold missing. rewrite V in *.
  rewrite (count_split _ (fun ij => adjb h (fst ij) (snd ij))) in E. symmetry in E.
  rewrite (count_split _ (fun ij => adjb g (fst ij) (snd ij))) in E.
  rewrite (count_ext_in (b := fun x => adjb h (fst x) (snd x) && adjb g (fst x) (snd x))
    (c := fun x => adjb g (fst x) (snd x) && adjb h (fst x) (snd x))) in E.
  - lia.
  - intros x _. apply andb_comm.
Qed.

Lemma missing_In g h ij : vertex_count g = vertex_count h ->
  In ij (filter (fun ij => adjb g (fst ij) (snd ij) && negb (adjb h (fst ij) (snd ij))) (pairs_below (vertex_count h)))
  <-> fst ij < snd ij /\ snd ij < vertex_count h /\ adj g (fst ij) (snd ij) /\ ~ adj h (fst ij) (snd ij).
Proof.
  intros V. destruct ij as [i j]. rewrite filter_In, In_pairs_below. cbn [fst snd].
  rewrite andb_true_iff, negb_true_iff, adjb_adj, adjb_not_adj. tauto.
Qed.
End Missing.

Section ErMStep.
Context {T A : Type} {C : AdjContainer T A} {L : AdjLaws C}.
Implicit Types (e : er_m T) (h : graph A).

Lemma erm_m_step_at p n m e x y a b : erm_ok n m e ->
  nth_error (erm_current e) x = Some a -> nth_error (erm_possible e) y = Some b ->
  exists e', (forall rs, erm_m_step p e (x :: y :: rs) = Done (mk_esm a x b y, e', rs)) /\ erm_ok n m e' /\
    payloads (erm_graph e') = payloads (erm_graph e) /\
    forall i j, i < j -> (adj (erm_graph e') i j <-> (adj (erm_graph e) i j /\ (i, j) <> a) \/ (i, j) = b).
Proof.
  intros O Ea Eb. destruct (erm_step_spec p O Ea Eb) as (e' & Es & O' & P & _ & _ & _ & Ad).
  exists e'. split; [|split; [auto|split; [auto|]]].
  - intros rs. unfold erm_m_step. assert (Hx : x < length (erm_current e)) by (apply nth_error_Some; congruence).
    assert (Hy : y < length (erm_possible e)) by (apply nth_error_Some; congruence).
    rewrite gen_range_small by auto. cbn [bind]. rewrite gen_range_small by auto. cbn [bind].
    unfold vget. rewrite Ea, Eb. cbn [bind]. cbv zeta. rewrite Es. reflexivity.
  - intros i j Hij. rewrite Ad.
    assert (Ia : fst a < snd a).
    { destruct (eo_current O) as [_ K]. destruct a as [a1 a2]. apply nth_error_In, K in Ea. cbn. tauto. }
    assert (Ib : fst b < snd b).
    { destruct (eo_possible O) as [_ K]. destruct b as [b1 b2]. apply nth_error_In, K in Eb. cbn. tauto. }
    destruct a as [a1 a2], b as [b1 b2]. cbn [fst snd] in *. unfold is_pair.
    assert (K1 : (i = a1 /\ j = a2 \/ i = a2 /\ j = a1) <-> (i, j) = (a1, a2)).
    { split; [intros [[-> ->]|[-> ->]]; auto; lia|intros K; injection K; auto]. }
    assert (K2 : (i = b1 /\ j = b2 \/ i = b2 /\ j = b1) <-> (i, j) = (b1, b2)).
    { split; [intros [[-> ->]|[-> ->]]; auto; lia|intros K; injection K; auto]. }
    tauto.
Qed.

(** The step to the edges of [h] exists only if one edge is missing. *)
Lemma erm_step_only p n m e h x y a b rs e' s : erm_ok n m e -> simple_graph h -> vertex_count h = n ->
  nth_error (erm_current e) x = Some a -> nth_error (erm_possible e) y = Some b ->
  erm_m_step p e (x :: y :: rs) = Done (s, e', rs) -> same_edges (erm_graph e') h = true ->
  (forall c, (fst c < snd c /\ snd c < n /\ adj (erm_graph e) (fst c) (snd c) /\ ~ adj h (fst c) (snd c)) <-> c = a) /\
  (forall c, (fst c < snd c /\ snd c < n /\ adj h (fst c) (snd c) /\ ~ adj (erm_graph e) (fst c) (snd c)) <-> c = b).
Proof.
  intros O W V Ea Eb E S. destruct (@erm_m_step_at p n m e x y a b O Ea Eb) as (e1 & E1 & _ & _ & Ad).
  specialize (E1 rs). rewrite E in E1. injection E1 as -> <-.
  assert (Ia : fst a < snd a /\ adj (erm_graph e) (fst a) (snd a)).
  { destruct (eo_current O) as [_ K]. destruct a as [a1 a2]. apply nth_error_In, K in Ea. auto. }
  assert (Ib : fst b < snd b /\ snd b < n /\ ~ adj (erm_graph e) (fst b) (snd b)).
  { destruct (eo_possible O) as [_ K]. destruct b as [b1 b2]. apply nth_error_In, K in Eb. cbn. tauto. }
  assert (Hs : forall i j, i < j -> j < n -> (adj h i j <-> (adj (erm_graph e) i j /\ (i, j) <> a) \/ (i, j) = b)).
  { intros i j H1 H2. rewrite <- Ad by auto. symmetry. apply (proj1 (same_edges_spec _ _) S); auto. lia. }
  assert (Hn : snd a < n).
  { rewrite <- (eo_vertices O). apply (GraphFacts.adj_lt (eo_simple O) (proj2 Ia)). }
  assert (Nab : a <> b) by (intros ->; tauto).
  split; intros [c d]; cbn [fst snd].
  - split.
    + intros (H1 & H2 & H3 & H4). destruct (pair_dec (c, d) a) as [|Ne]; auto.
      exfalso. apply H4, Hs; auto.
    + intros <-. cbn [fst snd] in *. split; [tauto|]. split; [auto|]. split; [tauto|].
      rewrite Hs by tauto. intuition congruence.
  - split.
    + intros (H1 & H2 & H3 & H4). apply Hs in H3; auto. tauto.
    + intros <-. cbn [fst snd] in *. split; [tauto|]. split; [tauto|]. split; [|tauto].
      apply Hs; tauto.
Qed.

Lemma erm_step_count p n m e h : erm_ok n m e -> simple_graph h -> vertex_count h = n -> edge_count h = m ->
  count (fun ds => match erm_m_step p e ds with
                   | Done (_, e', _) => same_edges (erm_graph e') h
                   | _ => false
                   end) (rolls [m; n * (n - 1) / 2 - m]) =
  if missing (erm_graph e) h =? 1 then 1 else 0.
Proof.
  intros O W V M. destruct (erm_ok_lengths O) as (L1 & L2 & L3).
  set (N := n * (n - 1) / 2) in *. assert (L4 : length (erm_possible e) = N - m) by lia.
  assert (Vh : vertex_count (erm_graph e) = vertex_count h) by (rewrite V; apply O).
  assert (Sp : forall ds, In ds (rolls [m; N - m]) -> exists x y a b, ds = [x; y] /\ x < m /\ y < N - m /\
    nth_error (erm_current e) x = Some a /\ nth_error (erm_possible e) y = Some b).
  { intros [|x [|y [|z ds]]] I; apply rolls_In in I; inversion I as [|? ? ? ? H1 I1]; subst;
      inversion I1 as [|? ? ? ? H2 I2]; subst; inversion I2; subst.
    destruct (nth_error (erm_current e) x) as [a|] eqn:Ea; [|apply nth_error_None in Ea; lia].
    destruct (nth_error (erm_possible e) y) as [b|] eqn:Eb; [|apply nth_error_None in Eb; lia].
    exists x, y, a, b. rewrite Ea, Eb. auto. }
  destruct (Nat.eqb_spec (missing (erm_graph e) h) 1) as [M1|M1].
  - assert (M2 : missing h (erm_graph e) = 1).
    { rewrite <- M1. symmetry. apply missing_sym; auto; [apply O|]. rewrite M. apply O. }
    apply count_one in M1 as (a & Ia & Fa & Ua). apply count_one in M2 as (b & Ib & Fb & Ub).
    assert (Da : forall c, fst c < snd c -> snd c < n -> adj (erm_graph e) (fst c) (snd c) ->
      ~ adj h (fst c) (snd c) -> c = a).
    { intros [c d] H1 H2 H3 H4. apply Ua; [apply In_pairs_below; cbn in *; lia|].
      rewrite andb_true_iff, negb_true_iff, adjb_adj, adjb_not_adj. auto. }
    assert (Db : forall c, fst c < snd c -> snd c < n -> adj h (fst c) (snd c) ->
      ~ adj (erm_graph e) (fst c) (snd c) -> c = b).
    { intros [c d] H1 H2 H3 H4. apply Ub; [apply In_pairs_below; cbn in *; lia|].
      rewrite andb_true_iff, negb_true_iff, adjb_adj, adjb_not_adj. auto. }
    cbv beta in Fa, Fb. rewrite andb_true_iff, negb_true_iff, !adjb_adj, !adjb_not_adj in Fa.
    rewrite andb_true_iff, negb_true_iff, !adjb_adj, !adjb_not_adj in Fb.
    destruct a as [a1 a2], b as [b1 b2]. apply In_pairs_below in Ia, Ib. cbn [fst snd] in *.
    assert (Ca : In (a1, a2) (erm_current e)) by (apply (eo_current O); tauto).
    assert (Cb : In (b1, b2) (erm_possible e)).
    { apply (eo_possible O). rewrite <- (eo_vertices O). tauto. }
    apply In_nth_error in Ca as [x Ex], Cb as [y Ey].
    assert (Hx : x < m) by (rewrite <- L1; apply nth_error_Some; congruence).
    assert (Hy : y < N - m) by (rewrite <- L4; apply nth_error_Some; congruence).
    apply count_unique with (x := [x; y]).
    + apply rolls_NoDup.
    + apply rolls_In. auto.
    + destruct (@erm_m_step_at p n m e x y _ _ O Ex Ey) as (e' & E' & O' & _ & Ad). rewrite E'.
      apply same_edges_spec. intros i j H1 H2. rewrite Ad by auto. rewrite V in H2.
      specialize (Da (i, j)). specialize (Db (i, j)). cbn [fst snd] in Da, Db.
      destruct (pair_dec (i, j) (a1, a2)) as [Eij|Na].
      { injection Eij as -> ->. split; [|tauto]. intros [[_ G]|G]; [tauto|]. injection G as -> ->. tauto. }
      destruct (pair_dec (i, j) (b1, b2)) as [Eij|Nb].
      { injection Eij as -> ->. tauto. }
      destruct (adj_dec (erm_graph e) i j) as [K|K], (adj_dec h i j) as [K'|K']; tauto.
    + intros ds I F. destruct (Sp ds I) as (x' & y' & a' & b' & -> & Hx' & Hy' & Ea' & Eb').
      destruct (erm_m_step p e [x'; y']) as [[[s e'] r]| | |] eqn:E; try discriminate.
      assert (r = []).
      { destruct (@erm_m_step_at p n m e x' y' a' b' O Ea' Eb') as (e2 & E2 & _). specialize (E2 []). congruence. }
      subst r. destruct (erm_step_only O W V Ea' Eb' E F) as [K1 K2].
      assert (a' = (a1, a2)) as -> by (symmetry; apply K1; cbn; rewrite <- V; tauto).
      assert (b' = (b1, b2)) as -> by (symmetry; apply K2; cbn; rewrite <- V, <- Vh; tauto).
      destruct (eo_current O) as [Nc _], (eo_possible O) as [Np _].
      assert (x' = x) as -> by (apply (proj1 (NoDup_nth_error _) Nc); [lia|congruence]).
      assert (y' = y) as -> by (apply (proj1 (NoDup_nth_error _) Np); [lia|congruence]). auto.
  - apply count_zero. intros ds I.
    destruct (Sp ds I) as (x & y & a & b & -> & Hx & Hy & Ea & Eb).
    destruct (erm_m_step p e [x; y]) as [[[s e'] r]| | |] eqn:E; auto.
    assert (r = []).
    { destruct (@erm_m_step_at p n m e x y a b O Ea Eb) as (e2 & E2 & _). specialize (E2 []). congruence. }
    subst r. destruct (same_edges (erm_graph e') h) eqn:F; auto. exfalso. apply M1.
    destruct (erm_step_only O W V Ea Eb E F) as [K1 _].
    pose proof (proj2 (K1 a) eq_refl) as Ka.
    apply count_unique with (x := a).
    + apply NoDup_pairs_below.
    + destruct a as [a1 a2]. apply In_pairs_below. cbn in Ka. lia.
    + rewrite andb_true_iff, negb_true_iff, adjb_adj, adjb_not_adj. tauto.
    + intros [c d] Ic Fc. apply K1. apply In_pairs_below in Ic.
      rewrite andb_true_iff, negb_true_iff, adjb_adj, adjb_not_adj in Fc. cbn [fst snd] in *. lia || (rewrite <- V; tauto).
Qed.

(** Every edge set can be reached, with one step for each edge that is missing. *)
Lemma erm_reach p n m h : simple_graph h -> vertex_count h = n -> edge_count h = m ->
  forall d e, erm_ok n m e -> missing (erm_graph e) h = d ->
  exists ds steps e', length ds = 2 * d /\ m_steps (erm_m_step p) d e ds = Done (steps, e', []) /\
    erm_ok n m e' /\ payloads (erm_graph e') = payloads (erm_graph e) /\ same_edges (erm_graph e') h = true.
Proof.
  intros W V M. induction d as [|d IH]; intros e O D.
  - exists [], [], e. split; [auto|]. split; [auto|]. split; [auto|]. split; [auto|].
    assert (Vh : vertex_count (erm_graph e) = vertex_count h) by (rewrite V; apply O).
    assert (D' : missing h (erm_graph e) = 0).
    { rewrite <- D. symmetry. apply missing_sym; auto; [apply O|]. rewrite M. apply O. }
    unfold missing, count in D, D'. apply length_zero_iff_nil in D, D'.
    apply same_edges_spec. intros i j H1 H2. split; intros K.
    + destruct (adj_dec h i j) as [|K']; auto. exfalso.
      assert (I : In (i, j) []) by (rewrite <- D; apply missing_In; auto). destruct I.
    + destruct (adj_dec (erm_graph e) i j) as [|K']; auto. exfalso.
      assert (I : In (i, j) []) by (rewrite <- D'; apply missing_In; cbn; auto; rewrite Vh; auto). destruct I.
  - assert (Vh : vertex_count (erm_graph e) = vertex_count h) by (rewrite V; apply O).
    assert (D' : missing h (erm_graph e) = S d).
    { rewrite <- D. symmetry. apply missing_sym; auto; [apply O|]. rewrite M. apply O. }
    pose proof D as D0. unfold missing, count in D, D'.
    destruct (filter (fun ij => adjb (erm_graph e) (fst ij) (snd ij) && _) _) as [|[a1 a2] t] eqn:Ea in D; [discriminate|].
    destruct (filter (fun ij => adjb h (fst ij) (snd ij) && _) _) as [|[b1 b2] t'] eqn:Eb in D'; [discriminate|].
    assert (Ia : In (a1, a2) ((a1, a2) :: t)) by (simpl; auto). rewrite <- Ea in Ia.
    assert (Ib : In (b1, b2) ((b1, b2) :: t')) by (simpl; auto). rewrite <- Eb in Ib.
    apply missing_In in Ia; auto. apply missing_In in Ib; auto. cbn [fst snd] in Ia, Ib.
    assert (Ca : In (a1, a2) (erm_current e)) by (apply (eo_current O); tauto).
    assert (Cb : In (b1, b2) (erm_possible e)).
    { apply (eo_possible O). rewrite <- (eo_vertices O). tauto. }
    apply In_nth_error in Ca as [x Ex], Cb as [y Ey].
    destruct (@erm_m_step_at p n m e x y _ _ O Ex Ey) as (e1 & E1 & O1 & P1 & Ad).
    destruct (IH e1 O1) as (ds & steps & e' & Ld & Es & O' & P' & S').
    + assert (Dm : S (missing (erm_graph e1) h) = missing (erm_graph e) h); [|lia].
      symmetry. apply count_remove_one with (a := (a1, a2)).
      * apply NoDup_pairs_below.
      * apply In_pairs_below. tauto.
      * cbn [fst snd]. rewrite andb_true_iff, negb_true_iff, adjb_adj, adjb_not_adj. tauto.
      * intros [i j] Iij. apply In_pairs_below in Iij. cbn [fst snd].
        rewrite !andb_true_iff, !negb_true_iff, !adjb_adj, !adjb_not_adj, Ad by tauto. split; [|tauto].
        intros [[K|K] K']; [tauto|]. injection K as -> ->. tauto.
    + exists (x :: y :: ds), (mk_esm (a1, a2) x (b1, b2) y :: steps), e'.
      split; [cbn [length]; lia|]. split; [|split; [auto|split; [congruence|auto]]].
      cbn [m_steps]. rewrite E1. cbn [bind]. rewrite Es. reflexivity.
Qed.
End ErMStep.

(** ** [ErEnsembleC] *)

Section ErCReach.
Context {T A : Type} {C : AdjContainer T A} {L : AdjLaws C}.
Implicit Types (e : er_c T) (h : graph A).

Lemma xorb_iff b c : xorb b c = true <-> ~ (b = true <-> c = true).
Proof. destruct b, c; cbn; intuition congruence. Qed.

Lemma erc_reach p n h zno : 2 <= n -> simple_graph h -> vertex_count h = n ->
  forall d e, simple_graph (erc_graph e) -> vertex_count (erc_graph e) = n ->
  (0 <= erc_prob e)%Q -> (erc_prob e < unit_float zno)%Q -> differing (erc_graph e) h = d ->
  exists ds steps e', length ds = 3 * d /\ m_steps (erc_m_step p) d e ds = Done (steps, e', []) /\
    same_edges (erc_graph e') h = true.
Proof.
  intros Hn W V. induction d as [|d IH]; intros e We Ve P0 P1 D.
  - exists [], [], e. split; [auto|]. split; [auto|].
    unfold differing, count in D. apply length_zero_iff_nil in D.
    apply same_edges_spec. intros i j H1 H2.
    destruct (xorb (adjb (erc_graph e) i j) (adjb h i j)) eqn:X.
    + exfalso. assert (I : In (i, j) []).
      { rewrite <- D. apply filter_In. split; [apply In_pairs_below; auto|auto]. }
      destruct I.
    + apply not_true_iff_false in X. rewrite xorb_iff, !adjb_adj in X.
      destruct (adj_dec (erc_graph e) i j), (adj_dec h i j); tauto.
  - pose proof D as D0. unfold differing, count in D.
    destruct (filter _ _) as [|[i j] t] eqn:Ef in D; [discriminate|].
    assert (I : In (i, j) ((i, j) :: t)) by (simpl; auto). rewrite <- Ef in I. apply filter_In in I as [I X].
    apply In_pairs_below in I as [Hij Hj]. cbn [fst snd] in X. rewrite xorb_iff, !adjb_adj in X.
    set (z := if adjb h i j then 0 else zno).
    assert (Z : Qle_bool (unit_float z) (erc_prob e) = adjb h i j).
    { unfold z. destruct (adjb h i j).
      - apply Qle_bool_iff. apply Qle_trans with (y := 0%Q); auto. unfold unit_float, Qle. cbn. lia.
      - apply not_true_iff_false. rewrite Qle_bool_iff. apply Qlt_not_le. auto. }
    assert (St : exists r e1, (forall rs, erc_m_step p e (i :: (j - 1) :: z :: rs) = Done (r, e1, rs)) /\
      simple_graph (erc_graph e1) /\ vertex_count (erc_graph e1) = n /\ erc_prob e1 = erc_prob e /\
      forall a b, a < b -> (adj (erc_graph e1) a b <-> if pair_dec (a, b) (i, j) then adj h i j else adj (erc_graph e) a b)).
    { destruct (erc_step_effect p i (j - 1) z [] We) as (a & b & r & e1 & D1 & E1 & _ & Ad); [lia|].
      rewrite draw_two_cons in D1 by lia. exists r, e1.
      destruct (Nat.ltb_spec (j - 1) i); [lia|]. injection D1 as <- <-.
      destruct (erc_m_step_cases We E1) as (C1 & _ & C3).
      split; [|split; [apply (erc_m_step_simple We E1)|split; [|split; [auto|]]]].
      - intros rs. destruct (erc_step_effect p i (j - 1) z rs We) as (a' & b' & r' & e1' & D1' & E1' & _); [lia|].
        rewrite E1'. revert E1 E1'. unfold erc_m_step. rewrite !draw_two_cons by lia. cbn [bind].
        unfold gen_f64, draw. cbn [bind]. destruct (Qle_bool _ _).
        + destruct (add_edge _ _ _ _) as [[[]]| | |]; cbn [bind]; congruence.
        + destruct (remove_edge _ _ _ _) as [[[]]| | |]; cbn [bind]; congruence.
      - destruct r as [|[u v]|[u v]|]; try tauto; [congruence|..].
        + rewrite <- Ve. apply (add_edge_ok We C3).
        + rewrite <- Ve. apply (remove_edge_ok We C3).
      - intros a b Hab. rewrite Ad, Z. replace (j - 1 + 1) with j by lia. unfold is_pair.
        destruct (pair_dec (a, b) (i, j)) as [Eq|Ne].
        + injection Eq as -> ->. rewrite <- (adjb_adj h). destruct (adjb h i j); intuition congruence.
        + assert (~ (a = i /\ b = j \/ a = j /\ b = i)).
          { intros [[-> ->]|[-> ->]]; [congruence|lia]. }
          destruct (adjb h i j); tauto. }
    destruct St as (r & e1 & E1 & W1 & V1 & Pe & Ad1).
    destruct (IH e1 W1 V1) as (ds & steps & e' & Ld & Es & S').
    { rewrite Pe. auto. } { rewrite Pe. auto. }
    { cut (differing (erc_graph e) h = S (differing (erc_graph e1) h)); [lia|].
      apply count_remove_one with (a := (i, j)).
      - apply NoDup_pairs_below.
      - apply In_pairs_below. auto.
      - cbn [fst snd]. rewrite xorb_iff, !adjb_adj. auto.
      - intros [a b] Iab. apply In_pairs_below in Iab. cbn [fst snd].
        rewrite !xorb_iff, !adjb_adj, Ad1 by tauto. destruct (pair_dec (a, b) (i, j)) as [Eq|Ne]; [|tauto].
        injection Eq as -> ->. tauto. }
    exists (i :: (j - 1) :: z :: ds), (r :: steps), e'. split; [cbn [length]; lia|]. split; [|auto].
    cbn [m_steps]. rewrite E1. cbn [bind]. rewrite Es. reflexivity.
Qed.
End ErCReach.
