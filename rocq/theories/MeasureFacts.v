(** The measures do not depend on the names of the vertices. *)
From Verif Require Import Base BaseFacts Containers ContainerSpec Graph GraphSpec GraphFacts.
From Verif Require Import GraphOps Search Traversal TraversalSpec TraversalFacts ClosenessFacts.
From Verif Require Import Components ComponentSpec ComponentFacts CoreFacts TransitivityFacts.
From Verif Require Import Load LoadSpec LoadFacts LoadSums Sums BiconnectedFacts MeasureSpec.
From Coq Require Import Sorted QArith.
Set Implicit Arguments.
Unset Strict Implicit.
Local Open Scope nat_scope.

Section Bijection.
Variables (n : nat) (f : nat -> nat).
Hypothesis Rf : forall i, i < n -> f i < n.
Hypothesis If : forall i j, i < n -> j < n -> f i = f j -> i = j.

Lemma bij_perm : Permutation (map f (seq 0 n)) (seq 0 n).
Proof using All.
  apply NoDup_Permutation_bis.
  - apply NoDup_map_in; [|apply seq_NoDup]. intros x y Hx Hy. apply in_seq in Hx, Hy. apply If; lia.
  - rewrite map_length. auto.
  - intros y Hy. apply in_map_iff in Hy as (x & <- & Hx). apply in_seq in Hx. apply in_seq.
    specialize (Rf (i := x)). lia.
Qed.

Lemma bij_inverse : exists f', (forall i, i < n -> f' i < n) /\
  (forall i, i < n -> f' (f i) = i) /\ (forall i, i < n -> f (f' i) = i).
Proof using All.
  set (f' := fun y => match position (Nat.eqb y) (map f (seq 0 n)) with Some k => k | None => 0 end).
  assert (K : forall y, y < n -> f' y < n /\ f (f' y) = y).
  { intros y Hy. unfold f'.
    destruct (position (Nat.eqb y) (map f (seq 0 n))) as [k|] eqn:E.
    - pose proof (position_lt _ _ E) as Hk. rewrite map_length, seq_length in Hk.
      destruct (position_nth _ _ E) as (x & Hx & Ex). apply Nat.eqb_eq in Ex. subst x.
      rewrite nth_error_map, nth_error_seq in Hx.
      destruct (k <? n); [|discriminate]. simpl in Hx. injection Hx as <-. auto.
    - exfalso. rewrite position_None in E.
      assert (Hi : In y (map f (seq 0 n))).
      { eapply Permutation_in; [apply Permutation_sym, bij_perm|]. apply in_seq. lia. }
      specialize (E y Hi). rewrite Nat.eqb_refl in E. discriminate. }
  exists f'. split; [|split].
  - intros i Hi. apply K; auto.
  - intros i Hi. apply If; auto; apply K; auto.
  - intros i Hi. apply K; auto.
Qed.
End Bijection.

(** Walks are carried over by any map that preserves the relation. *)
Lemma walk_map {V W} (R : V -> V -> Prop) (R' : W -> W -> Prop) (P : V -> Prop) (f : V -> W) u v k :
  (forall a b, P a -> R a b -> P b /\ R' (f a) (f b)) -> P u -> walk R u v k ->
  P v /\ walk R' (f u) (f v) k.
Proof.
  intros H Hu. induction 1 as [|v w k _ [Pv IH] Hvw].
  - split; auto. constructor.
  - destruct (H _ _ Pv Hvw). split; auto. econstructor; eauto.
Qed.

Section Transport.
Context {T A : Type} {C : AdjContainer T A} {L : AdjLaws C}.
Context {T' A' : Type} {C' : AdjContainer T' A'} {L' : AdjLaws C'}.
Implicit Types (g : graph A) (h : graph A').

(** An isomorphism with its inverse. *)
Record iso2 g h (f f' : nat -> nat) : Prop := {
  i2_g : simple_graph g;
  i2_h : simple_graph h;
  i2_fwd : isomorphism g h f;
  i2_bwd : isomorphism h g f';
  i2_l : forall i, i < vertex_count g -> f' (f i) = i;
  i2_r : forall i, i < vertex_count g -> f (f' i) = i
}.

Lemma iso2_of g h f : simple_graph g -> simple_graph h -> isomorphism g h f ->
  exists f', iso2 g h f f'.
Proof.
  intros W W' I. destruct (bij_inverse (iso_range I) (iso_inj I)) as (f' & R & Hl & Hr).
  exists f'. constructor; auto. pose proof (iso_count I) as En. constructor; rewrite ?En; auto.
  - intros i j Hi Hj E. rewrite <- (Hr i), <- (Hr j), E by auto. auto.
  - intros i j Hi Hj. rewrite (iso_adj I) by auto. rewrite !Hr by auto. tauto.
Qed.
End Transport.

Lemma iso2_sym {T A : Type} {C : AdjContainer T A} {L : AdjLaws C}
  {T' A' : Type} {C' : AdjContainer T' A'} {L' : AdjLaws C'} (g : graph A) (h : graph A') f f' :
  iso2 g h f f' -> iso2 h g f' f.
Proof.
  intros [W W' I I' Hl Hr]. pose proof (iso_count I) as En.
  constructor; auto; rewrite En; auto.
Qed.

Section OneWay.
Context {T A : Type} {C : AdjContainer T A} {L : AdjLaws C}.
Context {T' A' : Type} {C' : AdjContainer T' A'} {L' : AdjLaws C'}.
Implicit Types (g : graph A) (h : graph A').
Variables (g : graph A) (h : graph A') (f f' : nat -> nat).
Hypothesis I : iso2 g h f f'.

Local Notation n := (vertex_count g).

Lemma i2_count : vertex_count h = n.
Proof using I. apply (iso_count (i2_fwd I)). Qed.

Lemma i2_lt i : i < n -> f i < n.
Proof using I. apply (iso_range (i2_fwd I)). Qed.

Lemma i2_lt' i : i < n -> f' i < n.
Proof using I. intros Hi. rewrite <- i2_count in *. apply (iso_range (i2_bwd I)); auto. Qed.

Lemma adj_lt i j : adj g i j -> i < n /\ j < n.
Proof using I. intros H. split; [apply (sg_range (i2_g I) _ _ (sg_sym (i2_g I) _ _ H))|apply (sg_range (i2_g I) _ _ H)]. Qed.

Lemma i2_step a b : a < n -> adj g a b -> b < n /\ adj h (f a) (f b).
Proof using I.
  intros Ha H. pose proof (adj_lt H) as [_ Hb]. split; auto. apply (iso_adj (i2_fwd I)); auto.
Qed.

Lemma i2_walk u v k : u < n -> walk (adj g) u v k -> v < n /\ walk (adj h) (f u) (f v) k.
Proof using I. intros Hu Hw. exact (walk_map (P := fun a => a < n) i2_step Hu Hw). Qed.

Lemma i2_joined u v : u < n -> joined (adj g) u v -> v < n /\ joined (adj h) (f u) (f v).
Proof using I. intros Hu [k Hk]. destruct (i2_walk Hu Hk). split; auto. exists k; auto. Qed.

Lemma i2_nbrs i : i < n -> Permutation (map f (nbrs g i)) (nbrs h (f i)).
Proof using I.
  intros Hi. apply NoDup_Permutation.
  - apply NoDup_map_in; [|apply (sg_nodup (i2_g I))]. intros x y Hx Hy.
    apply (iso_inj (i2_fwd I)); [apply (adj_lt Hx)|apply (adj_lt Hy)].
  - apply (sg_nodup (i2_h I)).
  - intros y. split; intros Hy.
    + apply in_map_iff in Hy as (x & <- & Hx). apply (i2_step Hi Hx).
    + assert (Hyn : y < n) by (rewrite <- i2_count; apply (sg_range (i2_h I) _ _ Hy)).
      apply in_map_iff. exists (f' y). split; [apply (i2_r I); auto|].
      apply (iso_adj (i2_fwd I)); auto. { apply i2_lt'; auto. }
      rewrite (i2_r I) by auto. auto.
Qed.

Lemma i2_degree i : i < n -> length (nbrs h (f i)) = length (nbrs g i).
Proof using I. intros Hi. rewrite <- (Permutation_length (i2_nbrs Hi)). apply map_length. Qed.

Lemma i2_perm : Permutation (map f (seq 0 n)) (seq 0 n).
Proof using I. apply bij_perm; [apply (iso_range (i2_fwd I))|apply (iso_inj (i2_fwd I))]. Qed.
End OneWay.

Section BothWays.
Context {T A : Type} {C : AdjContainer T A} {L : AdjLaws C}.
Context {T' A' : Type} {C' : AdjContainer T' A'} {L' : AdjLaws C'}.
Implicit Types (g : graph A) (h : graph A').

Lemma i2_walk_iff g h f f' u v k : iso2 g h f f' -> u < vertex_count g -> v < vertex_count g ->
  walk (adj g) u v k <-> walk (adj h) (f u) (f v) k.
Proof.
  intros I Hu Hv. split; intros H.
  - apply (i2_walk I Hu H).
  - pose proof (iso2_sym I) as J. destruct (@i2_walk _ _ _ _ _ _ _ _ _ _ _ _ J (f u) (f v) k) as [_ K]; auto.
    + rewrite (i2_count I). apply (i2_lt I Hu).
    + rewrite !(i2_l I) in K by auto. auto.
Qed.

Lemma i2_joined_iff g h f f' u v : iso2 g h f f' -> u < vertex_count g -> v < vertex_count g ->
  joined (adj g) u v <-> joined (adj h) (f u) (f v).
Proof.
  intros I Hu Hv. unfold joined. split; intros [k H]; exists k; apply (i2_walk_iff k I Hu Hv); auto.
Qed.

Lemma i2_dist g h f f' u v k : iso2 g h f f' -> u < vertex_count g -> v < vertex_count g ->
  is_dist (adj g) u v k <-> is_dist (adj h) (f u) (f v) k.
Proof.
  intros I Hu Hv. unfold is_dist. rewrite (i2_walk_iff k I Hu Hv).
  split; intros [H1 H2]; split; auto; intros j Hj; apply H2; apply (i2_walk_iff j I Hu Hv); auto.
Qed.

End BothWays.

Section Degrees.
Context {T A : Type} {C : AdjContainer T A} {L : AdjLaws C}.
Context {T' A' : Type} {C' : AdjContainer T' A'} {L' : AdjLaws C'}.
Implicit Types (g : graph A) (h : graph A').

(** ** Degrees *)

Lemma degrees_perm g h f f' : iso2 g h f f' -> Permutation (degree_vec g) (degree_vec h).
Proof.
  intros I. rewrite (degree_vec_nbrs (i2_g I)), (degree_vec_nbrs (i2_h I)), (i2_count I).
  eapply perm_trans; [|apply Permutation_map, (i2_perm I)].
  rewrite map_map. erewrite map_ext_in; [apply Permutation_refl|].
  intros i Hi. apply in_seq in Hi. symmetry. apply (i2_degree I). lia.
Qed.

Lemma edges_eq g h f f' : iso2 g h f f' -> edge_count h = edge_count g.
Proof.
  intros I. pose proof (list_sum_perm (degrees_perm I)) as E.
  rewrite (degree_sum (i2_g I)), (degree_sum (i2_h I)) in E. lia.
Qed.

(** ** Connectivity and distances *)

Lemma connected_fwd g h f f' : iso2 g h f f' -> connected g -> connected h.
Proof.
  intros I H u v Hu Hv. rewrite (i2_count I) in *.
  rewrite <- (i2_r I Hu), <- (i2_r I Hv).
  apply (i2_joined_iff I); try (apply (i2_lt' I); auto). apply H; apply (i2_lt' I); auto.
Qed.

Lemma diameter_fwd g h f f' d : iso2 g h f f' -> is_diameter g d -> is_diameter h d.
Proof.
  intros I [(u & v & Hu & Hd) H]. split.
  - destruct (i2_walk I Hu (proj1 Hd)) as [Hv _].
    exists (f u), (f v). rewrite (i2_count I). split; [apply (i2_lt I Hu)|]. apply (i2_dist d I); auto.
  - intros a b k Ha Hk. pose proof (iso2_sym I) as J.
    destruct (i2_walk J Ha (proj1 Hk)) as [Hb _].
    apply (i2_dist k J) in Hk; auto. eapply H; [|apply Hk].
    rewrite (i2_count I) in Ha. apply (i2_lt' I Ha).
Qed.

Lemma ecc_fwd g h f f' i d : iso2 g h f f' -> i < vertex_count g ->
  is_ecc (adj g) i d -> is_ecc (adj h) (f i) d.
Proof.
  intros I Hi [(v & Hd) H]. split.
  - destruct (i2_walk I Hi (proj1 Hd)) as [Hv _]. exists (f v). apply (i2_dist d I); auto.
  - intros b k Hk. pose proof (iso2_sym I) as J.
    assert (Ha : f i < vertex_count h) by (rewrite (i2_count I); apply (i2_lt I Hi)).
    destruct (i2_walk J Ha (proj1 Hk)) as [Hb _].
    apply (i2_dist k J) in Hk; auto. rewrite (i2_l I Hi) in Hk. eapply H; eauto.
Qed.
End Degrees.

Lemma is_diameter_fun {T A : Type} {C : AdjContainer T A} (g : graph A) d d' :
  is_diameter g d -> is_diameter g d' -> d = d'.
Proof.
  intros [(u & v & Hu & Hd) H] [(u' & v' & Hu' & Hd') H'].
  pose proof (H _ _ _ Hu' Hd'). pose proof (H' _ _ _ Hu Hd). lia.
Qed.

Lemma is_ecc_fun (R : nat -> nat -> Prop) i d d' : is_ecc R i d -> is_ecc R i d' -> d = d'.
Proof.
  intros [(v & Hd) H] [(v' & Hd') H']. pose proof (H _ _ Hd'). pose proof (H' _ _ Hd). lia.
Qed.

Section Values.
Context {T A : Type} {C : AdjContainer T A} {L : AdjLaws C}.
Context {T' A' : Type} {C' : AdjContainer T' A'} {L' : AdjLaws C'}.
Implicit Types (g : graph A) (h : graph A').

Lemma is_connected_iso g h f f' : iso2 g h f f' -> is_connected h = is_connected g.
Proof.
  intros I. pose proof (i2_count I) as En.
  pose proof (connected_fwd I) as F. pose proof (connected_fwd (iso2_sym I)) as B.
  destruct (is_connected_spec (i2_g I)) as [[? ->]|[(? & ? & ->)|(? & ? & ->)]];
  destruct (is_connected_spec (i2_h I)) as [[? ->]|[(? & ? & ->)|(? & ? & ->)]]; auto; try lia; tauto.
Qed.

Lemma diameter_iso g h f f' : iso2 g h f f' -> diameter h = diameter g.
Proof.
  intros I. pose proof (i2_count I) as En.
  pose proof (connected_fwd I) as F. pose proof (connected_fwd (iso2_sym I)) as B.
  destruct (diameter_spec (i2_g I)) as [[H ->]|(H0 & Hc & d & -> & Hd)];
  destruct (diameter_spec (i2_h I)) as [[H' ->]|(H0' & Hc' & d' & -> & Hd')]; auto.
  - exfalso. destruct H; [lia|tauto].
  - exfalso. destruct H'; [lia|tauto].
  - do 2 f_equal. eapply is_diameter_fun; [apply Hd'|]. apply (diameter_fwd I Hd).
Qed.

Lemma longest_iso g h f f' i : iso2 g h f f' -> i < vertex_count g ->
  longest_shortest_path_from_index h (f i) = longest_shortest_path_from_index g i.
Proof.
  intros I Hi. pose proof (i2_count I) as En. pose proof (i2_lt I Hi) as Hf.
  destruct (longest_spec i (i2_g I)) as [[? _]|(_ & d & -> & Hd)]; [lia|].
  destruct (longest_spec (f i) (i2_h I)) as [[? _]|(_ & d' & -> & Hd')]; [lia|].
  do 2 f_equal. eapply is_ecc_fun; [apply Hd'|]. apply (ecc_fwd I Hi Hd).
Qed.
End Values.

(** ** Component sizes *)

(** Two lists of the classes of the same relation. *)
Lemma classes_perm {V} (R : V -> V -> Prop) (p : list (list V)) : forall q,
  NoDup (concat p) -> NoDup (concat q) ->
  (forall c, In c p -> c <> []) -> (forall c, In c q -> c <> []) ->
  (forall w, In w (concat p) <-> In w (concat q)) ->
  (forall c u w, In c p -> In u c -> In w (concat p) -> (In w c <-> R u w)) ->
  (forall c u w, In c q -> In u c -> In w (concat q) -> (In w c <-> R u w)) ->
  Permutation (map (@length V) p) (map (@length V) q).
Proof.
  induction p as [|c p IH]; intros q Np Nq Ep Eq S Kp Kq.
  - destruct q as [|c q]; auto. exfalso. destruct c as [|u c]; [apply (Eq []); simpl; auto|].
    apply (proj2 (S u)). simpl. auto.
  - destruct c as [|u c]; [exfalso; apply (Ep []); simpl; auto|].
    assert (Hu : In u (concat q)) by (apply S; simpl; auto).
    apply in_concat in Hu as (c' & Hc' & Hu).
    assert (Same : forall w, In w (u :: c) <-> In w c').
    { intros w. split; intros Hw.
      - assert (Hp : In w (concat ((u :: c) :: p))) by (cbn [concat]; apply in_app_iff; auto).
        apply (Kq c' u w); auto. { apply S; auto. }
        apply (Kp (u :: c) u w); simpl; auto.
      - assert (Hq : In w (concat q)) by (apply in_concat; eauto).
        apply (Kp (u :: c) u w); simpl; auto. { apply S in Hq. auto. }
        apply (Kq c' u w); auto. }
    apply in_split in Hc' as (q1 & q2 & ->).
    cbn [concat] in Np. apply NoDup_app_iff in Np as (Nc & Np & Dp).
    assert (Pq : Permutation (concat (q1 ++ c' :: q2)) (c' ++ concat (q1 ++ q2))).
    { rewrite !concat_app. cbn [concat].
      rewrite !app_assoc. apply Permutation_app_tail. apply Permutation_app_comm. }
    pose proof (Permutation_NoDup Pq Nq) as Nq'.
    apply NoDup_app_iff in Nq' as (Nc' & Nq' & Dq).
    assert (El : length (u :: c) = length c') by (apply Permutation_length, NoDup_Permutation; auto).
    rewrite map_app. cbn [map]. rewrite El. apply Permutation_cons_app. rewrite <- map_app.
    apply IH; auto.
    + intros d Hd. apply Ep. simpl; auto.
    + intros d Hd. apply Eq. apply in_app_iff in Hd. apply in_app_iff. simpl. tauto.
    + intros w. split; intros Hw.
      * assert (Hq : In w (concat (q1 ++ c' :: q2))) by (apply S; cbn [concat]; apply in_app_iff; auto).
        apply (Permutation_in _ Pq), in_app_iff in Hq as [Hq|Hq]; auto.
        apply Same in Hq. exfalso. apply (Dp w); auto.
      * assert (Hq : In w (concat ((u :: c) :: p))).
        { apply S. apply (Permutation_in _ (Permutation_sym Pq)), in_app_iff. auto. }
        cbn [concat] in Hq. apply in_app_iff in Hq as [Hq|Hq]; auto.
        apply Same in Hq. exfalso. apply (Dq w); auto.
    + intros d x w Hd Hx Hw. apply Kp; simpl; auto. right. apply in_app_iff; auto.
    + intros d x w Hd Hx Hw. apply Kq; auto.
      * apply in_app_iff in Hd. apply in_app_iff. simpl. tauto.
      * apply (Permutation_in _ (Permutation_sym Pq)), in_app_iff. auto.
Qed.

Lemma count_permutation {X} (b : X -> bool) l l' : Permutation l l' -> count b l = count b l'.
Proof.
  unfold count. induction 1 as [|x l l' _ IH|x y l|l l' l'' _ IH1 _ IH2]; simpl; auto.
  - destruct (b x); simpl; auto.
  - destruct (b x), (b y); auto.
  - congruence.
Qed.

Lemma count_map {X Y} (b : Y -> bool) (k : X -> Y) l : count b (map k l) = count (fun x => b (k x)) l.
Proof. unfold count. induction l as [|x l IH]; simpl; auto. destruct (b (k x)); simpl; auto. Qed.

Lemma count_ext_in {X} (b c : X -> bool) l : (forall x, In x l -> b x = c x) -> count b l = count c l.
Proof. intros H. unfold count. rewrite (filter_ext_in _ _ _ H). auto. Qed.

Section Values2.
Context {T A : Type} {C : AdjContainer T A} {L : AdjLaws C}.
Context {T' A' : Type} {C' : AdjContainer T' A'} {L' : AdjLaws C'}.
Implicit Types (g : graph A) (h : graph A').

Lemma components_iso g h f f' : iso2 g h f f' -> connected_components h = connected_components g.
Proof.
  intros I. pose proof (i2_count I) as En.
  destruct (components_spec (i2_g I)) as (s & p & -> & Ss & Ps & Pc & Ne & K).
  destruct (components_spec (i2_h I)) as (s' & p' & -> & Ss' & Ps' & Pc' & Ne' & K').
  f_equal. apply sorted_perm_eq; auto. symmetry in Ps'. eapply perm_trans; [apply Permutation_sym, Ps'|].
  eapply perm_trans; [|apply Permutation_sym, Ps].
  rewrite En in *.
  replace (map (@length nat) p') with (map (@length nat) (map (map f') p')).
  2:{ rewrite map_map. apply map_ext. intros c. apply map_length. }
  assert (Pf : Permutation (concat (map (map f') p')) (seq 0 (vertex_count g))).
  { rewrite concat_map_map || rewrite <- concat_map. eapply perm_trans; [apply Permutation_map, Pc'|].
    pose proof (i2_perm (iso2_sym I)) as P. rewrite En in P. auto. }
  symmetry. apply (@classes_perm nat (joined (adj g))).
  - eapply Permutation_NoDup; [apply Permutation_sym, Pc|apply seq_NoDup].
  - eapply Permutation_NoDup; [apply Permutation_sym, Pf|apply seq_NoDup].
  - auto.
  - intros c Hc. apply in_map_iff in Hc as (d & <- & Hd). specialize (Ne' d Hd). destruct d; auto. discriminate.
  - intros w. split; intros Hw.
    + eapply Permutation_in; [apply Permutation_sym, Pf|]. apply (Permutation_in _ Pc Hw).
    + eapply Permutation_in; [apply Permutation_sym, Pc|]. apply (Permutation_in _ Pf Hw).
  - intros c u w Hc Hu Hw. apply K; auto. apply (Permutation_in _ Pc), in_seq in Hw. lia.
  - intros c u w Hc Hu Hw. apply in_map_iff in Hc as (d & <- & Hd).
    apply in_map_iff in Hu as (u' & <- & Hu).
    assert (Rg : forall x, In x d -> x < vertex_count g).
    { intros x Hx. assert (Hy : In x (concat p')) by (apply in_concat; eauto).
      apply (Permutation_in _ Pc'), in_seq in Hy. lia. }
    apply (Permutation_in _ Pf), in_seq in Hw.
    rewrite (i2_joined_iff I); [|apply (i2_lt' I); auto|lia].
    rewrite (i2_r I) by auto. rewrite <- (K' d u' (f w)); auto; [|apply (i2_lt I); lia].
    rewrite in_map_iff. split.
    + intros (y & Ey & Hy). subst w. rewrite (i2_r I) by auto. auto.
    + intros Hy. exists (f w). split; auto. apply (i2_l I). lia.
Qed.

(** ** The q-core *)

Lemma dense_fwd g h f f' q S : iso2 g h f f' -> q_dense g q S ->
  q_dense h q (fun v => (v <? vertex_count g) && S (f' v)).
Proof.
  intros I H v Hv. apply andb_true_iff in Hv as [Hv Hs]. apply Nat.ltb_lt in Hv.
  rewrite (i2_count I). split; auto. destruct (H _ Hs) as [Hlt Hq].
  eapply Nat.le_trans; [apply Hq|].
  pose proof (i2_nbrs I Hlt) as P. rewrite (i2_r I Hv) in P. rewrite <- (count_permutation _ P), count_map.
  erewrite count_ext_in; [apply le_n|]. intros x Hx. cbn beta.
  destruct (adj_lt I Hx) as [_ Hxn]. rewrite (i2_l I Hxn).
  rewrite (proj2 (Nat.ltb_lt _ _) (i2_lt I Hxn)). auto.
Qed.

Lemma core_fwd g h f f' q v : iso2 g h f f' -> in_core g q v ->
  v < vertex_count g /\ in_core h q (f v).
Proof.
  intros I (S & D & Hv). pose proof (proj1 (D v Hv)) as Hlt. split; auto.
  exists (fun v => (v <? vertex_count g) && S (f' v)). split; [apply (dense_fwd I D)|].
  rewrite (i2_l I Hlt), Hv, (proj2 (Nat.ltb_lt _ _) (i2_lt I Hlt)). auto.
Qed.

Lemma core_edge_fwd g h f f' q a b : iso2 g h f f' -> a < vertex_count g -> core_edge g q a b ->
  b < vertex_count g /\ core_edge h q (f a) (f b).
Proof.
  intros I Ha (E & Ca & Cb). destruct (i2_step I Ha E) as [Hb E'].
  split; auto. split; auto. split; eapply core_fwd; eauto.
Qed.
End Values2.

Section Values3.
Context {T A : Type} {C : AdjContainer T A} {L : AdjLaws C}.
Context {T' A' : Type} {C' : AdjContainer T' A'} {L' : AdjLaws C'}.
Implicit Types (g : graph A) (h : graph A').

Lemma core_component_fwd g h f f' q v comp : iso2 g h f f' -> in_core g q v ->
  is_component (core_edge g q) v comp -> is_component (core_edge h q) (f v) (map f comp).
Proof.
  intros I Cv [N H]. pose proof (proj1 (core_fwd I Cv)) as Hv.
  assert (Fw : forall w, joined (core_edge g q) v w -> w < vertex_count g /\ joined (core_edge h q) (f v) (f w)).
  { intros w [k Hk].
    destruct (@walk_map _ _ _ (core_edge h q) (fun a => a < vertex_count g) f v w k
                (fun a b Ha E => core_edge_fwd I Ha E) Hv Hk) as [Hw Hk'].
    split; auto. exists k; auto. }
  pose proof (iso2_sym I) as J. pose proof (i2_count I) as En.
  assert (Hfv : f v < vertex_count h) by (rewrite En; apply (i2_lt I Hv)).
  split.
  - apply NoDup_map_in; auto. intros x y Hx Hy. apply H in Hx, Hy. apply Fw in Hx, Hy.
    apply (iso_inj (i2_fwd I)); tauto.
  - intros w. rewrite in_map_iff. split.
    + intros (x & <- & Hx). apply H in Hx. apply Fw in Hx. tauto.
    + intros [k Hk].
      destruct (@walk_map _ _ _ (core_edge g q) (fun a => a < vertex_count h) f' (f v) w k
                  (fun a b Ha E => core_edge_fwd J Ha E) Hfv Hk) as [Hw Hk'].
      rewrite (i2_l I Hv) in Hk'. exists (f' w). split.
      * apply (i2_r I). rewrite <- En. auto.
      * apply H. exists k; auto.
Qed.

Lemma q_core_le g h f f' q m m' : iso2 g h f f' ->
  q_core g q = Done (Some m) -> q_core h q = Done (Some m') -> m <= m'.
Proof.
  intros I E E'.
  destruct (q_core_spec q (i2_g I)) as [[_ K]|(_ & _ & k & K & _ & Hm)]; rewrite K in E; [discriminate|].
  destruct (q_core_spec q (i2_h I)) as [[_ K']|(_ & _ & k' & K' & Hle & _)]; rewrite K' in E'; [discriminate|].
  injection E as ->. injection E' as ->.
  destruct Hm as [[-> _]|(v & comp & Cv & Hc & <-)]; [lia|].
  rewrite <- (map_length f comp). apply (Hle (f v)).
  - apply (core_fwd I Cv).
  - apply (core_component_fwd I Cv Hc).
Qed.
End Values3.

Section Values4.
Context {T A : Type} {C : AdjContainer T A} {L : AdjLaws C}.
Context {T' A' : Type} {C' : AdjContainer T' A'} {L' : AdjLaws C'}.
Implicit Types (g : graph A) (h : graph A').

Lemma q_core_iso g h f f' q : iso2 g h f f' -> q_core h q = q_core g q.
Proof.
  intros I. pose proof (i2_count I) as En.
  pose proof (fun m m' => q_core_le (q := q) (m := m) (m' := m') I) as F.
  pose proof (fun m m' => q_core_le (q := q) (m := m) (m' := m') (iso2_sym I)) as B.
  destruct (q_core_spec q (i2_g I)) as [[? K]|(? & ? & k & K & _)];
  destruct (q_core_spec q (i2_h I)) as [[? K']|(? & ? & k' & K' & _)]; rewrite K, K'; auto; try lia.
  do 2 f_equal. apply Nat.le_antisymm; auto.
Qed.

(** ** Transitivity *)

Lemma sum_over_iso g h f f' (F : nat -> nat) : iso2 g h f f' ->
  sum_over F (seq 0 (vertex_count h)) = sum_over (fun i => F (f i)) (seq 0 (vertex_count g)).
Proof.
  intros I. rewrite (i2_count I), <- (sum_over_perm F (i2_perm I)), sum_over_map. auto.
Qed.

Lemma adjb_iso g h f f' i j : iso2 g h f f' -> i < vertex_count g -> j < vertex_count g ->
  adjb h (f i) (f j) = adjb g i j.
Proof.
  intros I Hi Hj. apply eq_true_iff_eq. rewrite !adjb_adj. symmetry. apply (iso_adj (i2_fwd I)); auto.
Qed.

Lemma eqb_iso g h f f' i j : iso2 g h f f' -> i < vertex_count g -> j < vertex_count g ->
  (f i =? f j) = (i =? j).
Proof.
  intros I Hi Hj. apply eq_true_iff_eq. rewrite !Nat.eqb_eq. split; [|congruence].
  apply (iso_inj (i2_fwd I)); auto.
Qed.

Lemma transitivity_iso g h f f' : iso2 g h f f' -> Transitivity.transitivity h = Transitivity.transitivity g.
Proof.
  intros I. rewrite (transitivity_spec (i2_g I)), (transitivity_spec (i2_h I)), !count_triples.
  do 2 f_equal; rewrite (sum_over_iso _ I); apply sum_over_ext; intros a Ha;
    rewrite (sum_over_iso _ I); apply sum_over_ext; intros b Hb;
    rewrite (sum_over_iso _ I); apply sum_over_ext; intros c Hc; f_equal;
    apply in_seq in Ha, Hb, Hc; simpl;
    rewrite ?(eqb_iso I), ?(adjb_iso I) by lia; auto.
Qed.

(** ** Closeness *)

Lemma dists_fun g i d d' : simple_graph g -> i < vertex_count g -> dists g i d -> dists g i d' ->
  forall v, v < vertex_count g -> d v = d' v.
Proof.
  intros W Hi [H1 H2] [H1' H2'] v Hv.
  destruct (dfs_index_spec i W) as (is & _ & _ & R & _).
  destruct (in_dec Nat.eq_dec v (map fst is)) as [K|K]; rewrite R in K.
  - eapply is_dist_fun; [apply H1|apply H1']; tauto.
  - rewrite H2, H2'; tauto.
Qed.

Lemma dists_iso g h f f' i d : iso2 g h f f' -> i < vertex_count g ->
  dists h (f i) d -> dists g i (fun v => d (f v)).
Proof.
  intros I Hi [H1 H2]. pose proof (i2_count I) as En. split; intros v Hv Hj.
  - apply (i2_dist _ I); auto. apply H1; [rewrite En; apply (i2_lt I Hv)|]. apply (i2_joined_iff I); auto.
  - apply H2; [rewrite En; apply (i2_lt I Hv)|]. rewrite <- (i2_joined_iff I); auto.
Qed.

Lemma closeness_iso p g h f f' : iso2 g h f f' -> 0 < vertex_count g ->
  exists l l', closeness_centrality p g = Done l /\ closeness_centrality p h = Done l' /\
    length l = vertex_count g /\
    forall v, v < vertex_count g -> nth_error l' (f v) = nth_error l v.
Proof.
  intros I H0. pose proof (i2_count I) as En.
  destruct (closeness_spec p (i2_g I) H0) as (l & -> & Ll & H).
  destruct (closeness_spec p (i2_h I)) as (l' & -> & Ll' & H'); [lia|].
  exists l, l'. splits; auto. intros v Hv.
  destruct (H v Hv) as (d & Hd & ->).
  destruct (H' (f v)) as (d' & Hd' & ->); [rewrite En; apply (i2_lt I Hv)|].
  assert (Es : sum_over d' (seq 0 (vertex_count h)) = sum_over d (seq 0 (vertex_count g))).
  { rewrite (sum_over_iso _ I). apply sum_over_ext. intros x Hx. apply in_seq in Hx.
    apply (dists_fun (i2_g I) Hv (dists_iso I Hv Hd') Hd). lia. }
  unfold sum_over in Es. rewrite Es, En. auto.
Qed.

(** ** Load *)

Lemma distances_iso g h f f' D : iso2 g h f f' -> distances h D ->
  forall s v d, s < vertex_count g -> v < vertex_count g ->
    (D (f s) (f v) = Some d <-> is_dist (adj g) s v d).
Proof.
  intros I H s v d Hs Hv. rewrite (i2_dist _ I) by auto. apply H.
  rewrite (i2_count I). apply (i2_lt I Hs).
Qed.

Lemma D_iso g h f f' D D' s v : iso2 g h f f' -> distances g D -> distances h D' ->
  s < vertex_count g -> v < vertex_count g -> D' (f s) (f v) = D s v.
Proof.
  intros I H H' Hs Hv. pose proof (distances_iso I H') as K.
  destruct (D s v) as [d|] eqn:E.
  - apply K; auto. apply H; auto.
  - destruct (D' (f s) (f v)) as [d|] eqn:E'; auto. apply K in E'; auto. apply H in E'; auto. congruence.
Qed.

Lemma filter_map_perm {X Y} (k : X -> Y) (b : Y -> bool) (c : X -> bool) l m :
  Permutation (map k l) m -> (forall x, In x l -> b (k x) = c x) ->
  Permutation (filter b m) (map k (filter c l)).
Proof.
  intros P E. eapply perm_trans.
  - apply Permutation_sym. instantiate (1 := filter b (map k l)). clear - P.
    induction P as [|x l1 l2 _ IH|x y l1|l1 l2 l3 _ IH1 _ IH2]; simpl; auto.
    + destruct (b x); auto.
    + destruct (b x), (b y); auto. apply perm_swap.
    + eapply perm_trans; eauto.
  - clear P. induction l as [|x l IH]; simpl; auto.
    rewrite E by (simpl; auto). destruct (c x); simpl; rewrite IH; auto; intros; apply E; simpl; auto.
Qed.

Lemma inward_iso g h f f' D D' s v : iso2 g h f f' -> distances g D -> distances h D' ->
  s < vertex_count g -> v < vertex_count g ->
  Permutation (inward h D' (f s) (f v)) (map f (inward g D s v)).
Proof.
  intros I H H' Hs Hv. apply filter_map_perm; [apply (i2_nbrs I Hv)|].
  intros x Hx. destruct (adj_lt I Hx) as [_ Hxn]. unfold nearer.
  rewrite !(D_iso I H H') by auto. auto.
Qed.

Lemma outward_iso g h f f' D D' s v : iso2 g h f f' -> distances g D -> distances h D' ->
  s < vertex_count g -> v < vertex_count g ->
  Permutation (outward h D' (f s) (f v)) (map f (outward g D s v)).
Proof.
  intros I H H' Hs Hv. apply filter_map_perm; [apply (i2_nbrs I Hv)|].
  intros x Hx. destruct (adj_lt I Hx) as [_ Hxn]. unfold nearer.
  rewrite !(D_iso I H H') by auto. auto.
Qed.

Lemma flow_iso g h f f' D D' F : iso2 g h f f' -> distances g D -> distances h D' ->
  flow h D' F -> flow g D (fun s v => F (f s) (f v)).
Proof.
  intros I H H' HF s v Hs Hv.
  assert (Hvn : v < vertex_count g).
  { destruct (D s v) as [d|] eqn:E; [|congruence]. apply H in E; auto.
    apply (i2_walk I Hs (proj1 E)). }
  rewrite (HF (f s) (f v)).
  - rewrite (qsum_perm _ (outward_iso I H H' Hs Hvn)), qsum_map.
    apply Qplus_comp; [reflexivity|]. apply qsum_ext. intros w Hw.
    apply filter_In in Hw as [Hw _]. destruct (adj_lt I Hw) as [_ Hwn].
    rewrite (Permutation_length (inward_iso I H H' Hs Hwn)), map_length. reflexivity.
  - rewrite (i2_count I). apply (i2_lt I Hs).
  - rewrite (D_iso I H H' Hs Hvn). auto.
Qed.

Lemma load_iso g h f f' b : iso2 g h f f' ->
  exists l l', vertex_load g b = Done l /\ vertex_load h b = Done l' /\
    length l = vertex_count g /\ length l' = vertex_count g /\
    forall v, v < vertex_count g -> (nth (f v) l' 0 == nth v l 0)%Q.
Proof.
  intros I. pose proof (i2_count I) as En.
  destruct (load_value b (i2_g I)) as (D & F & l & HD & HF & E & Ll & H).
  destruct (load_value b (i2_h I)) as (D' & F' & l' & HD' & HF' & E' & Ll' & H').
  exists l, l'. splits; auto; try congruence.
  intros v Hv. rewrite (H v), (H' (f v)), En.
  pose proof (flow_unique (i2_g I) HD (flow_iso I HD HD' HF') HF) as U. cbn beta in U.
  apply Qplus_comp; [|apply Qopp_comp].
  - rewrite <- (qsum_perm _ (i2_perm I)), qsum_map. apply qsum_ext. intros s Hs. apply in_seq in Hs.
    unfold through. rewrite (eqb_iso I) by lia. destruct (s =? v); [reflexivity|].
    rewrite (D_iso I HD HD') by lia. destruct (D s v) eqn:Ed; [|reflexivity].
    apply U; [lia|congruence].
  - destruct b; [reflexivity|].
    rewrite <- (count_permutation _ (i2_perm I)), count_map.
    erewrite count_ext_in; [reflexivity|]. intros s Hs. apply in_seq in Hs. unfold other.
    rewrite (eqb_iso I), (D_iso I HD HD') by lia. auto.
Qed.

(** ** The degrees once more *)

Lemma degree_counts g h f f' (b : nat -> bool) : iso2 g h f f' ->
  count (fun i => b (length (nbrs h i))) (seq 0 (vertex_count h)) =
  count (fun i => b (length (nbrs g i))) (seq 0 (vertex_count g)).
Proof.
  intros I. rewrite (i2_count I), <- (count_permutation _ (i2_perm I)), count_map.
  apply count_ext_in. intros i Hi. apply in_seq in Hi. rewrite (i2_degree I) by lia. auto.
Qed.

Lemma leaf_count_iso g h f f' : iso2 g h f f' -> leaf_count h = leaf_count g.
Proof.
  intros I. rewrite (leaf_count_spec (i2_g I)), (leaf_count_spec (i2_h I)).
  apply (degree_counts (fun d => d =? 1) I).
Qed.

Lemma degree_iso g h f f' i : iso2 g h f f' -> i < vertex_count g -> degree h (f i) = degree g i.
Proof.
  intros I Hi. rewrite !degree_spec, (i2_count I) by apply I.
  rewrite (proj2 (Nat.ltb_lt _ _) Hi), (proj2 (Nat.ltb_lt _ _) (i2_lt I Hi)), (i2_degree I Hi). auto.
Qed.

Lemma histogram_iso g h f f' : iso2 g h f f' -> degree_histogram h = degree_histogram g.
Proof.
  intros I. pose proof (i2_count I) as En.
  destruct (Nat.eq_dec (vertex_count g) 0) as [Z|Z].
  { rewrite (degree_histogram_empty (i2_g I) Z), (degree_histogram_empty (i2_h I)); auto. congruence. }
  destruct (degree_histogram_spec (i2_g I) Z) as (lo & c & -> & Nc & (x & Hx & Ex) & (y & Hy & Ey) & R & K).
  destruct (degree_histogram_spec (i2_h I)) as (lo' & c' & -> & Nc' & (x' & Hx' & Ex') & (y' & Hy' & Ey') & R' & K');
    [congruence|].
  assert (M : forall i, i < vertex_count g -> lo' <= length (nbrs g i) < lo' + length c').
  { intros i Hi. rewrite <- (i2_degree I Hi). apply R'. rewrite En. apply (i2_lt I Hi). }
  assert (M' : forall i, i < vertex_count h -> lo <= length (nbrs h i) < lo + length c).
  { intros i Hi. rewrite En in Hi. rewrite <- (i2_r I Hi), (i2_degree I (i2_lt' I Hi)).
    apply R. apply (i2_lt' I Hi). }
  assert (P : length c <> 0) by (destruct c; simpl; [congruence|lia]).
  assert (P' : length c' <> 0) by (destruct c'; simpl; [congruence|lia]).
  pose proof (M x Hx). pose proof (M y Hy). pose proof (M' x' Hx'). pose proof (M' y' Hy').
  assert (El : lo' = lo) by lia. assert (Ec : length c' = length c) by lia. rewrite El in *.
  do 2 f_equal. apply list_ext. intros i. destruct (Nat.lt_ge_cases i (length c)) as [Hi|Hi].
  - specialize (K (lo + i)). specialize (K' (lo + i)).
    replace (lo + i - lo) with i in * by lia. rewrite K, K' by lia.
    f_equal. apply (degree_counts (fun d => d =? lo + i) I).
  - rewrite (proj2 (nth_error_None c i)), (proj2 (nth_error_None c' i)) by lia. auto.
Qed.
End Values4.
