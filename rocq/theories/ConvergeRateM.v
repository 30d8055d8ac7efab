(** How fast the chain of [ErEnsembleM] forgets its start. *)
From Verif Require Import Base BaseFacts Sums Containers ContainerSpec ContainerFacts Graph GraphSpec GraphFacts GraphOps
  Rng RngFacts Markov ErM ErMSpec ErMFacts UniformSpec UniformFacts BalanceSpec BalanceFacts BalanceFixed PlaceFacts
  SurelyFacts FairSpec ConvergeSpec ConvergeFacts ConvergeErM ConvergeSwitch ConvergeRate.
From Coq Require Import Factorial.
Set Implicit Arguments.
Unset Strict Implicit.

Fixpoint idx (l : list (nat * nat)) (a : nat * nat) : nat :=
  match l with
  | [] => 0
  | x :: l => if pair_dec x a then 0 else S (idx l a)
  end.

Lemma idx_nth l a : In a l -> nth_error l (idx l a) = Some a.
Proof.
  induction l as [|x l IH]; intros H; [destruct H|]. cbn [idx]. destruct (pair_dec x a) as [->|N]; auto.
  destruct H as [->|H]; [congruence|]. cbn [nth_error]. auto.
Qed.

Lemma idx_lt l a : In a l -> idx l a < length l.
Proof. intros H. apply nth_error_Some. rewrite idx_nth by auto. discriminate. Qed.

Lemma sum_idx l : NoDup l -> forall F, sum_over F (seq 0 (length l)) = sum_over (fun a => F (idx l a)) l.
Proof.
  induction 1 as [|x l Nx N IH]; intros F; auto. cbn [length seq]. rewrite !sum_over_cons. cbn [idx].
  destruct (pair_dec x x); [|congruence]. f_equal. rewrite <- seq_shift, sum_over_map, IH. apply sum_over_ext. intros a Ha.
  destruct (pair_dec x a); [subst; contradiction|]. auto.
Qed.

Section Rate.
Context {T : Type}.
Variables (p : profile) (n m : nat).
Local Notation K := (n * (n - 1) / 2 - m).
Local Notation D := (rolls [m; K]).
Local Notation ok := (erm_ok (T := T) n m).
Local Notation go := (nxt (erm_m_step (T := T) p)).

Variable f : (nat -> nat -> bool) -> bool.
Hypothesis f_ext : forall A B, (forall i j, i < j -> j < n -> A i j = B i j) -> f A = f B.
Local Notation P := (fun s : er_m T => f (adjb (erm_graph s))).
Local Notation W := (ways (erm_m_step p) D P).

Definition has (s : er_m T) (q : nat * nat) : Prop := adj (erm_graph s) (fst q) (snd q).
Definition inside (q : nat * nat) : Prop := fst q < snd q /\ snd q < n.

Lemma has_current s q : ok s -> In q (erm_current s) <-> inside q /\ has s q.
Proof.
  intros O. destruct q as [i j]. rewrite (proj2 (eo_current O) i j). unfold inside, has. cbn [fst snd].
  split; [|tauto]. intros [H A]. splits; auto. rewrite <- (eo_vertices O). apply (adj_lt (eo_simple O) A).
Qed.

Lemma has_possible s q : ok s -> In q (erm_possible s) <-> inside q /\ ~ has s q.
Proof. intros O. destruct q as [i j]. rewrite (proj2 (eo_possible O) i j). unfold inside, has. cbn [fst snd]. tauto. Qed.

(** The step that moves [a] to [b]. *)
Definition tr (s : er_m T) (a b : nat * nat) : er_m T := go s [idx (erm_current s) a; idx (erm_possible s) b].

Lemma tr_spec s a b : ok s -> In a (erm_current s) -> In b (erm_possible s) ->
  ok (tr s a b) /\ forall q, inside q -> (has (tr s a b) q <-> (has s q /\ q <> a) \/ q = b).
Proof.
  intros O Ha Hb. pose proof (idx_nth Ha) as Ea. pose proof (idx_nth Hb) as Eb.
  destruct (@erm_m_step_at T p n m s _ _ _ _ O Ea Eb) as (e1 & E1 & O1 & _ & Ad).
  unfold tr, nxt. rewrite E1. split; auto. intros [q1 q2] [Hq _]. unfold has. cbn [fst snd] in *. apply Ad. auto.
Qed.

Lemma sum_steps (F : er_m T -> nat) s : ok s ->
  sum_over (fun d => F (go s d)) D = sum_over (fun a => sum_over (fun b => F (tr s a b)) (erm_possible s)) (erm_current s).
Proof.
  intros O. destruct (erm_ok_lengths O) as (L1 & L2 & L3).
  cbn [rolls]. rewrite sum_over_flat_map.
  rewrite (@sum_over_ext _ _ (fun x => sum_over (fun y => F (go s [x; y])) (seq 0 K))).
  2:{ intros x _. rewrite sum_over_map, sum_over_flat_map. apply sum_over_ext. intros y _. cbn [map]. rewrite sum_over_one. auto. }
  assert (Lc : length (erm_current s) = m) by lia. assert (Lp : length (erm_possible s) = K) by lia.
  rewrite <- Lc at 1. rewrite (sum_idx (proj1 (eo_current O)) (fun x => sum_over (fun y => F (go s [x; y])) (seq 0 K))).
  apply sum_over_ext. intros a _. rewrite <- Lp. apply (sum_idx (proj1 (eo_possible O)) (fun y => F (go s [idx (erm_current s) a; y]))).
Qed.

Lemma P_same x y : ok x -> ok y -> (forall q, inside q -> (has x q <-> has y q)) -> P x = P y.
Proof using f_ext.
  intros Ox Oy H. apply f_ext. intros i j Hi Hj. apply eq_true_iff_eq. rewrite !adjb_adj. apply (H (i, j)). split; auto.
Qed.

Lemma W_same k x y : ok x -> ok y -> (forall q, inside q -> (has x q <-> has y q)) -> W k x = W k y.
Proof using f_ext.
  intros Ox Oy H.
  apply (@ways_eqv _ _ (erm_m_step p) D ok (fun x y => same_edges (erm_graph x) (erm_graph y)) (@m_step_draw T p n m)
    (@meqv_refl T p n m) (@meqv_sym T p n m) (@meqv_trans T p n m) (@mlump T p n m)); auto.
  - intros u v Ou Ov E. apply P_same; auto. intros [i j] [Hi Hj]. apply (eqv_spec p Ou Ov); auto.
  - apply (eqv_spec p Ox Oy). intros i j Hi Hj. apply (H (i, j)). split; auto.
Qed.

(** The states differ in one edge. *)
Definition beside (x y : er_m T) (u v : nat * nat) : Prop :=
  inside u /\ inside v /\ has x u /\ ~ has y u /\ has y v /\ ~ has x v /\
  forall q, inside q -> q <> u -> q <> v -> (has x q <-> has y q).

Local Notation miss := (1 + (m - 1) * (K - 1)).

Lemma beside_step k : forall x y u v, ok x -> ok y -> beside x y u v -> W k x <= W k y + miss ^ k.
Proof using f_ext.
  induction k as [|k IH]; intros x y u v Ox Oy (Iu & Iv & Xu & Yu & Yv & Xv & Ot).
  - cbn [ways Nat.pow]. destruct (f _), (f _); cbn [b2n]; lia.
  - cbn [ways]. rewrite !(sum_steps (W k)) by auto.
    assert (Nuv : u <> v) by (intros ->; auto).
    set (Z := filter (fun q => if pair_dec q u then false else true) (erm_current x)).
    set (R := filter (fun q => if pair_dec q v then false else true) (erm_possible x)).
    assert (InZ : forall q, In q Z <-> inside q /\ has x q /\ q <> u).
    { intros q. unfold Z. rewrite filter_In, has_current by auto. destruct (pair_dec q u); intuition congruence. }
    assert (InR : forall q, In q R <-> inside q /\ ~ has x q /\ q <> v).
    { intros q. unfold R. rewrite filter_In, has_possible by auto. destruct (pair_dec q v); intuition congruence. }
    assert (NZ : NoDup Z) by (apply NoDup_filter, (eo_current Ox)).
    assert (NR : NoDup R) by (apply NoDup_filter, (eo_possible Ox)).
    assert (YZ : forall q, In q Z -> has y q /\ q <> v).
    { intros q Hq. apply InZ in Hq as (I & H & N). assert (q <> v) by (intros ->; auto). split; auto. apply Ot; auto. }
    assert (YR : forall q, In q R -> ~ has y q /\ q <> u).
    { intros q Hq. apply InR in Hq as (I & H & N). assert (q <> u) by (intros ->; auto). split; auto. rewrite <- Ot; auto. }
    assert (Dec : forall q, {q = u} + {q <> u}) by (intros; apply pair_dec).
    assert (Dec' : forall q, {q = v} + {q <> v}) by (intros; apply pair_dec).
    assert (P1 : Permutation (erm_current x) (u :: Z)).
    { apply NoDup_Permutation; [apply (eo_current Ox)|constructor; auto; rewrite InZ; tauto|]. intros q. cbn [In].
      rewrite has_current, InZ by auto. destruct (Dec q) as [->|]; intuition congruence. }
    assert (P2 : Permutation (erm_possible x) (v :: R)).
    { apply NoDup_Permutation; [apply (eo_possible Ox)|constructor; auto; rewrite InR; tauto|]. intros q. cbn [In].
      rewrite has_possible, InR by auto. destruct (Dec' q) as [->|]; intuition congruence. }
    assert (P3 : Permutation (erm_current y) (v :: Z)).
    { apply NoDup_Permutation; [apply (eo_current Oy)|constructor; auto; intros Q; apply YZ in Q; tauto|]. intros q. cbn [In].
      rewrite has_current by auto. split.
      - intros [I H]. destruct (Dec' q) as [->|N]; auto. right. apply InZ. destruct (Dec q) as [->|N']; [tauto|].
        splits; auto. apply Ot; auto.
      - intros [<-|Hq]; auto. split; [apply InZ; auto|apply YZ; auto]. }
    assert (P4 : Permutation (erm_possible y) (u :: R)).
    { apply NoDup_Permutation; [apply (eo_possible Oy)|constructor; auto; intros Q; apply YR in Q; tauto|]. intros q. cbn [In].
      rewrite has_possible by auto. split.
      - intros [I H]. destruct (Dec q) as [->|N]; auto. right. apply InR. destruct (Dec' q) as [->|N']; [tauto|].
        splits; auto. rewrite Ot; auto.
      - intros [<-|Hq]; auto. split; [apply InR; auto|apply YR; auto]. }
    assert (Cx : forall q, q = u \/ In q Z -> In q (erm_current x)).
    { intros q H. apply (Permutation_in _ (Permutation_sym P1)). destruct H as [->|]; simpl; auto. }
    assert (Px : forall q, q = v \/ In q R -> In q (erm_possible x)).
    { intros q H. apply (Permutation_in _ (Permutation_sym P2)). destruct H as [->|]; simpl; auto. }
    assert (Cy : forall q, q = v \/ In q Z -> In q (erm_current y)).
    { intros q H. apply (Permutation_in _ (Permutation_sym P3)). destruct H as [->|]; simpl; auto. }
    assert (Py : forall q, q = u \/ In q R -> In q (erm_possible y)).
    { intros q H. apply (Permutation_in _ (Permutation_sym P4)). destruct H as [->|]; simpl; auto. }
    rewrite (sum_over_perm (fun a => sum_over (fun b => W k (tr x a b)) (erm_possible x)) P1).
    rewrite (sum_over_perm (fun a => sum_over (fun b => W k (tr y a b)) (erm_possible y)) P3).
    rewrite (@sum_over_ext _ (fun a => sum_over (fun b => W k (tr x a b)) (erm_possible x))
      (fun a => W k (tr x a v) + sum_over (fun b => W k (tr x a b)) R)).
    2:{ intros a _. rewrite (sum_over_perm _ P2), sum_over_cons. auto. }
    rewrite (@sum_over_ext _ (fun a => sum_over (fun b => W k (tr y a b)) (erm_possible y))
      (fun a => W k (tr y a u) + sum_over (fun b => W k (tr y a b)) R)).
    2:{ intros a _. rewrite (sum_over_perm _ P4), sum_over_cons. auto. }
    rewrite !sum_over_cons, !sum_over_plus.
    assert (A1 : W k (tr x u v) <= W k (tr y v u) + miss ^ k).
    { destruct (@tr_spec x u v) as [O1 S1]; auto. destruct (@tr_spec y v u) as [O2 S2]; auto.
      apply (IH _ _ v u); auto. unfold beside. rewrite !S1, !S2 by auto. splits; auto; try (intuition congruence).
      intros q I N N'. rewrite S1, S2, (Ot q I N' N) by auto. intuition congruence. }
    assert (A2 : sum_over (fun b => W k (tr x u b)) R = sum_over (fun b => W k (tr y v b)) R).
    { apply sum_over_ext. intros b Hb. destruct (@tr_spec x u b) as [O1 S1]; auto. destruct (@tr_spec y v b) as [O2 S2]; auto.
      apply W_same; auto. intros q I. rewrite S1, S2 by auto. destruct (Dec q) as [->|N]; [|destruct (Dec' q) as [->|N']].
      - apply YR in Hb. intuition congruence.
      - apply InR in Hb. intuition congruence.
      - rewrite (Ot q I N N'). intuition congruence. }
    assert (A3 : sum_over (fun a => W k (tr x a v)) Z = sum_over (fun a => W k (tr y a u)) Z).
    { apply sum_over_ext. intros a Ha. destruct (@tr_spec x a v) as [O1 S1]; auto. destruct (@tr_spec y a u) as [O2 S2]; auto.
      apply W_same; auto. intros q I. rewrite S1, S2 by auto. destruct (Dec q) as [->|N]; [|destruct (Dec' q) as [->|N']].
      - apply InZ in Ha. intuition congruence.
      - apply YZ in Ha. intuition congruence.
      - rewrite (Ot q I N N'). intuition congruence. }
    assert (A4 : sum_over (fun a => sum_over (fun b => W k (tr x a b)) R) Z <=
      sum_over (fun a => sum_over (fun b => W k (tr y a b)) R) Z + length Z * (length R * miss ^ k)).
    { rewrite <- sum_over_const, <- sum_over_plus. apply sum_over_le. intros a Ha.
      rewrite <- sum_over_const, <- sum_over_plus. apply sum_over_le. intros b Hb.
      destruct (@tr_spec x a b) as [O1 S1]; auto. destruct (@tr_spec y a b) as [O2 S2]; auto.
      pose proof (proj1 (InZ a) Ha) as (Ia & Xa & Na). pose proof (YZ a Ha) as [Ya Na'].
      pose proof (proj1 (InR b) Hb) as (Ib & Xb & Nb). pose proof (YR b Hb) as [Yb Nb'].
      apply (IH _ _ u v); auto. unfold beside. rewrite !S1, !S2 by auto. splits; auto; try (intuition congruence).
      intros q I N N'. rewrite S1, S2, (Ot q I N N') by auto. tauto. }
    assert (Lz : length Z = m - 1).
    { apply Permutation_length in P1. cbn [length] in P1. destruct (erm_ok_lengths Ox) as (L1 & L2 & L3). lia. }
    assert (Lr : length R = K - 1).
    { apply Permutation_length in P2. cbn [length] in P2. destruct (erm_ok_lengths Ox) as (L1 & L2 & L3). lia. }
    rewrite Lz, Lr in A4. cbn [Nat.pow]. set (q := miss ^ k) in *. clearbody q.
    clear IH. set (k0 := K - 1) in *. clearbody k0.
    set (s1 := W k (tr x u v)) in *. set (s2 := W k (tr y v u)) in *.
    set (s3 := sum_over _ Z) in *. set (s4 := sum_over (fun b => W k (tr y v b)) R) in *. 
    clearbody s1 s2. nia.
Qed.

Lemma far x y c : ok x -> ok y -> missing (erm_graph x) (erm_graph y) = c -> forall k, W k x <= W k y + c * miss ^ k.
Proof using f_ext.
  intros Ox Oy. revert x Ox. induction c as [|c IH]; intros x Ox E k.
  - assert (Q : W k x = W k y); [|lia]. apply W_same; auto. intros [i j] [Hi Hj].
    apply (proj1 (eqv_spec p Ox Oy) (missing_zero p Ox Oy E)); auto.
  - destruct (closer_by p Ox Oy E) as (d & Hd & O' & E' & a & b & Ha & Ha' & Xa & Hb & Hb' & Xb & Ad).
    assert (Nab : a <> b) by (intros ->; auto).
    assert (Q : W k x <= W k (go x d) + miss ^ k).
    { apply (@beside_step k x (go x d) a b); auto. unfold beside, inside, has. rewrite !Ad by auto. splits; auto; try tauto.
      intros q [I _] N N'. rewrite Ad by auto. tauto. }
    pose proof (IH (go x d) O' E' k). lia.
Qed.

Lemma joined s t : ok s -> joins n t (erm_graph s) = true <-> forall i j, i < j -> j < n -> adjb (erm_graph s) i j = t i j.
Proof using.
  intros O. rewrite joins_iff. split; intros H.
  - intros i j Hi Hj. apply (H (i, j)). apply In_pairs_below. auto.
  - intros [i j] I. apply In_pairs_below in I. apply H; tauto.
Qed.

Lemma wparts k : forall s, ok s -> W k s = sum_over (fun l => b2n (f (member l)) *
  ways (erm_m_step p) D (fun s => joins n (member l) (erm_graph s)) k s) (sublists (pairs_below n)).
Proof using f_ext.
  induction k as [|k IH]; intros s O; cbn [ways].
  - set (l0 := filter (fun ij => adjb (erm_graph s) (fst ij) (snd ij)) (pairs_below n)).
    assert (M0 : forall i j, i < j -> j < n -> adjb (erm_graph s) i j = member l0 i j).
    { intros i j Hi Hj. apply eq_true_iff_eq. rewrite member_In. unfold l0. rewrite filter_In, In_pairs_below.
      replace (Nat.min i j) with i by lia. replace (Nat.max i j) with j by lia. cbn [fst snd]. tauto. }
    rewrite (@sum_over_ext _ _ (fun l => b2n (f (adjb (erm_graph s))) * b2n (if list_eq_dec pair_dec l l0 then true else false))).
    + rewrite sum_over_mul, <- length_filter_sum, (@filter_single _ _ l0).
      * cbn [length]. lia.
      * apply sublists_NoDup, NoDup_pairs_below.
      * apply filter_sublist.
      * destruct (list_eq_dec _ l0 l0); congruence.
      * intros l _. destruct (list_eq_dec _ l l0); congruence.
    + intros l Hl. destruct (list_eq_dec _ l l0) as [->|Ne]; cbn [b2n].
      * rewrite (@f_ext (adjb (erm_graph s)) (member l0)) by auto. replace (joins n (member l0) (erm_graph s)) with true; auto.
        symmetry. apply joined; auto.
      * replace (joins n (member l) (erm_graph s)) with false; [cbn; lia|]. symmetry. apply not_true_iff_false. rewrite joined by auto.
        intros E. apply Ne. symmetry. apply sublist_select; auto; [apply NoDup_pairs_below|]. intros [i j] I.
        apply In_pairs_below in I as I'. cbn [fst snd]. rewrite E by lia. rewrite member_In.
        replace (Nat.min i j) with i by lia. replace (Nat.max i j) with j by lia. tauto.
  - rewrite (@sum_over_ext _ _ (fun d => sum_over (fun l => b2n (f (member l)) *
      ways (erm_m_step p) D (fun s => joins n (member l) (erm_graph s)) k (go s d)) (sublists (pairs_below n))))
      by (intros d Hd; apply IH, (nxt_inv (@m_step_draw T p n m) O Hd)).
    rewrite sum_over_exchange. apply sum_over_ext. intros l _. apply sum_over_mul.
Qed.

Lemma never t k : tcount n t <> m -> forall s, ok s -> ways (erm_m_step p) D (fun s => joins n t (erm_graph s)) k s = 0.
Proof using.
  intros Ht. induction k as [|k IH]; intros s O; cbn [ways].
  - destruct (joins n t (erm_graph s)) eqn:J; auto. exfalso. apply Ht. pose proof (proj1 (joined t O) J) as J2. clear J. rename J2 into J.
    rewrite <- (eo_edges O), (sg_count (eo_simple O)). unfold number_of_edges. rewrite (eo_vertices O).
    unfold tcount, count. f_equal. apply filter_ext_in. intros [i j] I. apply In_pairs_below in I. cbn [fst snd]. symmetry. apply J; tauto.
  - apply sum_over_zero. intros d Hd. apply IH, (nxt_inv (@m_step_draw T p n m) O Hd).
Qed.

Let samp e (d : list nat) : er_m T := match erm_randomize p e d with Done (s', _) => s' | _ => e end.
Local Notation ws := (fixed_draws n m 0).

Lemma msamp_ok e d : ok e -> In d ws -> exists s', erm_randomize p e d = Done (s', []) /\ ok s'.
Proof using.
  intros O Hd. destruct (@fixed_run_done T p n m 0 e O d Hd) as (s & E & Os).
  unfold sample_and_steps in E. apply bind_done in E as ([s1 rs1] & E1 & E). cbn in E. injection E as <- <-. eauto.
Qed.

Lemma msamp_inv e d : ok e -> In d ws -> ok (samp e d).
Proof using. intros O Hd. unfold samp. destruct (msamp_ok O Hd) as (s' & -> & I). auto. Qed.

Lemma mways e k t : ok e -> sum_over (fun d => ways (erm_m_step p) D (fun s => joins n t (erm_graph s)) k (samp e d)) ws =
  count (fun ds => ends (fun s => joins n t (erm_graph s)) (sample_and_steps (erm_randomize p) (erm_m_step p) k e ds)) (fixed_draws n m k).
Proof using.
  intros O. unfold count. rewrite length_filter_sum.
  rewrite (@chain_sum D (fun k => fixed_draws n m k) (fun _ => eq_refl) k). apply sum_over_ext. intros d Hd.
  rewrite <- (arrivals_ways (@erm_m_step_local T p) (@m_step_draw T p n m)) by (apply msamp_inv; auto).
  unfold arrivals, count. rewrite length_filter_sum.
  apply sum_over_ext. intros u _. unfold sample_and_steps. destruct (msamp_ok O Hd) as (s' & H & I).
  rewrite (@erm_randomize_local T p _ _ _ _ H u). cbn [bind app]. unfold samp. rewrite H.
  destruct (m_steps (erm_m_step p) k s' u) as [[[l s2] [|? ?]]| | |]; auto.
Qed.

Lemma msteady e k t : ok e -> sum_over (fun d => ways (erm_m_step p) D (fun s => joins n t (erm_graph s)) k (samp e d)) ws =
  sum_over (fun d => ways (erm_m_step p) D (fun s => joins n t (erm_graph s)) 0 (samp e d)) ws * (m * K) ^ k.
Proof using.
  intros O. destruct (Nat.eq_dec (tcount n t) m) as [Et|Nt].
  - rewrite !mways, !erm_chain by auto. cbn [Nat.pow]. ring.
  - rewrite !sum_over_zero; auto; intros d Hd; apply never; auto; apply msamp_inv; auto.
Qed.

Lemma mall e k : ok e -> sum_over (fun d => W k (samp e d)) ws = sum_over (fun d => W 0 (samp e d)) ws * (m * K) ^ k.
Proof using f_ext.
  intros O.
  assert (G : forall k, sum_over (fun d => W k (samp e d)) ws = sum_over (fun l => b2n (f (member l)) *
    sum_over (fun d => ways (erm_m_step p) D (fun s => joins n (member l) (erm_graph s)) k (samp e d)) ws) (sublists (pairs_below n))).
  { intros k0. rewrite (@sum_over_ext _ _ (fun d => sum_over (fun l => b2n (f (member l)) *
      ways (erm_m_step p) D (fun s => joins n (member l) (erm_graph s)) k0 (samp e d)) (sublists (pairs_below n))))
      by (intros d Hd; apply wparts, msamp_inv; auto).
    rewrite sum_over_exchange. apply sum_over_ext. intros l _. apply sum_over_mul. }
  rewrite (G k), (G 0), (Nat.mul_comm (sum_over _ _)), <- sum_over_mul. apply sum_over_ext. intros l _.
  rewrite (msteady k) by auto. ring.
Qed.

Hypothesis Hm : 0 < m.
Hypothesis HN : m < n * (n - 1) / 2.

Lemma two_starts x y k : ok x -> ok y -> W k x <= W k y + m * miss ^ k.
Proof using f_ext Hm HN.
  intros Ox Oy. pose proof (far Ox Oy eq_refl k) as H. pose proof (missing_le Hm HN Ox Oy) as L.
  apply (Nat.mul_le_mono_r _ _ (miss ^ k)) in L. lia.
Qed.

Lemma erm_rate e s k : ok e -> ok s ->
  distance (fact (n * (n - 1) / 2) * arrivals (erm_m_step p) D s P k)
    (count (fun d => ends P (erm_randomize p e d)) (fixed_draws n m 0) * length (powers k D)) <=
  fact (n * (n - 1) / 2) * (m * miss ^ k).
Proof using f_ext Hm HN.
  intros Oe Os. rewrite (arrivals_ways (@erm_m_step_local T p) (@m_step_draw T p n m)), powers_length by auto.
  replace (count (fun d => ends P (erm_randomize p e d)) ws) with (sum_over (fun d => W 0 (samp e d)) ws).
  2:{ unfold count. rewrite length_filter_sum. apply sum_over_ext. intros d Hd. destruct (msamp_ok Oe Hd) as (s' & H & I).
      unfold samp. rewrite H. auto. }
  replace (length D) with (m * K) by (rewrite rolls_length; cbn [fold_right]; ring).
  rewrite <- mall by auto. rewrite distance_sym.
  assert (Lf : length ws = fact (n * (n - 1) / 2)) by (rewrite fixed_length; cbn; lia). rewrite <- Lf.
  rewrite <- (Nat.mul_1_l (distance _ _)). apply sums_distance. intros d Hd. rewrite Nat.mul_1_l.
  pose proof (msamp_inv Oe Hd) as Od. apply distance_le; apply two_starts; auto.
Qed.
End Rate.
