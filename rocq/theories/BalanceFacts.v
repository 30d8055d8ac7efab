(** The distribution after sampling and steps that resample one pair. *)
From Verif Require Import Base BaseFacts Sums Containers ContainerSpec ContainerFacts Graph GraphSpec GraphFacts GraphOps Rng RngFacts
  Markov ErC ErCFacts ErMFacts Spacial SpacialSpec SpacialFacts UniformFacts BalanceSpec.
From Coq Require Import QArith.
Set Implicit Arguments.
Unset Strict Implicit.
Local Open Scope nat_scope.

(** ** Draws that are left do not matter *)

Definition local {X} (f : rng -> outcome (X * rng)) : Prop :=
  forall rs x rs', f rs = Done (x, rs') -> forall rest, f (rs ++ rest) = Done (x, rs' ++ rest).

Lemma local_draw : local draw.
Proof. intros [|r rs] x rs' H rest; cbn in *; [discriminate|]. injection H as <- <-. auto. Qed.

Lemma local_done {X} (x : X) : local (fun rs => Done (x, rs)).
Proof. intros rs y rs' H rest. injection H as <- <-. auto. Qed.

Lemma local_bind {X Y} (f : rng -> outcome (X * rng)) (k : X -> rng -> outcome (Y * rng)) :
  local f -> (forall x, local (k x)) -> local (fun rs => do ' (x, rs') <- f rs; k x rs').
Proof.
  intros F K rs y rs' H rest. apply bind_done in H as ([x rs1] & E & H). cbn beta iota in *.
  rewrite (F _ _ _ E rest). cbn [bind]. apply K. auto.
Qed.

Lemma local_pure {X Y} (m : outcome X) (k : X -> rng -> outcome (Y * rng)) :
  (forall x, local (k x)) -> local (fun rs => do x <- m; k x rs).
Proof. intros K rs y rs' H rest. destruct m as [x| | |]; cbn [bind] in *; try discriminate. apply K. auto. Qed.

Lemma local_if {X} (b : bool) (f g : rng -> outcome (X * rng)) : local f -> local g -> local (fun rs => if b then f rs else g rs).
Proof. intros F G. destruct b; auto. Qed.

Lemma local_gen_range h : local (gen_range h).
Proof.
  intros rs x rs' H rest. unfold gen_range in *. destruct (h =? 0); [discriminate|].
  destruct rs as [|r rs]; cbn in *; [discriminate|]. injection H as <- <-. auto.
Qed.

Lemma local_gen_f64 : local gen_f64.
Proof. intros [|r rs] x rs' H rest; cbn in *; [discriminate|]. injection H as <- <-. auto. Qed.

Lemma local_fold {X Y} (f : X -> Y -> rng -> outcome (X * rng)) l : (forall x y, local (f x y)) ->
  forall x, local (fun rs => foldM (fun s y => let '(x, rs) := s in f x y rs) (x, rs) l).
Proof.
  intros F. induction l as [|y l IH]; intros x rs z rs' H rest; cbn [foldM] in *.
  - injection H as <- <-. auto.
  - apply bind_done in H as ([x1 rs1] & E & H). rewrite (F _ _ _ _ _ E rest). cbn [bind]. apply IH. auto.
Qed.

Lemma local_steps {St R} (m : St -> rng -> outcome (R * St * rng)) : (forall s, local (m s)) -> forall k s, local (m_steps m k s).
Proof.
  intros M. induction k as [|k IH]; intros s rs z rs' H rest; cbn [m_steps] in *.
  - injection H as <- <-. auto.
  - apply bind_done in H as ([[r s1] rs1] & E & H). apply bind_done in H as ([[l s2] rs2] & E2 & H).
    injection H as <- <-. rewrite (M _ _ _ _ E rest). cbn [bind]. rewrite (IH _ _ _ _ E2 rest). auto.
Qed.

Lemma steps_snoc {St R} (m : St -> rng -> outcome (R * St * rng)) k : forall s rs,
  m_steps m (1 + k) s rs =
  (do ' (l, s1, rs1) <- m_steps m k s rs; do ' (r, s2, rs2) <- m s1 rs1; Done (l ++ [r], s2, rs2)).
Proof.
  induction k as [|k IH]; intros s rs.
  - cbn [m_steps plus bind]. destruct (m s rs) as [[[r s1] rs1]| | |]; auto.
  - cbn [plus]. change (m_steps m (S (S k)) s rs) with
      (do ' (r, s1, rs1) <- m s rs; do ' (l, s2, rs2) <- m_steps m (1 + k) s1 rs1; Done (r :: l, s2, rs2)).
    cbn [m_steps]. destruct (m s rs) as [[[r s1] rs1]| | |]; auto. cbn [bind]. rewrite IH.
    destruct (m_steps m k s1 rs1) as [[[l s2] rs2]| | |]; auto. cbn [bind].
    destruct (m s2 rs2) as [[[r' s3] rs3]| | |]; auto.
Qed.

(** ** Products *)

Lemma prod_perm {X} (f : X -> nat) l l' : Permutation l l' -> prod_over f l = prod_over f l'.
Proof. induction 1; cbn in *; auto; try congruence; lia. Qed.

Lemma prod_ext {X} (f g : X -> nat) l : (forall x, In x l -> f x = g x) -> prod_over f l = prod_over g l.
Proof.
  induction l as [|a l IH]; intros H; auto. change (f a * prod_over f l = g a * prod_over g l).
  rewrite IH by (intros; apply H; simpl; auto). rewrite H by (simpl; auto). auto.
Qed.

(** ** Counting words *)

Lemma count_sum {X} (f : X -> bool) l : count f l = sum_over (fun x => b2n (f x)) l.
Proof. apply length_filter_sum. Qed.

Fixpoint agree {X} (acc : X -> nat -> bool) (t : X -> bool) (l : list X) (ws : list nat) : bool :=
  match l, ws with
  | x :: l, w :: ws => Bool.eqb (acc x w) (t x) && agree acc t l ws
  | _, _ => true
  end.

Lemma words_length k coins ws : In ws (words k coins) -> length ws = k.
Proof.
  revert ws. induction k as [|k IH]; intros ws H; cbn in H.
  - destruct H as [<-|[]]. auto.
  - apply in_flat_map in H as (c & _ & H). apply in_map_iff in H as (v & <- & H). cbn. f_equal. auto.
Qed.

Lemma agree_count {X} (acc : X -> nat -> bool) t coins l :
  count (agree acc t l) (words (length l) coins) = prod_over (fun x => verdicts (acc x) coins (t x)) l.
Proof.
  induction l as [|x l IH]; [reflexivity|]. cbn [length words prod_over fold_right].
  rewrite count_sum, sum_over_flat_map. change (fold_right _ 1 l) with (prod_over (fun x => verdicts (acc x) coins (t x)) l).
  rewrite <- IH. unfold verdicts. rewrite (count_sum _ coins), Nat.mul_comm, <- sum_over_mul. apply sum_over_ext. intros c _.
  rewrite sum_over_map. rewrite count_sum. cbn [agree]. destruct (Bool.eqb (acc x c) (t x)); cbn [andb b2n].
  - rewrite Nat.mul_1_r. auto.
  - rewrite Nat.mul_0_r. apply sum_over_zero. auto.
Qed.

Lemma agree_iff {X} (acc : X -> nat -> bool) t l : forall ws, length ws = length l ->
  agree acc t l ws = true <-> forall k x w, nth_error l k = Some x -> nth_error ws k = Some w -> acc x w = t x.
Proof.
  induction l as [|x l IH]; intros [|w ws] H; cbn in H; try lia.
  - split; auto. intros _ [|k] x w E; discriminate E.
  - cbn [agree]. rewrite andb_true_iff, IH, eqb_true_iff by lia. split.
    + intros [H1 H2] [|k] x' w' E1 E2; cbn in E1, E2; [congruence|eauto].
    + intros K. split; [apply (K 0); auto|]. intros k x' w' E1 E2. apply (K (S k)); auto.
Qed.

(** ** Steps that resample one pair *)

Definition joinsb (jn : nat -> nat -> bool) (t : nat -> nat -> bool) (n : nat) : bool :=
  forallb (fun ij : nat * nat => Bool.eqb (jn (fst ij) (snd ij)) (t (fst ij) (snd ij))) (pairs_below n).

Definition pairb (a b i j : nat) : bool := (i =? a) && (j =? b) || (i =? b) && (j =? a).

Definition flip (t : nat -> nat -> bool) (a b : nat) : nat -> nat -> bool :=
  fun i j => if pairb a b i j then negb (t i j) else t i j.

Lemma joinsb_iff jn t n : joinsb jn t n = true <-> forall i j, i < j -> j < n -> jn i j = t i j.
Proof.
  unfold joinsb. rewrite forallb_forall. split.
  - intros H i j Hi Hj. apply eqb_true_iff. apply (H (i, j)). apply In_pairs_below. auto.
  - intros H [i j] Hij. apply In_pairs_below in Hij as [Hi Hj]. cbn. rewrite H by auto. apply eqb_reflx.
Qed.

Lemma pairb_iff a b i j : a < b -> i < j -> pairb a b i j = true <-> (i, j) = (a, b).
Proof.
  intros Hab Hij. unfold pairb. rewrite orb_true_iff, !andb_true_iff, !Nat.eqb_eq. split.
  - intros [[-> ->]|[-> ->]]; auto; lia.
  - intros H. injection H as -> ->. auto.
Qed.

Lemma pairb_swap a b i j : pairb b a i j = pairb a b i j.
Proof. unfold pairb. apply orb_comm. Qed.

(** If the pair is resampled, the result is [t] if the verdict is right and the graph was [t] or [t] with that
    pair flipped. *)
Lemma resample jn jn' t n a b v : a < b -> b < n ->
  (forall i j, i < j -> j < n -> jn' i j = if pairb a b i j then v else jn i j) ->
  b2n (joinsb jn' t n) = b2n (Bool.eqb v (t a b)) * (b2n (joinsb jn t n) + b2n (joinsb jn (flip t a b) n)).
Proof.
  intros Hab Hb H.
  assert (Pab : pairb a b a b = true) by (apply pairb_iff; auto).
  assert (D : joinsb jn t n = true -> joinsb jn (flip t a b) n = true -> False).
  { rewrite !joinsb_iff. intros H1 H2. specialize (H1 a b Hab Hb). specialize (H2 a b Hab Hb). unfold flip in H2. rewrite Pab in H2.
    destruct (t a b); cbn in H2; congruence. }
  assert (E : joinsb jn' t n = Bool.eqb v (t a b) && (joinsb jn t n || joinsb jn (flip t a b) n)).
  { apply eq_true_iff_eq. rewrite andb_true_iff, orb_true_iff, eqb_true_iff, !joinsb_iff. split.
    - intros K. assert (Kv : v = t a b) by (rewrite <- (K a b) by auto; rewrite H, Pab by auto; auto). split; auto.
      assert (Off : forall i j, i < j -> j < n -> pairb a b i j = false -> jn i j = t i j).
      { intros i j Hi Hj Np. rewrite <- (K i j), H, Np by auto. auto. }
      destruct (Bool.bool_dec (jn a b) (t a b)) as [Q|Q]; [left|right]; intros i j Hi Hj.
      + destruct (pairb a b i j) eqn:P; auto. apply pairb_iff in P; auto. injection P as -> ->. auto.
      + unfold flip. destruct (pairb a b i j) eqn:P; auto. apply pairb_iff in P; auto. injection P as -> ->.
        destruct (jn a b), (t a b); cbn; congruence.
    - intros [-> K] i j Hi Hj. rewrite H by auto. destruct (pairb a b i j) eqn:P.
      + apply pairb_iff in P; auto. injection P as -> ->. auto.
      + destruct K as [K|K]; [auto|]. rewrite K by auto. unfold flip. rewrite P. auto. }
  rewrite E. destruct (Bool.eqb v (t a b)), (joinsb jn t n), (joinsb jn (flip t a b) n); cbn; auto. destruct D; auto.
Qed.

Lemma verdicts_sum acc coins : verdicts acc coins true + verdicts acc coins false = length coins.
Proof. unfold verdicts, count. induction coins as [|z l IH]; auto. cbn [filter]. destruct (acc z); cbn [Bool.eqb length] in *; lia. Qed.

(** The weight of [t]. *)
Definition wt (acc : nat -> nat -> nat -> bool) (coins : list nat) (n : nat) (t : nat -> nat -> bool) : nat :=
  prod_over (fun ij => verdicts (acc (fst ij) (snd ij)) coins (t (fst ij) (snd ij))) (pairs_below n).

Lemma wt_flip acc coins n t a b : a < b -> b < n ->
  verdicts (acc a b) coins (t a b) * (wt acc coins n t + wt acc coins n (flip t a b)) = length coins * wt acc coins n t.
Proof.
  intros Hab Hb. assert (I : In (a, b) (pairs_below n)) by (apply In_pairs_below; auto).
  destruct (in_split _ _ I) as (l1 & l2 & E). pose proof (NoDup_pairs_below n) as N. rewrite E in N.
  apply NoDup_remove_2 in N. unfold wt. rewrite E.
  assert (Pm : Permutation (l1 ++ (a, b) :: l2) ((a, b) :: l1 ++ l2)) by (symmetry; apply Permutation_middle).
  rewrite !(prod_perm _ Pm). cbn [prod_over fold_right fst snd].
  change (fold_right ?f 1 (l1 ++ l2)) with (fold_right f 1 (l1 ++ l2)).
  set (P := fold_right _ 1 (l1 ++ l2)). match goal with |- _ * (_ + _ * ?Q) = _ => set (P' := Q) end.
  assert (EP : P' = P).
  { unfold P, P'. apply (@prod_ext _ _ _ (l1 ++ l2)). intros [i j] Hij. cbn [fst snd]. f_equal. unfold flip.
    destruct (pairb a b i j) eqn:Pb; auto. apply pairb_iff in Pb; auto; [congruence|].
    assert (J : In (i, j) (pairs_below n)) by (rewrite E; apply in_app_iff in Hij; apply in_app_iff; simpl; tauto).
    apply In_pairs_below in J. tauto. }
  rewrite EP. unfold flip. rewrite (proj2 (pairb_iff Hab Hab) eq_refl). pose proof (verdicts_sum (acc a b) coins) as S.
  destruct (t a b); cbn [negb]; rewrite <- S; ring.
Qed.

Lemma pair_draws_length n coins : length (pair_draws n coins) = n * ((n - 1) * length coins).
Proof.
  rewrite <- (Nat.mul_1_r (length _)), <- sum_over_const. unfold pair_draws. rewrite sum_over_flat_map.
  rewrite (@sum_over_ext _ _ (fun _ => (n - 1) * length coins)); [rewrite sum_over_const, seq_length; auto|].
  intros x _. rewrite sum_over_flat_map. rewrite (@sum_over_ext _ _ (fun _ => length coins)); [rewrite sum_over_const, seq_length; auto|].
  intros y _. rewrite sum_over_map, sum_over_const. lia.
Qed.

Section Chain.
Variables (E R : Type) (jn : E -> nat -> nat -> bool).
Variables (randomize : E -> rng -> outcome (E * rng)) (m_step : E -> rng -> outcome (R * E * rng)).
Variables (ok : E -> Prop) (n : nat) (acc : nat -> nat -> nat -> bool) (drawn : nat -> nat -> nat * nat).
Hypothesis acc_sym : forall a b z, acc a b z = acc b a z.
Hypothesis rnd_local : forall e, local (randomize e).
Hypothesis stp_local : forall e, local (m_step e).
Hypothesis rnd_ok : forall e ws, ok e -> length ws = length (er_pairs n) ->
  exists e', randomize e ws = Done (e', []) /\ ok e' /\
    forall k i j r, nth_error (er_pairs n) k = Some (i, j) -> nth_error ws k = Some r -> jn e' i j = acc i j r.
Hypothesis drawn_ok : forall x y, x < n -> y < n - 1 -> fst (drawn x y) < n /\ snd (drawn x y) < n /\ fst (drawn x y) <> snd (drawn x y).
Hypothesis stp_ok : forall e x y z, ok e -> x < n -> y < n - 1 ->
  exists r e', m_step e [x; y; z] = Done (r, e', []) /\ ok e' /\
    forall i j, i < n -> j < n -> jn e' i j = if pairb (fst (drawn x y)) (snd (drawn x y)) i j then acc (fst (drawn x y)) (snd (drawn x y)) z else jn e i j.

Let run k e ds := sample_and_steps randomize m_step k e ds.
Let N coins := length (pair_draws n coins).

Lemma run_local k e : local (run k e).
Proof.
  unfold run, sample_and_steps. apply local_bind; auto. intros s. intros rs x rs' H rest.
  apply bind_done in H as ([[l s2] rs2] & E2 & H). injection H as <- <-.
  rewrite (local_steps stp_local E2 rest). auto.
Qed.

Lemma run_next k e rs : run (1 + k) e rs =
  (do ' (s, rs1) <- run k e rs; do ' (r, s2, rs2) <- m_step s rs1; Done (s2, rs2)).
Proof.
  unfold run, sample_and_steps. destruct (randomize e rs) as [[s1 rs1]| | |]; auto. cbn [bind]. rewrite steps_snoc.
  destruct (m_steps m_step k s1 rs1) as [[[l s2] rs2]| | |]; auto. cbn [bind].
  destruct (m_step s2 rs2) as [[[r s3] rs3]| | |]; auto.
Qed.

Lemma pair_draws_In coins s : In s (pair_draws n coins) -> exists x y z, s = [x; y; z] /\ x < n /\ y < n - 1.
Proof.
  intros H. apply in_flat_map in H as (x & Hx & H). apply in_flat_map in H as (y & Hy & H).
  apply in_map_iff in H as (z & <- & _). apply in_seq in Hx, Hy. exists x, y, z. splits; auto; lia.
Qed.

Lemma pairs_perm : Permutation (er_pairs n) (pairs_below n).
Proof.
  apply NoDup_Permutation; [apply er_pairs_NoDup|apply NoDup_pairs_below|]. intros [i j].
  rewrite In_pairs_below. apply er_pairs_In.
Qed.

Lemma run_done k e coins : ok e -> forall d, In d (chain_draws n k coins) -> exists s, run k e d = Done (s, []) /\ ok s.
Proof.
  intros O. induction k as [|k IH]; intros d H; cbn [chain_draws] in H.
  - apply words_length in H. rewrite <- (Permutation_length pairs_perm) in H.
    destruct (@rnd_ok e d O H) as (e' & E' & O' & _). exists e'. unfold run, sample_and_steps. rewrite E'. auto.
  - apply in_flat_map in H as (d0 & H & Hd). apply in_map_iff in Hd as (s & <- & Hs).
    destruct (IH d0 H) as (e1 & E1 & O1). apply pair_draws_In in Hs as (x & y & z & -> & Hx & Hy).
    destruct (@stp_ok e1 x y z O1 Hx Hy) as (r & e2 & E2 & O2 & _). exists e2. split; auto.
    change (S k) with (1 + k). rewrite run_next, (run_local E1). cbn [bind app]. rewrite E2. auto.
Qed.

Lemma chain_count k e coins : ok e -> forall t,
  count (fun d => ends (fun s => joinsb (jn s) t n) (run k e d)) (chain_draws n k coins) =
  N coins ^ k * wt acc coins n t.
Proof.
  intros O. induction k as [|k IH]; intros t.
  - cbn [chain_draws Nat.pow]. rewrite Nat.mul_1_l. unfold wt. rewrite <- (prod_perm _ pairs_perm).
    rewrite <- (agree_count (fun ij : nat * nat => acc (fst ij) (snd ij)) (fun ij => t (fst ij) (snd ij))).
    rewrite <- (Permutation_length pairs_perm). unfold count. f_equal. apply filter_ext_in. intros ws Hw.
    apply words_length in Hw. destruct (@rnd_ok e ws O Hw) as (e' & E' & O' & J).
    unfold run, sample_and_steps. rewrite E'. cbn [bind m_steps ends].
    apply eq_true_iff_eq. rewrite joinsb_iff, agree_iff by auto. split.
    + intros K m [i j] w H1 H2. cbn [fst snd]. rewrite <- (J m i j w H1 H2). pose proof (nth_error_In _ _ H1) as I.
      apply er_pairs_In in I. apply K; tauto.
    + intros K i j Hi Hj. assert (I : In (i, j) (er_pairs n)) by (apply er_pairs_In; auto).
      destruct (In_nth_error _ _ I) as [m Hm]. destruct (nth_error ws m) as [w|] eqn:Ew.
      * rewrite (J m i j w Hm Ew). apply (K m (i, j) w); auto.
      * apply nth_error_None in Ew. assert (m < length (er_pairs n)) by (apply nth_error_Some; congruence). lia.
  - cbn [chain_draws]. rewrite count_sum, sum_over_flat_map.
    transitivity (sum_over (fun s => sum_over (fun d => b2n (ends (fun s => joinsb (jn s) t n) (run (1 + k) e (d ++ s)))) (chain_draws n k coins)) (pair_draws n coins)).
    { rewrite <- sum_over_exchange. apply sum_over_ext. intros d _. rewrite sum_over_map. auto. }
    unfold pair_draws at 1. rewrite sum_over_flat_map.
    transitivity (sum_over (fun x => sum_over (fun y => N coins ^ k * (length coins * wt acc coins n t)) (seq 0 (n - 1))) (seq 0 n)).
    2:{ rewrite !sum_over_const, !seq_length. unfold N. rewrite pair_draws_length. cbn [Nat.pow]. ring. }
    apply sum_over_ext. intros x Hx. apply in_seq in Hx. rewrite sum_over_flat_map. apply sum_over_ext. intros y Hy. apply in_seq in Hy.
    rewrite sum_over_map.
    assert (ab : exists a b, a < b /\ b < n /\ (drawn x y = (a, b) \/ drawn x y = (b, a))).
    { destruct (@drawn_ok x y) as (Da & Db & Dn); [lia|lia|]. destruct (drawn x y) as [a b]. cbn [fst snd] in *.
      destruct (Nat.lt_ge_cases a b); [exists a, b|exists b, a]; splits; auto; lia. }
    destruct ab as (a & b & Hab & Hb & Dr).
    transitivity (sum_over (fun z => b2n (Bool.eqb (acc a b z) (t a b)) * (N coins ^ k * (wt acc coins n t + wt acc coins n (flip t a b)))) coins).
    + apply sum_over_ext. intros z _. rewrite Nat.mul_add_distr_l, <- !IH, !count_sum, <- sum_over_plus, <- sum_over_mul.
      apply sum_over_ext. intros d Hd. destruct (run_done O Hd) as (s1 & E1 & O1).
      destruct (@stp_ok s1 x y z O1) as (r & s2 & E2 & O2 & J); [lia|lia|].
      rewrite run_next, (run_local E1), E1. cbn [bind app]. rewrite E2. cbn [bind ends].
      apply resample; auto. intros i j Hi Hj. rewrite J by lia.
      destruct Dr as [Dr|Dr]; rewrite Dr; cbn [fst snd]; auto. rewrite pairb_swap, acc_sym. auto.
    + rewrite (@sum_over_ext _ _ (fun z => (N coins ^ k * (wt acc coins n t + wt acc coins n (flip t a b))) * b2n (Bool.eqb (acc a b z) (t a b)))) by (intros; lia).
      rewrite sum_over_mul, <- count_sum. fold (verdicts (acc a b) coins (t a b)).
      rewrite <- wt_flip with (a := a) (b := b) by auto. ring.
Qed.

End Chain.

(** ** The two ensembles *)

Definition two_drawn (x y : nat) : nat * nat := (x, if y <? x then y else y + 1).

Lemma two_drawn_ok n x y : x < n -> y < n - 1 ->
  fst (two_drawn x y) < n /\ snd (two_drawn x y) < n /\ fst (two_drawn x y) <> snd (two_drawn x y).
Proof. intros Hx Hy. unfold two_drawn. cbn [fst snd]. destruct (Nat.ltb_spec y x); lia. Qed.

Lemma draw_two_small p n x y rs : x < n -> y < n - 1 ->
  draw_two_from_range p n (x :: y :: rs) = Done (two_drawn x y, rs).
Proof.
  intros Hx Hy. unfold draw_two_from_range. rewrite gen_range_small by auto. cbn [bind]. unfold usub.
  destruct (Nat.leb_spec 1 n); [|lia]. cbn [bind]. rewrite gen_range_small by auto. cbn [bind]. unfold two_drawn.
  destruct (y <? x); auto.
Qed.

Lemma local_draw_two p n : local (draw_two_from_range p n).
Proof.
  unfold draw_two_from_range. apply (local_bind (@local_gen_range n)). intros a. apply local_pure. intros h.
  apply (local_bind (@local_gen_range h)). intros b. apply local_if; apply local_done.
Qed.

Lemma is_pair_pairb a b i j : is_pair a b i j <-> pairb a b i j = true.
Proof.
  unfold is_pair, pairb. rewrite orb_true_iff, !andb_true_iff, !Nat.eqb_eq. tauto.
Qed.

Lemma adjb_resampled {T A} {C : AdjContainer T A} {L : AdjLaws C} (g g' : graph A) a b (v : bool) i j :
  (adj g' i j <-> if v then adj g i j \/ is_pair a b i j else adj g i j /\ ~ is_pair a b i j) ->
  adjb g' i j = if pairb a b i j then v else adjb g i j.
Proof.
  intros H. apply eq_true_iff_eq. rewrite adjb_adj, H. pose proof (is_pair_pairb a b i j) as P.
  destruct v, (pairb a b i j); rewrite ?adjb_adj; intuition congruence.
Qed.

Section ErC.
Context {T : Type}.

Lemma erc_randomize_local (e : er_c T) : local (erc_randomize e).
Proof.
  unfold erc_randomize. cbv zeta.
  apply (@local_bind _ _ (fun rs => foldM (fun s ij => let '(g, rs) := s in
      do ' (x, rs1) <- gen_f64 rs;
      if Qle_bool x (erc_prob e)
      then do g1 <- push_both g (fst ij) (snd ij); Done (g1, rs1)
      else Done (g, rs1)) (clear_edges (erc_graph e), rs) (er_pairs (vertex_count (clear_edges (erc_graph e)))))).
  - apply (@local_fold _ _ (fun g ij rs => do ' (x, rs1) <- gen_f64 rs;
      if Qle_bool x (erc_prob e)
      then do g1 <- push_both g (fst ij) (snd ij); Done (g1, rs1)
      else Done (g, rs1))). intros g ij. apply (local_bind local_gen_f64). intros x.
    apply local_if; [|apply local_done]. apply local_pure. intros g1. apply local_done.
  - intros g'. apply local_done.
Qed.

Lemma erc_m_step_local p (e : er_c T) : local (erc_m_step p e).
Proof.
  unfold erc_m_step. cbv zeta. intros rs x rs' H rest. apply bind_done in H as ([[a b] rs1] & E1 & H).
  rewrite (local_draw_two E1 rest). cbn [bind]. apply bind_done in H as ([u rs2] & E2 & H).
  rewrite (local_gen_f64 E2 rest). cbn [bind]. destruct (Qle_bool u (erc_prob e));
    apply bind_done in H as ([r g] & E3 & H); rewrite E3; cbn [bind]; destruct r; injection H as <- <-; auto.
Qed.

Lemma erc_chain p k n coins (e : er_c T) t : simple_graph (erc_graph e) -> vertex_count (erc_graph e) = n -> 2 <= n ->
  count (fun ds => ends (fun s => joins n t (erc_graph s)) (sample_and_steps erc_randomize (erc_m_step p) k e ds)) (chain_draws n k coins) =
  length (pair_draws n coins) ^ k * wt (fun _ _ z => Qle_bool (unit_float z) (erc_prob e)) coins n t.
Proof.
  intros W V Hn.
  apply (@chain_count _ _ (fun s => adjb (erc_graph s)) erc_randomize (erc_m_step p)
    (fun s => simple_graph (erc_graph s) /\ vertex_count (erc_graph s) = n /\ erc_prob s = erc_prob e) n
    (fun _ _ z => Qle_bool (unit_float z) (erc_prob e)) two_drawn); auto.
  - apply erc_randomize_local.
  - apply erc_m_step_local.
  - intros s ws (Ws & Vs & Ps) Lw. destruct (@erc_randomize_spec T s ws Ws) as (s' & E' & W' & V' & _ & P' & _ & _ & J).
    { rewrite Vs. lia. }
    exists s'. rewrite Vs in *. split; [rewrite E', <- Lw, skipn_all; auto|]. splits; auto; [congruence|].
    intros m i j r H1 H2. apply eq_true_iff_eq. rewrite adjb_adj, (J m i j r H1 H2), Ps, Qle_bool_iff. tauto.
  - apply two_drawn_ok.
  - intros s x y z (Ws & Vs & Ps) Hx Hy.
    destruct (@erc_step_effect T p s x y z [] Ws ltac:(lia)) as (a & b & r & s' & Ed & Es & _ & J).
    rewrite Vs, draw_two_small in Ed by auto. injection Ed as Ea Eb.
    exists r, s'. split; auto. destruct (erc_m_step_cases Ws Es) as (Pp & _ & C3).
    pose proof (erc_m_step_simple Ws Es) as W'. split.
    + splits; auto; [|congruence]. destruct r as [|[u v]|[u v]|]; try tauto; [congruence|..].
      * rewrite <- Vs. apply (add_edge_ok Ws C3).
      * rewrite <- Vs. apply (remove_edge_ok Ws C3).
    + intros i j _ _. rewrite <- Ps. unfold two_drawn. cbn [fst snd]. rewrite Eb, Ea. apply adjb_resampled. apply J.
Qed.
End ErC.

Section Spacial.
Context {T : Type}.

Lemma sp_test_local (e : spacial T) g i j : local (sp_test e g i j).
Proof.
  unfold sp_test. apply local_pure. intros a. apply local_pure. intros b. apply (local_bind local_gen_f64). intros u. apply local_done.
Qed.

Lemma sp_randomize_local (e : spacial T) : local (sp_randomize e).
Proof.
  unfold sp_randomize. cbv zeta.
  apply (@local_bind _ _ (fun rs => foldM (fun s ij => let '(g, rs) := s in
      do ' (ok, rs1) <- sp_test e g (fst ij) (snd ij) rs;
      if ok : bool
      then do g1 <- sp_push_both g (fst ij) (snd ij); Done (g1, rs1)
      else Done (g, rs1)) (clear_edges (sp_graph e), rs) (er_pairs (vertex_count (clear_edges (sp_graph e)))))).
  - apply (@local_fold _ _ (fun g ij rs => do ' (ok, rs1) <- sp_test e g (fst ij) (snd ij) rs;
      if ok : bool
      then do g1 <- sp_push_both g (fst ij) (snd ij); Done (g1, rs1)
      else Done (g, rs1))). intros g ij. apply (local_bind (@sp_test_local e g _ _)). intros x.
    apply local_if; [|apply local_done]. apply local_pure. intros g1. apply local_done.
  - intros g'. apply local_done.
Qed.

Lemma sp_m_step_local p (e : spacial T) : local (sp_m_step p e).
Proof.
  unfold sp_m_step. intros rs x rs' H rest. apply bind_done in H as ([[a b] rs1] & E1 & H).
  rewrite (local_draw_two E1 rest). cbn [bind]. apply bind_done in H as ([u rs2] & E2 & H).
  rewrite (sp_test_local E2 rest). cbn [bind]. destruct u;
    apply bind_done in H as ([r g] & E3 & H); rewrite E3; cbn [bind]; destruct r; injection H as <- <-; auto.
Qed.

Lemma sp_chain p k n coins (e : spacial T) t : simple_graph (sp_graph e) -> vertex_count (sp_graph e) = n -> 2 <= n ->
  (forall a b u, sp_accept e a b u = sp_accept e b a u) ->
  count (fun ds => ends (fun s => joins n t (sp_graph s)) (sample_and_steps sp_randomize (sp_m_step p) k e ds)) (chain_draws n k coins) =
  length (pair_draws n coins) ^ k * wt (sp_accepts e) coins n t.
Proof.
  intros W V Hn Sy.
  apply (@chain_count _ _ (fun s => adjb (sp_graph s)) sp_randomize (sp_m_step p)
    (fun s => simple_graph (sp_graph s) /\ vertex_count (sp_graph s) = n /\ sp_accept s = sp_accept e /\
       positions (sp_graph s) = positions (sp_graph e)) n (sp_accepts e) two_drawn); auto.
  - intros a b z. apply Sy.
  - apply sp_randomize_local.
  - apply sp_m_step_local.
  - intros s ws (Ws & Vs & As & Ps) Lw. destruct (@sp_randomize_spec T s ws Ws) as (s' & E' & W' & V' & _ & P' & A' & J).
    { rewrite Vs. lia. }
    exists s'. rewrite Vs in *. split; [rewrite E', <- Lw, skipn_all; auto|]. splits; auto; try congruence.
    intros m i j r H1 H2. apply eq_true_iff_eq. rewrite adjb_adj, (J m i j r H1 H2). unfold sp_accepts. rewrite As, Ps. tauto.
  - apply two_drawn_ok.
  - intros s x y z (Ws & Vs & As & Ps) Hx Hy.
    destruct (@sp_m_step_total T p s x y z [] Ws ltac:(lia)) as (a & b & r & s' & Ed & Es & J).
    rewrite Vs, draw_two_small in Ed by auto. injection Ed as Ea Eb.
    exists r, s'. split; auto. destruct (sp_m_step_cases Ws Es) as (Ac & Pc & C3).
    pose proof (sp_m_step_simple Ws Es) as W'. split.
    + splits; auto; try congruence. destruct r as [|[u v]|[u v]|]; try tauto; [congruence|..].
      * rewrite <- Vs. apply (add_edge_ok Ws C3).
      * rewrite <- Vs. apply (remove_edge_ok Ws C3).
    + intros i j _ _. unfold two_drawn. cbn [fst snd]. rewrite Eb, Ea. apply adjb_resampled.
      replace (sp_accepts e a b z) with (sp_accepts s a b z); [apply J|]. unfold sp_accepts. rewrite As, Ps. auto.
Qed.
End Spacial.
