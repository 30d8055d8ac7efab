(** Loops that repeat a round of draws until it is accepted. *)
From Verif Require Import Base BaseFacts ContainerFacts GraphFacts Rng RngFacts Runs GraphSpec Sums UniformSpec
  UniformFacts ConfigRounds SurelySpec SurelyFacts FairSpec.
Set Implicit Arguments.
Unset Strict Implicit.
Local Open Scope nat_scope.

Lemma filter_true {Y} (t : Y -> bool) l : (forall x, In x l -> t x = true) -> filter t l = l.
Proof. induction l as [|x l IH]; intros H; auto. cbn. rewrite (H x), IH; simpl; auto. intros. apply H. simpl; auto. Qed.

Section Rejection.
Context {X : Type}.
Variables (f : rng -> outcome (X * rng)) (l : list nat).
Hypothesis round : forall ds, In ds (rolls l) ->
  (exists x, forall rest, f (ds ++ rest) = Done (x, rest)) \/ (forall rest, f (ds ++ rest) = f rest).
Hypothesis none : f [] = NoFuel.
Hypothesis some : l <> [].

Lemma round_length ds : In ds (rolls l) -> length ds = length l.
Proof. intros H. apply rolls_In in H. symmetry. apply (Forall2_len H). Qed.

Lemma rejection P k :
  count (fun ds => exactly P (f ds)) (rolls (concat (repeat l (S k)))) =
  count (fun ds => unfinished (f ds)) (rolls l) ^ k * count (fun ds => exactly P (f ds)) (rolls l).
Proof using round none some.
  induction k as [|k IH]; [cbn [repeat concat Nat.pow]; rewrite app_nil_r; lia|].
  remember (S k) as k' eqn:Ek. cbn [repeat concat]. rewrite count_rolls_app. subst k'.
  rewrite (@sum_over_ext _ _ (fun a => (if unfinished (f a) then 1 else 0) *
    count (fun ds => exactly P (f ds)) (rolls (concat (repeat l (S k)))))).
  - rewrite IH. cbn [Nat.pow].
    assert (Ec : sum_over (fun a => if unfinished (f a) then 1 else 0) (rolls l) = count (fun ds => unfinished (f ds)) (rolls l)).
    { unfold count. rewrite length_filter_sum. auto. }
    set (c := count (fun ds => unfinished (f ds)) (rolls l)) in *.
    set (d := c ^ k * count (fun ds => exactly P (f ds)) (rolls l)).
    rewrite (@sum_over_ext _ _ (fun a => d * (if unfinished (f a) then 1 else 0))) by (intros; lia).
    rewrite sum_over_mul, Ec. unfold d. lia.
  - intros a Ha. destruct (round Ha) as [(x & E)|E].
    + pose proof (E []) as E0. rewrite app_nil_r in E0. rewrite E0. cbn [unfinished Nat.mul].
      apply count_zero. intros b Hb. rewrite E. unfold exactly. destruct b; auto.
      exfalso. apply rolls_In, Forall2_len in Hb. cbn [repeat concat length] in Hb. rewrite app_length in Hb.
      destruct l; [congruence|discriminate Hb].
    + pose proof (E []) as E0. rewrite app_nil_r in E0. rewrite E0, none. cbn [unfinished]. rewrite Nat.mul_1_l.
      unfold count. f_equal. apply filter_ext. intros b. rewrite E. auto.
Qed.
End Rejection.

Section Limit.
Context {X : Type}.
Variables (f : rng -> outcome (X * rng)) (h b : nat).
Hypothesis round : forall ds, In ds (rolls (repeat h b)) ->
  (exists x, forall rest, f (ds ++ rest) = Done (x, rest)) \/ (forall rest, f (ds ++ rest) = f rest).
Hypothesis short : forall ds, length ds < b -> f ds = NoFuel.
Hypothesis some : 0 < b.

Let R := count (fun ds => unfinished (f ds)) (rolls (repeat h b)).

Lemma limit_waiting k : waiting h f (b + k) = R * waiting h f k.
Proof using round short some.
  unfold waiting at 1. rewrite repeat_app, count_rolls_app.
  rewrite (@sum_over_ext _ _ (fun a => waiting h f k * if unfinished (f a) then 1 else 0)).
  - rewrite sum_over_mul. unfold R, count at 1. rewrite length_filter_sum. apply Nat.mul_comm.
  - intros a Ha. destruct (round Ha) as [(x & E)|E].
    + pose proof (E []) as E0. rewrite app_nil_r in E0. rewrite E0. cbn [unfinished]. rewrite Nat.mul_0_r.
      apply count_zero. intros c _. rewrite E. auto.
    + pose proof (E []) as E0. rewrite app_nil_r in E0. rewrite E0, (short (ds := [])) by auto. cbn [unfinished].
      rewrite Nat.mul_1_r. unfold waiting, count. f_equal. apply filter_ext. intros c. rewrite E. auto.
Qed.

Lemma limit_successes P k : successes h f P (b + k) =
  count (fun ds => exactly P (f ds)) (rolls (repeat h b)) * h ^ k + R * successes h f P k.
Proof using round short some.
  unfold successes at 1. rewrite repeat_app, count_rolls_app.
  rewrite (@sum_over_ext _ _ (fun a => h ^ k * (if exactly P (f a) then 1 else 0) +
    successes h f P k * (if unfinished (f a) then 1 else 0))).
  - rewrite sum_over_plus, !sum_over_mul. unfold R, count at 1 2. rewrite !length_filter_sum.
    rewrite (Nat.mul_comm (h ^ k)), (Nat.mul_comm (successes h f P k)). reflexivity.
  - intros a Ha. destruct (round Ha) as [(x & E)|E].
    + pose proof (E []) as E0. rewrite app_nil_r in E0. rewrite E0. cbn [unfinished exactly].
      rewrite Nat.mul_0_r, Nat.add_0_r, <- rolls_repeat_length. destruct (P x) eqn:Px.
      * rewrite Nat.mul_1_r. unfold count. f_equal. apply filter_true. intros c _. rewrite E. auto.
      * rewrite Nat.mul_0_r. apply count_zero. intros c _. rewrite E. auto.
    + pose proof (E []) as E0. rewrite app_nil_r in E0. rewrite E0, (short (ds := [])) by auto. cbn [unfinished exactly].
      rewrite Nat.mul_1_r, Nat.mul_0_r. unfold successes, count. cbn [plus]. f_equal. apply filter_ext. intros c. rewrite E. auto.
Qed.

Lemma limit_balance P num den :
  num * h ^ b = den * count (fun ds => exactly P (f ds)) (rolls (repeat h b)) + num * R ->
  forall k, den * successes h f P k + num * waiting h f k = num * h ^ k.
Proof using round short some.
  intros B k. induction k as [k IH] using lt_wf_ind. destruct (Nat.lt_ge_cases k b) as [Lt|Ge].
  - assert (S0 : successes h f P k = 0).
    { apply count_zero. intros ds Hd. rewrite short; auto. apply rolls_In, Forall2_len in Hd.
      rewrite repeat_length in Hd. lia. }
    assert (W0 : waiting h f k = h ^ k).
    { unfold waiting. rewrite <- rolls_repeat_length. unfold count. f_equal.
      apply filter_true. intros ds Hd. rewrite short; auto. apply rolls_In, Forall2_len in Hd.
      rewrite repeat_length in Hd. lia. }
    rewrite S0, W0. lia.
  - replace k with (b + (k - b)) by lia. specialize (IH (k - b) ltac:(lia)).
    rewrite limit_waiting, limit_successes, Nat.pow_add_r. set (j := k - b) in *.
    clearbody R. set (s := count (fun ds => exactly P (f ds)) (rolls (repeat h b))) in *.
    set (A := successes h f P j) in *. set (W := waiting h f j) in *. set (H := h ^ j) in *. set (Hb := h ^ b) in *.
    assert (E1 : R * (den * A + num * W) = R * (num * H)) by (rewrite IH; auto).
    assert (E2 : num * Hb * H = (den * s + num * R) * H) by (rewrite B; auto). clearbody s A W H Hb. nia.
Qed.

Lemma limit_surely : R < h ^ b -> ends_surely h f.
Proof using round short some.
  intros HR N. exists ((N * h ^ b + 1) * b). intros k Hk. rewrite rolls_repeat_length.
  assert (Nb : b <> 0) by lia.
  pose proof (Nat.div_mod k b Nb) as E. set (q := k / b) in *. set (j := Nat.modulo k b) in *.
  assert (Hj : j < b) by (apply Nat.mod_upper_bound; auto).
  assert (Hq : N * h ^ b + 1 <= q) by nia.
  assert (It : forall q, waiting h f (q * b + j) = R ^ q * waiting h f j).
  { clear -round short some. induction q as [|q IH]; [cbn [Nat.mul Nat.pow plus]; lia|]. cbn [Nat.mul Nat.pow].
    rewrite <- Nat.add_assoc, limit_waiting, IH. apply Nat.mul_assoc. }
  replace k with (q * b + j) by lia. rewrite It.
  assert (Wj : waiting h f j <= h ^ j) by apply waiting_le.
  rewrite Nat.pow_add_r, (Nat.mul_comm q b), Nat.pow_mul_r.
  assert (Be : N * (h ^ b - 1) ^ q <= (h ^ b - 1 + 1) ^ q).
  { pose proof (Nat.mul_le_mono_l (h ^ b - 1) (h ^ b) N ltac:(lia)) as M. apply (@bernoulli 1); lia. }
  replace (h ^ b - 1 + 1) with (h ^ b) in Be by lia.
  assert (Rq : R ^ q <= (h ^ b - 1) ^ q) by (apply Nat.pow_le_mono_l; lia).
  set (x := (h ^ b - 1) ^ q) in *. set (y := (h ^ b) ^ q) in *. set (z := R ^ q) in *.
  set (w := waiting h f j) in *. set (v := h ^ j) in *.
  assert (N * z <= y) by nia. nia.
Qed.

Lemma limit_probability P num den : 0 < den -> R < h ^ b ->
  num * h ^ b = den * count (fun ds => exactly P (f ds)) (rolls (repeat h b)) + num * R ->
  probability num den h f P.
Proof using round short some.
  intros Hd HR B. split; auto. intros N. destruct (limit_surely HR (N * num)) as [k0 K]. exists k0. intros k Hk.
  specialize (K k Hk). pose proof (limit_balance B k) as Ba. rewrite rolls_repeat_length in *. unfold distance.
  set (A := successes h f P k) in *. set (W := waiting h f k) in *. set (H := h ^ k) in *.
  replace (den * A - num * H + (num * H - den * A)) with (num * W) by lia. nia.
Qed.
End Limit.


(** Rounds of one or two draws. *)
Section Two.
Context {X : Type}.
Variables (f : rng -> outcome (X * rng)) (h : nat) (again : nat -> bool).
Hypothesis one : forall x, x < h -> again x = true -> forall rest, f (x :: rest) = f rest.
Hypothesis two : forall x u, x < h -> u < h -> again x = false ->
  (exists y, forall rest, f (x :: u :: rest) = Done (y, rest)) \/ (forall rest, f (x :: u :: rest) = f rest).
Hypothesis none : f [] = NoFuel.
Hypothesis half : forall x, x < h -> again x = false -> f [x] = NoFuel.

Let a := count again (seq 0 h).
Let R := sum_over (fun x => if again x then 0 else count (fun u => unfinished (f [x; u])) (seq 0 h)) (seq 0 h).

Lemma a_sum : a = sum_over (fun x => if again x then 1 else 0) (seq 0 h).
Proof. unfold a, count. apply length_filter_sum. Qed.

Lemma single x : x < h -> f [x] = NoFuel.
Proof using one none half. intros H. destruct (again x) eqn:E; [rewrite (one H E); auto|auto]. Qed.

Lemma count_rolls_cons (t : list nat -> bool) k :
  count t (rolls (repeat h (S k))) = sum_over (fun x => count (fun ds => t (x :: ds)) (rolls (repeat h k))) (seq 0 h).
Proof.
  cbn [repeat rolls]. unfold count. rewrite length_filter_sum, sum_over_flat_map.
  apply sum_over_ext. intros x _. rewrite sum_over_map, length_filter_sum. auto.
Qed.

Lemma two_waiting k : waiting h f (S (S k)) = a * waiting h f (S k) + R * waiting h f k.
Proof using one two none.
  unfold waiting at 1. rewrite count_rolls_cons.
  rewrite (@sum_over_ext _ _ (fun x => waiting h f (S k) * (if again x then 1 else 0) +
    waiting h f k * (if again x then 0 else count (fun u => unfinished (f [x; u])) (seq 0 h)))).
  - rewrite sum_over_plus, !sum_over_mul. rewrite a_sum. unfold R.
    rewrite (Nat.mul_comm (waiting h f (S k))), (Nat.mul_comm (waiting h f k)). reflexivity.
  - intros x Hx. apply in_seq in Hx. destruct (again x) eqn:Ea.
    + rewrite Nat.mul_1_r, Nat.mul_0_r, Nat.add_0_r. unfold waiting, count. f_equal. apply filter_ext.
      intros ds. rewrite one; auto. lia.
    + rewrite Nat.mul_0_r. cbn [plus]. rewrite count_rolls_cons. unfold count at 2.
      rewrite length_filter_sum, <- sum_over_mul. apply sum_over_ext. intros u Hu. apply in_seq in Hu.
      destruct (@two x u) as [(y & E)|E]; auto; try lia.
      * rewrite (E []). cbn [unfinished]. rewrite Nat.mul_0_r. apply count_zero. intros ds _. rewrite E. auto.
      * rewrite (E []), none. cbn [unfinished]. rewrite Nat.mul_1_r. unfold waiting, count. f_equal. apply filter_ext.
        intros ds. rewrite E. auto.
Qed.

Lemma two_successes P k : successes h f P (S (S k)) =
  a * successes h f P (S k) + count (fun ds => exactly P (f ds)) (rolls [h; h]) * h ^ k + R * successes h f P k.
Proof using one two none half.
  unfold successes at 1. rewrite count_rolls_cons.
  rewrite (@sum_over_ext _ _ (fun x => (successes h f P (S k) * (if again x then 1 else 0) +
    h ^ k * (count (fun u => exactly P (f [x; u])) (seq 0 h))) +
    successes h f P k * (if again x then 0 else count (fun u => unfinished (f [x; u])) (seq 0 h)))).
  - rewrite !sum_over_plus, !sum_over_mul. rewrite a_sum. unfold R.
    rewrite (Nat.mul_comm (successes h f P (S k))), (Nat.mul_comm (successes h f P k)), (Nat.mul_comm (h ^ k)).
    repeat f_equal. change [h; h] with (repeat h 2). rewrite count_rolls_cons. apply sum_over_ext. intros x _.
    cbn [repeat rolls]. unfold count. rewrite !length_filter_sum, sum_over_flat_map. apply sum_over_ext. intros u _.
    rewrite sum_over_map, sum_over_one. auto.
  - intros x Hx. apply in_seq in Hx. destruct (again x) eqn:Ea.
    + rewrite Nat.mul_1_r, Nat.mul_0_r, Nat.add_0_r.
      replace (count (fun u => exactly P (f [x; u])) (seq 0 h)) with 0.
      2:{ symmetry. apply count_zero. intros u Hu. apply in_seq in Hu. rewrite (one (x := x)) by (auto; lia).
          rewrite single by lia. auto. }
      rewrite Nat.mul_0_r, Nat.add_0_r. unfold successes, count. f_equal. apply filter_ext.
      intros ds. rewrite one; auto. lia.
    + rewrite Nat.mul_0_r. cbn [plus]. rewrite count_rolls_cons.
      unfold count at 2 3. rewrite !length_filter_sum, <- !sum_over_mul, <- sum_over_plus.
      apply sum_over_ext. intros u Hu. apply in_seq in Hu.
      destruct (@two x u) as [(y & E)|E]; auto; try lia.
      * rewrite (E []). cbn [unfinished exactly]. rewrite Nat.mul_0_r, Nat.add_0_r, <- rolls_repeat_length.
        destruct (P y) eqn:Py.
        -- rewrite Nat.mul_1_r. unfold count. f_equal. apply filter_true. intros ds _. rewrite E. auto.
        -- rewrite Nat.mul_0_r. apply count_zero. intros ds _. rewrite E. auto.
      * rewrite (E []), none. cbn [unfinished exactly]. rewrite Nat.mul_1_r, Nat.mul_0_r. cbn [plus].
        unfold successes, count. f_equal. apply filter_ext. intros ds. rewrite E. auto.
Qed.

Lemma two_balance P num den :
  num * (h * h) = den * count (fun ds => exactly P (f ds)) (rolls [h; h]) + num * (a * h + R) ->
  forall k, den * successes h f P k + num * waiting h f k = num * h ^ k.
Proof using one two none half.
  intros B k. induction k as [k IH] using lt_wf_ind. destruct k as [|[|k]].
  - unfold successes, waiting, count. cbn [repeat rolls filter]. rewrite none. cbn. lia.
  - assert (S0 : successes h f P 1 = 0).
    { apply count_zero. intros ds Hd.
      apply rolls_In in Hd. cbn [repeat] in Hd. inversion Hd as [|? x ? l Hx Hl]; subst. inversion Hl; subst. rewrite single; auto. }
    assert (W0 : waiting h f 1 = h).
    { unfold waiting. transitivity (length (rolls (repeat h 1))); [|rewrite rolls_repeat_length; cbn; lia].
      unfold count. f_equal. apply filter_true. intros ds Hd.
      apply rolls_In in Hd. cbn [repeat] in Hd. inversion Hd as [|? x ? l Hx Hl]; subst. inversion Hl; subst. rewrite single; auto. }
    rewrite S0, W0. cbn [Nat.pow]. lia.
  - pose proof (IH k ltac:(lia)) as I0. pose proof (IH (S k) ltac:(lia)) as I1.
    rewrite two_waiting, two_successes. cbn [Nat.pow] in *.
    set (s := count _ (rolls [h; h])) in *.
    set (A0 := successes h f P k) in *. set (A1 := successes h f P (S k)) in *.
    set (W0 := waiting h f k) in *. set (W1 := waiting h f (S k)) in *. set (H := h ^ k) in *.
    clearbody a R s A0 A1 W0 W1 H.
    assert (E0 : R * (den * A0 + num * W0) = R * (num * H)) by (rewrite I0; auto).
    assert (E1 : a * (den * A1 + num * W1) = a * (num * (h * H))) by (rewrite I1; auto).
    assert (E2 : num * (h * h) * H = (den * s + num * (a * h + R)) * H) by (rewrite B; auto).
    nia.
Qed.

Lemma two_probability P num den : 0 < den -> ends_surely h f ->
  num * (h * h) = den * count (fun ds => exactly P (f ds)) (rolls [h; h]) + num * (a * h + R) ->
  probability num den h f P.
Proof using one two none half.
  intros Hd Hs B. split; auto. intros N. destruct (Hs (N * num)) as [k0 K]. exists k0. intros k Hk.
  specialize (K k Hk). pose proof (two_balance B k) as Ba. rewrite rolls_repeat_length in *. unfold distance.
  set (A := successes h f P k) in *. set (W := waiting h f k) in *. set (H := h ^ k) in *.
  replace (den * A - num * H + (num * H - den * A)) with (num * W) by lia. nia.
Qed.
End Two.
