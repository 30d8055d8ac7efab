(** Facts about how many Markov steps are enough. *)
From Verif Require Import Base Rng Markov GraphSpec Sums UniformSpec UniformFacts BalanceSpec BalanceFacts FairSpec ConvergeSpec ConvergeFacts RateSpec.
Set Implicit Arguments.
Unset Strict Implicit.

Lemma halves x A q : x <= A -> 0 < q -> x <= q * (A - x) -> 2 * x ^ q <= A ^ q.
Proof.
  intros Hx Q Hq.
  assert (G : forall q, x ^ S q + S q * (A - x) * x ^ q <= A ^ S q).
  { clear Hq Q q. induction q as [|q IH]; [cbn; lia|].
    change (A ^ S (S q)) with (A * A ^ S q). change (x ^ S (S q)) with (x * x ^ S q).
    change (x ^ S q) with (x * x ^ q) in *. generalize dependent (A ^ S q). generalize (x ^ q). intros u v H.
    apply (Nat.mul_le_mono_l _ _ A) in H. eapply Nat.le_trans; [|exact H].
    assert (E : A = x + (A - x)) by lia. generalize dependent (A - x). intros d Hd E. rewrite E. nia. }
  destruct q as [|q]; [lia|]. specialize (G q). cbn [Nat.pow] in *.
  apply (Nat.mul_le_mono_r _ _ (x ^ q)) in Hq. lia.
Qed.

Lemma halves_often x A q j : x <= A -> 0 < q -> x <= q * (A - x) -> 2 ^ j * x ^ (q * j) <= A ^ (q * j).
Proof.
  intros Hx Q Hq. rewrite !Nat.pow_mul_r, <- Nat.pow_mul_l. apply Nat.pow_le_mono_l. apply halves; auto.
Qed.

Lemma differs_weaken {S R} a b a' b' (m_step : S -> rng -> outcome (R * S * rng)) D k s sample draws P : 0 < b ->
  a * b' <= a' * b -> differs_by a b m_step D k s sample draws P -> differs_by a' b' m_step D k s sample draws P.
Proof.
  unfold differs_by. intros Hb Hab H. generalize dependent (length draws * length (powers k D)).
  generalize (distance (length draws * arrivals m_step D s P k) (count (fun d => ends P (sample d)) draws * length (powers k D))).
  intros x y H. apply Nat.mul_le_mono_pos_l with (p := b); auto.
  apply (Nat.mul_le_mono_l _ _ b') in H. apply (Nat.mul_le_mono_r _ _ y) in Hab. lia.
Qed.

Lemma some_pair n : 2 <= n -> 0 < n * (n - 1) / 2.
Proof. intros H. apply Nat.div_str_pos. nia. Qed.
