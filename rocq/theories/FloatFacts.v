(** Quotients of whole numbers in floating point arithmetic. *)
From Verif Require Import Base BaseFacts GraphFacts LoadSpec LoadFacts FloatSpec Rounding Float.
From Coq Require Import ZArith QArith Qpower Qabs Lqa SpecFloat.
Set Implicit Arguments.
Unset Strict Implicit.
Local Open Scope Q_scope.

Lemma qnat_le m n : (m <= n)%nat -> qnat m <= qnat n.
Proof. intros H. unfold qnat. rewrite <- Zle_Qle. lia. Qed.

Lemma qnat_lt m n : (m < n)%nat -> qnat m < qnat n.
Proof. intros H. unfold qnat. rewrite <- Zlt_Qlt. lia. Qed.

Lemma qnat_nonneg n : 0 <= qnat n.
Proof. apply (@qnat_le 0). lia. Qed.

Lemma qnat_pos n : (0 < n)%nat -> 0 < qnat n.
Proof. apply (@qnat_lt 0). Qed.

Lemma qnat_one : qnat 1 = 1.
Proof. reflexivity. Qed.

Section Ratio.
Variables prec emax : Z.
Hypothesis Hprec : (1 < prec)%Z.
Hypothesis Hemax : (prec + 2 < emax)%Z.
Hypothesis Hsize : (67 < emax)%Z.

Definition of_nat (n : nat) : spec_float := binary_normalize prec emax (Z.of_nat n) 0 false.

Lemma Hemax' : (prec < emax)%Z.
Proof. lia. Qed.

Lemma qnat_below n : (Z.of_nat n < 2 ^ 64)%Z -> qnat n < p2 (emax - 1).
Proof.
  intros H. apply (Qlt_le_trans _ (p2 64)); [|apply p2_le; lia].
  rewrite p2_Z by lia. unfold qnat. rewrite <- Zlt_Qlt. auto.
Qed.

Lemma of_nat_nearest n : (Z.of_nat n < 2 ^ 64)%Z -> nearest prec emax (qnat n) (of_nat n).
Proof.
  intros H. apply (normalize_spec Hprec Hemax'); [|lia|apply qnat_below; auto].
  unfold qnat. change (p2 0) with 1. ring.
Qed.

Lemma of_nat_exact n : (Z.of_nat n < 2 ^ 64)%Z -> (Z.of_nat n <= 2 ^ prec)%Z ->
  exists q, fval (of_nat n) = Some q /\ q == qnat n.
Proof.
  intros H1 H. apply (@nearest_exact prec emax).
  - apply (whole_representable Hprec Hemax'). lia.
  - apply of_nat_nearest. auto.
Qed.

(** [0 / 0] and [a / 0]. *)
Lemma ratio_nan : SFdiv prec emax (of_nat 0) (of_nat 0) = S754_nan.
Proof. reflexivity. Qed.

Lemma of_nat_fval n : (Z.of_nat n < 2 ^ 64)%Z -> (0 < n)%nat ->
  exists q, fval (of_nat n) = Some q /\ representable prec emax q /\ 1 <= q.
Proof.
  intros H P. pose proof (of_nat_nearest H) as Ne. destruct Ne as (q & F & R & N). exists q. split; auto. split; auto.
  apply (@nearest_ge prec emax (qnat n) (of_nat n) 1 q); auto.
  - exists q. auto.
  - change 1 with (inject_Z 1). apply (whole_representable Hprec Hemax'). cbn [Z.abs].
    change 1%Z with (2 ^ 0)%Z at 1. apply Z.pow_le_mono_r; lia.
  - change 1 with (qnat 1). apply qnat_le. lia.
Qed.

Lemma ratio_inf n : (Z.of_nat n < 2 ^ 64)%Z -> (0 < n)%nat ->
  SFdiv prec emax (of_nat n) (of_nat 0) = S754_infinity false.
Proof.
  intros H P. destruct (of_nat_fval H P) as (q & F & _ & Q1).
  destruct (of_nat n) as [s|s| |s m e]; try discriminate.
  - injection F as <-. lra.
  - rewrite (finite_sign F) by lra. reflexivity.
Qed.

(** With both numbers represented exactly the result is the rounded quotient. *)
Lemma ratio_nearest a b : (Z.of_nat a < 2 ^ 64)%Z -> (Z.of_nat b < 2 ^ 64)%Z ->
  (Z.of_nat a <= 2 ^ prec)%Z -> (Z.of_nat b <= 2 ^ prec)%Z -> (0 < b)%nat ->
  nearest prec emax (qnat a / qnat b) (SFdiv prec emax (of_nat a) (of_nat b)).
Proof.
  intros A B A' B' P. destruct (of_nat_exact A A') as (qa & Fa & Ea). destruct (of_nat_exact B B') as (qb & Fb & Eb).
  pose proof (qnat_pos P) as Pb. pose proof (@qnat_nonneg a) as Pa.
  apply (@nearest_eq prec emax (qa / qb)); [rewrite Ea, Eb; reflexivity|].
  apply (div_spec Hprec Hemax'); auto; [lra|lra|]. rewrite Ea, Eb.
  apply (Qle_lt_trans _ (qnat a)); [|apply qnat_below; auto].
  apply Qle_shift_div_r; auto. pose proof (@qnat_le 1 b P) as Q1. rewrite qnat_one in Q1. nra.
Qed.

Lemma one_representable : representable prec emax 1.
Proof.
  change 1 with (inject_Z 1). apply (whole_representable Hprec Hemax'). cbn [Z.abs].
  change 1%Z with (2 ^ 0)%Z at 1. apply Z.pow_le_mono_r; lia.
Qed.

(** A proper fraction stays one: it is neither rounded to 0 nor to 1. *)
Lemma ratio_unit a b : (Z.of_nat b < 2 ^ 64)%Z -> (Z.of_nat b <= 2 ^ prec)%Z -> (0 < b)%nat -> (a <= b)%nat ->
  exists q, fval (SFdiv prec emax (of_nat a) (of_nat b)) = Some q /\
    0 <= q /\ q <= 1 /\ (q == 0 <-> a = 0%nat) /\ (q == 1 <-> a = b).
Proof.
  intros B B' P L. pose proof (@ratio_nearest a b ltac:(lia) B ltac:(lia) B' P) as Ne.
  destruct Ne as (q & F & R & N). exists q. split; auto.
  assert (Ne : nearest prec emax (qnat a / qnat b) (SFdiv prec emax (of_nat a) (of_nat b))) by (exists q; auto).
  clear N. pose proof (qnat_pos P) as Pb. pose proof (@qnat_nonneg a) as Pa. pose proof (qnat_le L) as Lq.
  assert (X0 : 0 <= qnat a / qnat b) by (apply Qle_shift_div_l; auto; lra).
  assert (X1 : qnat a / qnat b <= 1) by (apply Qle_shift_div_r; auto; lra).
  assert (Q0 : 0 <= q) by (apply (nearest_ge Ne (zero_representable emax Hprec) X0 F)).
  assert (Q1 : q <= 1) by (apply (nearest_le Ne one_representable X1 F)).
  splits; auto.
  - split.
    + intros E. destruct (Nat.eq_dec a 0) as [|Na]; auto. exfalso.
      assert (K : p2 (- prec) <= q).
      { apply (nearest_ge Ne); auto; [apply (p2_representable emax Hprec); unfold emin; lia|].
        apply Qle_shift_div_l; auto. pose proof (@qnat_le 1 a ltac:(lia)) as A1. rewrite qnat_one in A1.
        assert (qnat b <= p2 prec) by (rewrite p2_Z by lia; unfold qnat; rewrite <- Zle_Qle; auto).
        assert (p2 (- prec) * p2 prec == 1) by (rewrite <- p2_plus; replace (- prec + prec)%Z with 0%Z by lia; reflexivity).
        pose proof (p2_pos (- prec)). nra. }
      pose proof (p2_pos (- prec)). lra.
    + intros ->. apply Qle_antisym; auto. apply (nearest_le Ne (zero_representable emax Hprec)); auto;
      apply Qle_shift_div_r; auto; change (qnat 0) with 0; lra.
  - split.
    + intros E. destruct (Nat.eq_dec a b) as [|Na]; auto. exfalso.
      assert (K : q <= 1 - p2 (- prec)).
      { apply (nearest_le Ne); auto.
        - exists (2 ^ prec - 1)%Z, (- prec)%Z. split; [|split; [|unfold emin; lia]].
          + unfold Z.sub at 1. rewrite inject_Z_plus, <- p2_Z by lia. rewrite Qmult_plus_distr_l, <- p2_plus.
            replace (prec + - prec)%Z with 0%Z by lia. change (p2 0) with 1. change (inject_Z (- (1))) with (- (1)). ring.
          + pose proof (Z.pow_pos_nonneg 2 prec). lia.
        - apply Qle_shift_div_r; auto. pose proof (@qnat_le (a + 1) b ltac:(lia)) as A1. rewrite qnat_plus, qnat_one in A1.
          assert (qnat b <= p2 prec) by (rewrite p2_Z by lia; unfold qnat; rewrite <- Zle_Qle; auto).
          assert (p2 (- prec) * p2 prec == 1) by (rewrite <- p2_plus; replace (- prec + prec)%Z with 0%Z by lia; reflexivity).
          pose proof (p2_pos (- prec)). nra. }
      pose proof (p2_pos (- prec)). lra.
    + intros ->. apply Qle_antisym; auto. apply (nearest_ge Ne one_representable); auto.
      apply Qle_shift_div_l; auto. lra.
Qed.

(** Larger numbers are rounded first; even so the quotient stays within 0 and 1. *)
Lemma ratio_unit_large a b : (Z.of_nat b < 2 ^ 64)%Z -> (0 < b)%nat -> (a <= b)%nat ->
  exists q, fval (SFdiv prec emax (of_nat a) (of_nat b)) = Some q /\
    0 <= q /\ q <= 1 /\ (q == 0 <-> a = 0%nat) /\ (a = b -> q == 1).
Proof.
  intros B P L. destruct (of_nat_fval B P) as (qb & Fb & Rb & Qb).
  assert (Ha : exists qa, fval (of_nat a) = Some qa /\ 0 <= qa /\ qa <= qb /\ (a = 0%nat -> qa == 0) /\
     ((0 < a)%nat -> 1 <= qa) /\ (a = b -> qa = qb)).
  { destruct (Nat.eq_dec a 0) as [->|Na].
    - exists 0. split; auto. splits; try lra; intros; try lia; reflexivity.
    - destruct (@of_nat_fval a ltac:(lia) ltac:(lia)) as (qa & Fa & Ra & Qa). exists qa. split; auto.
      splits; try lra; try lia; auto; [|intros; subst; congruence].
      destruct (Nat.eq_dec a b) as [->|Nb]; [assert (qa = qb) by congruence; subst; lra|].
      apply (@nearest_mono prec emax (qnat a) (qnat b) (of_nat a) (of_nat b)); auto.
      + apply of_nat_nearest. lia.
      + apply of_nat_nearest. auto.
      + apply qnat_lt. lia. }
  destruct Ha as (qa & Fa & A0 & A1 & A2 & A3 & A4).
  assert (Xu : qa / qb <= 1) by (apply Qle_shift_div_r; lra).
  assert (Xl : 0 <= qa / qb) by (apply Qle_shift_div_l; lra).
  assert (Ne : nearest prec emax (qa / qb) (SFdiv prec emax (of_nat a) (of_nat b))).
  { apply (div_spec Hprec Hemax'); auto; [lra|]. apply (Qle_lt_trans _ 1); auto. change 1 with (p2 0).
    apply Qpower_lt_compat_l; [lia|reflexivity]. }
  pose proof Ne as (q & F & _ & _). exists q. split; auto.
  assert (Q0 : 0 <= q) by (apply (nearest_ge Ne (zero_representable emax Hprec) Xl F)).
  assert (Q1 : q <= 1) by (apply (nearest_le Ne one_representable Xu F)).
  splits; auto.
  - split.
    + intros E. destruct (Nat.eq_dec a 0) as [|Na]; auto. exfalso. specialize (A3 ltac:(lia)).
      assert (K : p2 (-65) <= q); [|pose proof (p2_pos (-65)); lra].
      apply (nearest_ge Ne); auto; [apply (p2_representable emax Hprec); unfold emin; lia|].
      apply Qle_shift_div_l; [lra|].
      assert (qb <= p2 64).
      { apply (@nearest_le prec emax (qnat b) (of_nat b)); auto; [apply of_nat_nearest; auto| |].
        - apply (p2_representable emax Hprec). unfold emin. lia.
        - rewrite p2_Z by lia. unfold qnat. rewrite <- Zle_Qle. lia. }
      assert (p2 (-65) * p2 64 <= 1) by (rewrite <- p2_plus; change 1 with (p2 0); apply p2_le; lia).
      pose proof (p2_pos (-65)). nra.
    + intros Ea. apply Qle_antisym; auto. apply (nearest_le Ne (zero_representable emax Hprec)); auto.
      rewrite (A2 Ea). apply Qle_shift_div_r; lra.
  - intros Ea. apply Qle_antisym; auto. apply (nearest_ge Ne one_representable); auto.
    rewrite (A4 Ea). apply Qle_shift_div_l; lra.
Qed.
End Ratio.
