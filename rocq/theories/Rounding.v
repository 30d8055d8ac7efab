(** Rounding to nearest in the binary formats of the standard library ([SpecFloat]). *)
From Verif Require Import FloatSpec.
From Coq Require Import ZArith QArith Qpower Qround Qabs Lia Lqa SpecFloat Bool.
Set Implicit Arguments.
Local Open Scope Q_scope.

Lemma p2_pos e : 0 < p2 e.
Proof. apply Qpower_0_lt. reflexivity. Qed.

Lemma p2_plus a b : p2 (a + b) == p2 a * p2 b.
Proof. apply Qpower_plus. intros H. discriminate H. Qed.

Lemma p2_succ a : p2 (a + 1) == 2 * p2 a.
Proof. rewrite p2_plus. change (p2 1) with (2 # 1). lra. Qed.

Lemma p2_Z n : (0 <= n)%Z -> p2 n == inject_Z (2 ^ n).
Proof. intros H. unfold p2. rewrite Zpower_Qpower; auto. reflexivity. Qed.

Lemma p2_le a b : (a <= b)%Z -> p2 a <= p2 b.
Proof.
  intros H. replace b with (a + (b - a))%Z by lia. rewrite p2_plus, (@p2_Z (b - a)) by lia.
  pose proof (p2_pos a). assert (1 <= inject_Z (2 ^ (b - a))).
  { change 1 with (inject_Z 1). rewrite <- Zle_Qle. pose proof (Z.pow_pos_nonneg 2 (b - a)). lia. }
  nra.
Qed.

Lemma inj_succ z : inject_Z (z + 1) == inject_Z z + 1.
Proof. rewrite inject_Z_plus. reflexivity. Qed.

Lemma inj_double z : inject_Z (2 * z) == 2 * inject_Z z.
Proof. rewrite inject_Z_mult. reflexivity. Qed.

Lemma digits2_bounds p : (2 ^ (Zpos (digits2_pos p) - 1) <= Zpos p < 2 ^ Zpos (digits2_pos p))%Z.
Proof.
  induction p as [p IH|p IH|]; cbn [digits2_pos]; [| |cbn; lia];
    rewrite Pos2Z.inj_succ; replace (Z.succ (Z.pos (digits2_pos p)) - 1)%Z with (Z.pos (digits2_pos p)) by lia;
    rewrite Z.pow_succ_r by lia; replace (Z.pos (digits2_pos p)) with (Z.succ (Z.pos (digits2_pos p) - 1)) at 1 by lia;
    rewrite Z.pow_succ_r by lia; lia.
Qed.

Lemma Zdigits2_bounds m : (0 < m)%Z -> (2 ^ (Zdigits2 m - 1) <= m < 2 ^ Zdigits2 m)%Z /\ (0 < Zdigits2 m)%Z.
Proof. destruct m as [|p|p]; try lia. intros _. split; [apply digits2_bounds|reflexivity]. Qed.

Lemma Zdigits2_le m k : (0 < m < 2 ^ k)%Z -> (Zdigits2 m <= k)%Z.
Proof.
  intros H. destruct (@Zdigits2_bounds m ltac:(lia)) as [[B _] D].
  destruct (Z.lt_ge_cases k (Zdigits2 m)) as [K|K]; auto. exfalso.
  assert (0 <= k)%Z by (destruct (Z.lt_ge_cases k 0) as [N|N]; auto; rewrite (Z.pow_neg_r 2 k N) in H; lia).
  pose proof (Z.pow_le_mono_r 2 k (Zdigits2 m - 1)). lia.
Qed.

Section Format.
Variables prec emax : Z.
Hypothesis Hprec : (1 < prec)%Z.
Hypothesis Hemax : (prec < emax)%Z.

Notation representable := (representable prec emax).
Notation nearest := (nearest prec emax).

(** [x] is in the interval that the mantissa, the half bit and the sticky bit stand for. *)
Definition held (x : Q) (k : Z) (mrs : shr_record) : Prop :=
  let h := (2 * shr_m mrs + Z.b2z (shr_r mrs))%Z in
  (0 <= shr_m mrs)%Z /\ inject_Z h * p2 (k - 1) <= x /\ x < inject_Z (h + 1) * p2 (k - 1) /\
  (shr_s mrs = false <-> x == inject_Z h * p2 (k - 1)).

Lemma held_step x k mrs : held x k mrs -> held x (k + 1) (shr_1 mrs).
Proof.
  unfold held. destruct mrs as [m r s]. cbn [shr_m shr_r shr_s]. intros (M & A & B & S).
  assert (E : (2 * shr_m (shr_1 (Build_shr_record m r s)) + Z.b2z (shr_r (shr_1 (Build_shr_record m r s))) = m)%Z /\
              (0 <= shr_m (shr_1 (Build_shr_record m r s)))%Z /\
              shr_s (shr_1 (Build_shr_record m r s)) = r || s).
  { destruct m as [|[p|p|]|p]; cbn; repeat split; try lia. }
  destruct E as (E1 & E2 & E3). rewrite E1, E3. split; auto.
  replace (k + 1 - 1)%Z with (k - 1 + 1)%Z by lia. rewrite p2_succ. pose proof (p2_pos (k - 1)) as U.
  set (u := p2 (k - 1)) in *. rewrite !inject_Z_plus, inj_double in A. rewrite !inject_Z_plus, inj_double in B.
  rewrite !inject_Z_plus, inj_double in S.
  rewrite inject_Z_plus.
  change (inject_Z 1) with 1 in *.
  destruct r; cbn [Z.b2z orb] in *; [change (inject_Z 1) with 1 in *|change (inject_Z 0) with 0 in *];
    (split; [nra|]; split; [nra|]).
  - split; [discriminate|]. intros K. exfalso. nra.
  - rewrite S. split; intros K; nra.
Qed.

Lemma held_iter x p : forall k mrs, held x k mrs -> held x (k + Zpos p) (iter_pos shr_1 p mrs).
Proof.
  induction p as [p IH|p IH|]; intros k mrs H; cbn [iter_pos].
  - replace (k + Z.pos p~1)%Z with (k + 1 + Z.pos p + Z.pos p)%Z by lia. apply IH, IH, held_step, H.
  - replace (k + Z.pos p~0)%Z with (k + Z.pos p + Z.pos p)%Z by lia. apply IH, IH, H.
  - apply held_step, H.
Qed.

Lemma held_shr x e mrs n : held x e mrs -> (0 <= n)%Z ->
  held x (e + n) (fst (shr mrs e n)) /\ snd (shr mrs e n) = (e + n)%Z.
Proof.
  intros H N. destruct n as [|p|p]; cbn [shr fst snd].
  - rewrite Z.add_0_r. auto.
  - split; auto. apply held_iter, H.
  - lia.
Qed.

Lemma held_floor x k mrs : held x k mrs ->
  (0 <= shr_m mrs)%Z /\ inject_Z (shr_m mrs) * p2 k <= x /\ x < inject_Z (shr_m mrs + 1) * p2 k.
Proof.
  intros (M & A & B & _). split; auto. replace k with (k - 1 + 1)%Z by lia. rewrite p2_succ.
  replace (k - 1 + 1 - 1)%Z with (k - 1)%Z by lia. pose proof (p2_pos (k - 1)) as U. set (u := p2 (k - 1)) in *.
  rewrite !inject_Z_plus, inj_double in A. rewrite !inject_Z_plus, inj_double in B. rewrite inject_Z_plus.
  destruct (shr_r mrs); cbn [Z.b2z] in *; change (inject_Z 1) with 1 in *; try change (inject_Z 0) with 0 in *; split; nra.
Qed.

(** The mantissa chosen is the nearer one of the two. *)
Lemma held_choice x k mrs : held x k mrs ->
  let m := round_nearest_even (shr_m mrs) (loc_of_shr_record mrs) in
  (m = shr_m mrs \/ m = shr_m mrs + 1)%Z /\
  Qabs (inject_Z m * p2 k - x) <= x - inject_Z (shr_m mrs) * p2 k /\
  Qabs (inject_Z m * p2 k - x) <= inject_Z (shr_m mrs + 1) * p2 k - x.
Proof.
  intros (M & A & B & S). cbv zeta. replace k with (k - 1 + 1)%Z by lia. rewrite p2_succ.
  replace (k - 1 + 1 - 1)%Z with (k - 1)%Z in * by lia. pose proof (p2_pos (k - 1)) as U. set (u := p2 (k - 1)) in *.
  destruct mrs as [m r s]. cbn [shr_m shr_r shr_s] in *.
  rewrite !inject_Z_plus, inj_double in A. rewrite !inject_Z_plus, inj_double in B. rewrite !inject_Z_plus, inj_double in S.
  assert (Lo : forall y, y == inject_Z m * (2 * u) -> y <= x -> x <= y + u ->
     Qabs (y - x) <= x - inject_Z m * (2 * u) /\ Qabs (y - x) <= inject_Z (m + 1) * (2 * u) - x).
  { intros y Y H1 H2. rewrite inject_Z_plus. change (inject_Z 1) with 1.
    rewrite Qabs_neg by lra. split; nra. }
  assert (Hi : forall y, y == inject_Z (m + 1) * (2 * u) -> x <= y -> y <= x + u ->
     Qabs (y - x) <= x - inject_Z m * (2 * u) /\ Qabs (y - x) <= inject_Z (m + 1) * (2 * u) - x).
  { intros y Y H1 H2. rewrite inject_Z_plus in *. change (inject_Z 1) with 1 in *.
    rewrite Qabs_pos by lra. split; nra. }
  destruct r, s; cbn [Z.b2z loc_of_shr_record round_nearest_even] in *;
    change (inject_Z 1) with 1 in *; try change (inject_Z 0) with 0 in *.
  - split; auto. apply Hi; [reflexivity| |]; rewrite inject_Z_plus; change (inject_Z 1) with 1; nra.
  - destruct S as [S _]. specialize (S eq_refl). destruct (Z.even m).
    + split; auto. apply Lo; [reflexivity|nra|nra].
    + split; auto. apply Hi; [reflexivity| |]; rewrite inject_Z_plus; change (inject_Z 1) with 1; nra.
  - split; auto. apply Lo; [reflexivity|nra|nra].
  - destruct S as [S _]. specialize (S eq_refl). split; auto. apply Lo; [reflexivity|nra|nra].
Qed.

(** No number of the format lies between two neighbouring mantissas. *)
Lemma gap m k y : (0 <= m)%Z -> (emin prec emax <= k)%Z -> (2 ^ (prec - 1) <= m)%Z \/ k = emin prec emax ->
  representable y -> y <= inject_Z m * p2 k \/ inject_Z (m + 1) * p2 k <= y.
Proof.
  intros M K H (n & f & Y & N & F). pose proof (p2_pos k) as U. pose proof (p2_pos f) as Uf.
  destruct (Z.le_gt_cases k f) as [L|L].
  - replace f with (f - k + k)%Z in Y by lia. rewrite p2_plus, (@p2_Z (f - k)) in Y by lia.
    assert (Y' : y == inject_Z (n * 2 ^ (f - k)) * p2 k) by (rewrite inject_Z_mult, Y; ring). clear Y.
    destruct (Z.le_gt_cases (n * 2 ^ (f - k)) m) as [G|G].
    + left. rewrite Y'. apply Qmult_le_compat_r; [|lra]. rewrite <- Zle_Qle. auto.
    + right. rewrite Y'. apply Qmult_le_compat_r; [|lra]. rewrite <- Zle_Qle. lia.
  - left. destruct H as [H|H]; [|lia]. rewrite Y.
    assert (E : p2 k == p2 (k - f - 1) * (2 * p2 f)).
    { rewrite <- (p2_succ f), <- p2_plus. replace (k - f - 1 + (f + 1))%Z with k by lia. reflexivity. }
    assert (Hn : inject_Z n <= 2 * inject_Z m).
    { rewrite <- inj_double. rewrite <- Zle_Qle. replace prec with (Z.succ (prec - 1)) in N by lia.
      rewrite Z.pow_succ_r in N by lia. lia. }
    assert (Hm : 0 <= inject_Z m) by (change 0 with (inject_Z 0); rewrite <- Zle_Qle; auto).
    assert (1 <= p2 (k - f - 1)) by (change 1 with (p2 0); apply p2_le; lia).
    rewrite E. assert (A1 : inject_Z n * p2 f <= 2 * (inject_Z m * p2 f)) by nra.
    assert (A2 : 0 <= inject_Z m * p2 f) by nra. set (w := inject_Z m * p2 f) in *.
    setoid_replace (inject_Z m * (p2 (k - f - 1) * (2 * p2 f))) with (2 * (w * p2 (k - f - 1))) by (unfold w; ring).
    nra.
Qed.

Lemma shr_none mrs e n : (n <= 0)%Z -> shr mrs e n = (mrs, e).
Proof. destruct n; auto. lia. Qed.

(** The rounding of a number that is known to lie in an interval. *)
Lemma round_aux_spec x m e l : held x e (shr_record_of_loc m l) -> (e <= fexp prec emax (Zdigits2 m + e))%Z ->
  x < p2 (emax - 1) -> nearest x (binary_round_aux prec emax false m e l).
Proof.
  intros H F Lx. unfold binary_round_aux, shr_fexp at 1.
  pose proof (proj1 (held_floor H)) as M0. assert (M : (0 <= m)%Z) by (destruct l as [|[]]; exact M0). clear M0.
  destruct (@held_shr x e _ (fexp prec emax (Zdigits2 m + e) - e) H ltac:(lia)) as [H1 E1].
  destruct (shr _ e _) as [mrs e1]. cbn [fst snd] in H1, E1.
  replace (e + (fexp prec emax (Zdigits2 m + e) - e))%Z with (fexp prec emax (Zdigits2 m + e)) in * by lia.
  rewrite <- E1 in H1, F. 
  assert (Hf : (emin prec emax <= e1)%Z) by (rewrite E1; unfold fexp; lia).
  assert (Fl : inject_Z m * p2 e <= x /\ x < inject_Z (m + 1) * p2 e).
  { destruct (held_floor H) as (_ & A & B). destruct l as [|[]]; cbn [shr_record_of_loc shr_m] in A, B; auto. }
  destruct (held_floor H1) as (Mp & A & B). destruct (held_choice H1) as (Cm & D1 & D2).
  set (m1 := shr_m mrs) in *. set (m2 := round_nearest_even m1 (loc_of_shr_record mrs)) in *.
  pose proof (p2_pos e1) as U.
  (* the bounds of the mantissa *)
  assert (Hm1 : (m1 < 2 ^ prec)%Z /\ ((2 ^ (prec - 1) <= m1)%Z \/ e1 = emin prec emax) /\ (e1 < emax - prec)%Z).
  { destruct (Z.eq_dec m 0) as [->|Nz].
    - cbn [Zdigits2] in E1. assert (Ee : e1 = emin prec emax) by (unfold fexp in E1; lia).
      split; [|split; [auto|unfold emin in Ee; lia]].
      assert (inject_Z m1 < 1).
      { assert (p2 e <= p2 e1) by (apply p2_le; auto). cbn in Fl. change (inject_Z 1) with 1 in Fl. nra. }
      change 1 with (inject_Z 1) in H0. rewrite <- Zlt_Qlt in H0. pose proof (Z.pow_pos_nonneg 2 prec). lia.
    - destruct (@Zdigits2_bounds m ltac:(lia)) as [[B1 B2] B3]. set (d := Zdigits2 m) in *.
      assert (X1 : p2 (d - 1 + e) <= x).
      { rewrite p2_plus, (@p2_Z (d - 1)) by lia. pose proof (p2_pos e).
        assert (inject_Z (2 ^ (d - 1)) <= inject_Z m) by (rewrite <- Zle_Qle; auto). nra. }
      assert (X2 : x < p2 (d + e)).
      { rewrite p2_plus, (@p2_Z d) by lia. pose proof (p2_pos e).
        assert (inject_Z (m + 1) <= inject_Z (2 ^ d)) by (rewrite <- Zle_Qle; lia). nra. }
      assert (Hde : (d + e < emax)%Z).
      { assert (p2 (d - 1 + e) < p2 (emax - 1)) by lra. apply Qpower_lt_compat_l_inv in H0; [lia|reflexivity]. }
      unfold fexp in E1. split; [|split].
      + rewrite Zlt_Qlt. rewrite <- p2_Z by lia.
        assert (X3 : p2 (d + e) <= p2 prec * p2 e1) by (rewrite <- p2_plus; apply p2_le; lia). nra.
      + destruct (Z.max_spec (d + e - prec) (emin prec emax)) as [[_ K]|[_ K]]; rewrite K in E1; auto. left.
        apply Z.lt_succ_r. rewrite Zlt_Qlt. unfold Z.succ. rewrite <- p2_Z by lia.
        assert (X3 : p2 (d - 1 + e) == p2 (prec - 1) * p2 e1).
        { rewrite <- p2_plus. replace (prec - 1 + e1)%Z with (d - 1 + e)%Z by lia. reflexivity. }
        nra.
      + unfold emin in *. lia. }
  destruct Hm1 as (Hm1 & Hn & He).
  assert (Hm2 : (0 <= m2 <= 2 ^ prec)%Z) by lia.
  (* what is returned *)
  assert (R : exists q, fval (let '(mrs'', e'') := shr_fexp prec emax m2 e1 loc_Exact in
      match shr_m mrs'' with
      | Z0 => S754_zero false
      | Zpos m => if Zle_bool e'' (emax - prec) then S754_finite false m e'' else S754_infinity false
      | _ => S754_nan end) = Some q /\ q == inject_Z m2 * p2 e1).
  { unfold shr_fexp. destruct (Z.eq_dec m2 (2 ^ prec)) as [Em|Nm].
    - assert (Ed : Zdigits2 m2 = (prec + 1)%Z).
      { rewrite Em. destruct (@Zdigits2_bounds (2 ^ prec)) as [[B1 B2] B3]; [apply Z.pow_pos_nonneg; lia|].
        apply Z.pow_lt_mono_r_iff in B2; [|lia|lia]. apply Z.pow_le_mono_r_iff in B1; lia. }
      replace (fexp prec emax (Zdigits2 m2 + e1) - e1)%Z with 1%Z by (rewrite Ed; unfold fexp, emin in *; lia).
      cbn [shr iter_pos shr_record_of_loc].
      assert (Es : shr_m (shr_1 {| shr_m := m2; shr_r := false; shr_s := false |}) = (2 ^ (prec - 1))%Z).
      { replace prec with (Z.succ (prec - 1)) in Em by lia. rewrite Z.pow_succ_r in Em by lia.
        pose proof (Z.pow_pos_nonneg 2 (prec - 1)). rewrite Em. destruct (2 ^ (prec - 1))%Z; cbn; auto; lia. }
      rewrite Es. pose proof (Z.pow_pos_nonneg 2 (prec - 1) ltac:(lia) ltac:(lia)).
      destruct (2 ^ (prec - 1))%Z as [|pm|pm] eqn:Ep; try lia.
      replace (e1 + 1 <=? emax - prec)%Z with true by (symmetry; apply Z.leb_le; lia).
      eexists. split; [reflexivity|]. rewrite p2_succ, Em. replace prec with (Z.succ (prec - 1)) by lia.
      rewrite Z.pow_succ_r by lia. rewrite Ep, inj_double. ring.
    - assert (Sh : (fexp prec emax (Zdigits2 m2 + e1) - e1 <= 0)%Z).
      { assert (Zdigits2 m2 <= prec)%Z; [|unfold fexp; lia]. destruct (Z.eq_dec m2 0) as [->|Z0]; [cbn; lia|].
        apply Zdigits2_le. lia. }
      rewrite shr_none by auto. cbn [shr_record_of_loc shr_m]. destruct m2 as [|pm|pm] eqn:E2; try lia.
      + eexists. split; [reflexivity|]. cbn. ring.
      + replace (e1 <=? emax - prec)%Z with true by (symmetry; apply Z.leb_le; lia).
        eexists. split; [reflexivity|]. reflexivity. }
  destruct R as (q & R & Q0). exists q. split; [exact R|]. split.
  - destruct (Z.eq_dec m2 (2 ^ prec)) as [Em|Nm].
    + exists (2 ^ (prec - 1))%Z, (e1 + 1)%Z. split; [|split; [|lia]].
      * rewrite Q0, p2_succ, Em. replace prec with (Z.succ (prec - 1)) at 1 by lia.
        rewrite Z.pow_succ_r by lia. rewrite inj_double. ring.
      * rewrite Z.abs_eq by (apply Z.pow_nonneg; lia). apply Z.pow_lt_mono_r; lia.
    + exists m2, e1. split; auto. split; auto. lia.
  - intros y Ry. rewrite Q0. destruct (@gap m1 e1 y Mp Hf Hn Ry) as [G|G].
    + apply (Qle_trans _ _ _ D1). rewrite Qabs_neg by lra. lra.
    + apply (Qle_trans _ _ _ D2). rewrite Qabs_pos by lra. lra.
Qed.

Lemma held_exact x m e : (0 <= m)%Z -> x == inject_Z m * p2 e -> held x e (shr_record_of_loc m loc_Exact).
Proof.
  intros M X. unfold held. cbn [shr_record_of_loc shr_m shr_r shr_s Z.b2z].
  replace e with (e - 1 + 1)%Z in X by lia. rewrite p2_succ in X. pose proof (p2_pos (e - 1)) as U.
  set (u := p2 (e - 1)) in *. rewrite !inject_Z_plus, inj_double. change (inject_Z 1) with 1. change (inject_Z 0) with 0.
  split; auto. split; [nra|]. split; [nra|]. split; auto. intros _. rewrite X. ring.
Qed.

Lemma digits_shift d m : digits2_pos (shift_pos d m) = (digits2_pos m + d)%positive.
Proof.
  unfold shift_pos. induction d as [|d IH] using Pos.peano_ind.
  - cbn. lia.
  - rewrite Pos.iter_succ. cbn [digits2_pos]. rewrite IH. lia.
Qed.

Lemma shift_value d m e : inject_Z (Zpos (shift_pos d m)) * p2 (e - Zpos d) == inject_Z (Zpos m) * p2 e.
Proof.
  rewrite shift_pos_correct. replace (Z.pow_pos 2 d) with (2 ^ Zpos d)%Z by reflexivity.
  rewrite inject_Z_mult, <- p2_Z by lia. replace e with (Zpos d + (e - Zpos d))%Z at 2 by lia. rewrite p2_plus. ring.
Qed.

Lemma round_spec x m e : x == inject_Z (Zpos m) * p2 e -> x < p2 (emax - 1) ->
  nearest x (binary_round prec emax false m e).
Proof.
  intros X Lx. unfold binary_round, shl_align.
  destruct (fexp prec emax (Z.pos (digits2_pos m) + e) - e)%Z as [|d|d] eqn:E.
  - apply round_aux_spec; auto; [apply held_exact; [lia|auto]|cbn [Zdigits2]; lia].
  - apply round_aux_spec; auto; [apply held_exact; [lia|auto]|cbn [Zdigits2]; lia].
  - apply round_aux_spec; auto.
    + apply held_exact; [lia|]. rewrite X.
      replace (fexp prec emax (Z.pos (digits2_pos m) + e))%Z with (e - Zpos d)%Z by lia. symmetry. apply shift_value.
    + cbn [Zdigits2]. rewrite digits_shift, Pos2Z.inj_add.
      replace (Z.pos (digits2_pos m) + Z.pos d + fexp prec emax (Z.pos (digits2_pos m) + e))%Z
        with (Z.pos (digits2_pos m) + e)%Z by lia. lia.
Qed.

Lemma zero_representable : representable 0.
Proof. exists 0%Z, (emin prec emax). split; [reflexivity|]. split; [|lia]. cbn. apply Z.pow_pos_nonneg; lia. Qed.

Lemma zero_nearest b : nearest 0 (S754_zero b).
Proof.
  exists 0. split; auto. split; [apply zero_representable|]. intros y _. cbn [Qabs]. change (Qabs (0 - 0)) with 0.
  apply Qabs_nonneg.
Qed.

Lemma nearest_eq x x' r : x == x' -> nearest x r -> nearest x' r.
Proof. intros E (q & F & R & N). exists q. split; auto. split; auto. intros y Y. rewrite <- E. auto. Qed.

Lemma normalize_spec x z e b : x == inject_Z z * p2 e -> (0 <= z)%Z -> x < p2 (emax - 1) ->
  nearest x (binary_normalize prec emax z e b).
Proof.
  intros X Z0 Lx. destruct z as [|m|m]; [|apply round_spec; auto|lia].
  cbn [binary_normalize]. apply (@nearest_eq 0); [|apply zero_nearest]. rewrite X. cbn. ring.
Qed.

(** A number of the format is its own rounding. *)
Lemma nearest_exact x r : representable x -> nearest x r -> exists q, fval r = Some q /\ q == x.
Proof.
  intros R (q & F & _ & N). exists q. split; auto. specialize (N x R).
  assert (Z : x - x == 0) by ring. rewrite Z in N. change (Qabs 0) with 0 in N.
  revert N. apply Qabs_case; intros; lra.
Qed.

(** Rounding does not pass a number of the format. *)
Lemma nearest_ge x r y q : nearest x r -> representable y -> y <= x -> fval r = Some q -> y <= q.
Proof.
  intros (q' & F & _ & N) R L F'. assert (q' = q) by congruence. subst q'. clear F'.
  destruct (Qlt_le_dec q y) as [K|K]; auto. exfalso. specialize (N y R). rewrite !Qabs_neg in N by lra. lra.
Qed.

Lemma nearest_le x r y q : nearest x r -> representable y -> x <= y -> fval r = Some q -> q <= y.
Proof.
  intros (q' & F & _ & N) R L F'. assert (q' = q) by congruence. subst q'. clear F'.
  destruct (Qlt_le_dec y q) as [K|K]; auto. exfalso. specialize (N y R). rewrite !Qabs_pos in N by lra. lra.
Qed.

Lemma nearest_self a qa : fval a = Some qa -> representable qa -> nearest qa a.
Proof.
  intros F R. exists qa. split; auto. split; auto. intros y _. assert (Z : qa - qa == 0) by ring. rewrite Z.
  apply Qabs_nonneg.
Qed.

Lemma finite_sign s m e qa : fval (S754_finite s m e) = Some qa -> 0 <= qa -> s = false.
Proof.
  destruct s; auto. intros F P. exfalso. injection F as <-. pose proof (p2_pos e).
  assert (inject_Z (Z.neg m) < 0) by (change 0 with (inject_Z 0); rewrite <- Zlt_Qlt; lia). nra.
Qed.

Lemma shl_value m e ez : (ez <= e)%Z -> inject_Z (Zpos (fst (shl_align m e ez))) * p2 ez == inject_Z (Zpos m) * p2 e.
Proof.
  intros H. unfold shl_align. destruct (ez - e)%Z as [|d|d] eqn:E; cbn [fst].
  - replace ez with e by lia. reflexivity.
  - lia.
  - replace ez with (e - Zpos d)%Z by lia. apply shift_value.
Qed.

Lemma add_spec a b qa qb : fval a = Some qa -> fval b = Some qb -> representable qa -> representable qb ->
  0 <= qa -> 0 <= qb -> qa + qb < p2 (emax - 1) -> nearest (qa + qb) (SFadd prec emax a b).
Proof.
  intros Fa Fb Ra Rb Pa Pb Lx.
  destruct a as [sa|sa| |sa ma ea]; try discriminate; destruct b as [sb|sb| |sb mb eb]; try discriminate.
  - injection Fa as <-. injection Fb as <-. cbn [SFadd]. apply (@nearest_eq 0); [ring|].
    destruct (Bool.eqb sa sb); apply zero_nearest.
  - injection Fa as <-. cbn [SFadd]. apply (@nearest_eq qb); [ring|]. apply nearest_self; auto.
  - injection Fb as <-. cbn [SFadd]. apply (@nearest_eq qa); [ring|]. apply nearest_self; auto.
  - assert (sa = false) by (eapply finite_sign; eauto). assert (sb = false) by (eapply finite_sign; eauto). subst.
    injection Fa as Ea. injection Fb as Eb. cbn [SFadd cond_Zopp]. apply normalize_spec; auto; [|lia].
    rewrite inject_Z_plus, Qmult_plus_distr_l, !shl_value by lia. rewrite <- Ea, <- Eb. reflexivity.
Qed.

Lemma sub_spec a b qa qb : fval a = Some qa -> fval b = Some qb -> representable qa ->
  0 <= qb -> qb <= qa -> qa < p2 (emax - 1) -> nearest (qa - qb) (SFsub prec emax a b).
Proof.
  intros Fa Fb Ra Pb L Lx.
  destruct a as [sa|sa| |sa ma ea]; try discriminate; destruct b as [sb|sb| |sb mb eb]; try discriminate.
  - injection Fa as <-. injection Fb as <-. cbn [SFsub]. apply (@nearest_eq 0); [ring|].
    destruct (Bool.eqb sa (negb sb)); apply zero_nearest.
  - exfalso. injection Fa as <-. assert (sb = false) by (eapply finite_sign; eauto). subst. injection Fb as <-.
    pose proof (p2_pos eb). assert (0 < inject_Z (Zpos mb)) by (change 0 with (inject_Z 0); rewrite <- Zlt_Qlt; lia). nra.
  - injection Fb as <-. cbn [SFsub]. apply (@nearest_eq qa); [ring|]. apply nearest_self; auto.
  - assert (sb = false) by (eapply finite_sign; eauto).
    assert (sa = false) by (apply (finite_sign Fa); lra). subst.
    injection Fa as Ea. injection Fb as Eb. cbn [SFsub cond_Zopp].
    assert (X : qa - qb == inject_Z (Z.pos (fst (shl_align ma ea (Z.min ea eb))) -
       Z.pos (fst (shl_align mb eb (Z.min ea eb)))) * p2 (Z.min ea eb)).
    { unfold Z.sub. rewrite inject_Z_plus, inject_Z_opp, Qmult_plus_distr_l.
      setoid_replace (- inject_Z (Z.pos (fst (shl_align mb eb (Z.min ea eb)))) * p2 (Z.min ea eb)) with
        (- (inject_Z (Z.pos (fst (shl_align mb eb (Z.min ea eb)))) * p2 (Z.min ea eb))) by ring.
      rewrite !shl_value by lia. rewrite <- Ea, <- Eb. reflexivity. }
    apply normalize_spec; auto; [|lra].
    pose proof (p2_pos (Z.min ea eb)) as U. rewrite Zle_Qle. change (inject_Z 0) with 0.
    match goal with |- 0 <= ?v => set (w := v) in *; destruct (Qlt_le_dec w 0) as [K|K]; auto end.
    exfalso. nra.
Qed.

Lemma location_held x q e k nb : (0 < nb)%Z -> (0 <= k < nb)%Z -> (0 <= q)%Z ->
  x * inject_Z nb == inject_Z (q * nb + k) * p2 e -> held x e (shr_record_of_loc q (new_location nb k)).
Proof.
  intros Hn Hk Hq X. unfold held.
  replace e with (e - 1 + 1)%Z in X by lia. rewrite p2_succ in X. pose proof (p2_pos (e - 1)) as U.
  set (u := p2 (e - 1)) in *. rewrite inject_Z_plus, inject_Z_mult in X.
  assert (N : 0 < inject_Z nb) by (change 0 with (inject_Z 0); rewrite <- Zlt_Qlt; auto).
  assert (Le : forall h, (h * nb <= 2 * (q * nb + k))%Z -> inject_Z h * u <= x).
  { intros h H. apply (Qmult_lt_0_le_reg_r _ _ (inject_Z nb)); auto. rewrite X.
    rewrite Zle_Qle, !inject_Z_mult, inject_Z_plus, inject_Z_mult in H. change (inject_Z 2) with 2 in H. nra. }
  assert (Lt : forall h, (2 * (q * nb + k) < h * nb)%Z -> x < inject_Z h * u).
  { intros h H. apply (Qmult_lt_r _ _ (inject_Z nb)); auto. rewrite X.
    rewrite Zlt_Qlt, !inject_Z_mult, inject_Z_plus, inject_Z_mult in H. change (inject_Z 2) with 2 in H. nra. }
  assert (Eq : forall h, x == inject_Z h * u <-> (h * nb = 2 * (q * nb + k))%Z).
  { intros h. split.
    - intros K. destruct (Z.lt_trichotomy (h * nb) (2 * (q * nb + k))) as [H|[H|H]]; auto; exfalso.
      + assert (inject_Z h * u < x); [|lra]. apply (Qmult_lt_r _ _ (inject_Z nb)); auto. rewrite X.
        rewrite Zlt_Qlt, !inject_Z_mult, inject_Z_plus, inject_Z_mult in H. change (inject_Z 2) with 2 in H. nra.
      + apply Lt in H. lra.
    - intros H. apply Qle_antisym; [|apply Le; lia]. apply (Qmult_lt_0_le_reg_r _ _ (inject_Z nb)); auto. rewrite X.
      assert (H' : (2 * (q * nb + k) <= h * nb)%Z) by lia.
      rewrite Zle_Qle, !inject_Z_mult, inject_Z_plus, inject_Z_mult in H'. change (inject_Z 2) with 2 in H'. nra. }
  assert (G : forall (r s : bool), (k = 0 -> r = false /\ s = false)%Z ->
     (0 < k -> 2 * k < nb -> r = false /\ s = true)%Z -> (0 < k -> 2 * k = nb -> r = true /\ s = false)%Z ->
     (nb < 2 * k -> r = true /\ s = true)%Z ->
     (0 <= q)%Z /\ inject_Z (2 * q + Z.b2z r) * u <= x /\ x < inject_Z (2 * q + Z.b2z r + 1) * u /\
     (s = false <-> x == inject_Z (2 * q + Z.b2z r) * u)).
  { intros r s C0 C1 C2 C3. split; auto.
    destruct (Z.eq_dec k 0) as [K|K]; [|destruct (Z.lt_trichotomy (2 * k) nb) as [K1|[K1|K1]]].
    - destruct (C0 K) as [-> ->]. cbn [Z.b2z]. rewrite Eq. split; [apply Le; lia|]. split; [apply Lt; lia|]. split; auto. lia.
    - destruct (C1 ltac:(lia) K1) as [-> ->]. cbn [Z.b2z]. rewrite Eq. split; [apply Le; lia|]. split; [apply Lt; lia|].
      split; [discriminate|]. intros. lia.
    - destruct (C2 ltac:(lia) K1) as [-> ->]. cbn [Z.b2z]. rewrite Eq. split; [apply Le; lia|]. split; [apply Lt; lia|].
      split; auto. intros. lia.
    - destruct (C3 ltac:(lia)) as [-> ->]. cbn [Z.b2z]. rewrite Eq. split; [apply Le; lia|]. split; [apply Lt; lia|].
      split; [discriminate|]. intros. lia. }
  unfold new_location. destruct (Z.even nb) eqn:Ev.
  - unfold new_location_even. destruct (Zeq_bool k 0) eqn:K.
    + apply Zeq_bool_eq in K. apply G; intros; try (split; reflexivity); exfalso; lia.
    + apply Zeq_bool_neq in K. destruct (Z.compare_spec (2 * k) nb); apply G; intros; try (split; reflexivity); exfalso; lia.
  - assert (Od : exists h, nb = (2 * h + 1)%Z).
    { exists (Z.div2 nb). rewrite (Z.div2_odd nb) at 1. rewrite <- Z.negb_even, Ev. cbn. lia. }
    destruct Od as (h & ->).
    unfold new_location_odd. destruct (Zeq_bool k 0) eqn:K.
    + apply Zeq_bool_eq in K. apply G; intros; try (split; reflexivity); exfalso; lia.
    + apply Zeq_bool_neq in K. destruct (Z.compare_spec (2 * k + 1) (2 * h + 1)); apply G; intros; try (split; reflexivity); exfalso; lia.
Qed.

Lemma fexp_mono a b : (a <= b)%Z -> (fexp prec emax a <= fexp prec emax b)%Z.
Proof. unfold fexp. lia. Qed.

Lemma div_spec a b qa qb : fval a = Some qa -> fval b = Some qb -> 0 <= qa -> 0 < qb ->
  qa / qb < p2 (emax - 1) -> nearest (qa / qb) (SFdiv prec emax a b).
Proof.
  intros Fa Fb Pa Pb Lx.
  destruct b as [sb|sb| |sb mb eb]; try discriminate; [injection Fb as <-; exfalso; lra|].
  destruct a as [sa|sa| |sa ma ea]; try discriminate.
  { injection Fa as <-. cbn [SFdiv]. apply (@nearest_eq 0); [field; lra|]. apply zero_nearest. }
  assert (sa = false) by (eapply finite_sign; eauto).
  assert (sb = false) by (apply (finite_sign Fb); lra). subst.
  injection Fa as Ea. injection Fb as Eb. cbn [SFdiv xorb]. unfold SFdiv_core_binary.
  set (d1 := Zdigits2 (Z.pos ma)). set (d2 := Zdigits2 (Z.pos mb)).
  set (e' := Z.min (fexp prec emax (d1 + ea - (d2 + eb))) (ea - eb)).
  set (s := (ea - eb - e')%Z). assert (Hs : (0 <= s)%Z) by (unfold s, e'; lia).
  assert (Hm : match s with Z0 => Zpos ma | Zpos _ => Z.shiftl (Zpos ma) s | Zneg _ => 0%Z end = (Zpos ma * 2 ^ s)%Z).
  { destruct s as [|ps|ps] eqn:Es; [cbn; lia|apply Z.shiftl_mul_pow2; lia|lia]. }
  rewrite Hm. pose proof (Z.pow_pos_nonneg 2 s ltac:(lia) Hs) as Ps.
  pose proof (Z_div_mod (Z.pos ma * 2 ^ s) (Z.pos mb) ltac:(lia)) as Dm.
  destruct (Z.div_eucl (Z.pos ma * 2 ^ s) (Z.pos mb)) as [q r]. destruct Dm as [Dm Hr].
  assert (Hq : (0 <= q)%Z) by nia.
  apply round_aux_spec; auto.
  - apply location_held; auto; [lia|]. replace (q * Z.pos mb + r)%Z with (Z.pos ma * 2 ^ s)%Z by lia.
    rewrite <- Ea, <- Eb in *. rewrite inject_Z_mult, <- p2_Z by auto.
    pose proof (p2_pos eb) as Ub. assert (Mb : 0 < inject_Z (Z.pos mb)) by (change 0 with (inject_Z 0); rewrite <- Zlt_Qlt; lia).
    assert (Es : p2 ea == p2 s * p2 e' * p2 eb).
    { rewrite <- !p2_plus. replace (s + e' + eb)%Z with ea by (unfold s; lia). reflexivity. }
    rewrite Es. field. split; lra.
  - apply (Z.le_trans _ (fexp prec emax (d1 + ea - (d2 + eb)))); [unfold e'; lia|]. apply fexp_mono.
    assert (Hd : (d1 + s - d2 <= Zdigits2 q)%Z); [|unfold s in *; lia].
    destruct (@Zdigits2_bounds (Zpos ma) ltac:(lia)) as [[A1 A2] A3].
    destruct (@Zdigits2_bounds (Zpos mb) ltac:(lia)) as [[B1 B2] B3]. fold d1 in A1, A2, A3. fold d2 in B1, B2, B3.
    assert (Hq0 : (0 <= Zdigits2 q)%Z) by (destruct q; cbn; lia).
    destruct (Z.le_gt_cases (d1 + s - d2) (Zdigits2 q)) as [K|K]; auto. exfalso.
    assert (Q1 : (q < 2 ^ Zdigits2 q)%Z).
    { destruct (Z.eq_dec q 0) as [->|Nq]; [cbn; lia|]. apply (@Zdigits2_bounds q); lia. }
    assert (Q2 : (2 ^ (d1 - 1) * 2 ^ s < 2 ^ Zdigits2 q * 2 ^ d2)%Z).
    { apply (Z.le_lt_trans _ (Z.pos ma * 2 ^ s)); [nia|]. rewrite Dm.
      apply (Z.lt_le_trans _ (Z.pos mb * (q + 1))); [lia|]. nia. }
    rewrite <- !Z.pow_add_r in Q2 by lia. apply Z.pow_lt_mono_r_iff in Q2; lia.
Qed.

(** Small whole numbers are numbers of the format. *)
Lemma whole_representable z : (Z.abs z <= 2 ^ prec)%Z -> representable (inject_Z z).
Proof.
  intros H. destruct (Z.eq_dec (Z.abs z) (2 ^ prec)) as [E|N].
  - exists (z / 2)%Z, 1%Z. replace prec with (Z.succ (prec - 1)) in E by lia. rewrite Z.pow_succ_r in E by lia.
    assert (Ez : z = (2 * (z / 2))%Z) by (destruct (Z.abs_eq_or_opp z) as [K|K]; rewrite K in E;
      [rewrite E|replace z with (2 * - (2 ^ (prec - 1)))%Z by lia]; rewrite (Z.mul_comm 2), Z.div_mul; lia).
    split; [|split].
    + rewrite Ez at 1. rewrite inj_double. change (p2 1) with 2. ring.
    + replace prec with (Z.succ (prec - 1)) by lia. rewrite Z.pow_succ_r by lia.
      pose proof (Z.pow_pos_nonneg 2 (prec - 1)). lia.
    + unfold emin. lia.
  - exists z, 0%Z. split; [change (p2 0) with 1; ring|]. split; [lia|unfold emin; lia].
Qed.

Lemma p2_representable e : (emin prec emax <= e)%Z -> representable (p2 e).
Proof.
  intros H. exists 1%Z, e. split; [change (inject_Z 1) with 1; ring|]. split; auto. cbn [Z.abs].
  change 1%Z with (2 ^ 0)%Z. apply Z.pow_lt_mono_r; lia.
Qed.

Lemma log_exists x : 0 < x -> exists k, p2 k <= x /\ x < p2 (k + 1).
Proof.
  destruct x as [a b]. intros H. destruct a as [|a|a]; try (exfalso; revert H; unfold Qlt; cbn; lia). clear H.
  destruct (@Zdigits2_bounds (Zpos a) ltac:(lia)) as [[A1 A2] A3].
  destruct (@Zdigits2_bounds (Zpos b) ltac:(lia)) as [[B1 B2] B3].
  set (da := Zdigits2 (Z.pos a)) in *. set (db := Zdigits2 (Z.pos b)) in *.
  assert (X : (Z.pos a # b) * inject_Z (Zpos b) == inject_Z (Zpos a)) by (unfold Qeq; cbn; lia).
  set (x := Z.pos a # b) in *. clearbody x.
  rewrite Zle_Qle in A1, B1. rewrite Zlt_Qlt in A2, B2. rewrite <- p2_Z in A1, A2, B1, B2 by lia.
  set (qa := inject_Z (Z.pos a)) in *. set (qb := inject_Z (Z.pos b)) in *. clearbody qa qb.
  pose proof (p2_pos (da - 1)) as Ua. pose proof (p2_pos (db - 1)) as Ub. pose proof (p2_pos db) as Ub'.
  assert (L : p2 (da - 1 - db) < x).
  { apply (Qmult_lt_r _ _ qb); [lra|]. rewrite X. apply (Qlt_le_trans _ (p2 (da - 1))); auto.
    replace (da - 1)%Z with (da - 1 - db + db)%Z at 2 by lia. rewrite p2_plus. pose proof (p2_pos (da - 1 - db)). nra. }
  assert (U : x < p2 (da - (db - 1))).
  { apply (Qmult_lt_r _ _ qb); [lra|]. rewrite X. apply (Qlt_le_trans _ (p2 da)); auto.
    replace da with (da - (db - 1) + (db - 1))%Z at 1 by lia. rewrite p2_plus. pose proof (p2_pos (da - (db - 1))). nra. }
  destruct (Qlt_le_dec x (p2 (da - db))) as [K|K].
  - exists (da - 1 - db)%Z. replace (da - 1 - db + 1)%Z with (da - db)%Z by lia. split; auto. lra.
  - exists (da - db)%Z. replace (da - db + 1)%Z with (da - (db - 1))%Z by lia. auto.
Qed.

(** The relative error of a rounding. *)
Lemma nearest_error x r q : nearest x r -> fval r = Some q -> p2 (emin prec emax + prec) <= x ->
  Qabs (q - x) <= p2 (- prec) * x.
Proof.
  intros (q' & F & _ & Nr) F' Lx. assert (q' = q) by congruence. subst q'. clear F F'.
  pose proof (p2_pos (emin prec emax + prec)) as Pe.
  destruct (@log_exists x ltac:(lra)) as (k & K1 & K2).
  assert (Hk : (emin prec emax + prec <= k)%Z).
  { assert (p2 (emin prec emax + prec) < p2 (k + 1)) by lra. apply Qpower_lt_compat_l_inv in H; [lia|reflexivity]. }
  set (f := (k - prec + 1)%Z). pose proof (p2_pos f) as U.
  (* the two neighbours *)
  pose (m := Qfloor (x / p2 f)).
  assert (M1 : inject_Z m * p2 f <= x).
  { pose proof (Qfloor_le (x / p2 f)) as H. fold m in H. apply (Qmult_le_r _ _ (p2 f)) in H; auto.
    setoid_replace (x / p2 f * p2 f) with x in H by (field; lra). auto. }
  assert (M2 : x < inject_Z (m + 1) * p2 f).
  { pose proof (Qlt_floor (x / p2 f)) as H. fold m in H. apply (Qmult_lt_r _ _ (p2 f)) in H; auto.
    setoid_replace (x / p2 f * p2 f) with x in H by (field; lra). auto. }
  assert (P1 : p2 (prec - 1) * p2 f == p2 k) by (rewrite <- p2_plus; unfold f; replace (prec - 1 + (k - prec + 1))%Z with k by lia; reflexivity).
  assert (P2 : p2 prec * p2 f == p2 (k + 1)) by (rewrite <- p2_plus; unfold f; replace (prec + (k - prec + 1))%Z with (k + 1)%Z by lia; reflexivity).
  assert (R1 : (0 <= m < 2 ^ prec)%Z).
  { split.
    - apply Z.lt_succ_r. rewrite Zlt_Qlt. unfold Z.succ. change (inject_Z 0) with 0.
      pose proof (p2_pos k). destruct (Qlt_le_dec 0 (inject_Z (m + 1))) as [H0|H0]; auto. exfalso. nra.
    - rewrite Zlt_Qlt, <- p2_Z by lia. destruct (Qlt_le_dec (inject_Z m) (p2 prec)) as [H0|H0]; auto. exfalso. nra. }
  assert (Rm : representable (inject_Z m * p2 f)) by (exists m, f; split; [reflexivity|]; split; unfold f; lia).
  assert (Rs : representable (inject_Z (m + 1) * p2 f)).
  { destruct (Z.eq_dec (m + 1) (2 ^ prec)) as [E|E].
    - rewrite E. exists (2 ^ (prec - 1))%Z, (f + 1)%Z. split; [|split; [|unfold f; lia]].
      + rewrite p2_succ. replace prec with (Z.succ (prec - 1)) at 1 by lia. rewrite Z.pow_succ_r by lia.
        rewrite inj_double. ring.
      + rewrite Z.abs_eq by (apply Z.pow_nonneg; lia). apply Z.pow_lt_mono_r; lia.
    - exists (m + 1)%Z, f. split; [reflexivity|]. split; unfold f; lia. }
  pose proof (Nr _ Rm) as E1. pose proof (Nr _ Rs) as E2.
  rewrite (Qabs_neg (inject_Z m * p2 f - x)) in E1 by lra. rewrite (Qabs_pos (inject_Z (m + 1) * p2 f - x)) in E2 by lra.
  assert (E3 : 2 * Qabs (q - x) <= p2 f).
  { rewrite inject_Z_plus in E2. change (inject_Z 1) with 1 in E2. lra. }
  assert (E4 : p2 (- prec) * p2 (k + 1) == p2 f).
  { rewrite <- p2_plus. unfold f. replace (- prec + (k + 1))%Z with (k - prec + 1)%Z by lia. reflexivity. }
  rewrite p2_succ in E4. pose proof (p2_pos (- prec)). nra.
Qed.

(** Rounding keeps the order. *)
Lemma nearest_mono x y r s p q : nearest x r -> nearest y s -> fval r = Some p -> fval s = Some q -> x < y -> p <= q.
Proof.
  intros (p' & Fp & Rp & Np) (q' & Fq & Rq & Nq) Fp' Fq' L.
  assert (p' = p) by congruence. assert (q' = q) by congruence. subst.
  destruct (Qlt_le_dec q p) as [K|K]; auto. exfalso.
  specialize (Np q Rq). specialize (Nq p Rp).
  revert Np Nq. do 4 (apply Qabs_case; intros ?); intros; lra.
Qed.
End Format.
