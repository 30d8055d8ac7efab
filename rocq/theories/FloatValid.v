(** Results of the operations are numbers in the normal form of the format, and the comparison
    of such numbers is the comparison of their values. *)
From Verif Require Import Base BaseFacts FloatSpec Rounding.
From Coq Require Import ZArith QArith Qpower Qabs Lqa SpecFloat.
Set Implicit Arguments.
Unset Strict Implicit.
Local Open Scope Z_scope.

(** ** Normal form *)

Lemma digits_nonneg m : 0 <= Zdigits2 m.
Proof. destruct m; cbn; lia. Qed.

Lemma shr_1_m mrs : 0 <= shr_m mrs ->
  0 <= shr_m (shr_1 mrs) /\ Zdigits2 (shr_m (shr_1 mrs)) = Z.max 0 (Zdigits2 (shr_m mrs) - 1).
Proof.
  destruct mrs as [m r s]. intros H. cbn [shr_m] in H.
  destruct m as [|[m|m|]|m]; cbn [shr_1 shr_m Zdigits2 digits2_pos]; rewrite ?Pos2Z.inj_succ; try lia.
  all: destruct (r || s)%bool; cbn; lia.
Qed.

Lemma shr_iter_m p : forall mrs, 0 <= shr_m mrs ->
  0 <= shr_m (iter_pos shr_1 p mrs) /\
  Zdigits2 (shr_m (iter_pos shr_1 p mrs)) = Z.max 0 (Zdigits2 (shr_m mrs) - Zpos p).
Proof.
  induction p as [p IH|p IH|]; intros mrs H; cbn [iter_pos].
  - destruct (shr_1_m H) as [H1 D1]. destruct (IH _ H1) as [H2 D2]. destruct (IH _ H2) as [H3 D3].
    split; auto. pose proof (@digits_nonneg (shr_m mrs)). lia.
  - destruct (IH _ H) as [H2 D2]. destruct (IH _ H2) as [H3 D3].
    split; auto. pose proof (@digits_nonneg (shr_m mrs)). lia.
  - apply (shr_1_m H).
Qed.

Lemma shr_digits mrs e n : 0 <= shr_m mrs ->
  0 <= shr_m (fst (shr mrs e n)) /\
  snd (shr mrs e n) = e + Z.max 0 n /\
  Zdigits2 (shr_m (fst (shr mrs e n))) = Z.max 0 (Zdigits2 (shr_m mrs) - Z.max 0 n).
Proof.
  intros H. pose proof (@digits_nonneg (shr_m mrs)). destruct n as [|p|p]; cbn [shr fst snd]; try lia.
  destruct (shr_iter_m p H). lia.
Qed.

Lemma digits_mono a b : 0 <= a <= b -> Zdigits2 a <= Zdigits2 b.
Proof.
  intros H. destruct (Z.eq_dec a 0) as [->|N]; [cbn; apply digits_nonneg|].
  destruct (@Zdigits2_bounds a ltac:(lia)) as [[A1 A2] A3].
  destruct (@Zdigits2_bounds b ltac:(lia)) as [[B1 B2] B3].
  assert (2 ^ (Zdigits2 a - 1) < 2 ^ Zdigits2 b) by lia. apply Z.pow_lt_mono_r_iff in H0; lia.
Qed.

Section Format.
Variables prec emax : Z.
Hypothesis Hprec : 1 < prec.
Hypothesis Hemax : prec < emax.

Lemma canonical_iff m e : canonical_mantissa prec emax m e = true <-> fexp prec emax (Zpos (digits2_pos m) + e) = e.
Proof. unfold canonical_mantissa. split; [apply Zeq_bool_eq|intros H; rewrite H; apply Zeq_is_eq_bool; auto]. Qed.

Lemma round_aux_valid s m e l : 0 <= m -> e <= fexp prec emax (Zdigits2 m + e) ->
  valid_binary prec emax (binary_round_aux prec emax s m e l) = true.
Proof using Hprec Hemax.
  intros M F. unfold binary_round_aux, shr_fexp.
  assert (M0 : shr_m (shr_record_of_loc m l) = m) by (destruct l as [|[]]; reflexivity).
  destruct (@shr_digits (shr_record_of_loc m l) e (fexp prec emax (Zdigits2 m + e) - e)) as (P1 & E1 & D1); [lia|].
  rewrite M0 in D1. destruct (shr (shr_record_of_loc m l) _ _) as [mrs1 e1]. cbn [fst snd] in *.
  set (m2 := round_nearest_even (shr_m mrs1) (loc_of_shr_record mrs1)).
  assert (M2 : shr_m mrs1 <= m2).
  { unfold m2, round_nearest_even. destruct (loc_of_shr_record mrs1) as [|[]]; try lia. destruct (Z.even _); lia. }
  assert (D2 : Zdigits2 (shr_m mrs1) <= Zdigits2 m2) by (apply digits_mono; lia).
  assert (K1 : e1 <= fexp prec emax (Zdigits2 m2 + e1)).
  { unfold fexp in *. pose proof (@digits_nonneg m). pose proof (@digits_nonneg m2). unfold emin in *. lia. }
  destruct (@shr_digits (shr_record_of_loc m2 loc_Exact) e1 (fexp prec emax (Zdigits2 m2 + e1) - e1)) as (P2 & E2 & D3).
  { cbn. lia. }
  change (shr_m (shr_record_of_loc m2 loc_Exact)) with m2 in D3.
  destruct (shr (shr_record_of_loc m2 loc_Exact) e1 _) as [mrs2 e2]. cbn [fst snd] in *.
  destruct (shr_m mrs2) as [|m3|m3] eqn:E3; try reflexivity.
  destruct (Z.leb_spec e2 (emax - prec)) as [L|L]; [|reflexivity]. cbn [valid_binary]. unfold bounded.
  apply andb_true_intro. split; [|apply Z.leb_le; auto]. apply canonical_iff. cbn [Zdigits2] in D3.
  replace (Zpos (digits2_pos m3) + e2) with (Zdigits2 m2 + e1) by lia. lia.
Qed.

Lemma round_valid s m e : valid_binary prec emax (binary_round prec emax s m e) = true.
Proof using Hprec Hemax.
  unfold binary_round, shl_align.
  destruct (fexp prec emax (Z.pos (digits2_pos m) + e) - e) as [|d|d] eqn:E;
    apply round_aux_valid; try lia; cbn [Zdigits2]; try lia.
  rewrite digits_shift, Pos2Z.inj_add.
  replace (Z.pos (digits2_pos m) + Z.pos d + fexp prec emax (Z.pos (digits2_pos m) + e))
    with (Z.pos (digits2_pos m) + e) by lia. lia.
Qed.

Lemma normalize_valid z e b : valid_binary prec emax (binary_normalize prec emax z e b) = true.
Proof using Hprec Hemax. destruct z; cbn [binary_normalize]; auto; apply round_valid. Qed.

Lemma div_valid a b : valid_binary prec emax (SFdiv prec emax a b) = true.
Proof using Hprec Hemax.
  destruct a as [sa|sa| |sa ma ea], b as [sb|sb| |sb mb eb]; cbn [SFdiv]; try reflexivity.
  unfold SFdiv_core_binary.
  set (d1 := Zdigits2 (Z.pos ma)). set (d2 := Zdigits2 (Z.pos mb)).
  set (e' := Z.min (fexp prec emax (d1 + ea - (d2 + eb))) (ea - eb)).
  set (s := (ea - eb - e')%Z). assert (Hs : (0 <= s)%Z) by (unfold s, e'; lia).
  assert (Hm : match s with Z0 => Zpos ma | Zpos _ => Z.shiftl (Zpos ma) s | Zneg _ => 0%Z end = (Zpos ma * 2 ^ s)%Z).
  { destruct s as [|ps|ps] eqn:Es; [cbn; lia|apply Z.shiftl_mul_pow2; lia|lia]. }
  rewrite Hm. pose proof (Z.pow_pos_nonneg 2 s ltac:(lia) Hs) as Ps.
  pose proof (Z_div_mod (Z.pos ma * 2 ^ s) (Z.pos mb) ltac:(lia)) as Dm.
  destruct (Z.div_eucl (Z.pos ma * 2 ^ s) (Z.pos mb)) as [q r]. destruct Dm as [Dm Hr].
  assert (Hq : (0 <= q)%Z) by nia.
  apply round_aux_valid; auto.
  apply (Z.le_trans _ (fexp prec emax (d1 + ea - (d2 + eb)))); [unfold e'; lia|]. apply fexp_mono.
  assert (Hd : (d1 + s - d2 <= Zdigits2 q)%Z); [|unfold s in *; lia].
  destruct (@Zdigits2_bounds (Zpos ma) ltac:(lia)) as [[A1 A2] A3].
  destruct (@Zdigits2_bounds (Zpos mb) ltac:(lia)) as [[B1 B2] B3]. fold d1 in A1, A2, A3. fold d2 in B1, B2, B3.
  assert (Hq0 : (0 <= Zdigits2 q)%Z) by (destruct q; cbn; lia).
  destruct (Z.le_gt_cases (d1 + s - d2) (Zdigits2 q)) as [K|K]; auto. exfalso.
  assert (Q1 : (q < 2 ^ Zdigits2 q)%Z).
  { destruct (Z.eq_dec q 0) as [->|Nq]; [cbn; lia|]. apply (@Zdigits2_bounds q); lia. }
  assert (Q2 : (2 ^ (d1 - 1) * 2 ^ s < 2 ^ Zdigits2 q * 2 ^ d2)%Z).
  { apply (Z.le_lt_trans _ (Z.pos ma * 2 ^ s)); [nia|]. rewrite Dm.
    apply (Z.lt_le_trans _ (Z.pos mb * (q + 1))); [lia|]. nia. }
  rewrite <- !Z.pow_add_r in Q2 by lia. apply Z.pow_lt_mono_r_iff in Q2; lia.
Qed.

(** ** Comparison *)

Local Open Scope Q_scope.

Lemma exponent_order m1 e1 m2 e2 :
  bounded prec emax m1 e1 = true -> bounded prec emax m2 e2 = true -> (e1 < e2)%Z ->
  inject_Z (Zpos m1) * p2 e1 < inject_Z (Zpos m2) * p2 e2.
Proof using Hprec Hemax.
  intros B1 B2 L. unfold bounded in *. apply andb_prop in B1 as [C1 _]. apply andb_prop in B2 as [C2 _].
  apply canonical_iff in C1. apply canonical_iff in C2.
  destruct (digits2_bounds m1) as [_ U1]. destruct (digits2_bounds m2) as [U2 _].
  set (d1 := Zpos (digits2_pos m1)) in *. set (d2 := Zpos (digits2_pos m2)) in *.
  unfold fexp in *. assert (D1 : (d1 <= prec)%Z) by lia. assert (D2 : d2 = prec) by lia.
  assert (X1 : inject_Z (Zpos m1) < p2 prec).
  { rewrite p2_Z by lia. rewrite <- Zlt_Qlt. apply (Z.lt_le_trans _ _ _ U1). apply Z.pow_le_mono_r; lia. }
  assert (X2 : p2 (prec - 1) <= inject_Z (Zpos m2)).
  { rewrite p2_Z by lia. rewrite <- Zle_Qle. rewrite <- D2. auto. }
  pose proof (p2_pos e1) as P1. pose proof (p2_pos e2) as P2.
  assert (Y1 : inject_Z (Zpos m1) * p2 e1 < p2 prec * p2 e1) by (apply Qmult_lt_r; auto).
  assert (Y2 : p2 (prec - 1) * p2 e2 <= inject_Z (Zpos m2) * p2 e2) by (apply Qmult_le_compat_r; lra).
  assert (Y3 : p2 prec * p2 e1 <= p2 (prec - 1) * p2 e2) by (rewrite <- !p2_plus; apply p2_le; lia).
  lra.
Qed.

(** A number that is not negative is compared with another one. *)
Lemma leb_value a b qa qb : valid_binary prec emax a = true -> valid_binary prec emax b = true ->
  fval a = Some qa -> fval b = Some qb -> 0 <= qa ->
  SFleb a b = true <-> qa <= qb.
Proof using Hprec Hemax.
  intros Va Vb Fa Fb Pa. unfold SFleb.
  destruct a as [sa|sa| |sa ma ea]; try discriminate; destruct b as [sb|sb| |sb mb eb]; try discriminate;
    cbn [fval] in Fa, Fb; injection Fa as <-; injection Fb as <-; cbn [SFcompare].
  - split; [intros _; lra|auto].
  - pose proof (p2_pos eb) as P. destruct sb.
    + split; [discriminate|]. intros H. exfalso.
      assert (inject_Z (Zneg mb) < 0) by (change 0 with (inject_Z 0); rewrite <- Zlt_Qlt; lia). nra.
    + split; auto. intros _. assert (0 <= inject_Z (Zpos mb)) by (change 0 with (inject_Z 0); rewrite <- Zle_Qle; lia). nra.
  - assert (sa = false) as ->.
    { destruct sa; auto. exfalso. pose proof (p2_pos ea).
      assert (inject_Z (Zneg ma) < 0) by (change 0 with (inject_Z 0); rewrite <- Zlt_Qlt; lia). nra. }
    split; [discriminate|]. intros H. exfalso. pose proof (p2_pos ea).
    assert (0 < inject_Z (Zpos ma)) by (change 0 with (inject_Z 0); rewrite <- Zlt_Qlt; lia). nra.
  - assert (sa = false) as ->.
    { destruct sa; auto. exfalso. pose proof (p2_pos ea).
      assert (inject_Z (Zneg ma) < 0) by (change 0 with (inject_Z 0); rewrite <- Zlt_Qlt; lia). nra. }
    pose proof (p2_pos ea) as Pe. pose proof (p2_pos eb) as Pb.
    assert (Pm : 0 < inject_Z (Zpos ma)) by (change 0 with (inject_Z 0); rewrite <- Zlt_Qlt; lia).
    destruct sb.
    + split; [discriminate|]. intros H. exfalso.
      assert (inject_Z (Zneg mb) < 0) by (change 0 with (inject_Z 0); rewrite <- Zlt_Qlt; lia). nra.
    + cbn [valid_binary] in Va, Vb. destruct (Z.compare_spec ea eb) as [->|L|L].
      * change (Pos.compare_cont Eq ma mb) with (Pos.compare ma mb).
        assert (K : inject_Z (Zpos ma) * p2 eb <= inject_Z (Zpos mb) * p2 eb <-> (ma <= mb)%positive).
        { split; intros H.
          - apply Qmult_le_r in H; auto. rewrite <- Zle_Qle in H. lia.
          - apply Qmult_le_r; auto. rewrite <- Zle_Qle. lia. }
        rewrite K. unfold Pos.le. destruct (Pos.compare ma mb); split; try congruence; auto.
      * split; auto. intros _. apply Qlt_le_weak, exponent_order; auto.
      * split; [discriminate|]. intros H. exfalso. pose proof (exponent_order Vb Va L). lra.
Qed.

End Format.
