(** Lemmas about the mean number of words taken (C110). *)
From Verif Require Import Base BaseFacts GraphSpec Sums GraphFacts Rng UniformSpec UniformFacts SurelySpec SurelyFacts
  Markov DrawsSpec DrawsFacts Words WordsSpec WordsFacts OrderSpec OrderFacts WordsEndSpec WordsEndFacts.
From Coq Require Import NArith.
Set Implicit Arguments.
Unset Strict Implicit.
Local Open Scope nat_scope.

(** ** How many integers a draw takes *)

Definition taken (q : kind) (d : nat) : bool :=
  match q with
  | Below b n z => ((N.of_nat d mod 2 ^ b * n) mod 2 ^ b <? z)%N
  | Upper _ => true
  end.
Definition got (q : kind) (d : nat) : nat :=
  match q with
  | Below b n _ => N.to_nat (value b n (N.of_nat d mod 2 ^ b))
  | Upper k => N.to_nat (N.of_nat d mod 2 ^ 64 / 2 ^ (64 - k))
  end.

Lemma read_cons q d ds : read q (map N.of_nat (d :: ds)) =
  if taken q d then Some (got q d, map N.of_nat ds) else read q (map N.of_nat ds).
Proof. destruct q as [b n z|k]; cbn [map read taken got]; [|reflexivity]. destruct (_ <? _)%N; reflexivity. Qed.

Lemma sum_split {X} (g : X -> bool) (val : X -> nat) n l :
  sum_over (fun k => count (fun v => g v && (val v =? k)) l) (seq 0 n) <= count g l.
Proof.
  induction l as [|x l IH].
  - apply Nat.le_0_r. apply sum_over_zero. intros k _. reflexivity.
  - assert (E : sum_over (fun k => count (fun v => g v && (val v =? k)) (x :: l)) (seq 0 n) =
      sum_over (fun k => if g x && (val x =? k) then 1 else 0) (seq 0 n) +
      sum_over (fun k => count (fun v => g v && (val v =? k)) l) (seq 0 n)).
    { rewrite <- sum_over_plus. apply sum_over_ext. intros k _. unfold count. cbn [filter].
      destruct (g x && (val x =? k)); reflexivity. }
    rewrite E. assert (A : sum_over (fun k => if g x && (val x =? k) then 1 else 0) (seq 0 n) <= if g x then 1 else 0).
    { destruct (g x); cbn [andb].
      - clear. enough (G : forall a, sum_over (fun k => if val x =? k then 1 else 0) (seq a n) <= 1) by apply G. induction n as [|n IH]; intros a; [cbn; lia|]. cbn [seq]. rewrite sum_over_cons. destruct (Nat.eqb_spec (val x) a).
        + assert (Z : sum_over (fun k => if val x =? k then 1 else 0) (seq (S a) n) = 0).
          { apply sum_over_zero. intros k Hk. apply in_seq in Hk. destruct (Nat.eqb_spec (val x) k); auto. lia. }
          rewrite Z. lia.
        + apply IH.
      - apply Nat.le_0_r. now apply sum_over_zero. }
    unfold count in *. cbn [filter]. destruct (g x); cbn [length]; lia.
Qed.

Lemma filter_nil {X} (f : X -> bool) l : (forall x, In x l -> f x = false) -> filter f l = [].
Proof. intros H. induction l as [|x l IH]; auto. cbn. rewrite (H x (or_introl eq_refl)). apply IH. intros y Hy. apply H. now right. Qed.
Lemma filter_id {X} (f : X -> bool) l : (forall x, In x l -> f x = true) -> filter f l = l.
Proof. intros H. induction l as [|x l IH]; auto. cbn. rewrite (H x (or_introl eq_refl)). f_equal. apply IH. intros y Hy. apply H. now right. Qed.

Lemma interval_count (g : nat -> bool) a c m : a + c <= m -> (forall v, v < m -> (g v = true <-> a <= v < a + c)) ->
  count g (seq 0 m) = c.
Proof.
  intros H G. replace m with (a + (c + (m - a - c))) at 1 by lia. rewrite !seq_app. unfold count. rewrite !filter_app, !app_length.
  rewrite (@filter_nil _ g (seq 0 a)), (@filter_id _ g (seq (0 + a) c)), (@filter_nil _ g (seq (0 + a + c) (m - a - c))).
  - rewrite seq_length. cbn. lia.
  - intros v Hv. apply in_seq in Hv. destruct (g v) eqn:E; auto. apply G in E; lia.
  - intros v Hv. apply in_seq in Hv. apply G; lia.
  - intros v Hv. apply in_seq in Hv. destruct (g v) eqn:E; auto. apply G in E; lia.
Qed.

Lemma count_mod (g : nat -> bool) m k : 0 < m -> count (fun d => g (Nat.modulo d m)) (seq 0 (k * m)) = k * count g (seq 0 m).
Proof.
  intros Hm. induction k as [|k IH]; auto. cbn [Nat.mul]. rewrite (Nat.add_comm m), seq_app. unfold count in *.
  rewrite filter_app, app_length, IH. cbn [Nat.add].
  assert (E : length (filter (fun d => g (Nat.modulo d m)) (seq (k * m) m)) = length (filter g (seq 0 m))); [|lia].
  assert (K : forall j, j <= m -> forall a, a + j = m ->
    length (filter (fun d => g (Nat.modulo d m)) (seq (k * m + a) j)) = length (filter g (seq a j))).
  { induction j as [|j IHj]; intros L a Ha; auto. cbn [seq filter].
    assert (R : Nat.modulo (k * m + a) m = a).
    { rewrite Nat.add_comm, Nat.mod_add by lia. apply Nat.mod_small. lia. }
    rewrite R. specialize (IHj ltac:(lia) (S a) ltac:(lia)). rewrite Nat.add_succ_r in IHj.
    destruct (g a); cbn [length]; now rewrite IHj. }
  specialize (K m ltac:(lia) 0 ltac:(lia)). now rewrite Nat.add_0_r in K.
Qed.

Lemma half_below b n z : fair (Below b n z) ->
  N.to_nat (2 ^ b) <= 2 * count (fun d => ((N.of_nat d * n) mod 2 ^ b <? z)%N) (seq 0 (N.to_nat (2 ^ b))).
Proof.
  intros (_ & H0 & Big & Small). destruct (N.le_gt_cases (2 ^ b) n) as [L|L].
  - specialize (Big L). unfold count. rewrite filter_id.
    + rewrite seq_length. lia.
    + intros d _. apply N.ltb_lt. eapply N.lt_le_trans; [|exact Big]. apply N.mod_lt, N.pow_nonzero. discriminate.
  - destruct (Small L) as (c & Hc & -> & Hz). clear Small Big.
    set (W := N.to_nat (2 ^ b)). set (g := fun d => _).
    pose proof (@sum_split _ g (fun d => N.to_nat (value b n (N.of_nat d))) (N.to_nat n) (seq 0 W)) as P.
    assert (E : sum_over (fun k => count (fun v => g v && (N.to_nat (value b n (N.of_nat v)) =? k)) (seq 0 W)) (seq 0 (N.to_nat n)) =
      N.to_nat n * N.to_nat c).
    { rewrite <- (seq_length (N.to_nat n) 0) at 2. rewrite <- sum_over_const. apply sum_over_ext. intros k Hk. apply in_seq in Hk.
      destruct (@sampler_uniform b n c (N.of_nat k)) as (a & Ha & I); try lia.
      apply (@interval_count _ (N.to_nat a)); [unfold W; lia|]. intros v Hv. unfold g. rewrite Bool.andb_true_iff, N.ltb_lt, Nat.eqb_eq.
      specialize (I (N.of_nat v)). unfold takes in I. split.
      - intros [A B]. assert (a <= N.of_nat v < a + c)%N; [|lia]. apply I. split; [exact A|]. rewrite <- B. now rewrite N2Nat.id.
      - intros A. destruct (proj2 I) as [A1 A2]; [lia|]. split; [exact A1|]. change (value b n (N.of_nat v) = N.of_nat k) in A2. now rewrite A2, Nat2N.id. }
    cbv beta in P. etransitivity; [|apply Nat.mul_le_mono_l; exact P]. rewrite E, <- N2Nat.inj_mul. unfold W. lia.
Qed.

Lemma half_taken q : fair q -> word_count <= 2 * count (taken q) (seq 0 word_count).
Proof.
  destruct q as [b n z|k]; intros F.
  - pose proof (half_below F) as H. set (g := fun d => _) in H.
    assert (K : exists k, word_count = k * N.to_nat (2 ^ b)).
    { destruct F as ([-> | ->] & _).
      - exists (N.to_nat (2 ^ 32)). unfold word_count. rewrite <- N2Nat.inj_mul. reflexivity.
      - exists 1. unfold word_count. now rewrite Nat.mul_1_l. }
    destruct K as [k K]. rewrite K.
    assert (M : 0 < N.to_nat (2 ^ b)). { pose proof (N.pow_nonzero 2 b ltac:(discriminate)). lia. }
    assert (E : count (taken (Below b n z)) (seq 0 (k * N.to_nat (2 ^ b))) = k * count g (seq 0 (N.to_nat (2 ^ b)))).
    { rewrite <- count_mod by auto. unfold count. f_equal. apply filter_ext. intros d. unfold g. cbn [taken].
      rewrite Nat2N.inj_mod, N2Nat.id by lia. reflexivity. }
    rewrite E. nia.
  - unfold count. rewrite filter_id by reflexivity. rewrite seq_length. lia.
Qed.

(** ** Words until [B] draws are read *)

Fixpoint lacks (ask : list nat -> kind) (ds : list nat) (B : nat) (before : list nat) : bool :=
  match B with
  | 0 => false
  | S B' =>
      match ds with
      | [] => true
      | d :: t => if taken (ask before) d then lacks ask t B' (before ++ [got (ask before) d]) else lacks ask t B before
      end
  end.

Definition lacking h ask B before k : nat := count (fun ds => lacks ask ds B before) (rolls (repeat h k)).
Definition part (h : nat) (u : nat -> nat) (k : nat) : nat := sum_over (fun j => u j * h ^ (k - j)) (seq 0 k).

Lemma part_S h u k : part h u (S k) = u 0 * h ^ (S k) + part h (fun j => u (S j)) k.
Proof.
  unfold part. cbn [seq]. rewrite sum_over_cons, Nat.sub_0_r, <- seq_shift, sum_over_map. reflexivity.
Qed.
Lemma part_ext h u v k : (forall j, u j = v j) -> part h u k = part h v k.
Proof. intros E. apply sum_over_ext. intros j _. now rewrite E. Qed.
Lemma part_sum {X} h (u : X -> nat -> nat) l k : part h (fun j => sum_over (fun d => u d j) l) k = sum_over (fun d => part h (u d) k) l.
Proof.
  unfold part. rewrite sum_over_exchange. apply sum_over_ext. intros j _.
  rewrite Nat.mul_comm, <- sum_over_mul. apply sum_over_ext. intros d _. apply Nat.mul_comm.
Qed.

Lemma count_first h (g : list nat -> bool) k : count g (rolls (repeat h (S k))) =
  sum_over (fun d => count (fun ds => g (d :: ds)) (rolls (repeat h k))) (seq 0 h).
Proof.
  assert (G : forall d t, length (filter g (map (cons d) t)) = length (filter (fun ds => g (d :: ds)) t)).
  { intros d. induction t as [|x t IHt]; auto. cbn [map filter]. destruct (g (d :: x)); cbn [length]; now rewrite IHt. }
  cbn [repeat rolls]. unfold count. generalize (rolls (repeat h k)) as t. intros t.
  induction (seq 0 h) as [|d l IH]; auto. cbn [flat_map].
  rewrite filter_app, app_length, sum_over_cons, IH, G. reflexivity.
Qed.

Lemma sum_two {X} (f : X -> nat) (t : X -> bool) a c l : (forall d, In d l -> f d <= if t d then a else c) -> a <= c ->
  sum_over f l + count t l * (c - a) <= length l * c.
Proof.
  intros H Hac. induction l as [|x l IH]; auto. rewrite sum_over_cons. unfold count in *. cbn [filter length].
  pose proof (H x (or_introl eq_refl)) as Hx. specialize (IH (fun d Hd => H d (or_intror Hd))).
  destruct (t x); cbn [length]; nia.
Qed.

Lemma lacking_mean ask : (forall before, fair (ask before)) -> forall k B before,
  part word_count (lacking word_count ask B before) k <= 2 * B * word_count ^ k.
Proof.
  intros F. pose proof word_count_pos as Hpos. generalize half_taken. revert Hpos. generalize word_count as h. intros h Hpos Half.
  induction k as [|k IH]; intros B before; [cbn; lia|]. destruct B as [|B].
  { unfold part. rewrite sum_over_zero; [lia|]. intros j _. unfold lacking, count. rewrite filter_nil; auto.
    intros ds _. destruct ds; reflexivity. }
  rewrite part_S. set (q := ask before).
  rewrite (@part_ext _ _ (fun j => sum_over (fun d => if taken q d then lacking h ask B (before ++ [got q d]) j else lacking h ask (S B) before j) (seq 0 h))).
  2:{ intros j. unfold lacking at 1. rewrite count_first. apply sum_over_ext. intros d _. cbn [lacks]. fold q.
      destruct (taken q d); reflexivity. }
  rewrite (part_sum h (fun d j => if taken q d then lacking h ask B (before ++ [got q d]) j else lacking h ask (S B) before j)).
  assert (A : forall d, In d (seq 0 h) ->
    part h (fun j => if taken q d then lacking h ask B (before ++ [got q d]) j else lacking h ask (S B) before j) k <=
    if taken q d then 2 * B * h ^ k else 2 * S B * h ^ k).
  { intros d _. destruct (taken q d); apply IH. }
  pose proof (sum_two A) as S2. rewrite seq_length in S2. specialize (S2 ltac:(nia)).
  set (s := sum_over _ (seq 0 h)) in *. pose proof (Half q (F before)) as Hq. set (t := count (taken q) (seq 0 h)) in *.
  assert (L0 : lacking h ask (S B) before 0 <= 1). { unfold lacking. cbn. lia. }
  assert (Ed : 2 * S B * h ^ k - 2 * B * h ^ k = 2 * h ^ k) by nia. rewrite Ed in S2.
  cbn [Nat.pow]. set (p := h ^ k) in *.
  assert (h * p <= 2 * t * p) by (apply Nat.mul_le_mono_r; exact Hq).
  assert (lacking h ask (S B) before 0 * (h * p) <= h * p) by nia. nia.
Qed.

Lemma lacks_reads ask ds : forall before rs rest B, reads ask before (map N.of_nat ds) rs rest ->
  read (ask (before ++ rs)) rest = None -> length rs < B -> lacks ask ds B before = true.
Proof.
  induction ds as [|d t IH]; intros before rs rest [|B] R E L; try lia; [reflexivity|].
  cbn [lacks]. set (q := ask before) in *. destruct (taken q d) eqn:Tk.
  - inversion R as [b ws Eb Ews Er Erest|b ws r ws1 rs' rest' Rd Rs Eb Ews Er Erest]; subst.
    + rewrite app_nil_r in E. fold q in E. rewrite read_cons, Tk in E. discriminate E.
    + fold q in Rd. rewrite read_cons, Tk in Rd. injection Rd as <- <-.
      eapply IH; [exact Rs| |cbn in L; lia]. now rewrite <- app_assoc.
  - inversion R as [b ws Eb Ews Er Erest|b ws r ws1 rs' rest' Rd Rs Eb Ews Er Erest]; subst.
    + apply (IH before [] (map N.of_nat t)); auto; [constructor|].
      rewrite app_nil_r in E |- *. fold q in E |- *. now rewrite read_cons, Tk in E.
    + apply (IH before (r :: rs') rest); auto. fold q in Rd. rewrite read_cons, Tk in Rd. econstructor; eauto.
Qed.

Theorem order_mean {X} (w : list N -> outcome (X * list N)) f B : in_order w f ->
  (forall rs, B <= length rs -> returns f rs) -> mean_draws_at_most (2 * B) word_count (on_words w).
Proof.
  intros (ask & F & Fo) R k.
  assert (U : forall ds, unfinished (on_words w ds) = true -> lacks ask ds B [] = true).
  { intros ds H. specialize (Fo (map N.of_nat ds)). unfold on_words in H.
    destruct (w (map N.of_nat ds)) as [[x rest]| | |]; [discriminate H| | |].
    - exfalso. destruct Fo as (rs & rest & _ & P). destruct (R (rs ++ 0 :: repeat 0 B)) as (x & r & E).
      { rewrite app_length. cbn. rewrite repeat_length. lia. }
      rewrite P in E. discriminate E.
    - exfalso. destruct Fo as (rs & rest & _ & P). destruct (R (rs ++ 0 :: repeat 0 B)) as (x & r & E).
      { rewrite app_length. cbn. rewrite repeat_length. lia. }
      rewrite P in E. discriminate E.
    - destruct Fo as (rs & rest & Rd & [[E N]|N]).
      + eapply lacks_reads; [exact Rd|exact E|]. destruct (Nat.lt_ge_cases (length rs) B) as [L|L]; auto. destruct (N (R _ L)).
      + destruct (N (repeat 0 B)). apply R. rewrite app_length, repeat_length. lia. }
  change (list_sum (map ?g ?l)) with (sum_over g l). rewrite rolls_repeat_length.
  etransitivity; [|exact (lacking_mean F k B [])]. unfold part. apply sum_over_le. intros j _. rewrite rolls_repeat_length.
  apply Nat.mul_le_mono_r. unfold waiting, lacking, count.
  induction (rolls (repeat word_count j)) as [|ds l IH]; auto. cbn [filter]. pose proof (U ds) as Hu.
  destruct (unfinished (on_words w ds)); [rewrite Hu by auto; cbn [length]; lia|]. destruct (lacks ask ds B []); cbn [length]; lia.
Qed.

(** ** Enough draws *)

Lemma tight {X} (f : list nat -> outcome (X * list nat)) k B : settled f -> uses k f ->
  (forall rs, B <= length rs -> returns f rs) -> forall rs, k <= length rs -> returns f rs.
Proof.
  intros S U R rs L. destruct (R (rs ++ repeat 0 B)) as (x & rest & E).
  { rewrite app_length, repeat_length. lia. }
  destruct (settled_returns S E) as (used & Eu & Hu). pose proof (U _ _ _ E) as Lu.
  assert (Ls : length used = k). { rewrite Eu, app_length in Lu. lia. }
  assert (P : used = firstn k rs).
  { transitivity (firstn k (rs ++ repeat 0 B)).
    2:{ rewrite firstn_app. replace (k - length rs) with 0 by lia. now rewrite firstn_O, app_nil_r. }
    rewrite Eu, <- Ls. symmetry. rewrite firstn_app, Nat.sub_diag, firstn_O, app_nil_r. apply firstn_all. }
  exists x, (skipn k rs). rewrite <- (firstn_skipn k rs) at 1. rewrite <- P. apply Hu.
Qed.

Lemma steps_return {S R} (f : S -> list nat -> outcome (R * S * list nat)) (P : S -> Prop) B :
  (forall s rs, P s -> B <= length rs -> exists r s' rest, f s rs = Done (r, s', rest) /\ P s' /\ length rs <= B + length rest) ->
  forall k e rs, P e -> k * B <= length rs -> returns (m_steps f k e) rs.
Proof.
  intros H. induction k as [|k IH]; intros e rs Pe L; [cbn; eexists; eexists; reflexivity|].
  unfold returns. cbn [m_steps]. destruct (H e rs Pe ltac:(cbn in L; lia)) as (r & s' & rest & E & P' & L'). rewrite E. cbn [bind].
  destruct (IH s' rest P' ltac:(cbn in L; lia)) as ([l s2] & rs2 & E2). rewrite E2. cbn [bind]. eexists; eexists; reflexivity.
Qed.
