(** Programs that take random draws: a bound on the number of further draws that finish an
    unfinished run makes them end with probability one. *)
From Verif Require Import Base BaseFacts ContainerFacts GraphFacts Rng RngFacts Runs GraphSpec Sums UniformSpec UniformFacts
  ConfigRounds SurelySpec.
Set Implicit Arguments.
Unset Strict Implicit.
Local Open Scope nat_scope.

(** [m] never panics, every result satisfies [Q], the unused draws are left over, and at most [B]
    more draws, each below [h], let every run that has run out of draws return. *)
Definition swift (h B : nat) {X} (Q : X -> Prop) (m : rng -> outcome (X * rng)) : Prop :=
  forall rs, match m rs with
  | Done (x, rs') => Q x /\ exists used, rs = used ++ rs' /\ forall more, m (used ++ more) = Done (x, more)
  | NoFuel => exists more x, length more <= B /\ Forall (fun r => r < h) more /\
      (forall rest, m (rs ++ more ++ rest) = Done (x, rest)) /\ Q x
  | _ => False
  end.

Section Swift.
Variable h : nat.
Local Notation low := (Forall (fun r => r < h)).

Lemma swift_ret {X} (Q : X -> Prop) x B : Q x -> swift h B Q (fun rs => Done (x, rs)).
Proof. intros H rs. split; auto. exists []. auto. Qed.

Lemma swift_ext {X} (Q : X -> Prop) m m' B : (forall rs, m rs = m' rs) -> swift h B Q m -> swift h B Q m'.
Proof.
  intros E H rs. rewrite <- E. specialize (H rs). destruct (m rs) as [[x rs']| | |]; auto.
  - destruct H as (Qx & u & Eu & H). split; auto. exists u. split; auto. intros more. rewrite <- E; auto.
  - destruct H as (more & x & H1 & H2 & H3 & H4). exists more, x. splits; auto.
    intros rest. rewrite <- E; auto.
Qed.

Lemma swift_weaken {X} (P Q : X -> Prop) m B B' : (forall x, P x -> Q x) -> B <= B' ->
  swift h B P m -> swift h B' Q m.
Proof.
  intros I Le H rs. specialize (H rs). destruct (m rs) as [[x rs']| | |]; auto.
  - destruct H; auto.
  - destruct H as (more & x & H1 & H2 & H3 & H4). exists more, x. splits; auto. lia.
Qed.

(** The results are known already. *)
Lemma swift_post {X} live (P Q : X -> Prop) m B : runs live Q m -> swift h B P m -> swift h B Q m.
Proof.
  intros R H rs. pose proof (R rs) as Rr. specialize (H rs). destruct (m rs) as [[x rs']| | |] eqn:E; auto.
  destruct H as (more & x & H1 & H2 & H3 & _). exists more, x. splits; auto.
  apply (runs_done R (H3 [])).
Qed.

Lemma swift_bind {X Y} (P : X -> Prop) (Q : Y -> Prop) m k B1 B2 :
  swift h B1 P m -> (forall x, P x -> swift h B2 Q (k x)) ->
  swift h (B1 + B2) Q (fun rs => do ' (x, rs1) <- m rs; k x rs1).
Proof.
  intros Hm Hk rs. specialize (Hm rs).
  destruct (m rs) as [[x rs1]| | |] eqn:E; cbn [bind]; try tauto.
  - destruct Hm as (Px & u & Eu & Hu). specialize (Hk x Px rs1).
    destruct (k x rs1) as [[y rs2]| | |] eqn:Ek; try tauto.
    + destruct Hk as (Qy & u2 & Eu2 & Hu2). split; auto. exists (u ++ u2). split.
      * rewrite <- app_assoc. congruence.
      * intros more. rewrite <- app_assoc, Hu. cbn [bind]. auto.
    + destruct Hk as (more & y & Lm & Fm & Hy & Qy). exists more, y. splits; auto; [lia|].
      intros rest. rewrite Eu, <- app_assoc, Hu. cbn [bind]. auto.
  - destruct Hm as (more & x & Lm & Fm & Hx & Px). specialize (Hk x Px []).
    destruct (k x []) as [[y rs2]| | |] eqn:Ek; try tauto.
    + destruct Hk as (Qy & u2 & Eu2 & Hu2). symmetry in Eu2. apply app_eq_nil in Eu2 as [-> ->].
      exists more, y. splits; auto; [lia|]. intros rest. rewrite Hx. cbn [bind]. apply (Hu2 rest).
    + destruct Hk as (more2 & y & Lm2 & Fm2 & Hy & Qy). exists (more ++ more2), y. splits; auto.
      * rewrite app_length. lia.
      * apply Forall_app. auto.
      * intros rest. rewrite <- app_assoc, Hx. cbn [bind]. apply Hy.
Qed.

Lemma swift_pure {X Y} (Q : Y -> Prop) (o : outcome X) (x : X) k B :
  o = Done x -> swift h B Q (k x) -> swift h B Q (fun rs => do x <- o; k x rs).
Proof. intros ->. cbn [bind]. auto. Qed.

Lemma swift_foldM {S E} (I : S -> Prop) (f : S * rng -> E -> outcome (S * rng)) B l :
  (forall s e, I s -> In e l -> swift h B I (fun rs => f (s, rs) e)) ->
  forall s, I s -> swift h (length l * B) I (fun rs => foldM f (s, rs) l).
Proof.
  induction l as [|e l IH]; intros H s Hs; cbn [foldM length Nat.mul].
  - apply swift_ret; auto.
  - apply swift_ext with (m := fun rs => do ' (s1, rs1) <- f (s, rs) e; foldM f (s1, rs1) l).
    { intros rs. destruct (f (s, rs) e) as [[]| | |]; reflexivity. }
    apply (@swift_bind _ _ I I (fun rs => f (s, rs) e) (fun s1 rs1 => foldM f (s1, rs1) l)).
    + apply H; simpl; auto.
    + intros s1 Hs1. apply IH; auto. intros; apply H; simpl; auto.
Qed.

Lemma swift_foldM_along {S E} (I : list E -> S -> list E -> Prop) (f : S * rng -> E -> outcome (S * rng)) B l2 :
  forall l1 s,
  (forall l e l' s, l1 ++ l2 = l ++ e :: l' -> I l s (e :: l') ->
     swift h B (fun s' => I (l ++ [e]) s' l') (fun rs => f (s, rs) e)) ->
  I l1 s l2 -> swift h (length l2 * B) (fun s' => I (l1 ++ l2) s' []) (fun rs => foldM f (s, rs) l2).
Proof.
  induction l2 as [|e l2 IH]; intros l1 s H Hs; cbn [foldM length Nat.mul].
  - apply swift_ret. rewrite app_nil_r. auto.
  - apply swift_ext with (m := fun rs => do ' (s1, rs1) <- f (s, rs) e; foldM f (s1, rs1) l2).
    { intros rs. destruct (f (s, rs) e) as [[]| | |]; reflexivity. }
    eapply (@swift_bind _ _ _ _ (fun rs => f (s, rs) e) (fun s1 rs1 => foldM f (s1, rs1) l2)).
    + apply H; auto.
    + intros s1 Hs1. replace (l1 ++ e :: l2) with ((l1 ++ [e]) ++ l2) by (rewrite <- app_assoc; auto).
      apply IH; auto. intros l x l' t Eq It. apply H; auto. rewrite <- Eq, <- app_assoc. auto.
Qed.

Lemma swift_draw : 0 < h -> swift h 1 (fun _ => True) draw.
Proof.
  intros Hh [|r rs]; cbn.
  - exists [0], 0. auto.
  - split; auto. exists [r]. auto.
Qed.

Lemma swift_gen_range high : 0 < h -> 0 < high -> swift h 1 (fun x => x < high) (gen_range high).
Proof.
  intros Hh H. unfold gen_range. destruct (Nat.eqb_spec high 0); [lia|].
  apply (@swift_bind _ _ (fun _ => True) _ draw (fun r rs1 => Done (Nat.modulo r high, rs1)) 1 0).
  - apply swift_draw; auto.
  - intros x _. apply swift_ret. apply Nat.mod_upper_bound; auto.
Qed.

Lemma swift_shuffle_down {X} : 0 < h -> forall k (l : list X), k <= length l ->
  swift h k (fun l' => Permutation l l') (shuffle_down k l).
Proof.
  intros Hh. induction k as [|k IH]; intros l Hk; [apply swift_ret; auto|].
  destruct k as [|k]; [apply swift_ret; auto|].
  apply (@swift_bind _ _ (fun j => j < S (S k)) _ (gen_range (S (S k)))
    (fun j rs1 => do l' <- swap l (S k) j; shuffle_down (S k) l' rs1) 1 (S k)).
  - apply swift_gen_range; auto. lia.
  - intros j Hj. destruct (@swap_done _ l (S k) j) as (l' & E & L' & P & _); try lia.
    eapply swift_pure; [exact E|].
    eapply swift_weaken; [| |apply IH; lia]; auto.
    intros l2 P2. etransitivity; eauto.
Qed.

Lemma swift_shuffle {X} (l : list X) : 0 < h -> swift h (length l) (fun l' => Permutation l l') (shuffle l).
Proof. intros H. apply swift_shuffle_down; auto. Qed.

Section Loop.
Context {St X : Type}.
Variable body : St -> rng -> outcome ((St + X) * rng).
Variable I : St -> Prop.
Variable Q : X -> Prop.
Variables B1 B2 : nat.
Hypothesis body_swift : forall s, I s ->
  swift h B1 (fun r => match r with inl s' => I s' | inr x => Q x end) (body s).
Hypothesis body_uses : forall s rs s' rs1, I s -> body s rs = Done (inl s', rs1) -> length rs1 < length rs.
Hypothesis finish : forall s, I s -> exists ds x, length ds <= B2 /\ low ds /\ Q x /\
  forall rest, loop (S (length (ds ++ rest))) body s (ds ++ rest) = Done (x, rest).

Lemma swift_runs {Y} B (P : Y -> Prop) m : swift h B P m -> runs True P m.
Proof.
  intros H rs. specialize (H rs). destruct (m rs) as [[y rs']| | |]; auto.
  intros _. destruct H as (more & x & _ & _ & H1 & H2). eauto.
Qed.

Lemma swift_loop s : I s -> swift h (B1 + B2) Q (fun rs => loop (S (length rs)) body s rs).
Proof using body_swift body_uses finish.
  assert (fuel : forall f s rs, I s -> length rs < f -> loop f body s rs = loop (S (length rs)) body s rs).
  { apply (@loop_fuel True St X body I Q); auto. intros t Ht. apply (swift_runs (body_swift Ht)). }
  intros Hs rs. remember (length rs) as k eqn:Ek. revert s Hs rs Ek.
  induction k as [k IH] using lt_wf_ind. intros s Hs rs Ek. subst k.
  change (loop (S (length rs)) body s rs) with
    (do ' (r, rs1) <- body s rs; match r with inl s' => loop (length rs) body s' rs1 | inr x => Done (x, rs1) end).
  assert (U : forall rs', loop (S (length rs')) body s rs' =
    do ' (r, rs1) <- body s rs'; match r with inl s' => loop (length rs') body s' rs1 | inr x => Done (x, rs1) end)
    by reflexivity.
  pose proof (body_swift Hs rs) as R.
  destruct (body s rs) as [[[s'|x] rs1]| | |] eqn:E; cbn [bind]; try tauto.
  - destruct R as (Hs' & u & Eu & Hu). pose proof (body_uses Hs E) as Lt.
    specialize (IH (length rs1) Lt s' Hs' rs1 eq_refl). rewrite fuel by auto.
    destruct (loop (S (length rs1)) body s' rs1) as [[x rs2]| | |]; try tauto.
    + destruct IH as (Qx & u2 & Eu2 & Hu2). split; auto. exists (u ++ u2). split.
      * rewrite <- app_assoc. congruence.
      * intros more. rewrite <- app_assoc. rewrite U, Hu. cbn [bind].
        rewrite fuel; auto. apply (body_uses Hs (Hu _)).
    + destruct IH as (more & x & Lm & Fm & Hx & Qx). exists more, x. splits; auto.
      intros rest. rewrite Eu, <- app_assoc. rewrite U, Hu. cbn [bind].
      rewrite fuel; auto. apply (body_uses Hs (Hu _)).
  - destruct R as (Qx & u & Eu & Hu). split; auto. exists u. split; auto.
    intros more. rewrite U, Hu. reflexivity.
  - destruct R as (more & r & Lm & Fm & Hr & Pr). destruct r as [s'|x].
    + destruct (finish Pr) as (ds & x & Ld & Fd & Qx & Hx). exists (more ++ ds), x. splits; auto.
      * rewrite app_length. lia.
      * apply Forall_app. auto.
      * intros rest. rewrite <- app_assoc. rewrite U, Hr. cbn [bind].
        rewrite fuel; auto. apply (body_uses Hs (Hr _)).
    + exists more, x. splits; auto; [lia|]. intros rest. rewrite U, Hr. reflexivity.
Qed.
End Loop.

(** *** Counting *)

Lemma rolls_repeat_length k : length (rolls (repeat h k)) = h ^ k.
Proof. rewrite rolls_length. induction k as [|k IH]; cbn; auto. Qed.

Lemma sum_over_le {Y} (f g : Y -> nat) l : (forall x, In x l -> f x <= g x) -> sum_over f l <= sum_over g l.
Proof.
  induction l as [|x l IH]; intros H; [auto|]. rewrite !sum_over_cons.
  pose proof (H x (or_introl eq_refl)). assert (sum_over f l <= sum_over g l) by (apply IH; intros; apply H; simpl; auto). lia.
Qed.

Lemma count_le {Y} (f : Y -> bool) l : count f l <= length l.
Proof. unfold count. induction l as [|x l IH]; cbn; auto. destruct (f x); cbn; lia. Qed.

Lemma count_lt {Y} (f : Y -> bool) l x : In x l -> f x = false -> count f l <= length l - 1.
Proof.
  intros H F. unfold count. assert (length (filter f l) < length l); [|lia].
  induction l as [|y l IH]; [destruct H|]. cbn. destruct H as [->|H].
  - rewrite F. pose proof (count_le f l). unfold count in *. lia.
  - specialize (IH H). destruct (f y); cbn; lia.
Qed.

Lemma low_rolls ds k : length ds = k -> low ds -> In ds (rolls (repeat h k)).
Proof.
  intros <- F. apply rolls_In. induction F; cbn; constructor; auto.
Qed.

Section Waiting.
Context {X : Type}.
Variables (B : nat) (Q : X -> Prop) (m : rng -> outcome (X * rng)).
Hypothesis Hh : 0 < h.
Hypothesis S : swift h B Q m.

Lemma done_stays ds x rs more : m ds = Done (x, rs) -> m (ds ++ more) = Done (x, rs ++ more).
Proof using S.
  intros E. pose proof (S ds) as H. rewrite E in H. destruct H as (_ & u & Eu & Hu).
  rewrite Eu, <- app_assoc. auto.
Qed.

Lemma finished_stays ds more : unfinished (m ds) = false -> unfinished (m (ds ++ more)) = false.
Proof using S.
  destruct (m ds) as [[x rs]| | |] eqn:E; try discriminate. intros _. rewrite (done_stays more E). auto.
Qed.

Lemma waiting_step k : waiting h m (k + B) <= (h ^ B - 1) * waiting h m k.
Proof using S Hh.
  unfold waiting at 1. rewrite repeat_app, count_rolls_app.
  replace ((h ^ B - 1) * waiting h m k) with
    (sum_over (fun a => (h ^ B - 1) * if unfinished (m a) then 1 else 0) (rolls (repeat h k))).
  2:{ rewrite sum_over_mul. unfold waiting, count. rewrite length_filter_sum. auto. }
  apply sum_over_le. intros a _. destruct (unfinished (m a)) eqn:U.
  - pose proof (S a) as H. destruct (m a) as [[x rs]| | |]; try discriminate U; try tauto.
    destruct H as (more & x & Lm & Fm & H & _).
    assert (I : In (more ++ repeat 0 (B - length more)) (rolls (repeat h B))).
    { apply low_rolls.
      - rewrite app_length, repeat_length. lia.
      - apply Forall_app. split; auto. apply Forall_forall. intros y Hy. apply repeat_spec in Hy. lia. }
    rewrite Nat.mul_1_r, <- rolls_repeat_length. eapply count_lt; [exact I|]. rewrite H. auto.
  - rewrite Nat.mul_0_r. unfold count. rewrite length_filter_sum. apply Nat.le_0_r. apply sum_over_zero.
    intros b _. rewrite finished_stays; auto.
Qed.

Lemma waiting_le k : waiting h m k <= h ^ k.
Proof. unfold waiting. rewrite <- rolls_repeat_length. apply count_le. Qed.

Lemma waiting_iter q j : waiting h m (j + q * B) <= (h ^ B - 1) ^ q * h ^ j.
Proof using S Hh.
  induction q as [|q IH].
  - cbn. rewrite Nat.add_0_r. pose proof (waiting_le j). lia.
  - replace (j + Datatypes.S q * B) with (j + q * B + B) by (cbn; lia).
    rewrite waiting_step. cbn [Nat.pow]. nia.
Qed.

Lemma mean_bound : mean_draws_at_most (B * h ^ B) h m.
Proof using S Hh.
  assert (Pos : forall k, 0 < h ^ k) by (intros k; apply Nat.neq_0_lt_0, Nat.pow_nonzero; lia).
  destruct (Nat.eq_dec B 0) as [B0|NB].
  { intros k. change (list_sum (map ?f ?l)) with (sum_over f l). rewrite sum_over_zero; [lia|]. intros j _. pose proof (waiting_step j) as W.
    rewrite B0, Nat.add_0_r in W. cbn in W. lia. }
  intros k. change (list_sum (map ?f ?l)) with (sum_over f l). rewrite rolls_repeat_length.
  induction k as [k IH] using lt_wf_ind. destruct (Nat.le_gt_cases k B) as [Le|Gt].
  - assert (H : sum_over (fun j => waiting h m j * length (rolls (repeat h (k - j)))) (seq 0 k) <=
      sum_over (fun _ => h ^ k) (seq 0 k)).
    { apply sum_over_le. intros j Hj. apply in_seq in Hj. rewrite rolls_repeat_length.
      pose proof (waiting_le j). replace (h ^ k) with (h ^ j * h ^ (k - j)) by (rewrite <- Nat.pow_add_r; f_equal; lia).
      apply Nat.mul_le_mono_r. auto. }
    rewrite sum_over_const, seq_length in H. pose proof (Pos B).
    etransitivity; [exact H|]. apply Nat.mul_le_mono_r. nia.
  - assert (Es : seq 0 k = seq 0 B ++ seq B (k - B)).
    { replace k with (B + (k - B)) at 1 by lia. apply seq_app. }
    rewrite Es, sum_over_app. clear Es.
    remember (k - B) as d eqn:Ed. assert (Ek : k = d + B) by lia.
    specialize (IH d ltac:(lia)).
    assert (H1 : sum_over (fun j => waiting h m j * length (rolls (repeat h (k - j)))) (seq 0 B) <= B * h ^ k).
    { rewrite <- (seq_length B 0) at 2. rewrite <- sum_over_const. apply sum_over_le. intros j Hj. apply in_seq in Hj.
      rewrite rolls_repeat_length. pose proof (waiting_le j).
      replace (h ^ k) with (h ^ j * h ^ (k - j)) by (rewrite <- Nat.pow_add_r; f_equal; lia).
      apply Nat.mul_le_mono_r. auto. }
    assert (H2 : sum_over (fun j => waiting h m j * length (rolls (repeat h (k - j)))) (seq B d) <=
      (h ^ B - 1) * sum_over (fun j => waiting h m j * length (rolls (repeat h (d - j)))) (seq 0 d)).
    { rewrite <- sum_over_mul.
      replace (seq B d) with (map (fun j => j + B) (seq 0 d)).
      2:{ clear. revert B. assert (K : forall a b, map (fun j => j + b) (seq a d) = seq (a + b) d).
          { induction d as [|d IH]; intros a b; cbn; auto. f_equal. apply (IH (Datatypes.S a)). }
          intros b. apply (K 0 b). }
      rewrite sum_over_map. apply sum_over_le. intros j _. replace (k - (j + B)) with (d - j) by lia.
      rewrite Nat.mul_assoc. apply Nat.mul_le_mono_r. apply waiting_step. }
    rewrite Ek, Nat.pow_add_r in *. pose proof (Pos B). pose proof (Pos d).
    set (W := h ^ B) in *. set (D := h ^ d) in *.
    set (s := sum_over _ (seq 0 d)) in *.
    assert (H3 : (W - 1) * s <= (W - 1) * (B * W * D)) by (apply Nat.mul_le_mono_l; auto).
    assert (H4 : W = 1 + (W - 1)) by lia. nia.
Qed.

Lemma bernoulli a N q : N * a <= q + a -> 0 < q -> N * a ^ q <= (a + 1) ^ q.
Proof.
  intros H Hq. destruct q as [|q]; [lia|].
  assert (K : forall r, a ^ Datatypes.S r + Datatypes.S r * a ^ r <= (a + 1) ^ Datatypes.S r).
  { induction r as [|r IH]; [cbn; lia|].
    replace ((a + 1) ^ Datatypes.S (Datatypes.S r)) with ((a + 1) * (a + 1) ^ Datatypes.S r) by auto.
    assert ((a + 1) * (a ^ Datatypes.S r + Datatypes.S r * a ^ r) <= (a + 1) * (a + 1) ^ Datatypes.S r) by (apply Nat.mul_le_mono_l; auto).
    cbn [Nat.pow] in *. nia. }
  specialize (K q). cbn [Nat.pow] in *. set (x := a ^ q) in *. nia.
Qed.

Lemma swift_surely : ends_surely h m.
Proof using S Hh.
  assert (Pos : forall k, 0 < h ^ k) by (intros k; apply Nat.neq_0_lt_0, Nat.pow_nonzero; lia).
  destruct (Nat.eq_dec B 0) as [B0|NB].
  { intros N. exists 0. intros k _. pose proof (waiting_step k) as W.
    rewrite B0, Nat.add_0_r in W. cbn in W. assert (E : waiting h m k = 0) by lia. rewrite E. lia. }
  intros N. exists ((N * h ^ B + 1) * B). intros k Hk. rewrite rolls_repeat_length.
  pose proof (Nat.div_mod k B NB) as E. set (q := k / B) in *. set (j := Nat.modulo k B) in *.
  assert (Hj : j < B) by (apply Nat.mod_upper_bound; auto).
  assert (Hq : N * h ^ B + 1 <= q) by nia.
  replace k with (j + q * B) by lia.
  pose proof (waiting_iter q j) as W. pose proof (Pos B) as PB. pose proof (Pos j) as Pj.
  rewrite Nat.pow_add_r, (Nat.mul_comm q B), Nat.pow_mul_r.
  assert (Be : N * (h ^ B - 1) ^ q <= (h ^ B - 1 + 1) ^ q) by (apply bernoulli; nia).
  replace (h ^ B - 1 + 1) with (h ^ B) in Be by lia.
  set (x := (h ^ B - 1) ^ q) in *. set (y := (h ^ B) ^ q) in *. rewrite (Nat.mul_comm B q). nia.
Qed.
End Waiting.
End Swift.

(** ** Other programs with the same runs *)

Lemma waiting_ext {X Y} h (f : rng -> outcome X) (g : rng -> outcome Y) :
  (forall ds, unfinished (f ds) = unfinished (g ds)) -> forall k, waiting h f k = waiting h g k.
Proof. intros H k. unfold waiting, count. f_equal. apply filter_ext. auto. Qed.

Lemma surely_ext {X Y} h (f : rng -> outcome X) (g : rng -> outcome Y) :
  (forall ds, unfinished (f ds) = unfinished (g ds)) -> ends_surely h g -> ends_surely h f.
Proof.
  intros H S N. destruct (S N) as [k0 Hk]. exists k0. intros k L. rewrite (waiting_ext h H). auto.
Qed.

Lemma mean_ext {X Y} c h (f : rng -> outcome X) (g : rng -> outcome Y) :
  (forall ds, unfinished (f ds) = unfinished (g ds)) -> mean_draws_at_most c h g -> mean_draws_at_most c h f.
Proof.
  intros H S k. rewrite (map_ext _ (fun j => waiting h g j * length (rolls (repeat h (k - j))))); auto.
  intros j. rewrite (waiting_ext h H). auto.
Qed.

(** ** Runs that never return *)

Lemma trap_hangs {X} h (f : rng -> outcome X) u : Forall (fun r => r < h) u ->
  (forall rest, f (u ++ rest) = NoFuel) -> may_hang h f.
Proof.
  intros Fu Hu. exists (h ^ length u), (length u). intros k Hk.
  replace k with (length u + (k - length u)) by lia. set (j := k - length u).
  rewrite rolls_repeat_length, Nat.pow_add_r. apply Nat.mul_le_mono_l.
  unfold waiting. rewrite repeat_app, count_rolls_app, <- (rolls_repeat_length h j).
  assert (I : In u (rolls (repeat h (length u)))) by (apply low_rolls; auto).
  apply in_split in I as (l1 & l2 & ->). rewrite sum_over_app, sum_over_cons.
  replace (count _ (rolls (repeat h j))) with (length (rolls (repeat h j))); [lia|].
  symmetry. unfold count. f_equal. rewrite (filter_ext _ (fun _ => true)); [|intros ds; rewrite Hu; auto].
  induction (rolls (repeat h j)) as [|x l IH]; cbn; congruence.
Qed.

Lemma hang_not_surely {X} h (f : rng -> outcome X) : 0 < h -> may_hang h f -> ~ ends_surely h f.
Proof.
  intros Hh (c & k0 & H) S. destruct (S (c + 1)) as [k1 K].
  specialize (H (k0 + k1) ltac:(lia)). specialize (K (k0 + k1) ltac:(lia)).
  rewrite rolls_repeat_length in *. assert (0 < h ^ (k0 + k1)) by (apply Nat.neq_0_lt_0, Nat.pow_nonzero; lia).
  set (w := waiting h f (k0 + k1)) in *. nia.
Qed.

Lemma never_hangs {X} h (f : rng -> outcome X) : never_ends f -> may_hang h f.
Proof. intros H. apply (@trap_hangs _ h f []); auto. Qed.
