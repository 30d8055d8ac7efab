(** Calls on the words of the generator have the runs of the calls on draws. *)
From Verif Require Import Base BaseFacts Containers Graph GraphFacts Rng ErC ErM Sw SwSpec SwFacts OverflowFacts Prob DrawsSpec DrawsFacts Words WordsSpec.
From Coq Require Import NArith ZArith QArith SpecFloat.
Set Implicit Arguments.
Unset Strict Implicit.
Local Open Scope nat_scope.

(** ** The sampler *)

Lemma zone_bound b n : (0 < n < 2 ^ b)%N -> (zone b n <= 2 ^ b)%N.
Proof.
  intros [H0 H]. unfold zone.
  assert (N.size n <= b)%N.
  { rewrite N.size_log2 by lia. apply N.le_succ_l. apply N.log2_lt_pow2; lia. }
  replace (2 ^ b)%N with (2 ^ N.size n * 2 ^ (b - N.size n))%N
    by (rewrite <- N.pow_add_r; f_equal; lia).
  apply N.mul_le_mono_r. pose proof (N.size_gt n). lia.
Qed.

Lemma zone_pos b n : (0 < n)%N -> (0 < zone b n)%N.
Proof. intros H. unfold zone. apply N.mul_pos_pos; [lia|]. apply N.neq_0_lt_0, N.pow_nonzero. lia. Qed.

Lemma uniform_zone_eq b n : (0 < n < 2 ^ b)%N -> uniform_zone b n = (n * (2 ^ b / n))%N.
Proof.
  intros H. unfold uniform_zone. set (m := (2 ^ b)%N) in *.
  assert (E : ((m - n) mod n = m mod n)%N).
  { replace m with (m - n + 1 * n)%N at 2 by lia. rewrite N.mod_add by lia. reflexivity. }
  rewrite E. pose proof (N.div_mod m n ltac:(lia)) as D. clearbody m. clear E.
  revert D. generalize (m mod n)%N (n * (m / n))%N. lia.
Qed.
Lemma uniform_share b n : (0 < n < 2 ^ b)%N -> (0 < 2 ^ b / n /\ n * (2 ^ b / n) <= 2 ^ b)%N.
Proof. intros H. split; [apply N.div_str_pos; lia|]. apply N.mul_div_le. lia. Qed.
Lemma single_share b n : (0 < n < 2 ^ b)%N -> (0 < 2 ^ (b - N.size n) /\ n * 2 ^ (b - N.size n) <= 2 ^ b)%N.
Proof. intros H. split; [apply N.neq_0_lt_0, N.pow_nonzero; lia|]. exact (zone_bound H). Qed.

(** The integers of [b] bits that give [k] are as many as those that give any other value. *)
Lemma sampler_uniform b n c k : (0 < n)%N -> (0 < c)%N -> (n * c <= 2 ^ b)%N -> (k < n)%N ->
  exists a, (a + c <= 2 ^ b)%N /\ forall v,
    ((v * n) mod 2 ^ b < n * c /\ (v * n) / 2 ^ b = k)%N <-> (a <= v < a + c)%N.
Proof.
  intros Hn Hc Z Hk. pose proof (N.pow_nonzero 2 b ltac:(lia)) as B.
  set (m := (2 ^ b)%N) in *.
  exists ((k * m + n - 1) / n)%N. set (a := ((k * m + n - 1) / n)%N).
  pose proof (N.div_mod (k * m + n - 1) n ltac:(lia)) as DA.
  pose proof (N.mod_lt (k * m + n - 1) n ltac:(lia)) as LA. fold a in DA.
  rewrite (N.mul_comm n a) in DA. clearbody a. revert DA LA. generalize ((k * m + n - 1) mod n)%N. intros r DA LA.
  assert (A1 : (k * m <= a * n)%N) by lia.
  assert (A2 : (a * n < k * m + n)%N) by lia.
  clear DA LA.
  split.
  - assert (Q : (k * m + m <= n * m)%N).
    { replace (k * m + m)%N with ((k + 1) * m)%N by ring. apply N.mul_le_mono_r. lia. }
    apply N.le_ngt. intros X. assert (m <= a + c - 1)%N as X' by lia.
    apply (N.mul_le_mono_r _ _ n) in X'.
    replace ((a + c - 1) * n)%N with (a * n + n * c - n)%N in X'
      by (rewrite N.mul_sub_distr_r; f_equal; ring).
    rewrite (N.mul_comm m n) in X'. lia.
  - intros v. pose proof (N.div_mod (v * n) m B) as D. pose proof (N.mod_lt (v * n) m B) as L.
    rewrite (N.mul_comm m) in D. split.
    + intros [H E]. rewrite E in D. revert D L H. generalize ((v * n) mod m)%N. intros y D L H. split; apply N.nlt_ge || apply N.lt_nge; intros X.
      * assert (v + 1 <= a)%N as X' by lia. apply (N.mul_le_mono_r _ _ n) in X'.
        rewrite N.mul_add_distr_r in X'. lia.
      * apply (N.mul_le_mono_r _ _ n) in X. rewrite N.mul_add_distr_r, (N.mul_comm c n) in X. lia.
    + intros [H1 H2].
      assert (V1 : (a * n <= v * n)%N) by now apply N.mul_le_mono_r.
      assert (V2 : ((v + 1) * n <= (a + c) * n)%N) by (apply N.mul_le_mono_r; lia).
      rewrite !N.mul_add_distr_r, (N.mul_comm c n) in V2.
      assert (E : ((v * n) / m = k)%N).
      { symmetry. apply (N.div_unique _ _ _ (v * n - k * m)); [lia|]. rewrite (N.mul_comm m k). lia. }
      split; auto. rewrite E in D. revert D L. generalize ((v * n) mod m)%N. intros y D L. lia.
Qed.

Lemma sample_below_range fuel b n z next ws k rest : (0 < n)%N ->
  (forall ws v t, next ws = Done (v, t) -> (v < 2 ^ b)%N /\ exists u, ws = u ++ t) ->
  sample_below fuel b n z next ws = Done (k, rest) -> (k < n)%N /\ exists u, ws = u ++ rest.
Proof.
  intros Hn N. revert ws. induction fuel as [|f IH]; intros ws H; [discriminate|]. simpl in H.
  destruct (next ws) as [[v t]| | |] eqn:E; try discriminate H. cbn [bind] in H.
  destruct (N _ _ _ E) as (Hv & u & ->).
  destruct (_ <? _)%N eqn:T.
  - injection H as <- <-. split; [|eauto]. apply N.div_lt_upper_bound; [apply N.pow_nonzero; lia|]. nia.
  - destruct (IH _ H) as (Hk & u' & ->). split; auto. exists (u ++ u'). now rewrite app_assoc.
Qed.

Lemma sample_below_stops fuel b n z next ws :
  (forall ws, next ws <> Panic /\ next ws <> UB) ->
  sample_below fuel b n z next ws <> Panic /\ sample_below fuel b n z next ws <> UB.
Proof.
  intros N. revert ws. induction fuel as [|f IH]; intros ws; simpl; [split; discriminate|].
  destruct (next ws) as [[v t]| | |] eqn:E; cbn [bind]; try (split; discriminate).
  - destruct (_ <? _)%N; auto. split; discriminate.
  - now destruct (N ws) as [[] _].
  - now destruct (N ws) as [_ []].
Qed.

Lemma next_u64_word ws v t : next_u64 ws = Done (v, t) -> (v < 2 ^ 64)%N /\ exists u, ws = u ++ t.
Proof.
  destruct ws as [|w ws]; [discriminate|]. intros H. cbn [next_u64] in H. injection H as <- <-.
  split; [apply N.mod_lt; discriminate|]. now exists [w].
Qed.
Lemma next_u32_word ws v t : next_u32 ws = Done (v, t) -> (v < 2 ^ 32)%N /\ exists u, ws = u ++ t.
Proof.
  unfold next_u32. destruct (next_u64 ws) as [[w t']| | |] eqn:E; try discriminate. cbn [bind]. intros H.
  injection H as <- <-. split; [apply N.mod_lt; discriminate|]. now apply next_u64_word in E.
Qed.
Lemma next_u64_stops ws : next_u64 ws <> Panic /\ next_u64 ws <> UB.
Proof. destruct ws; split; discriminate. Qed.
Lemma next_u32_stops ws : next_u32 ws <> Panic /\ next_u32 ws <> UB.
Proof. destruct ws; split; discriminate. Qed.

Lemma sampler_hits b n c k next : (0 < n)%N -> (0 < c)%N -> (n * c <= 2 ^ b)%N -> (b <= 64)%N -> (k < n)%N ->
  (forall v t, (v < 2 ^ b)%N -> next (v :: t) = Done (v, t)) ->
  exists v, (v < 2 ^ 64)%N /\ forall f t, sample_below (S f) b n (n * c) next (v :: t) = Done (k, t).
Proof.
  intros Hn Hc Hz Hb Hk N. destruct (sampler_uniform Hn Hc Hz Hk) as (a & A & U).
  exists a. assert (La : (a < 2 ^ b)%N) by lia. split.
  { eapply N.lt_le_trans; [exact La|]. apply N.pow_le_mono_r; lia. }
  intros f t. cbn [sample_below]. rewrite (N _ _ La). cbn [bind].
  destruct (proj2 (U a) ltac:(lia)) as [U1 U2]. apply N.ltb_lt in U1. now rewrite U1, U2.
Qed.

Lemma zone_half b n : (0 < n < 2 ^ b)%N -> (2 ^ b <= 2 * zone b n)%N.
Proof.
  intros [H0 H]. unfold zone.
  assert (N.size n <= b)%N.
  { rewrite N.size_log2 by lia. apply N.le_succ_l. apply N.log2_lt_pow2; lia. }
  pose proof (N.size_le n) as S. rewrite N.succ_double_spec in S.
  replace (2 ^ b)%N with (2 ^ N.size n * 2 ^ (b - N.size n))%N
    by (rewrite <- N.pow_add_r; f_equal; lia).
  rewrite N.mul_assoc. apply N.mul_le_mono_r.
  assert (N.size n <> 0)%N by (destruct n; [lia|discriminate]).
  replace (N.size n) with (N.succ (N.pred (N.size n))) in * by lia.
  rewrite N.pow_succ_r' in *. lia.
Qed.

(** The first word taken decides. *)
Lemma sample_below_first b n c (red : N -> N) next :
  (forall w t, next (w :: t) = Done (red w, t)) -> next [] = NoFuel ->
  forall fuel ws k rest, length ws < fuel ->
  (sample_below fuel b n (n * c) next ws = Done (k, rest) <->
   exists skipped w, ws = skipped ++ w :: rest /\ Forall (fun v => ~ takes b n c (red v)) skipped /\
     takes b n c (red w) /\ k = value b n (red w)).
Proof.
  intros N N0. induction fuel as [|f IH]; intros ws k rest L; [lia|]. cbn [sample_below].
  destruct ws as [|w ws].
  { rewrite N0. split; [discriminate|]. intros (s & w & E & _). destruct s; discriminate E. }
  rewrite N. cbn [bind]. cbn [length] in L. destruct (N.ltb_spec ((red w * n) mod 2 ^ b) (n * c)) as [T|T].
  - split.
    + intros E. injection E as <- <-. exists [], w. splits; auto.
    + intros (s & w' & E & S & _ & K). destruct s as [|x s].
      * injection E as <- <-. now rewrite K.
      * injection E as <- _. inversion S as [|? ? R]; subst. now destruct R.
  - rewrite IH by lia. split.
    + intros (s & w' & -> & S & R). exists (w :: s), w'. split; auto. split; auto. constructor; auto.
      intros X. unfold takes in X. lia.
    + intros (s & w' & E & S & R & K). destruct s as [|x s].
      * injection E as <- <-. unfold takes in R. lia.
      * injection E as <- ->. inversion S; subst. exists s, w'. auto.
Qed.

(** The same for the calls, in natural numbers. *)
Lemma sample_first b n c (red : N -> N) next ws k rest :
  (forall w t, next (w :: t) = Done (red w, t)) -> next [] = NoFuel ->
  ((do ' (k, t) <- sample_below (S (length ws)) b n (n * c) next ws; Done (N.to_nat k, t)) = Done (k, rest) <->
   exists skipped w, ws = skipped ++ w :: rest /\ Forall (fun v => ~ takes b n c (red v)) skipped /\
     takes b n c (red w) /\ k = N.to_nat (value b n (red w))).
Proof.
  intros N1 N2.
  pose proof (fun j => @sample_below_first b n c red next N1 N2 (S (length ws)) ws j rest (Nat.lt_succ_diag_r _)) as F.
  destruct (sample_below _ _ _ _ _ _) as [[j t]| | |] eqn:E; cbn [bind].
  2-4: split; [discriminate|]; intros (s & w & A & B & C & D); destruct (F (value b n (red w))) as [_ F'];
    discriminate F'; exists s, w; auto.
  split.
  - intros X. injection X as <- ->. destruct (proj1 (F j) eq_refl) as (s & w & A & B & C & D).
    exists s, w. splits; auto. now rewrite D.
  - intros (s & w & A & B & C & D). destruct (F (value b n (red w))) as [_ F'].
    assert (X : Done (j, t) = Done (value b n (red w), rest)) by (apply F'; exists s, w; auto).
    injection X as -> ->. now rewrite D.
Qed.

(** ** Ways to put calls together *)

(** Between any two kinds of generators.  What a call returns is settled by what it uses. *)
Definition fixes {A X} (f : list A -> outcome (X * list A)) : Prop := forall rs x rest, f rs = Done (x, rest) ->
  exists used, rs = used ++ rest /\ forall others, f (used ++ others) = Done (x, others).

(** Where the one has run out, so has the other, and what is missing is no more. *)
Definition waits {A B X} (QA : A -> Prop) (QB : B -> Prop) (w : list A -> outcome (X * list A)) (f : list B -> outcome (X * list B)) : Prop :=
  forall ws, w ws = NoFuel -> exists rs, Forall QB rs /\ (forall x rest, f rs <> Done (x, rest)) /\
    forall more x, f (rs ++ more) = Done (x, []) ->
    exists ws', Forall QA ws' /\ length ws' <= length more /\ forall others, w (ws ++ ws' ++ others) = Done (x, others).

(** What a call that has run out does with more, if it returns then. *)
Lemma fixes_resume {A X} (f : list A -> outcome (X * list A)) rs more y t : fixes f ->
  (forall x rest, f rs <> Done (x, rest)) -> f (rs ++ more) = Done (y, t) ->
  exists more1, more = more1 ++ t /\ f (rs ++ more1) = Done (y, []).
Proof.
  intros S N E. destruct (S _ _ _ E) as (u & Eu & Hu).
  destruct (app_eq_app _ _ _ _ Eu) as (l & [[E1 E2]|[E1 E2]]).
  - destruct (N y l). rewrite E1. apply Hu.
  - exists l. split; auto. rewrite <- E1, <- (app_nil_r u). apply Hu.
Qed.
Lemma settled_resume {X} (f : list nat -> outcome (X * list nat)) rs more y t : settled f ->
  (forall x rest, f rs <> Done (x, rest)) -> f (rs ++ more) = Done (y, t) ->
  exists more1, more = more1 ++ t /\ f (rs ++ more1) = Done (y, []).
Proof. intros S. apply fixes_resume. exact (settled_returns S). Qed.

Lemma waits_bind {A B X Y} (QA : A -> Prop) (QB : B -> Prop) (P : X -> Prop) w f
  (kw : X -> list A -> outcome (Y * list A)) (kf : X -> list B -> outcome (Y * list B)) :
  fixes w -> fixes f ->
  (forall ws x rest, w ws = Done (x, rest) -> P x /\ exists rs, Forall QB rs /\ forall o, f (rs ++ o) = Done (x, o)) ->
  (forall rs x rest, f rs = Done (x, rest) -> P x) -> waits QA QB w f ->
  (forall x rs y rest, P x -> kf x rs = Done (y, rest) ->
    exists ws, Forall QA ws /\ length ws + length rest <= length rs /\ forall o, kw x (ws ++ o) = Done (y, o)) ->
  (forall x, P x -> waits QA QB (kw x) (kf x)) ->
  waits QA QB (fun ws => do ' (x, t) <- w ws; kw x t) (fun rs => do ' (x, t) <- f rs; kf x t).
Proof.
  intros Fw Ff L HP W KL KW ws H. destruct (w ws) as [[x t]| | |] eqn:E; try discriminate H; cbn [bind] in H.
  - destruct (Fw _ _ _ E) as (u & -> & Hu). destruct (L _ _ _ E) as (Px & rs & F & Hrs).
    destruct (KW x Px _ H) as (rs' & F' & N & M). exists (rs ++ rs'). splits; [now apply Forall_app| |].
    + intros y rest. rewrite Hrs. cbn [bind]. apply N.
    + intros more y Hy. rewrite <- app_assoc, Hrs in Hy. cbn [bind] in Hy.
      destruct (M _ _ Hy) as (ws' & G1 & G2 & G3). exists ws'. splits; auto.
      intros o. rewrite <- app_assoc, Hu. apply G3.
  - destruct (W _ E) as (rs & F & N & M). exists rs. splits; auto.
    + intros y rest Hy. destruct (f rs) as [[x t]| | |] eqn:Ef; try discriminate Hy. exact (N _ _ eq_refl).
    + intros more y Hy. destruct (f (rs ++ more)) as [[x t]| | |] eqn:Ef; try discriminate Hy. cbn [bind] in Hy.
      destruct (fixes_resume Ff N Ef) as (m1 & -> & E1).
      destruct (M _ _ E1) as (ws1 & F1 & L1 & G1).
      destruct (KL x t y [] (HP _ _ _ Ef) Hy) as (ws2 & F2 & L2 & G2).
      exists (ws1 ++ ws2). rewrite !app_length. cbn [length] in L2. splits; [now apply Forall_app|lia|].
      intros o. rewrite <- app_assoc, G1. apply G2.
Qed.

Lemma Forall_any {X} (l : list X) : Forall (fun _ => True) l.
Proof. induction l; auto. Qed.

Lemma same_words_fix {X} w f : same_runs (X := X) w f -> fixes w.
Proof. intros S ws x rest E. exact (proj1 (words_return S E)). Qed.
Lemma same_draws_fix {X} w f : same_runs (X := X) w f -> fixes f.
Proof. intros S. exact (settled_returns (draws_settled S)). Qed.
Lemma same_words_wait {X} w f : same_runs (X := X) w f -> waits (fun v => v < 2 ^ 64)%N (fun _ => True) w f.
Proof. intros S ws E. destruct (words_wait S E) as (rs & N & M). exists rs. splits; auto. apply Forall_any. Qed.
Lemma same_draws_wait {X} w f : same_runs (X := X) w f -> waits (fun _ => True) (fun v => v < 2 ^ 64)%N f w.
Proof.
  intros S rs E. destruct (draws_wait S E) as (ws & F & N & M). exists ws. splits; auto.
  intros more x Hx. destruct (M _ _ Hx) as (rs' & L & G). exists rs'. splits; auto. apply Forall_any.
Qed.
Lemma wait_words {X} w (f : list nat -> outcome (X * list nat)) : waits (fun v => v < 2 ^ 64)%N (fun _ => True) w f ->
  forall ws, w ws = NoFuel -> exists rs, (forall x rest, f rs <> Done (x, rest)) /\
    forall more (x : X), f (rs ++ more) = Done (x, []) ->
    exists ws', Forall (fun v => v < 2 ^ 64)%N ws' /\ length ws' <= length more /\
      forall others, w (ws ++ ws' ++ others) = Done (x, others).
Proof. intros W ws E. destruct (W _ E) as (rs & _ & N & M). eauto. Qed.
Lemma wait_draws {X} w (f : list nat -> outcome (X * list nat)) : waits (fun _ => True) (fun v => v < 2 ^ 64)%N f w ->
  forall rs, f rs = NoFuel -> exists ws, Forall (fun v => v < 2 ^ 64)%N ws /\
    (forall x rest, w ws <> Done (x, rest)) /\
    forall more (x : X), w (ws ++ more) = Done (x, []) ->
    exists rs', length rs' <= length more /\ forall others, f (rs ++ rs' ++ others) = Done (x, others).
Proof.
  intros W rs E. destruct (W _ E) as (ws & F & N & M). exists ws. splits; auto.
  intros more x Hx. destruct (M _ _ Hx) as (rs' & _ & L & G). eauto.
Qed.

Lemma same_const {X} (m : outcome X) : same_runs (fun ws => do x <- m; Done (x, ws)) (fun rs => do x <- m; Done (x, rs)).
Proof.
  split; [..|apply settled_const]; destruct m; try discriminate; intros l.
  - intros y rest H. injection H as <- <-. split; [now exists []|]. exists []. split; auto.
  - exists []. reflexivity.
  - exists []. reflexivity.
  - exists []. split; [discriminate|]. intros more y E. discriminate E.
  - intros y rest H. injection H as <- <-. exists []. split; [constructor|]. split; auto.
  - exists []. splits; [constructor|discriminate|]. intros more y E. discriminate E.
  - exists []. split; [constructor|reflexivity].
  - exists []. split; [constructor|reflexivity].
Qed.
Lemma same_done {X} (x : X) : same_runs (fun ws => Done (x, ws)) (fun rs => Done (x, rs)).
Proof. exact (same_const (Done x)). Qed.
Lemma same_stop {X} : same_runs (fun _ => Panic : outcome (X * list N)) (fun _ => Panic).
Proof. exact (same_const (Panic : outcome X)). Qed.
Lemma same_ub {X} : same_runs (fun _ => UB : outcome (X * list N)) (fun _ => UB).
Proof. exact (same_const (UB : outcome X)). Qed.
Lemma same_fuel {X} : same_runs (fun _ => NoFuel : outcome (X * list N)) (fun _ => NoFuel).
Proof. exact (same_const (NoFuel : outcome X)). Qed.

(** [P] is what is known of the result of the first call. *)
Lemma same_bind_if {X Y} (P : X -> Prop) w f (kw : X -> list N -> outcome (Y * list N)) kf :
  same_runs w f -> (forall rs x rest, f rs = Done (x, rest) -> P x) ->
  (forall x, P x -> same_runs (kw x) (kf x)) ->
  same_runs (fun ws => do ' (x, t) <- w ws; kw x t) (fun rs => do ' (x, t) <- f rs; kf x t).
Proof.
  intros SR HP K. pose proof SR as [R1 P1 U1 W1 R2 V1 P2 U2 S1].
  assert (HW : forall ws x rest, w ws = Done (x, rest) -> P x).
  { intros ws x rest E. destruct (R1 _ _ _ E) as (_ & rs & _ & Hrs). eapply HP. exact (Hrs []). }
  split.
  - intros ws y rest H. destruct (w ws) as [[x t]| | |] eqn:E; try discriminate H. cbn [bind] in H.
    destruct (R1 _ _ _ E) as ((u & -> & Hu) & rs & L & Hrs).
    destruct (words_return (K x (HW _ _ _ E)) H) as ((u' & -> & Hu') & rs' & L' & Hrs').
    split.
    + exists (u ++ u'). split; [now rewrite app_assoc|]. intros o. rewrite <- app_assoc, Hu. apply Hu'.
    + exists (rs ++ rs'). rewrite !app_length in *. split; [lia|]. intros o. rewrite <- app_assoc, Hrs. apply Hrs'.
  - intros ws H. destruct (w ws) as [[x t]| | |] eqn:E; try discriminate H; cbn [bind] in H.
    + destruct (R1 _ _ _ E) as (_ & rs & _ & Hrs).
      destruct (words_panic (K x (HW _ _ _ E)) H) as (rs' & Hrs').
      exists (rs ++ rs'). rewrite Hrs. apply Hrs'.
    + destruct (P1 _ E) as (rs & Hrs). exists rs. rewrite Hrs. reflexivity.
  - intros ws H. destruct (w ws) as [[x t]| | |] eqn:E; try discriminate H; cbn [bind] in H.
    + destruct (R1 _ _ _ E) as (_ & rs & _ & Hrs).
      destruct (words_undefined (K x (HW _ _ _ E)) H) as (rs' & Hrs').
      exists (rs ++ rs'). rewrite Hrs. apply Hrs'.
    + destruct (U1 _ E) as (rs & Hrs). exists rs. rewrite Hrs. reflexivity.
  - apply wait_words. apply (@waits_bind _ _ _ _ _ _ P w f kw kf); auto using (same_words_fix SR), (same_draws_fix SR), (same_words_wait SR).
    + intros ws x rest E. split; [exact (HW _ _ _ E)|]. destruct (R1 _ _ _ E) as (_ & rs & _ & Hrs).
      exists rs. split; auto. apply Forall_any.
    + intros x rs y rest Px E. exact (draws_return (K x Px) E).
    + intros x Px. exact (same_words_wait (K x Px)).
  - intros rs y rest H. destruct (f rs) as [[x t]| | |] eqn:E; try discriminate H. cbn [bind] in H.
    destruct (R2 _ _ _ E) as (ws & F & L & Hws).
    destruct (draws_return (K x (HP _ _ _ E)) H) as (ws' & F' & L' & Hws').
    exists (ws ++ ws'). rewrite app_length. splits; [now apply Forall_app|lia|].
    intros o. rewrite <- app_assoc, Hws. apply Hws'.
  - apply wait_draws. apply (@waits_bind _ _ _ _ _ _ P f w kf kw); auto using (same_words_fix SR), (same_draws_fix SR), (same_draws_wait SR).
    + intros rs x rest E. split; [exact (HP _ _ _ E)|]. destruct (R2 _ _ _ E) as (ws & F & _ & G). eauto.
    + intros x ws y rest Px E. destruct (words_return (K x Px) E) as (_ & rs & L & G).
      exists rs. splits; auto. apply Forall_any.
    + intros x Px. exact (same_draws_wait (K x Px)).
  - intros rs H. destruct (f rs) as [[x t]| | |] eqn:E; try discriminate H; cbn [bind] in H.
    + destruct (R2 _ _ _ E) as (ws & F & _ & Hws). destruct (draws_panic (K x (HP _ _ _ E)) H) as (ws' & F' & Hws').
      exists (ws ++ ws'). split; [now apply Forall_app|]. rewrite Hws. apply Hws'.
    + destruct (P2 _ E) as (ws & F & Hws). exists ws. split; auto. rewrite Hws. reflexivity.
  - intros rs H. destruct (f rs) as [[x t]| | |] eqn:E; try discriminate H; cbn [bind] in H.
    + destruct (R2 _ _ _ E) as (ws & F & _ & Hws). destruct (draws_undefined (K x (HP _ _ _ E)) H) as (ws' & F' & Hws').
      exists (ws ++ ws'). split; [now apply Forall_app|]. rewrite Hws. apply Hws'.
    + destruct (U2 _ E) as (ws & F & Hws). exists ws. split; auto. rewrite Hws. reflexivity.
  - split.
    + intros rs y rest H. destruct (f rs) as [[x t]| | |] eqn:E; try discriminate H. cbn [bind] in H.
      destruct (settled_returns S1 E) as (u & -> & Hu).
      destruct (settled_returns (draws_settled (K x (HP _ _ _ E))) H) as (v & -> & Hv).
      exists (u ++ v). split; [now rewrite app_assoc|]. intros o. rewrite <- app_assoc, Hu. apply Hv.
    + intros rs H more. destruct (f rs) as [[x t]| | |] eqn:E; try discriminate H; cbn [bind] in H.
      * destruct (settled_returns S1 E) as (u & -> & Hu). rewrite <- app_assoc, Hu. cbn [bind].
        apply (settled_panics (draws_settled (K x (HP _ _ _ E))) H).
      * rewrite (settled_panics S1 E). reflexivity.
    + intros rs H more. destruct (f rs) as [[x t]| | |] eqn:E; try discriminate H; cbn [bind] in H.
      * destruct (settled_returns S1 E) as (u & -> & Hu). rewrite <- app_assoc, Hu. cbn [bind].
        apply (settled_undefined_too (draws_settled (K x (HP _ _ _ E))) H).
      * rewrite (settled_undefined_too S1 E). reflexivity.
Qed.

Lemma same_bind {X Y} w f (kw : X -> list N -> outcome (Y * list N)) kf :
  same_runs w f -> (forall x, same_runs (kw x) (kf x)) ->
  same_runs (fun ws => do ' (x, t) <- w ws; kw x t) (fun rs => do ' (x, t) <- f rs; kf x t).
Proof. intros W K. apply same_bind_if with (P := fun _ => True); auto. Qed.

Lemma same_pure_if {X Y} (P : X -> Prop) (m : outcome X) (kw : X -> list N -> outcome (Y * list N)) kf :
  (forall x, m = Done x -> P x) -> (forall x, P x -> same_runs (kw x) (kf x)) ->
  same_runs (fun ws => do x <- m; kw x ws) (fun rs => do x <- m; kf x rs).
Proof. intros H K. destruct m; cbn [bind]; auto using same_stop, same_ub, same_fuel. Qed.

Lemma same_pure {X Y} (m : outcome X) (kw : X -> list N -> outcome (Y * list N)) kf :
  (forall x, same_runs (kw x) (kf x)) ->
  same_runs (fun ws => do x <- m; kw x ws) (fun rs => do x <- m; kf x rs).
Proof. intros K. apply same_pure_if with (P := fun _ => True); auto. Qed.

Lemma same_ext {X} (w w' : list N -> outcome (X * list N)) f f' :
  (forall ws, w ws = w' ws) -> (forall rs, f rs = f' rs) -> same_runs w f -> same_runs w' f'.
Proof.
  intros W F [R1 P1 U1 W1 R2 V1 P2 U2 S1]. split; [..|exact (settled_ext F S1)].
  - intros ws x rest. rewrite <- W. intros H. destruct (R1 _ _ _ H) as ((u & A & A') & rs & L & B). split.
    + exists u. split; auto. intros o. rewrite <- W. auto.
    + exists rs. split; auto. intros o. rewrite <- F. auto.
  - intros ws. rewrite <- W. intros H. destruct (P1 _ H) as (rs & B). exists rs. now rewrite <- F.
  - intros ws. rewrite <- W. intros H. destruct (U1 _ H) as (rs & B). exists rs. now rewrite <- F.
  - intros ws. rewrite <- W. intros H. destruct (W1 _ H) as (rs & N & M). exists rs. split.
    + intros x rest. rewrite <- F. apply N.
    + intros more x. rewrite <- F. intros E. destruct (M _ _ E) as (ws' & A & L & B). exists ws'. splits; auto.
      intros o. rewrite <- W. auto.
  - intros rs x rest. rewrite <- F. intros H. destruct (R2 _ _ _ H) as (ws & A & L & B). exists ws. splits; auto.
    intros o. rewrite <- W. auto.
  - intros rs. rewrite <- F. intros H. destruct (V1 _ H) as (ws & A & N & M). exists ws. splits; auto.
    + intros x rest. rewrite <- W. apply N.
    + intros more x. rewrite <- W. intros E. destruct (M _ _ E) as (rs' & L & B). exists rs'. split; auto.
      intros o. rewrite <- F. auto.
  - intros rs. rewrite <- F. intros H. destruct (P2 _ H) as (ws & A & B). exists ws. split; auto. now rewrite <- W.
  - intros rs. rewrite <- F. intros H. destruct (U2 _ H) as (ws & A & B). exists ws. split; auto. now rewrite <- W.
Qed.

(** A loop over a list, with what is known of the state. *)
Lemma same_foldM {X A} (P : X -> Prop) (w : X * list N -> A -> outcome (X * list N)) (f : X * list nat -> A -> outcome (X * list nat)) l :
  (forall x a, P x -> same_runs (fun ws => w (x, ws) a) (fun rs => f (x, rs) a)) ->
  (forall x a rs y rest, P x -> f (x, rs) a = Done (y, rest) -> P y) ->
  forall x, P x -> same_runs (fun ws => foldM w (x, ws) l) (fun rs => foldM f (x, rs) l).
Proof.
  intros S HP. induction l as [|a l IH]; intros x Hx; cbn [foldM]; [apply same_done|].
  eapply same_ext; [| |apply (same_bind_if (P := P) (S x a Hx) (fun rs y rest => HP x a rs y rest Hx) IH)].
  - intros ws. cbv beta. destruct (w (x, ws) a) as [[]| | |]; reflexivity.
  - intros rs. cbv beta. destruct (f (x, rs) a) as [[]| | |]; reflexivity.
Qed.

(** ** Draws *)

Lemma sample_below_waits b n c (red : N -> N) next :
  (forall w t, next (w :: t) = Done (red w, t)) -> next [] = NoFuel ->
  forall fuel ws, length ws < fuel -> sample_below fuel b n (n * c) next ws = NoFuel ->
  Forall (fun v => ~ takes b n c (red v)) ws.
Proof.
  intros N1 N2. induction fuel as [|f IH]; intros ws L H; [lia|]. destruct ws as [|w ws]; [constructor|].
  cbn [sample_below] in H. rewrite N1 in H. cbn [bind] in H. cbn [length] in L.
  destruct (N.ltb_spec ((red w * n) mod 2 ^ b) (n * c)) as [T|T]; [discriminate|].
  constructor; [unfold takes; lia|]. apply IH; auto. lia.
Qed.

Lemma same_sampler b h c (red : N -> N) next : (0 < h) -> (0 < c)%N -> (N.of_nat h * c <= 2 ^ b)%N -> (b <= 64)%N ->
  (forall ws v t, next ws = Done (v, t) -> (v < 2 ^ b)%N /\ exists u, ws = u ++ t) ->
  (forall ws, next ws <> Panic /\ next ws <> UB) ->
  (forall v, (v < 2 ^ b)%N -> red v = v) ->
  (forall w t, next (w :: t) = Done (red w, t)) -> next [] = NoFuel ->
  same_runs (fun ws => do ' (k, t) <- sample_below (S (length ws)) b (N.of_nat h) (N.of_nat h * c) next ws; Done (N.to_nat k, t))
    (gen_range h).
Proof.
  intros H0 Hc Hb B64 N1 N2 N3 N4 N5. assert (P : (0 < N.of_nat h)%N) by lia. assert (Z : (h =? 0) = false) by (apply Nat.eqb_neq; lia).
  assert (Hit : forall r, exists v, (v < 2 ^ 64)%N /\ takes b (N.of_nat h) c (red v) /\ r mod h = N.to_nat (value b (N.of_nat h) (red v))).
  { intros r. assert (Hk : (N.of_nat (r mod h) < N.of_nat h)%N).
    { pose proof (Nat.mod_upper_bound r h ltac:(lia)) as M. revert M. generalize (r mod h). lia. }
    destruct (sampler_uniform P Hc Hb Hk) as (a & A & U). assert (La : (a < 2 ^ b)%N) by lia.
    exists a. splits.
    - eapply N.lt_le_trans; [exact La|]. apply N.pow_le_mono_r; lia.
    - rewrite N3 by exact La. destruct (proj2 (U a) ltac:(lia)) as [U1 _]. exact U1.
    - rewrite N3 by exact La. destruct (proj2 (U a) ltac:(lia)) as [_ U2]. unfold value. rewrite U2. now rewrite Nat2N.id. }
  split; [..|apply settled_gen_range].
  - intros ws x rest H. pose proof H as H'.
    apply (@sample_first b (N.of_nat h) c red next ws x rest N4 N5) in H as (s & v & -> & S & T & ->).
    split.
    + exists (s ++ [v]). split; [now rewrite <- app_assoc|]. intros o. rewrite <- app_assoc.
      apply (@sample_first b (N.of_nat h) c red next _ _ o N4 N5). exists s, v. auto.
    + destruct (sample_below _ _ _ _ _ _) as [[k t]| | |] eqn:E; try discriminate H'. cbn [bind] in H'. injection H' as E1 E2.
      destruct (sample_below_range P N1 E) as [L _].
      exists [N.to_nat k]. split; [rewrite app_length; cbn [length]; lia|].
      intros o. unfold gen_range. rewrite Z. cbn [app draw bind]. rewrite Nat.mod_small; [|lia]. now rewrite E1.
  - intros ws H. destruct (sample_below_stops (S (length ws)) b (N.of_nat h) (N.of_nat h * c) ws N2) as [A _].
    destruct (sample_below _ _ _ _ _ _) as [[k t]| | |]; try discriminate H. now destruct A.
  - intros ws H. destruct (sample_below_stops (S (length ws)) b (N.of_nat h) (N.of_nat h * c) ws N2) as [_ A].
    destruct (sample_below _ _ _ _ _ _) as [[k t]| | |]; try discriminate H. now destruct A.
  - intros ws H. destruct (sample_below _ _ _ _ _ _) as [[k t]| | |] eqn:E; try discriminate H.
    apply (sample_below_waits N4 N5 (Nat.lt_succ_diag_r _)) in E.
    exists []. unfold gen_range. rewrite Z. split; [discriminate|]. intros more x Hx.
    destruct more as [|r more]; [discriminate|]. cbn [app draw bind] in Hx. injection Hx as <- ->.
    destruct (Hit r) as (v & Hv & T & V). exists [v]. splits; auto.
    intros o. apply (@sample_first b (N.of_nat h) c red next _ _ o N4 N5). exists ws, v. auto.
  - intros rs x rest H. unfold gen_range in H. rewrite Z in H. destruct rs as [|r rs]; [discriminate|].
    cbn [draw bind] in H. injection H as <- <-.
    destruct (Hit r) as (v & Hv & T & V). exists [v]. splits; auto.
    intros o. apply (@sample_first b (N.of_nat h) c red next _ _ o N4 N5). exists [], v. auto.
  - intros rs H. unfold gen_range in H |- *. rewrite Z in H |- *. destruct rs as [|r rs]; [|discriminate H].
    exists []. splits; [constructor| |].
    + intros x rest. cbn [length sample_below]. rewrite N5. discriminate.
    + intros more x H'. cbn [app] in H'. pose proof H' as H1.
      apply (@sample_first b (N.of_nat h) c red next more x [] N4 N5) in H1 as (s & v & -> & _).
      destruct (sample_below _ _ _ _ _ _) as [[k t]| | |] eqn:E; try discriminate H'. cbn [bind] in H'. injection H' as E1 E2.
      destruct (sample_below_range P N1 E) as [L _].
      exists [N.to_nat k]. split; [rewrite app_length; cbn [length]; lia|].
      intros o. cbn [app draw bind]. rewrite Nat.mod_small; [|lia]. now rewrite E1.
  - intros rs H. unfold gen_range in H. rewrite Z in H. destruct rs; discriminate H.
  - intros rs H. unfold gen_range in H. rewrite Z in H. destruct rs; discriminate H.
Qed.

Lemma red64 v : (v < 2 ^ 64)%N -> (v mod 2 ^ 64 = v)%N.
Proof. apply N.mod_small. Qed.
Lemma red32 v : (v < 2 ^ 32)%N -> (v mod 2 ^ 64 mod 2 ^ 32 = v)%N.
Proof.
  intros L. rewrite (N.mod_small v (2 ^ 64)), N.mod_small; auto. eapply N.lt_trans; [exact L|]. reflexivity.
Qed.
Lemma next_u64_small v t : (v < 2 ^ 64)%N -> next_u64 (v :: t) = Done (v, t).
Proof. intros L. cbn [next_u64]. now rewrite N.mod_small by exact L. Qed.
Lemma next_u32_small v t : (v < 2 ^ 32)%N -> next_u32 (v :: t) = Done (v, t).
Proof.
  intros L. unfold next_u32. cbn [next_u64 bind]. rewrite (N.mod_small v (2 ^ 64)), N.mod_small; auto.
  eapply N.lt_trans; [exact L|]. reflexivity.
Qed.

Lemma same_single64 h : 0 < h -> (N.of_nat h < 2 ^ 64)%N -> same_runs (sample_single 64 h next_u64) (gen_range h).
Proof.
  intros Z H. destruct (@single_share 64 (N.of_nat h) ltac:(lia)).
  apply (@same_sampler 64 h _ (fun v => v mod 2 ^ 64)%N next_u64); try lia; auto using next_u64_word, next_u64_stops, red64.
Qed.
Lemma same_single32 h : 0 < h -> (N.of_nat h < 2 ^ 32)%N -> same_runs (sample_single 32 h next_u32) (gen_range h).
Proof.
  intros Z H. destruct (@single_share 32 (N.of_nat h) ltac:(lia)).
  apply (@same_sampler 32 h _ (fun v => v mod 2 ^ 64 mod 2 ^ 32)%N next_u32); try lia; auto using next_u32_word, next_u32_stops, red32.
Qed.
Lemma same_gen_range h : (N.of_nat h < 2 ^ 64)%N -> same_runs (w_gen_range h) (gen_range h).
Proof.
  intros H. destruct (Nat.eq_dec h 0) as [->|Z]; [apply same_stop|].
  eapply same_ext; [|reflexivity|apply same_single64; auto; lia].
  intros ws. unfold w_gen_range. apply Nat.eqb_neq in Z. now rewrite Z.
Qed.
Lemma same_gen_index h : (N.of_nat h < 2 ^ 64)%N -> same_runs (w_gen_index h) (gen_range h).
Proof.
  intros H. destruct (N.leb_spec (N.of_nat h) (2 ^ 32 - 1)) as [L|L].
  2: { eapply same_ext; [|reflexivity|apply (same_gen_range H)]. intros ws. unfold w_gen_index.
       apply N.leb_gt in L. now rewrite L. }
  destruct (Nat.eq_dec h 0) as [->|Z]; [apply same_stop|].
  eapply same_ext; [|reflexivity|apply same_single32; try lia].
  intros ws. unfold w_gen_index. apply Nat.eqb_neq in Z. apply N.leb_le in L. now rewrite L, Z.
Qed.
Lemma same_uniform h : (N.of_nat h < 2 ^ 64)%N -> same_runs (w_uniform h) (gen_range h).
Proof.
  intros H. destruct (Nat.eq_dec h 0) as [->|Z]; [apply same_stop|].
  destruct (@uniform_share 64 (N.of_nat h) ltac:(lia)).
  eapply same_ext; [|reflexivity|apply (@same_sampler 64 h (2 ^ 64 / N.of_nat h) (fun v => v mod 2 ^ 64)%N next_u64); try lia;
    auto using next_u64_word, next_u64_stops, red64].
  intros ws. unfold w_uniform, sample_uniform. cbv zeta. change (N.of_nat 64) with 64%N.
  rewrite uniform_zone_eq by lia. apply Nat.eqb_neq in Z. now rewrite Z.
Qed.
Lemma same_uniform_u32 h : (N.of_nat h < 2 ^ 32)%N -> same_runs (w_uniform_u32 h) (gen_range h).
Proof.
  intros H. destruct (Nat.eq_dec h 0) as [->|Z]; [apply same_stop|].
  destruct (@uniform_share 32 (N.of_nat h) ltac:(lia)).
  eapply same_ext; [|reflexivity|apply (@same_sampler 32 h (2 ^ 32 / N.of_nat h) (fun v => v mod 2 ^ 64 mod 2 ^ 32)%N next_u32); try lia;
    auto using next_u32_word, next_u32_stops, red32].
  intros ws. unfold w_uniform_u32, sample_uniform. cbv zeta. change (N.of_nat 32) with 32%N.
  rewrite uniform_zone_eq by lia. apply Nat.eqb_neq in Z. now rewrite Z.
Qed.

(** The words of [gen_range] and of [Uniform]. *)
Lemma w_gen_range_first h ws k rest : 0 < h ->
  (w_gen_range h ws = Done (k, rest) <->
   let c := (2 ^ (64 - N.size (N.of_nat h)))%N in
   exists skipped w, ws = skipped ++ w :: rest /\
     Forall (fun v => ~ takes 64 (N.of_nat h) c (v mod 2 ^ 64)) skipped /\
     takes 64 (N.of_nat h) c (w mod 2 ^ 64) /\ k = N.to_nat (value 64 (N.of_nat h) (w mod 2 ^ 64))).
Proof.
  intros H. unfold w_gen_range. replace (h =? 0) with false by (symmetry; apply Nat.eqb_neq; lia).
  apply (@sample_first 64 (N.of_nat h) _ (fun v => v mod 2 ^ 64)%N next_u64 ws k rest); reflexivity.
Qed.
Lemma w_uniform_first h ws k rest : 0 < h -> (N.of_nat h < 2 ^ 64)%N ->
  (w_uniform h ws = Done (k, rest) <->
   let c := (2 ^ 64 / N.of_nat h)%N in
   exists skipped w, ws = skipped ++ w :: rest /\
     Forall (fun v => ~ takes 64 (N.of_nat h) c (v mod 2 ^ 64)) skipped /\
     takes 64 (N.of_nat h) c (w mod 2 ^ 64) /\ k = N.to_nat (value 64 (N.of_nat h) (w mod 2 ^ 64))).
Proof.
  intros H L. unfold w_uniform. replace (h =? 0) with false by (symmetry; apply Nat.eqb_neq; lia).
  unfold sample_uniform. cbv zeta. change (N.of_nat 64) with 64%N. rewrite uniform_zone_eq by lia.
  apply (@sample_first 64 (N.of_nat h) _ (fun v => v mod 2 ^ 64)%N next_u64 ws k rest); reflexivity.
Qed.

(** The upper 53 bits, whatever is made of them. *)
Lemma same_bits {X} (h : Z -> X) :
  same_runs (fun ws => do ' (w, t) <- next_u64 ws; Done (h (Z.of_N (w / 2 ^ 11)), t))
    (fun rs => do ' (r, t) <- draw rs; Done (h (Z.modulo (Z.of_nat r) 9007199254740992), t)).
Proof.
  assert (Hit : forall r, exists v, (v < 2 ^ 64)%N /\
    Z.of_N (v mod 2 ^ 64 / 2 ^ 11) = (Z.of_nat r mod 9007199254740992)%Z).
  { intros r. set (z := (Z.of_nat r mod 9007199254740992)%Z).
    pose proof (Z.mod_pos_bound (Z.of_nat r) 9007199254740992 ltac:(lia)) as B. fold z in B.
    assert (L : (Z.to_N z * 2 ^ 11 < 2 ^ 64)%N).
    { change (2 ^ 64)%N with (9007199254740992 * 2 ^ 11)%N. apply N.mul_lt_mono_pos_r; [reflexivity|]. clearbody z. lia. }
    exists (Z.to_N z * 2 ^ 11)%N. split; auto.
    rewrite N.mod_small by exact L. rewrite N.div_mul by discriminate. apply Z2N.id. lia. }
  assert (Low : forall w, exists r, (Z.of_nat r mod 9007199254740992)%Z = Z.of_N (w mod 2 ^ 64 / 2 ^ 11)).
  { intros w. exists (N.to_nat (w mod 2 ^ 64 / 2 ^ 11)). rewrite N_nat_Z, Z.mod_small; [reflexivity|].
    assert (H : (w mod 2 ^ 64 / 2 ^ 11 < 2 ^ 53)%N).
    { apply N.div_lt_upper_bound; [discriminate|]. rewrite <- N.pow_add_r. apply N.mod_lt. discriminate. }
    change (2 ^ 53)%N with 9007199254740992%N in H. revert H. generalize (w mod 2 ^ 64 / 2 ^ 11)%N. lia. }
  split; [..|settle].
  - intros ws x rest H. destruct ws as [|w ws]; [discriminate|]. cbn [next_u64 bind] in H.
    injection H as <- <-. split; [now exists [w]|].
    destruct (Low w) as [r E]. exists [r]. split; [cbn [length]; lia|]. intros o. cbn [app draw bind]. now rewrite E.
  - intros ws H. destruct ws; discriminate H.
  - intros ws H. destruct ws; discriminate H.
  - intros ws H. destruct ws; [|discriminate H]. exists []. split; [discriminate|]. intros more x Hx.
    destruct more as [|r more]; [discriminate|]. cbn [app draw bind] in Hx. injection Hx as <- ->.
    destruct (Hit r) as (v & L & E). exists [v]. splits; auto.
    intros o. cbn [app next_u64 bind]. now rewrite E.
  - intros rs x rest H. destruct rs as [|r rs]; [discriminate|]. cbn [draw bind] in H.
    injection H as <- <-. destruct (Hit r) as (v & L & E). exists [v]. splits; auto.
    intros o. cbn [app next_u64 bind]. now rewrite E.
  - intros rs H. destruct rs; [|discriminate H]. exists []. splits; [constructor|discriminate|].
    intros more x Hx. destruct more as [|w more]; [discriminate|]. cbn [app next_u64 bind] in Hx. injection Hx as <- ->.
    destruct (Low w) as [r E]. exists [r]. split; auto. intros o. cbn [app draw bind]. now rewrite E.
  - intros rs H. destruct rs; discriminate H.
  - intros rs H. destruct rs; discriminate H.
Qed.
Lemma same_gen_f64 : same_runs w_gen_f64 gen_f64.
Proof. exact (same_bits (fun z => Qmake z 9007199254740992)). Qed.
Lemma same_gen_unit : same_runs w_gen_unit gen_unit.
Proof. exact (same_bits (fun z => binary_normalize 53 1024 z (-53) false)). Qed.

Lemma same_shuffle_down {X} k : (N.of_nat k < 2 ^ 64)%N -> forall l : list X,
  same_runs (w_shuffle_down k l) (shuffle_down k l).
Proof.
  induction k as [|i IH]; intros H l; [apply same_done|].
  destruct i as [|i]; [apply same_done|].
  cbn [w_shuffle_down shuffle_down].
  apply same_bind; [now apply same_gen_index|]. intros j. apply same_pure. intros l'. apply IH. lia.
Qed.
Lemma same_shuffle {X} (l : list X) : (N.of_nat (length l) < 2 ^ 64)%N -> same_runs (w_shuffle l) (shuffle l).
Proof. intros H. now apply same_shuffle_down. Qed.

(** Goes through the calls of a program. *)
Create HintDb same.
#[export] Hint Resolve same_gen_range same_uniform same_uniform_u32 same_gen_f64 same_gen_unit : same.
Ltac same :=
  repeat (cbv beta iota zeta;
  first
  [ assumption | solve [auto with same]
  | apply same_done | apply same_stop | apply same_ub | apply same_fuel
  | lazymatch goal with
    | |- same_runs (fun ws => bind (@?f ws) (fun p => let (x, r) := p in @?k x r)) _ =>
        first [ apply same_bind; [|let x := fresh "x" in intros x; parts x]
              | apply same_pure; let x := fresh "x" in intros x; parts x ]
    | |- same_runs (fun ws => bind ?m _) _ => apply same_pure; let x := fresh "x" in intros x; parts x
    | |- same_runs (fun ws => if ?b then _ else _) _ => destruct b
    | |- same_runs (fun ws => match ?b with _ => _ end) _ => destruct b
    end ]).

Lemma same_draw_two p h : (N.of_nat h < 2 ^ 64)%N -> same_runs (w_draw_two_from_range p h) (draw_two_from_range p h).
Proof.
  intros H. unfold w_draw_two_from_range, draw_two_from_range.
  destruct (Nat.eq_dec h 0) as [->|Z]; [apply same_stop|].
  apply same_bind; [auto with same|]. intros a.
  replace (usub p h 1) with (Done (h - 1)). 2: { destruct p, h; try lia; reflexivity. }
  cbn [bind]. apply same_bind; [apply same_gen_range; lia|]. intros b. same.
Qed.

Lemma usub_word p a b c : (N.of_nat a < 2 ^ 64)%N -> usub p a b = Done c -> (N.of_nat c < 2 ^ 64)%N.
Proof.
  intros H E. unfold usub in E. destruct (Nat.leb_spec b a).
  - injection E as <-. lia.
  - destruct p; [discriminate|]. pose proof modulus_value as M.
    revert E M. generalize (usize_modulus tt). intros m E M. injection E as <-.
    change (2 ^ 64)%Z with (Z.of_N (2 ^ 64)) in M. lia.
Qed.

Section Ensembles.
Context {T : Type}.

Lemma same_erc_randomize (e : er_c T) : same_runs (w_erc_randomize e) (erc_randomize e).
Proof.
  unfold w_erc_randomize, erc_randomize. apply same_bind; [|intros; apply same_done].
  apply same_foldM with (P := fun _ => True); auto. intros g ij _. same.
Qed.

Lemma same_erc_new p (mk : nat -> T) n c : same_runs (w_erc_new p mk n c) (erc_new p mk n c).
Proof. unfold w_erc_new, erc_new. apply same_pure. intros q. apply same_erc_randomize. Qed.

Lemma same_erc64_new p (mk : nat -> T) n c : same_runs (w_erc64_new p mk n c) (erc64_new p mk n c).
Proof.
  unfold w_erc64_new, erc64_new. apply same_pure. intros q.
  unfold w_erc64_randomize, erc64_randomize. apply same_bind; [|intros; apply same_done].
  apply same_foldM with (P := fun _ => True); auto. intros g ij _. same.
Qed.

Lemma same_erc_m_step p (e : er_c T) : (N.of_nat (vertex_count (erc_graph e)) < 2 ^ 64)%N ->
  same_runs (w_erc_m_step p e) (erc_m_step p e).
Proof.
  intros H. unfold w_erc_m_step, erc_m_step. cbv zeta. apply same_bind; [now apply same_draw_two|].
  intros [a b]. same.
Qed.

Lemma same_erm_randomize p (e : er_m T) : (N.of_nat (length (erm_all e)) < 2 ^ 64)%N ->
  same_runs (w_erm_randomize p e) (erm_randomize p e).
Proof.
  intros H. unfold w_erm_randomize, erm_randomize. cbv zeta. apply same_bind; [now apply same_shuffle|].
  intros l. same.
Qed.

Lemma same_erm_new p (mk : nat -> T) n m : (N.of_nat (length (er_pairs n)) < 2 ^ 64)%N ->
  same_runs (w_erm_new p mk n m) (erm_new p mk n m).
Proof.
  intros H. unfold w_erm_new, erm_new. apply same_pure. intros k. cbv zeta. destruct (_ <=? _); [|apply same_stop].
  now apply same_erm_randomize.
Qed.

Lemma same_erm_m_step p (e : er_m T) :
  (N.of_nat (length (erm_current e)) < 2 ^ 64)%N -> (N.of_nat (length (erm_possible e)) < 2 ^ 64)%N ->
  same_runs (w_erm_m_step p e) (erm_m_step p e).
Proof. intros H1 H2. unfold w_erm_m_step, erm_m_step. cbv zeta. same. Qed.

Lemma same_draw_remaining i h : (N.of_nat h < 2 ^ 64)%N -> same_runs (w_draw_remaining i h) (draw_remaining i h).
Proof. intros H. unfold w_draw_remaining, draw_remaining. same. Qed.

Lemma same_sw_randomize_edge p (e : sw_ensemble T) i j : (N.of_nat (vertex_count (sw_graph e)) < 2 ^ 64)%N ->
  same_runs (w_sw_randomize_edge p e i j) (sw_randomize_edge p e i j).
Proof.
  intros H. unfold w_sw_randomize_edge, sw_randomize_edge. apply same_bind; [apply same_gen_f64|]. intros x.
  destruct (Qle_bool _ _); [|same].
  apply same_pure_if with (P := fun h => (N.of_nat h < 2 ^ 64)%N).
  { intros h E. exact (usub_word H E). }
  intros h Hh. apply same_bind; [now apply same_draw_remaining|]. intros k. same.
Qed.

Lemma rewire_vertex_count p (g : graph (sw_container T)) i j k s g' :
  sw_rewire_edge p g i j k = Done (s, g') -> vertex_count g' = vertex_count g.
Proof.
  unfold sw_rewire_edge. destruct (j =? k); [intros E; now injection E as <- <-|].
  destruct (get_3_mut _ _ _ _ _) as [[[c0 c1] c2]| | |]; try discriminate. cbn [bind].
  destruct (sc_rewire _ _ _ _) as [[s0 [[a b] c]]| | |]; try discriminate. cbn [bind].
  intros E. now injection E as <- <-.
Qed.
Lemma reset_vertex_count p (g : graph (sw_container T)) i j s g' :
  sw_reset_edge p g i j = Done (s, g') -> vertex_count g' = vertex_count g.
Proof.
  unfold sw_reset_edge. destruct (get_2_mut _ _ _ _) as [[c0 c1]| | |]; try discriminate. cbn [bind].
  destruct (sc_reset _ _ _) as [[[[v c0'] c1']|s0]| | |]; try discriminate; cbn [bind].
  2: { intros E. now injection E as <- <-. }
  cbv zeta. destruct (vget _ _) as [c2| | |]; try discriminate. cbn [bind].
  destruct (sc_push_single _ _ _) as [c2'| | |]; try discriminate. cbn [bind]. intros E. now injection E as <- <-.
Qed.
Lemma randomize_edge_vertex_count p (e : sw_ensemble T) i j rs s e' rs' :
  sw_randomize_edge p e i j rs = Done (s, e', rs') -> vertex_count (sw_graph e') = vertex_count (sw_graph e).
Proof.
  unfold sw_randomize_edge. destruct (gen_f64 rs) as [[x rs1]| | |]; try discriminate. cbn [bind].
  destruct (Qle_bool _ _).
  - destruct (usub _ _ _) as [h| | |]; try discriminate. cbn [bind].
    destruct (draw_remaining _ _ _) as [[k rs2]| | |]; try discriminate. cbn [bind].
    destruct (sw_rewire_edge _ _ _ _ _) as [[s0 g]| | |] eqn:E; try discriminate. cbn [bind].
    intros F. injection F as <- <- <-. exact (rewire_vertex_count E).
  - destruct (sw_reset_edge _ _ _ _) as [[s0 g]| | |] eqn:E; try discriminate. cbn [bind].
    intros F. injection F as <- <- <-. exact (reset_vertex_count E).
Qed.

Lemma same_sw_randomize p (e : sw_ensemble T) : (N.of_nat (vertex_count (sw_graph e)) < 2 ^ 64)%N ->
  same_runs (w_sw_randomize p e) (sw_randomize p e).
Proof.
  intros H. unfold w_sw_randomize, sw_randomize. revert H. generalize (seq 0 (vertex_count (sw_graph e))). intros l.
  apply same_foldM with (P := fun e => (N.of_nat (vertex_count (sw_graph e)) < 2 ^ 64)%N).
  - clear e. intros e i H. unfold w_sw_randomize_vertex, sw_randomize_vertex. do 4 (apply same_pure; intros ?; cbv zeta).
    apply same_bind_if with (P := fun y => (N.of_nat (vertex_count (sw_graph (snd y))) < 2 ^ 64)%N).
    + now apply same_sw_randomize_edge.
    + intros rs [s1 e1] rest E. cbn [snd]. now rewrite (randomize_edge_vertex_count E).
    + intros [s1 e1] H1. cbn [snd] in H1. apply same_pure. intros _.
      apply same_bind; [now apply same_sw_randomize_edge|]. intros [s2 e2]. same.
  - clear e. intros e i rs e' rest H E. unfold sw_randomize_vertex in E.
    destruct (vget _ _) as [c| | |]; try discriminate E. cbn [bind] in E. cbv zeta in E.
    destruct (expect (nth_error _ 0)) as [f| | |]; try discriminate E. cbn [bind] in E.
    destruct (expect (nth_error _ 1)) as [f'| | |]; try discriminate E. cbn [bind] in E.
    destruct (debug_assert _ _) as [[]| | |]; try discriminate E. cbn [bind] in E.
    destruct (sw_randomize_edge _ e _ _ _) as [[[s1 e1] rs1]| | |] eqn:E1; try discriminate E. cbn [bind] in E.
    destruct (debug_error_check _ _) as [[]| | |]; try discriminate E. cbn [bind] in E.
    destruct (sw_randomize_edge _ e1 _ _ _) as [[[s2 e2] rs2]| | |] eqn:E2; try discriminate E. cbn [bind] in E.
    destruct (debug_error_check _ _) as [[]| | |]; try discriminate E. cbn [bind] in E. injection E as <- <-.
    now rewrite (randomize_edge_vertex_count E2), (randomize_edge_vertex_count E1).
Qed.

Lemma same_sw_draw_edge (e : sw_ensemble T) : (N.of_nat (edge_count (sw_graph e)) < 2 ^ 64)%N ->
  same_runs (w_sw_draw_edge e) (sw_draw_edge e).
Proof. intros H. unfold w_sw_draw_edge, sw_draw_edge. cbv zeta. same. Qed.

Lemma same_sw_m_step p (e : sw_ensemble T) :
  (N.of_nat (edge_count (sw_graph e)) < 2 ^ 64)%N -> (N.of_nat (vertex_count (sw_graph e)) < 2 ^ 64)%N ->
  same_runs (w_sw_m_step p e) (sw_m_step p e).
Proof.
  intros H1 H2. unfold w_sw_m_step, sw_m_step. apply same_bind; [now apply same_sw_draw_edge|].
  intros [a b]. now apply same_sw_randomize_edge.
Qed.

Lemma ring_vertex_count p (mk : nat -> T) n g :
  sw_init_ring_2 p (graph_new mk n) = Done g -> vertex_count g = n.
Proof.
  destruct (le_lt_dec n 4) as [L|L].
  - destruct n as [|[|[|[|[|n]]]]]; [..|lia]; destruct p; vm_compute; intros E; try discriminate E; now injection E as <-.
  - intros E. destruct (@sw_ring T p (graph_new mk n) 2) as (g' & E' & I & _).
    + apply (@graph_new_spec T (sw_container T) _ _ mk n).
    + cbn. lia.
    + unfold sw_init_ring_2 in E. rewrite E' in E. cbn [bind unwrap] in E. injection E as <-. apply I.
Qed.

Lemma same_sw_new p (mk : nat -> T) n q : (N.of_nat n < 2 ^ 64)%N -> same_runs (w_sw_new p mk n q) (sw_new p mk n q).
Proof.
  intros H. unfold w_sw_new, sw_new.
  apply same_pure_if with (P := fun g => vertex_count g = n); [apply ring_vertex_count|].
  intros g E. apply same_sw_randomize. cbn [sw_graph]. now rewrite E.
Qed.

End Ensembles.
