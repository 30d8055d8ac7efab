(** The kinds of the draws. *)
From Verif Require Import Base BaseFacts Containers Graph GraphFacts Rng Float ErC ErM Sw Ws Ba Config Spacial Prob Words WordsMore WordsSpec WordsFacts DrawsSpec DrawsFacts DrawsCount OrderSpec OrderFacts OrderRuns KindSpec.
From Coq Require Import NArith ZArith QArith SpecFloat.
Set Implicit Arguments.
Unset Strict Implicit.
Local Open Scope nat_scope.

(** Only the draws before the call returns matter. *)
Lemma follows_ext {X} ask ask' (w : list N -> outcome (X * list N)) f :
  settled f -> (forall q, ~ returns f q -> ask' q = ask q) -> follows ask w f -> follows ask' w f.
Proof.
  intros S H F ws. specialize (F ws).
  assert (E : forall rs rest, reads ask [] ws rs rest -> (forall q c t, rs = q ++ c :: t -> ~ returns f q) ->
    reads ask' [] ws rs rest).
  { intros rs rest R Q. apply (reads_ext R). intros q c t Eq. cbn [app]. apply H. exact (Q _ _ _ Eq). }
  destruct (w ws) as [[x rest]| | |].
  - destruct F as (rs & R & D). exists rs. split; auto. apply E; auto. intros q c t -> (y & r & Hy).
    apply (settled_more (c :: t) S) in Hy. specialize (D []). rewrite app_nil_r, Hy in D. injection D as _ D.
    destruct r; discriminate D.
  - destruct F as (rs & rest & R & D). exists rs, rest. split; auto. apply E; auto. intros q c t -> (y & r & Hy).
    apply (settled_more ((c :: t) ++ [0]) S) in Hy. rewrite app_assoc, D in Hy. discriminate Hy.
  - destruct F as (rs & rest & R & D). exists rs, rest. split; auto. apply E; auto. intros q c t -> (y & r & Hy).
    apply (settled_more ((c :: t) ++ [0]) S) in Hy. rewrite app_assoc, D in Hy. discriminate Hy.
  - destruct F as (rs & rest & R & D). exists rs, rest.
    assert (NR : ~ returns f rs). { destruct D as [[_ D]|D]; auto. specialize (D []). now rewrite app_nil_r in D. }
    split.
    + apply E; auto. intros q c t -> (y & r & Hy). apply NR. exists y, (r ++ c :: t). now apply settled_more.
    + destruct D as [[D1 D2]|D]; [left|now right]. split; auto. now rewrite H.
Qed.

Lemma follows_at_once {X} ask ask' (w : list N -> outcome (X * list N)) f :
  (forall q, ask' q = ask q) -> follows ask w f -> follows ask' w f.
Proof.
  intros H F ws. specialize (F ws).
  assert (E : forall rs rest, reads ask [] ws rs rest -> reads ask' [] ws rs rest).
  { intros rs rest R. apply (reads_ext R). intros q c t _. apply H. }
  destruct (w ws) as [[x rest]| | |].
  - destruct F as (rs & R & D). exists rs. auto.
  - destruct F as (rs & rest & R & D). exists rs, rest. auto.
  - destruct F as (rs & rest & R & D). exists rs, rest. auto.
  - destruct F as (rs & rest & R & D). exists rs, rest. split; auto. now rewrite H.
Qed.

Lemma asks_bind {X Y} ask n w f (kw : X -> list N -> outcome (Y * list N)) kf :
  settled f -> uses n f -> asks ask w f -> (forall x, asks (fun i => ask (n + i)) (kw x) (kf x)) ->
  asks ask (fun ws => do ' (x, t) <- w ws; kw x t) (fun rs => do ' (x, t) <- f rs; kf x t).
Proof.
  intros S U F K.
  pose proof (follows_bind S F (fun x _ _ _ => K x)) as G. cbv beta in G.
  refine (follows_at_once _ G). intros q. cbv beta. destruct (f q) as [[x r]| | |] eqn:E; auto.
  now rewrite (U _ _ _ E).
Qed.

Lemma follows_bind_to {X Y} ask a2 w f (kw : X -> list N -> outcome (Y * list N)) kf :
  settled f -> follows ask w f -> (forall x q r, f q = Done (x, r) -> ask q = a2 x r) ->
  (forall x q r, f q = Done (x, r) -> follows (a2 x) (kw x) (kf x)) ->
  follows ask (fun ws => do ' (x, t) <- w ws; kw x t) (fun rs => do ' (x, t) <- f rs; kf x t).
Proof.
  intros S F A K. refine (follows_at_once _ (follows_bind S F K)).
  intros q. destruct (f q) as [[x r]| | |] eqn:E; eauto.
Qed.
Lemma follows_pure {X Y} ask (m : outcome X) (kw : X -> list N -> outcome (Y * list N)) kf :
  (forall x, m = Done x -> follows ask (kw x) (kf x)) ->
  follows ask (fun ws => do x <- m; kw x ws) (fun rs => do x <- m; kf x rs).
Proof.
  intros K. destruct m; cbn [bind]; auto; intros ws; exists [], ws; (split; [constructor|]); auto.
  right. intros o (x & r & H). discriminate H.
Qed.
Lemma follows_done {X} ask (x : X) : follows ask (fun ws => Done (x, ws)) (fun rs => Done (x, rs)).
Proof. intros ws. exists []. split; [constructor|]. reflexivity. Qed.

Lemma asks_pure {X Y} ask (m : outcome X) (kw : X -> list N -> outcome (Y * list N)) kf :
  (forall x, asks ask (kw x) (kf x)) ->
  asks ask (fun ws => do x <- m; kw x ws) (fun rs => do x <- m; kf x rs).
Proof.
  intros K. destruct m; cbn [bind]; auto; intros ws; exists [], ws; (split; [constructor|]); auto.
  right. intros o (x & r & H). discriminate H.
Qed.
Lemma asks_done {X} ask (x : X) : asks ask (fun ws => Done (x, ws)) (fun rs => Done (x, rs)).
Proof. intros ws. exists []. split; [constructor|]. reflexivity. Qed.
Lemma follows_same {X} ask (w w' : list N -> outcome (X * list N)) f f' :
  (forall ws, w ws = w' ws) -> (forall rs, f rs = f' rs) -> follows ask w f -> follows ask w' f'.
Proof.
  intros W F G ws. specialize (G ws). rewrite <- W. destruct (w ws) as [[x rest]| | |].
  - destruct G as (rs & R & D). exists rs. split; auto. intros o. now rewrite <- F.
  - destruct G as (rs & rest & R & D). exists rs, rest. split; auto. intros r o. now rewrite <- F.
  - destruct G as (rs & rest & R & D). exists rs, rest. split; auto. intros r o. now rewrite <- F.
  - destruct G as (rs & rest & R & D). exists rs, rest. split; auto. unfold returns in *. destruct D as [[D1 D2]|D]; [left|right].
    + split; auto. now rewrite <- F.
    + intros o. rewrite <- F. apply D.
Qed.
Lemma asks_ext {X} ask (w w' : list N -> outcome (X * list N)) f f' :
  (forall ws, w ws = w' ws) -> (forall rs, f rs = f' rs) -> asks ask w f -> asks ask w' f'.
Proof. apply follows_same. Qed.

(** ** Draws *)

Lemma returns_gen_range h q : 0 < h -> ~ returns (gen_range h) q -> q = [].
Proof.
  intros H N. destruct q as [|r q]; auto. destruct N. unfold gen_range.
  replace (h =? 0) with false by (symmetry; apply Nat.eqb_neq; lia). cbn [draw bind]. now eexists _, _.
Qed.

Lemma asks_sampler b h z next ask : 0 < h -> fair (Below b (N.of_nat h) z) ->
  (forall w t, next (w :: t) = Done ((w mod 2 ^ b)%N, t)) -> next [] = NoFuel -> ask 0 = Below b (N.of_nat h) z ->
  asks ask (fun ws => do ' (k, t) <- sample_below (S (length ws)) b (N.of_nat h) z next ws; Done (N.to_nat k, t)) (gen_range h).
Proof.
  intros Hh Fz N1 N2 A. pose proof (ord_follows (ordered_sampler Hh Fz N1 N2)) as F. cbn [ord_ask ordered_sampler] in F.
  refine (follows_ext (settled_gen_range h) _ F). intros q Q. now rewrite (returns_gen_range Hh Q).
Qed.

Lemma asks_single32 h ask : 0 < h -> ask 0 = range_kind 32 h -> asks ask (sample_single 32 h next_u32) (gen_range h).
Proof.
  intros H A. apply (asks_sampler (ask := ask) (next := next_u32) H (fair_zone (or_introl eq_refl) (nat_pos H))); auto.
  exact next_u32_mod.
Qed.
Lemma asks_gen_range h ask : 0 < h -> ask 0 = range_kind 64 h -> asks ask (w_gen_range h) (gen_range h).
Proof.
  intros H A. apply (asks_ext (w := sample_single 64 h next_u64) (f := gen_range h)); auto.
  { intros ws. unfold w_gen_range. replace (h =? 0) with false by (symmetry; apply Nat.eqb_neq; lia). reflexivity. }
  apply (asks_sampler (ask := ask) (next := next_u64) H (fair_zone (or_intror eq_refl) (nat_pos H))); auto.
Qed.
Lemma asks_gen_index h ask : 0 < h -> ask 0 = index_kind h -> asks ask (w_gen_index h) (gen_range h).
Proof.
  intros H A. unfold index_kind in A. destruct (N.of_nat h <? 2 ^ 32)%N eqn:L.
  - apply (asks_ext (w := sample_single 32 h next_u32) (f := gen_range h)); auto; [|now apply asks_single32].
    intros ws. unfold w_gen_index. replace (h =? 0) with false by (symmetry; apply Nat.eqb_neq; lia).
    apply N.ltb_lt in L. replace (N.of_nat h <=? 2 ^ 32 - 1)%N with true by (symmetry; apply N.leb_le; lia). reflexivity.
  - apply (asks_ext (w := w_gen_range h) (f := gen_range h)); auto; [|now apply asks_gen_range].
    intros ws. unfold w_gen_index. apply N.ltb_ge in L.
    replace (N.of_nat h <=? 2 ^ 32 - 1)%N with false by (symmetry; apply N.leb_gt; lia). reflexivity.
Qed.
Lemma asks_uniform h ask : (0 < N.of_nat h < 2 ^ 64)%N -> ask 0 = uniform_kind 64 h -> asks ask (w_uniform h) (gen_range h).
Proof.
  intros H A. assert (0 < h) as Hh by lia.
  apply (asks_ext (w := sample_uniform 64 h next_u64) (f := gen_range h)); auto.
  { intros ws. unfold w_uniform. replace (h =? 0) with false by (symmetry; apply Nat.eqb_neq; lia). reflexivity. }
  apply (asks_sampler (ask := ask) (next := next_u64) Hh (fair_uniform_zone (or_intror eq_refl) (nat_pos Hh))); auto.
  rewrite A. unfold uniform_kind. now rewrite uniform_zone_eq.
Qed.
Lemma asks_uniform_u32 h ask : (0 < N.of_nat h < 2 ^ 32)%N -> ask 0 = uniform_kind 32 h -> asks ask (w_uniform_u32 h) (gen_range h).
Proof.
  intros H A. assert (0 < h) as Hh by lia.
  apply (asks_ext (w := sample_uniform 32 h next_u32) (f := gen_range h)); auto.
  { intros ws. unfold w_uniform_u32. replace (h =? 0) with false by (symmetry; apply Nat.eqb_neq; lia). reflexivity. }
  apply (asks_sampler (ask := ask) (next := next_u32) Hh (fair_uniform_zone (or_introl eq_refl) (nat_pos Hh))); auto; [exact next_u32_mod|].
  rewrite A. unfold uniform_kind. now rewrite uniform_zone_eq.
Qed.

Lemma asks_bits {X} (h : Z -> X) ask : ask 0 = Upper 53 ->
  asks ask (fun ws => do ' (w, t) <- next_u64 ws; Done (h (Z.of_N (w / 2 ^ 11)), t))
    (fun rs => do ' (r, t) <- draw rs; Done (h (Z.modulo (Z.of_nat r) 9007199254740992), t)).
Proof.
  intros A. pose proof (ord_follows (ordered_bits h)) as F. cbn [ord_ask ordered_bits] in F.
  refine (follows_ext _ _ F).
  - exact (ord_settled (ordered_bits h)).
  - intros q Q. destruct q as [|r q]; [exact A|]. destruct Q. cbn [draw bind]. now eexists _, _.
Qed.
Lemma asks_gen_f64 ask : ask 0 = Upper 53 -> asks ask w_gen_f64 gen_f64.
Proof. exact (asks_bits (fun z => Qmake z 9007199254740992) (ask := ask)). Qed.
Lemma asks_gen_unit ask : ask 0 = Upper 53 -> asks ask w_gen_unit gen_unit.
Proof. exact (asks_bits (fun z => binary_normalize 53 1024 z (-53) false) (ask := ask)). Qed.

(** ** Programs *)

Ltac dry :=
  repeat (cbv beta iota zeta;
  first
  [ apply asks_done
  | lazymatch goal with
    | |- asks _ (fun ws => bind ?m _) _ => apply asks_pure; let x := fresh "x" in intros x; parts x
    | |- asks _ (fun ws => if ?b then _ else _) _ => destruct b
    | |- asks _ (fun ws => match ?b with _ => _ end) _ => destruct b
    end ]).

Lemma asks_same_bind {X Y} K w f (kw : X -> list N -> outcome (Y * list N)) kf :
  settled f -> asks (fun _ => K) w f -> (forall x, asks (fun _ => K) (kw x) (kf x)) ->
  asks (fun _ => K) (fun ws => do ' (x, t) <- w ws; kw x t) (fun rs => do ' (x, t) <- f rs; kf x t).
Proof.
  intros S F G. pose proof (follows_bind S F (fun x _ _ _ => G x)) as H. cbv beta in H.
  refine (follows_at_once _ H). intros q. cbv beta. destruct (f q) as [[x r]| | |]; auto.
Qed.
Lemma asks_same_foldM {X A} K (w : X * list N -> A -> outcome (X * list N)) (f : X * list nat -> A -> outcome (X * list nat)) l :
  (forall x a, settled (fun rs => f (x, rs) a)) ->
  (forall x a, asks (fun _ => K) (fun ws => w (x, ws) a) (fun rs => f (x, rs) a)) ->
  forall x, asks (fun _ => K) (fun ws => foldM w (x, ws) l) (fun rs => foldM f (x, rs) l).
Proof.
  intros S G. induction l as [|a l IH]; intros x; cbn [foldM]; [apply asks_done|].
  eapply asks_ext; [| |apply (asks_same_bind (S x a) (G x a) IH)].
  - intros ws. cbv beta. destruct (w (x, ws) a) as [[]| | |]; reflexivity.
  - intros rs. cbv beta. destruct (f (x, rs) a) as [[]| | |]; reflexivity.
Qed.

Lemma asks_same_loop {St X} K (bw : St -> list N -> outcome ((St + X) * list N)) bf : fair K ->
  (forall s, settled (bf s)) -> (forall s, asks (fun _ => K) (bw s) (bf s)) ->
  (forall s rs s' rs', bf s rs = Done (inl s', rs') -> length rs' < length rs \/ forall r, bf s' r = Panic) ->
  forall s, asks (fun _ => K) (fun ws => w_loop (S (length ws)) bw s ws) (fun rs => loop (S (length rs)) bf s rs).
Proof.
  intros FK S F goes s.
  set (O := fun s => Build_ordered (fun _ => FK) (F s) (S s)).
  pose proof (ord_follows (@ordered_loop St X bw bf O goes s)) as H.
  refine (follows_at_once _ H). intros q. cbn [ord_ask ordered_loop]. unfold OrderFacts.asks.
  enough (G : forall n s q, length q + 2 <= n -> loop_ask O n s q = K) by (symmetry; apply G; lia).
  clear s q H. induction n as [|n IH]; intros s q L; [lia|]. cbn [loop_ask].
  destruct (bf s q) as [[[s'|x] r]| | |] eqn:E; auto. destruct (goes _ _ _ _ E) as [G|G].
  - apply IH. lia.
  - destruct n as [|n]; [lia|]. cbn [loop_ask]. now rewrite G.
Qed.

Lemma asks_shuffle_down {X} k : forall (l : list X) ask, (forall i, i < k - 1 -> ask i = index_kind (k - i)) ->
  asks ask (w_shuffle_down k l) (shuffle_down k l).
Proof.
  induction k as [|i IH]; intros l ask A; [apply asks_done|].
  destruct i as [|i]; [apply asks_done|].
  cbn [w_shuffle_down shuffle_down].
  apply (asks_bind (n := 1)).
  - apply settled_gen_range.
  - apply uses_gen_range.
  - apply asks_gen_index; [lia|]. apply A. lia.
  - intros j. apply asks_pure. intros l'. apply IH. intros q Hq. cbn beta. rewrite A by lia. f_equal.
Qed.
Lemma asks_shuffle {X} (l : list X) ask : (forall i, i < length l - 1 -> ask i = index_kind (length l - i)) ->
  asks ask (w_shuffle l) (shuffle l).
Proof. apply asks_shuffle_down. Qed.

Lemma asks_choose {X} (l : list X) ask : l <> [] -> ask 0 = index_kind (length l) -> asks ask (w_choose_unwrap l) (choose_unwrap l).
Proof.
  intros H A. unfold w_choose_unwrap, choose_unwrap. apply (asks_bind (n := 1)).
  - apply settled_gen_range.
  - apply uses_gen_range.
  - apply asks_gen_index; auto. destruct l; [easy|]. cbn [length]. lia.
  - intros x. dry.
Qed.

Lemma asks_choose_two l ask : (forall i, i < min 2 (length l) -> ask i = range_kind 32 (length l - (min 2 (length l) - 1) + i)) ->
  asks ask (w_choose_two l) (choose_two l).
Proof.
  intros A. unfold w_choose_two, choose_two. destruct (length l) as [|[|k]].
  - apply asks_done.
  - apply (asks_bind (n := 1)); [apply settled_gen_range|apply uses_gen_range| |].
    + apply asks_single32; [lia|]. now rewrite A by (cbn; lia).
    + intros t. dry.
  - apply (asks_bind (n := 1)); [apply settled_gen_range|apply uses_gen_range| |].
    + apply asks_single32; [lia|]. rewrite A by (cbn; lia). f_equal. cbn. lia.
    + intros t. apply (asks_bind (n := 1)); [apply settled_gen_range|apply uses_gen_range| |].
      * apply asks_single32; [lia|]. cbn beta. rewrite A by (cbn; lia). f_equal. cbn. lia.
      * intros t2. dry.
Qed.

Lemma asks_two p h ask : 2 <= h -> (forall i, i < 2 -> ask i = range_kind 64 (h - i)) ->
  asks ask (w_draw_two_from_range p h) (draw_two_from_range p h).
Proof.
  intros H A. unfold w_draw_two_from_range, draw_two_from_range.
  apply (asks_bind (n := 1)); [apply settled_gen_range|apply uses_gen_range| |].
  - apply asks_gen_range; [lia|]. rewrite A by lia. f_equal. lia.
  - intros x. assert (E : usub p h 1 = Done (h - 1)) by (unfold usub; destruct (Nat.leb_spec 1 h); [reflexivity|lia]). rewrite E. cbn [bind].
    apply (asks_bind (n := 1)); [apply settled_gen_range|apply uses_gen_range| |].
    + apply asks_gen_range; [lia|]. now rewrite A by lia.
    + intros y. dry.
Qed.

Section Ensembles.
Context {T : Type}.

Lemma asks_erc_randomize (e : er_c T) : asks (fun _ => Upper 53) (w_erc_randomize e) (erc_randomize e).
Proof.
  unfold w_erc_randomize, erc_randomize. cbv zeta. apply asks_same_bind.
  - apply settled_foldM. intros g ij. settle.
  - apply asks_same_foldM; [intros g ij; settle|]. intros g ij. cbv beta iota.
    apply asks_same_bind; [apply settled_gen_f64|now apply asks_gen_f64|]. intros x. dry.
  - intros g. dry.
Qed.

Lemma asks_erc_new p (mk : nat -> T) n c : asks (fun _ => Upper 53) (w_erc_new p mk n c) (erc_new p mk n c).
Proof. unfold w_erc_new, erc_new. apply asks_pure. intros q. apply asks_erc_randomize. Qed.

Lemma asks_erc64_new p (mk : nat -> T) n c : asks (fun _ => Upper 53) (w_erc64_new p mk n c) (erc64_new p mk n c).
Proof.
  unfold w_erc64_new, erc64_new. apply asks_pure. intros q. unfold w_erc64_randomize, erc64_randomize.
  cbv zeta. apply asks_same_bind.
  - apply settled_foldM. intros g ij. settle.
  - apply asks_same_foldM; [intros g ij; settle|]. intros g ij. cbv beta iota.
    apply asks_same_bind; [apply settled_gen_unit|now apply asks_gen_unit|]. intros x. dry.
  - intros g. dry.
Qed.

Lemma asks_erc_step p (e : er_c T) : 2 <= vertex_count (erc_graph e) ->
  asks (step_kinds (vertex_count (erc_graph e))) (w_erc_m_step p e) (erc_m_step p e).
Proof.
  intros H. unfold w_erc_m_step, erc_m_step. cbv zeta.
  apply (asks_bind (n := 2)); [apply settled_two|apply uses_two| |].
  - apply asks_two; auto. intros i Hi. unfold step_kinds. apply Nat.ltb_lt in Hi. now rewrite Hi.
  - intros [a b]. apply (asks_bind (n := 1)); [apply settled_gen_f64|apply uses_gen_f64|now apply asks_gen_f64|].
    intros x. dry.
Qed.

Lemma asks_erm_randomize p (e : er_m T) :
  asks (fun i => index_kind (length (erm_all e) - i)) (w_erm_randomize p e) (erm_randomize p e).
Proof.
  unfold w_erm_randomize, erm_randomize. cbv zeta.
  apply (asks_bind (n := length (erm_all e) - 1)); [apply settled_shuffle|apply uses_shuffle|now apply asks_shuffle|].
  intros l. dry.
Qed.

Lemma asks_erm_step p (e : er_m T) : erm_current e <> [] -> erm_possible e <> [] ->
  asks (fun i => range_kind 64 (length (if i =? 0 then erm_current e else erm_possible e))) (w_erm_m_step p e) (erm_m_step p e).
Proof.
  intros H1 H2. unfold w_erm_m_step, erm_m_step.
  apply (asks_bind (n := 1)); [apply settled_gen_range|apply uses_gen_range| |].
  - apply asks_gen_range; auto. destruct (erm_current e); [easy|]. cbn [length]. lia.
  - intros x. apply (asks_bind (n := 1)); [apply settled_gen_range|apply uses_gen_range| |].
    + apply asks_gen_range; auto. destruct (erm_possible e); [easy|]. cbn [length]. lia.
    + intros y. dry.
Qed.

Lemma asks_sp_test (e : spacial T) g i j ask : ask 0 = Upper 53 -> asks ask (w_sp_test e g i j) (sp_test e g i j).
Proof.
  intros A. unfold w_sp_test, sp_test. apply asks_pure. intros a. apply asks_pure. intros b.
  apply (asks_bind (n := 1)); [apply settled_gen_f64|apply uses_gen_f64|now apply asks_gen_f64|]. intros x. dry.
Qed.

Lemma asks_sp_randomize (e : spacial T) : asks (fun _ => Upper 53) (w_sp_randomize e) (sp_randomize e).
Proof.
  unfold w_sp_randomize, sp_randomize. cbv zeta. apply asks_same_bind.
  - apply settled_foldM. intros g ij. apply settled_bind; [apply settled_sp_test|]. intros x. settle.
  - apply asks_same_foldM.
    + intros g ij. apply settled_bind; [apply settled_sp_test|]. intros x. settle.
    + intros g ij. cbv beta iota.
      apply asks_same_bind; [apply settled_sp_test|now apply asks_sp_test|]. intros x. dry.
  - intros g. dry.
Qed.

Lemma asks_sp_new (mk : nat -> T) n accept : asks (fun _ => Upper 53) (w_sp_new mk n accept) (sp_new mk n accept).
Proof.
  unfold w_sp_new, sp_new. apply asks_same_bind; [apply settled_sp_place| |intros g; apply asks_sp_randomize].
  unfold w_sp_place, sp_place. apply asks_same_bind.
  - apply settled_foldM. intros g c. settle.
  - apply asks_same_foldM; [intros g c; settle|]. intros g c. cbv beta iota.
    apply asks_same_bind; [apply settled_gen_f64|now apply asks_gen_f64|]. intros x.
    apply asks_same_bind; [apply settled_gen_f64|now apply asks_gen_f64|]. intros y. dry.
  - intros g. dry.
Qed.

Lemma asks_sp_step p (e : spacial T) : 2 <= vertex_count (sp_graph e) ->
  asks (step_kinds (vertex_count (sp_graph e))) (w_sp_m_step p e) (sp_m_step p e).
Proof.
  intros H. unfold w_sp_m_step, sp_m_step.
  apply (asks_bind (n := 2)); [apply settled_two|apply uses_two| |].
  - apply asks_two; auto. intros i Hi. unfold step_kinds. apply Nat.ltb_lt in Hi. now rewrite Hi.
  - intros [a b]. apply (asks_bind (n := 1)); [apply settled_sp_test|apply uses_sp_test|now apply asks_sp_test|].
    intros x. dry.
Qed.

Lemma asks_sw_step p (e : sw_ensemble T) : 2 <= vertex_count (sw_graph e) -> 0 < edge_count (sw_graph e) ->
  asks (sw_kinds (vertex_count (sw_graph e)) (edge_count (sw_graph e))) (w_sw_m_step p e) (sw_m_step p e).
Proof.
  intros H1 H2. unfold w_sw_m_step, sw_m_step.
  apply (asks_bind (n := 1)).
  - unfold sw_draw_edge. settle.
  - unfold sw_draw_edge. eapply uses_eq; [count|reflexivity].
  - unfold w_sw_draw_edge, sw_draw_edge. apply (asks_bind (n := 1)); [apply settled_gen_range|apply uses_gen_range|now apply asks_gen_range|].
    intros x. dry.
  - intros [i j]. unfold w_sw_randomize_edge, sw_randomize_edge.
    apply (asks_bind (n := 1)); [apply settled_gen_f64|apply uses_gen_f64|now apply asks_gen_f64|]. intros x.
    destruct (Qle_bool _ _); [|dry].
    assert (E : usub p (vertex_count (sw_graph e)) 1 = Done (vertex_count (sw_graph e) - 1)).
    { unfold usub. destruct (Nat.leb_spec 1 (vertex_count (sw_graph e))); [reflexivity|lia]. }
    rewrite E. cbn [bind]. apply (asks_bind (n := 1)).
    + apply settled_remaining.
    + unfold draw_remaining. eapply uses_eq; [count|reflexivity].
    + unfold w_draw_remaining, draw_remaining.
      apply (asks_bind (n := 1)); [apply settled_gen_range|apply uses_gen_range|apply asks_gen_range; [lia|reflexivity]|].
      intros y. dry.
    + intros y. dry.
Qed.

Lemma asks_ws_round (g : graph (ws_container T)) o u : (0 < N.of_nat (vertex_count g) < 2 ^ 32)%N ->
  asks (fun _ => uniform_kind 32 (vertex_count g)) (w_ws_round g o u) (ws_round g o u).
Proof.
  intros H. unfold w_ws_round, ws_round.
  apply asks_same_bind; [apply settled_gen_range|now apply asks_uniform_u32|]. intros a.
  apply asks_same_bind; [apply settled_gen_range|now apply asks_uniform_u32|]. intros b. dry.
Qed.

(** The small world: the kinds depend on the draws. *)
Lemma sw_edge_kept p (e : sw_ensemble T) i j rs s e' rest : sw_randomize_edge p e i j rs = Done (s, e', rest) ->
  sw_r_prob e' = sw_r_prob e /\ vertex_count (sw_graph e') = vertex_count (sw_graph e) /\
  forall n, sw_next (sw_r_prob e) n rs = sw_next (sw_r_prob e) n rest.
Proof.
  intros H. split; [apply (uses_sw_edge H)|]. split.
  - unfold sw_randomize_edge in H. destruct (gen_f64 rs) as [[x r1]| | |]; try discriminate H. cbn [bind] in H.
    destruct (Qle_bool x (sw_r_prob e)).
    + destruct (usub p _ 1) as [h| | |]; try discriminate H. cbn [bind] in H.
      destruct (draw_remaining i h r1) as [[k r2]| | |]; try discriminate H. cbn [bind] in H.
      destruct (sw_rewire_edge p (sw_graph e) i j k) as [[s0 g]| | |] eqn:E; try discriminate H. cbn [bind] in H.
      injection H as _ <- _. cbn. unfold sw_rewire_edge in E. destruct (j =? k); [now injection E as _ <-|].
      destruct (get_3_mut _ _ _ _ _) as [[[c0 c1] c2]| | |]; try discriminate E. cbn [bind] in E.
      destruct (sc_rewire _ _ _ _) as [[s1 [[d0 d1] d2]]| | |]; try discriminate E. cbn [bind] in E.
      injection E as _ <-. reflexivity.
    + destruct (sw_reset_edge p (sw_graph e) i j) as [[s0 g]| | |] eqn:E; try discriminate H. cbn [bind] in H.
      injection H as _ <- _. cbn. unfold sw_reset_edge in E.
      destruct (get_2_mut _ _ _ _) as [[c0 c1]| | |]; try discriminate E. cbn [bind] in E.
      destruct (sc_reset _ _ _) as [[[[v d0] d1]|s1]| | |]; try discriminate E; cbn [bind] in E; [|now injection E as _ <-].
      destruct (vget _ _) as [c2| | |]; try discriminate E. cbn [bind] in E.
      destruct (sc_push_single _ _ _) as [c3| | |]; try discriminate E. cbn [bind] in E.
      injection E as _ <-. reflexivity.
  - intros n. destruct (uses_sw_edge H) as [_ (ds & -> & D)].
    destruct ds as [|r [|r2 [|r3 ds]]]; cbn [edge_draws] in D; try easy; cbn [app sw_next].
    + destruct (Qle_bool (unit_float r) (sw_r_prob e)) eqn:E; auto. apply Qle_bool_iff in E.
      now apply Qlt_not_le in D.
    + apply Qle_bool_iff in D. now rewrite D.
Qed.

Lemma follows_sw_edge p (e : sw_ensemble T) i j : 2 <= vertex_count (sw_graph e) ->
  follows (sw_next (sw_r_prob e) (vertex_count (sw_graph e))) (w_sw_randomize_edge p e i j) (sw_randomize_edge p e i j).
Proof.
  intros Hn. unfold w_sw_randomize_edge, sw_randomize_edge.
  apply (follows_bind_to (a2 := fun x r => if Qle_bool x (sw_r_prob e)
    then match r with [] => range_kind 64 (vertex_count (sw_graph e) - 1)
         | _ :: t => sw_next (sw_r_prob e) (vertex_count (sw_graph e)) t end
    else sw_next (sw_r_prob e) (vertex_count (sw_graph e)) r)).
  - apply settled_gen_f64.
  - apply (follows_ext (ask := fun _ => Upper 53) settled_gen_f64); [|exact (asks_gen_f64 (ask := fun _ => Upper 53) eq_refl)].
    intros q Q. destruct q as [|r q]; [reflexivity|]. destruct Q. unfold gen_f64. cbn [draw bind]. now eexists _, _.
  - intros x q r E. destruct q as [|r0 q]; [discriminate E|]. unfold gen_f64 in E. cbn [draw bind] in E. injection E as <- <-. reflexivity.
  - intros x q r _. destruct (Qle_bool x (sw_r_prob e)).
    + apply follows_pure. intros h E.
      assert (h = vertex_count (sw_graph e) - 1) as ->.
      { unfold usub in E. destruct (Nat.leb_spec 1 (vertex_count (sw_graph e))); [now injection E as <-|lia]. }
      apply (follows_bind_to (a2 := fun _ r => sw_next (sw_r_prob e) (vertex_count (sw_graph e)) r)).
      * apply settled_remaining.
      * assert (Hh : 0 < vertex_count (sw_graph e) - 1) by lia.
        apply (follows_ext (ask := fun _ => range_kind 64 (vertex_count (sw_graph e) - 1)) (settled_remaining i _)).
        { intros t Q. destruct t as [|r0 t]; [reflexivity|]. destruct Q. unfold draw_remaining, gen_range.
          replace (vertex_count (sw_graph e) - 1 =? 0) with false by (symmetry; apply Nat.eqb_neq; lia).
          cbn [draw bind]. now eexists _, _. }
        unfold w_draw_remaining, draw_remaining.
        apply (asks_same_bind (settled_gen_range _)); [now apply asks_gen_range|]. intros y. dry.
      * intros y t r0 E1. unfold draw_remaining in E1.
        destruct (gen_range _ t) as [[z r1]| | |] eqn:E2; try discriminate E1. cbn [bind] in E1. injection E1 as _ <-.
        unfold gen_range in E2. destruct (_ =? 0); [discriminate E2|]. destruct t as [|r2 t]; [discriminate E2|].
        cbn [draw bind] in E2. now injection E2 as _ <-.
      * intros y t r0 _. apply follows_pure. intros [s g] _. apply follows_done.
    + apply follows_pure. intros [s g] _. apply follows_done.
Qed.

Lemma follows_sw_vertex p (e : sw_ensemble T) i : 2 <= vertex_count (sw_graph e) ->
  follows (sw_next (sw_r_prob e) (vertex_count (sw_graph e)))
    (fun ws => w_sw_randomize_vertex p (e, ws) i) (fun rs => sw_randomize_vertex p (e, rs) i).
Proof.
  intros Hn. unfold w_sw_randomize_vertex, sw_randomize_vertex. cbv beta iota.
  apply follows_pure. intros c _. cbv zeta. apply follows_pure. intros v1 _. apply follows_pure. intros v2 _.
  apply follows_pure. intros u _.
  apply (follows_bind_to (a2 := fun x => sw_next (sw_r_prob (snd x)) (vertex_count (sw_graph (snd x))))).
  - apply settled_sw_edge.
  - now apply follows_sw_edge.
  - intros [s1 e1] q r E. destruct (sw_edge_kept E) as (Ep & Ev & En). cbn [snd]. rewrite Ep, Ev. apply En.
  - intros [s1 e1] q r E. destruct (sw_edge_kept E) as (Ep & Ev & _). cbn [snd].
    apply follows_pure. intros u1 _.
    apply (follows_bind_to (a2 := fun x => sw_next (sw_r_prob (snd x)) (vertex_count (sw_graph (snd x))))).
    + apply settled_sw_edge.
    + apply follows_sw_edge. lia.
    + intros [s2 e2] q2 r2 E2. destruct (sw_edge_kept E2) as (Ep2 & Ev2 & En2). cbn [snd]. rewrite Ep2, Ev2. apply En2.
    + intros [s2 e2] q2 r2 _. apply follows_pure. intros u2 _. apply follows_done.
Qed.

Lemma sw_vertex_kept p (e : sw_ensemble T) i rs e' rest : sw_randomize_vertex p (e, rs) i = Done (e', rest) ->
  sw_r_prob e' = sw_r_prob e /\ vertex_count (sw_graph e') = vertex_count (sw_graph e) /\
  forall n, sw_next (sw_r_prob e) n rs = sw_next (sw_r_prob e) n rest.
Proof.
  unfold sw_randomize_vertex. intros H.
  destruct (vget _ i) as [c| | |]; try discriminate H. cbn [bind] in H. cbv zeta in H.
  destruct (expect _) as [v1| | |]; try discriminate H. cbn [bind] in H.
  destruct (expect _) as [v2| | |]; try discriminate H. cbn [bind] in H.
  destruct (debug_assert _ _) as [u| | |]; try discriminate H. cbn [bind] in H.
  destruct (sw_randomize_edge p e i v1 rs) as [[[s1 e1] r1]| | |] eqn:E1; try discriminate H. cbn [bind] in H.
  destruct (debug_error_check p s1) as [u1| | |]; try discriminate H. cbn [bind] in H.
  destruct (sw_randomize_edge p e1 i v2 r1) as [[[s2 e2] r2]| | |] eqn:E2; try discriminate H. cbn [bind] in H.
  destruct (debug_error_check p s2) as [u2| | |]; try discriminate H. cbn [bind] in H. injection H as <- <-.
  destruct (sw_edge_kept E1) as (A1 & B1 & C1). destruct (sw_edge_kept E2) as (A2 & B2 & C2).
  split; [congruence|]. split; [congruence|]. intros n. rewrite C1, <- A1. apply C2.
Qed.

Lemma follows_sw_randomize p (e : sw_ensemble T) : 2 <= vertex_count (sw_graph e) ->
  follows (sw_next (sw_r_prob e) (vertex_count (sw_graph e))) (w_sw_randomize p e) (sw_randomize p e).
Proof.
  unfold w_sw_randomize, sw_randomize. generalize (seq 0 (vertex_count (sw_graph e))) as l. intros l. revert e.
  induction l as [|i l IH]; intros e Hn; cbn [foldM]; [apply follows_done|].
  assert (F : follows (sw_next (sw_r_prob e) (vertex_count (sw_graph e)))
    (fun ws => do ' (x, t) <- w_sw_randomize_vertex p (e, ws) i; foldM (w_sw_randomize_vertex p) (x, t) l)
    (fun rs => do ' (x, t) <- sw_randomize_vertex p (e, rs) i; foldM (sw_randomize_vertex p) (x, t) l)).
  { apply (follows_bind_to (a2 := fun x => sw_next (sw_r_prob x) (vertex_count (sw_graph x)))).
    - unfold sw_randomize_vertex. settle; apply settled_sw_edge.
    - now apply follows_sw_vertex.
    - intros x q r E. destruct (sw_vertex_kept E) as (A & B & C). rewrite A, B. apply C.
    - intros x q r E. destruct (sw_vertex_kept E) as (A & B & C). apply IH. lia. }
  refine (follows_same _ _ F).
  - intros ws. destruct (w_sw_randomize_vertex p (e, ws) i) as [[]| | |]; reflexivity.
  - intros rs. destruct (sw_randomize_vertex p (e, rs) i) as [[]| | |]; reflexivity.
Qed.

Lemma fair_uniform b h : (b = 32 \/ b = 64)%N -> (0 < N.of_nat h < 2 ^ b)%N -> fair (uniform_kind b h).
Proof. intros B H. unfold uniform_kind. rewrite <- uniform_zone_eq by auto. apply fair_uniform_zone; auto. lia. Qed.

Lemma asks_ws_add p (g : graph (ws_container T)) o : (0 < N.of_nat (vertex_count g) < 2 ^ 32)%N ->
  asks (fun _ => uniform_kind 32 (vertex_count g)) (fun ws => w_ws_add_random_edge p (g, ws) o)
    (fun rs => ws_add_random_edge p (g, rs) o).
Proof.
  intros H. unfold w_ws_add_random_edge, ws_add_random_edge. cbv beta iota zeta.
  assert (S : forall s, settled (ws_round g o s)) by (intros s; unfold ws_round; settle).
  assert (L : forall s rs s' rs', ws_round g o s rs = Done (inl s', rs') -> length rs' < length rs \/ forall r, ws_round g o s' r = Panic)
    by (intros s rs s' rs' E; left; exact (ws_round_goes E)).
  apply asks_same_bind.
  - apply (settled_ext (f := fun rs => loop (Datatypes.S (length rs)) (ws_round g o) tt rs)); [intros rs; apply ws_find_pair_loop|].
    apply settled_loop; auto.
  - eapply asks_ext; [reflexivity|intros rs; apply ws_find_pair_loop|].
    apply asks_same_loop; auto; [apply fair_uniform; auto|]. intros s. now apply asks_ws_round.
  - intros [a b]. dry.
Qed.

Lemma asks_ba_attach p m weights total i (g : graph (node_container T)) : (0 < N.of_nat total < 2 ^ 64)%N ->
  asks (fun _ => uniform_kind 64 total) (w_ba_attach p m weights total i g) (ba_attach p m weights total i g).
Proof.
  intros H. unfold w_ba_attach, ba_attach. apply asks_pure. intros c. destruct (_ <? _); [|dry].
  apply asks_same_bind; [apply settled_gen_range|now apply asks_uniform|]. intros a. dry.
Qed.

Lemma asks_ba_insert p m (g : graph (node_container T)) weights i : (0 < N.of_nat (list_sum weights) < 2 ^ 64)%N ->
  asks (fun _ => uniform_kind 64 (list_sum weights)) (fun ws => w_ba_insert p m ((g, weights), ws) i)
    (fun rs => ba_insert p m ((g, weights), rs) i).
Proof.
  intros H. unfold w_ba_insert, ba_insert. cbv beta iota zeta.
  assert (E : weighted_new weights = Done (list_sum weights)).
  { unfold weighted_new. destruct (Nat.eqb_spec (list_sum weights) 0); [lia|reflexivity]. }
  rewrite E. cbn [bind].
  assert (S : forall g : graph (node_container T), settled (ba_attach p m weights (list_sum weights) i g)) by (intros g1; unfold ba_attach; settle).
  assert (L : forall (s : graph (node_container T)) rs s' rs', ba_attach p m weights (list_sum weights) i s rs = Done (inl s', rs') ->
    length rs' < length rs \/ forall r, ba_attach p m weights (list_sum weights) i s' r = Panic)
    by (intros s rs s' rs' Q; left; exact (ba_attach_goes Q)).
  apply asks_same_bind.
  - apply settled_loop; auto.
  - apply asks_same_loop; auto; [apply fair_uniform; auto|]. intros s. now apply asks_ba_attach.
  - intros g1. dry.
Qed.

Lemma uses_choose_two l : 2 <= length l -> uses 2 (choose_two l).
Proof.
  intros H. unfold choose_two. destruct (length l) as [|[|k]]; [lia|lia|]. eapply uses_eq; [count|reflexivity].
Qed.
Lemma asks_cm_draw_round backup u : 2 <= length backup ->
  asks (fun i => range_kind 32 (length backup - 1 + i)) (w_cm_draw_round backup u) (cm_draw_round backup u).
Proof.
  intros H. unfold w_cm_draw_round, cm_draw_round.
  eapply asks_bind; [apply settled_choose_two| | |].
  - apply (uses_choose_two H).
  - apply asks_choose_two. intros i Hi. rewrite Nat.min_l by auto. f_equal.
  - intros x. dry.
Qed.

End Ensembles.
