(** The ensembles read the words of the generator in the order of their draws. *)
From Verif Require Import Base BaseFacts Containers Graph GraphFacts Rng ErC ErM Sw Ws Ba Config Spacial Prob Words WordsMore WordsSpec WordsFacts DrawsSpec DrawsFacts OrderSpec OrderFacts.
From Coq Require Import NArith ZArith QArith SpecFloat.
Set Implicit Arguments.
Unset Strict Implicit.
Local Open Scope nat_scope.

(** ** Draws *)

Lemma sample_below_read b n z next : (forall w t, next (w :: t) = Done ((w mod 2 ^ b)%N, t)) -> next [] = NoFuel ->
  forall fuel ws, length ws < fuel ->
  (do ' (k, t) <- sample_below fuel b n z next ws; Done (N.to_nat k, t)) =
  match read (Below b n z) ws with Some (r, t) => Done (r, t) | None => NoFuel end.
Proof.
  intros N1 N2. induction fuel as [|f IH]; intros ws L; [lia|]. destruct ws as [|w t].
  - cbn [sample_below read]. now rewrite N2.
  - cbn [sample_below read]. rewrite N1. cbn [bind]. cbn [length] in L. destruct (_ <? _)%N; [reflexivity|]. apply IH. lia.
Qed.

Lemma read_below b n z ws r t : (0 < n)%N -> read (Below b n z) ws = Some (r, t) -> (N.of_nat r < n)%N.
Proof.
  intros Hn. induction ws as [|w ws IH]; [discriminate|]. cbn [read]. destruct (_ <? _)%N; auto.
  intros E. injection E as <- _. rewrite N2Nat.id. unfold value.
  apply N.div_lt_upper_bound; [apply N.pow_nonzero; lia|].
  apply N.mul_lt_mono_pos_r; auto. apply N.mod_lt, N.pow_nonzero. lia.
Qed.

Lemma fair_zone b n : (b = 32 \/ b = 64)%N -> (0 < n)%N -> fair (Below b n (zone b n)).
Proof.
  intros H H0. split; [auto|]. split; [auto|]. split.
  - intros L. unfold zone. replace (b - N.size n)%N with 0%N; [lia|].
    assert (b < N.size n)%N; [|lia]. rewrite N.size_log2 by lia. apply N.lt_succ_r. apply N.log2_le_pow2; auto.
  - intros Hn. destruct (single_share (conj H0 Hn)) as [A B]. exists (2 ^ (b - N.size n))%N.
    split; [auto|]. split; [reflexivity|]. split; [auto|]. exact (zone_half (conj H0 Hn)).
Qed.
Lemma fair_uniform_zone b n : (b = 32 \/ b = 64)%N -> (0 < n)%N -> fair (Below b n (uniform_zone b n)).
Proof.
  intros H H0. split; [auto|]. split; [auto|]. split.
  - intros L. unfold uniform_zone. replace (2 ^ b - n)%N with 0%N by lia. rewrite N.mod_0_l by lia. lia.
  - intros Hn. destruct (uniform_share (conj H0 Hn)) as [A B]. rewrite (uniform_zone_eq (conj H0 Hn)). exists (2 ^ b / n)%N.
    split; [auto|]. split; [auto|]. split; [auto|].
    pose proof (N.mul_succ_div_gt (2 ^ b) n ltac:(lia)) as G. rewrite N.mul_succ_r in G. nia.
Qed.

Lemma nat_pos h : 0 < h -> (0 < N.of_nat h)%N.
Proof. lia. Qed.

Definition ordered_sampler b h z next : 0 < h -> fair (Below b (N.of_nat h) z) ->
  (forall w t, next (w :: t) = Done ((w mod 2 ^ b)%N, t)) -> next [] = NoFuel ->
  ordered (fun ws => do ' (k, t) <- sample_below (S (length ws)) b (N.of_nat h) z next ws; Done (N.to_nat k, t)) (gen_range h).
Proof.
  intros Hh Fz N1 N2. exists (fun _ => Below b (N.of_nat h) z); [auto| |apply settled_gen_range].
  assert (Z : (h =? 0) = false) by (apply Nat.eqb_neq; lia).
  intros ws. rewrite (sample_below_read _ _ N1 N2) by lia. destruct (read _ ws) as [[r t]|] eqn:E.
  - exists [r]. split; [econstructor; [exact E|constructor]|]. intros o. unfold gen_range. rewrite Z. cbn [app draw bind].
    apply read_below in E; [|lia]. rewrite Nat.mod_small; [reflexivity|lia].
  - exists [], ws. split; [constructor|]. left. split; auto. intros (x & r & H). unfold gen_range in H. rewrite Z in H. discriminate H.
Defined.

Lemma next_u32_mod w t : next_u32 (w :: t) = Done ((w mod 2 ^ 32)%N, t).
Proof.
  unfold next_u32. cbn [next_u64 bind]. do 2 f_equal.
  rewrite (N.div_mod w (2 ^ 64)) at 2 by discriminate.
  replace (2 ^ 64 * (w / 2 ^ 64))%N with ((2 ^ 32 * (w / 2 ^ 64)) * 2 ^ 32)%N
    by (change (2 ^ 64)%N with (2 ^ 32 * 2 ^ 32)%N at 2; ring).
  rewrite N.add_comm, N.mod_add by discriminate. reflexivity.
Qed.

Definition ordered_single64 h : 0 < h -> ordered (sample_single 64 h next_u64) (gen_range h).
Proof. intros H. apply (@ordered_sampler 64 h _ next_u64 H (fair_zone (or_intror eq_refl) (nat_pos H))); reflexivity. Defined.
Definition ordered_single32 h : 0 < h -> ordered (sample_single 32 h next_u32) (gen_range h).
Proof. intros H. apply (@ordered_sampler 32 h _ next_u32 H (fair_zone (or_introl eq_refl) (nat_pos H))); [exact next_u32_mod|reflexivity]. Defined.

Definition ordered_gen_range h : ordered (w_gen_range h) (gen_range h).
Proof.
  destruct (Nat.eq_dec h 0) as [->|Z]; [apply ordered_stop|].
  eapply ordered_ext; [|reflexivity|apply (@ordered_single64 h); lia].
  intros ws. unfold w_gen_range. apply Nat.eqb_neq in Z. now rewrite Z.
Defined.
Definition ordered_gen_index h : ordered (w_gen_index h) (gen_range h).
Proof.
  destruct (N.of_nat h <=? 2 ^ 32 - 1)%N eqn:L.
  2: { eapply ordered_ext; [|reflexivity|apply (ordered_gen_range h)]. intros ws. unfold w_gen_index. now rewrite L. }
  destruct (Nat.eq_dec h 0) as [->|Z]; [apply ordered_stop|].
  eapply ordered_ext; [|reflexivity|apply (@ordered_single32 h); lia].
  intros ws. unfold w_gen_index. apply Nat.eqb_neq in Z. now rewrite L, Z.
Defined.
Definition ordered_uniform h : ordered (w_uniform h) (gen_range h).
Proof.
  destruct (Nat.eq_dec h 0) as [->|Z]; [apply ordered_stop|].
  eapply ordered_ext; [|reflexivity|apply (@ordered_sampler 64 h (uniform_zone 64 (N.of_nat h)) next_u64); [lia|apply fair_uniform_zone; [auto|lia]|reflexivity..]].
  intros ws. unfold w_uniform. apply Nat.eqb_neq in Z. now rewrite Z.
Defined.
Definition ordered_uniform_u32 h : ordered (w_uniform_u32 h) (gen_range h).
Proof.
  destruct (Nat.eq_dec h 0) as [->|Z]; [apply ordered_stop|].
  eapply ordered_ext; [|reflexivity|apply (@ordered_sampler 32 h (uniform_zone 32 (N.of_nat h)) next_u32); [lia|apply fair_uniform_zone; [auto|lia]|exact next_u32_mod|reflexivity]].
  intros ws. unfold w_uniform_u32. apply Nat.eqb_neq in Z. now rewrite Z.
Defined.

Definition ordered_bits {X} (h : Z -> X) :
  ordered (fun ws => do ' (w, t) <- next_u64 ws; Done (h (Z.of_N (w / 2 ^ 11)), t))
    (fun rs => do ' (r, t) <- draw rs; Done (h (Z.modulo (Z.of_nat r) 9007199254740992), t)).
Proof.
  exists (fun _ => Upper 53); [reflexivity| |].
  2: { apply settled_bind; [apply settled_draw|]. intros x. apply settled_done. }
  intros ws. destruct ws as [|w ws]; cbn [next_u64 bind].
  - exists [], []. split; [constructor|]. left. split; auto. intros (x & r & H). discriminate H.
  - exists [N.to_nat (w mod 2 ^ 64 / 2 ^ 11)]. split; [econstructor; [reflexivity|constructor]|].
    intros o. cbn [app draw bind]. rewrite N_nat_Z, Z.mod_small; [reflexivity|].
    assert (H : (w mod 2 ^ 64 / 2 ^ 11 < 2 ^ 53)%N).
    { apply N.div_lt_upper_bound; [discriminate|]. rewrite <- N.pow_add_r. apply N.mod_lt. discriminate. }
    change (2 ^ 53)%N with 9007199254740992%N in H. revert H. generalize (w mod 2 ^ 64 / 2 ^ 11)%N. lia.
Defined.
Definition ordered_gen_f64 : ordered w_gen_f64 gen_f64 := ordered_bits (fun z => Qmake z 9007199254740992).
Definition ordered_gen_unit : ordered w_gen_unit gen_unit := ordered_bits (fun z => binary_normalize 53 1024 z (-53) false).

Definition ordered_shuffle_down {X} k : forall l : list X, ordered (w_shuffle_down k l) (shuffle_down k l).
Proof.
  induction k as [|i IH]; intros l; [apply ordered_done|].
  destruct i as [|i]; [apply ordered_done|].
  cbn [w_shuffle_down shuffle_down].
  apply ordered_bind; [apply ordered_gen_index|]. intros j. apply ordered_pure. intros l'. apply IH.
Defined.
Definition ordered_shuffle {X} (l : list X) : ordered (w_shuffle l) (shuffle l) := ordered_shuffle_down (length l) l.

(** Goes through the calls of a program. *)
Create HintDb ordered.
#[export] Hint Resolve ordered_gen_range ordered_gen_index ordered_uniform ordered_uniform_u32 ordered_gen_f64
  ordered_gen_unit ordered_shuffle : ordered.
Ltac order :=
  repeat (cbv beta iota zeta;
  first
  [ assumption | solve [auto with ordered]
  | apply ordered_done | apply ordered_stop | apply ordered_ub | apply ordered_fuel
  | lazymatch goal with
    | |- ordered (fun ws => bind (@?f ws) (fun p => let (x, r) := p in @?k x r)) _ =>
        first [ apply ordered_bind; [|let x := fresh "x" in intros x; parts x]
              | apply ordered_pure; let x := fresh "x" in intros x; parts x ]
    | |- ordered (fun ws => bind ?m _) _ => apply ordered_pure; let x := fresh "x" in intros x; parts x
    | |- ordered (fun ws => if ?b then _ else _) _ => destruct b
    | |- ordered (fun ws => match ?b with _ => _ end) _ => destruct b
    end ]).

Definition ordered_draw_two p h : ordered (w_draw_two_from_range p h) (draw_two_from_range p h).
Proof. unfold w_draw_two_from_range, draw_two_from_range. order. Defined.
#[export] Hint Resolve ordered_draw_two : ordered.

Definition ordered_choose {X} (l : list X) : ordered (w_choose_unwrap l) (choose_unwrap l).
Proof. unfold w_choose_unwrap, choose_unwrap. order. Defined.
#[export] Hint Resolve ordered_choose : ordered.

Definition ordered_choose_two l : ordered (w_choose_two l) (choose_two l).
Proof.
  unfold w_choose_two, choose_two. destruct (length l) as [|[|k]].
  - apply ordered_done.
  - apply ordered_bind; [apply ordered_single32; lia|]. intros t. order.
  - apply ordered_bind; [apply ordered_single32; lia|]. intros t1. apply ordered_bind; [apply ordered_single32; lia|]. intros t2. order.
Defined.
#[export] Hint Resolve ordered_choose_two : ordered.

Section Ensembles.
Context {T : Type}.

Definition ordered_erc_randomize (e : er_c T) : ordered (w_erc_randomize e) (erc_randomize e).
Proof. unfold w_erc_randomize, erc_randomize. order. apply ordered_foldM. intros g ij. order. Defined.
Definition ordered_erc_new p (mk : nat -> T) n c : ordered (w_erc_new p mk n c) (erc_new p mk n c).
Proof. unfold w_erc_new, erc_new. apply ordered_pure. intros q. apply ordered_erc_randomize. Defined.
Definition ordered_erc_m_step p (e : er_c T) : ordered (w_erc_m_step p e) (erc_m_step p e).
Proof. unfold w_erc_m_step, erc_m_step. order. Defined.
Definition ordered_erc64_new p (mk : nat -> T) n c : ordered (w_erc64_new p mk n c) (erc64_new p mk n c).
Proof.
  unfold w_erc64_new, erc64_new. apply ordered_pure. intros q. unfold w_erc64_randomize, erc64_randomize.
  order. apply ordered_foldM. intros g ij. order.
Defined.

Definition ordered_erm_randomize p (e : er_m T) : ordered (w_erm_randomize p e) (erm_randomize p e).
Proof. unfold w_erm_randomize, erm_randomize. order. Defined.
Definition ordered_erm_new p (mk : nat -> T) n m : ordered (w_erm_new p mk n m) (erm_new p mk n m).
Proof.
  unfold w_erm_new, erm_new. apply ordered_pure. intros k. cbv zeta. destruct (_ <=? _); [|apply ordered_stop].
  apply ordered_erm_randomize.
Defined.
Definition ordered_erm_m_step p (e : er_m T) : ordered (w_erm_m_step p e) (erm_m_step p e).
Proof. unfold w_erm_m_step, erm_m_step. order. Defined.

Definition ordered_sw_edge p (e : sw_ensemble T) i j : ordered (w_sw_randomize_edge p e i j) (sw_randomize_edge p e i j).
Proof. unfold w_sw_randomize_edge, sw_randomize_edge, w_draw_remaining, draw_remaining. order. Defined.
#[local] Hint Resolve ordered_sw_edge : ordered.
Definition ordered_sw_randomize p (e : sw_ensemble T) : ordered (w_sw_randomize p e) (sw_randomize p e).
Proof.
  unfold w_sw_randomize, sw_randomize. apply ordered_foldM. intros x i. unfold w_sw_randomize_vertex, sw_randomize_vertex. order.
Defined.
Definition ordered_sw_new p (mk : nat -> T) n q : ordered (w_sw_new p mk n q) (sw_new p mk n q).
Proof. unfold w_sw_new, sw_new. apply ordered_pure. intros g. apply ordered_sw_randomize. Defined.
Definition ordered_sw_m_step p (e : sw_ensemble T) : ordered (w_sw_m_step p e) (sw_m_step p e).
Proof. unfold w_sw_m_step, sw_m_step, w_sw_draw_edge, sw_draw_edge. order. Defined.

(** One round of [ws_find_pair]. *)
Definition ws_round (g : graph (ws_container T)) (o : original_edge) (_ : unit) (rs : list nat)
  : outcome ((unit + nat * nat) * list nat) :=
  do ' (first, rs1) <- gen_range (vertex_count g) rs;
  do ' (second, rs2) <- gen_range (vertex_count g) rs1;
  if (first =? second)
     || ((first =? oe_from o) && (second =? oe_to o))
     || ((first =? oe_to o) && (second =? oe_from o))
  then Done (inl tt, rs2)
  else
    do c <- vget (vertices g) first;
    if contains (wc_to c) second then Done (inl tt, rs2)
    else Done (inr (first, second), rs2).

Lemma ws_find_pair_loop (g : graph (ws_container T)) o k rs : loop k (ws_round g o) tt rs = ws_find_pair k g o rs.
Proof.
  revert rs. induction k as [|k IH]; intros rs; [reflexivity|]. cbn [loop ws_find_pair]. unfold ws_round at 1.
  destruct (gen_range (vertex_count g) rs) as [[a r1]| | |]; cbn [bind]; auto.
  destruct (gen_range (vertex_count g) r1) as [[b r2]| | |]; cbn [bind]; auto.
  destruct (_ || _); cbn [bind]; auto. destruct (vget (vertices g) a) as [c| | |]; cbn [bind]; auto.
  destruct (contains (wc_to c) b); cbn [bind]; auto.
Qed.

Lemma ws_round_goes (g : graph (ws_container T)) o s rs s' rs' :
  ws_round g o s rs = Done (inl s', rs') -> length rs' < length rs.
Proof.
  unfold ws_round. intros H.
  destruct (gen_range (vertex_count g) rs) as [[a r1]| | |] eqn:E1; try discriminate H. cbn [bind] in H.
  destruct (gen_range (vertex_count g) r1) as [[b r2]| | |] eqn:E2; try discriminate H. cbn [bind] in H.
  apply gen_range_left in E1, E2.
  assert (r2 = rs'); [|subst; lia].
  destruct (_ || _); [injection H; auto|]. destruct (vget (vertices g) a) as [c| | |]; try discriminate H.
  cbn [bind] in H. destruct (contains (wc_to c) b); injection H; auto; discriminate.
Qed.

Definition ordered_ws_add p (g : graph (ws_container T)) o :
  ordered (fun ws => w_ws_add_random_edge p (g, ws) o) (fun rs => ws_add_random_edge p (g, rs) o).
Proof.
  unfold w_ws_add_random_edge, ws_add_random_edge. cbv beta iota zeta.
  apply ordered_bind; [|intros [a b]; order].
  eapply ordered_ext; [reflexivity|intros rs; apply ws_find_pair_loop|].
  apply ordered_loop.
  - intros s. unfold w_ws_round, ws_round. order.
  - intros s rs s' rs' H. left. exact (ws_round_goes H).
Defined.

Definition ordered_ws_randomize p (e : ws_ensemble T) : ordered (w_ws_randomize p e) (ws_randomize p e).
Proof.
  unfold w_ws_randomize, ws_randomize. order. apply ordered_foldM. intros g i.
  unfold w_ws_randomize_vertex, ws_randomize_vertex. order.
  - apply ordered_foldM. intros s j. unfold w_ws_pick, ws_pick. order.
  - apply ordered_foldM. intros s j. apply ordered_ws_add.
Defined.

Lemma ba_attach_goes p m weights total i (g : graph (node_container T)) rs g' rs' :
  ba_attach p m weights total i g rs = Done (inl g', rs') -> length rs' < length rs.
Proof.
  unfold ba_attach. intros H. destruct (container g i) as [c| | |]; try discriminate H.
  cbn [bind] in H. destruct (_ <? m); [|discriminate H].
  destruct (gen_range _ rs) as [[r r1]| | |] eqn:E; try discriminate H. cbn [bind] in H. apply gen_range_left in E.
  destruct (add_edge _ _ _ _) as [[? ?]| | |]; try discriminate H. injection H as _ <-. lia.
Qed.

Definition ordered_ba_insert p m (s : graph (node_container T) * list nat) i :
  ordered (fun ws => w_ba_insert p m (s, ws) i) (fun rs => ba_insert p m (s, rs) i).
Proof.
  unfold w_ba_insert, ba_insert. order. apply ordered_loop.
  - intros g1. unfold w_ba_attach, ba_attach. order.
  - intros g1 rs g' rs' H. left. exact (ba_attach_goes H).
Defined.

Definition ordered_ba_randomize p (e : ba T) : ordered (w_ba_randomize p e) (ba_randomize p e).
Proof.
  unfold w_ba_randomize, ba_randomize. order. apply ordered_foldM. intros s i. apply ordered_ba_insert.
Defined.

Definition ordered_cm_round p (s : graph (node_container T) * list nat * list nat) : ordered (w_cm_round p s) (cm_round p s).
Proof. destruct s as [[g b] h]. unfold w_cm_round, cm_round. order. Defined.

Definition ordered_cm_randomize p (e : config T) : ordered (w_cm_randomize p e) (cm_randomize p e).
Proof.
  unfold w_cm_randomize, cm_randomize. order. apply ordered_loop; [apply ordered_cm_round|]. apply cm_round_goes.
Defined.

Definition ordered_cm_m_step p (e : config T) : ordered (w_cm_m_step p e) (cm_m_step p e).
Proof.
  unfold w_cm_m_step, cm_m_step. order. apply ordered_loop.
  - intros s. unfold w_cm_draw_round, cm_draw_round. order.
  - intros [] rs [] rs' H. left. apply cm_draw_left in H. lia.
Defined.

Definition ordered_sp_test (e : spacial T) g i j : ordered (w_sp_test e g i j) (sp_test e g i j).
Proof. unfold w_sp_test, sp_test. order. Defined.
#[local] Hint Resolve ordered_sp_test : ordered.
Definition ordered_sp_randomize (e : spacial T) : ordered (w_sp_randomize e) (sp_randomize e).
Proof. unfold w_sp_randomize, sp_randomize. order. apply ordered_foldM. intros g ij. order. Defined.
Definition ordered_sp_new (mk : nat -> T) n accept : ordered (w_sp_new mk n accept) (sp_new mk n accept).
Proof.
  unfold w_sp_new, sp_new. apply ordered_bind; [|intros g; apply ordered_sp_randomize].
  unfold w_sp_place, sp_place. order. apply ordered_foldM. intros g c. order.
Defined.
Definition ordered_sp_m_step p (e : spacial T) : ordered (w_sp_m_step p e) (sp_m_step p e).
Proof. unfold w_sp_m_step, sp_m_step. order. Defined.

End Ensembles.
