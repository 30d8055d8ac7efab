(** Probabilities in floating point arithmetic. *)
From Verif Require Import Base Containers Graph Rng Float ErC Sw Ws FloatSpec FloatValid Prob ProbSpec ProbFacts.
From Coq Require Import ZArith QArith Qabs Lqa SpecFloat.
Local Open Scope nat_scope.

(** C94.  Of the 2^53 random numbers of the unit interval, those accepted with the probability
    [x] are the first ones, and their number is [x] times 2^53, rounded down, and one more. *)
Theorem C94_coin : forall x, is_f64 x -> exists k,
  (0 <= k <= 2 ^ 53)%Z /\ accepts_first x k /\
  match fval x with
  | Some q =>
      ((q < 0)%Q -> k = 0%Z) /\
      ((0 <= q)%Q -> (q < 1)%Q -> (inject_Z (k - 1) <= q * inject_Z (2 ^ 53))%Q /\ (q * inject_Z (2 ^ 53) < inject_Z k)%Q) /\
      ((1 <= q)%Q -> k = (2 ^ 53)%Z)
  | None => k = match x with S754_infinity false => 2 ^ 53 | _ => 0 end%Z
  end.
Proof.
  intros x V. exists (threshold (prob_value x)). split; [|split].
  - unfold threshold. lia.
  - apply threshold_accepts, V.
  - unfold prob_value. destruct (fval x) as [q|] eqn:F.
    + assert (G : (((q < 0)%Q -> threshold q = 0%Z) /\
      ((0 <= q)%Q -> (q < 1)%Q -> (inject_Z (threshold q - 1) <= q * inject_Z (2 ^ 53))%Q /\ (q * inject_Z (2 ^ 53) < inject_Z (threshold q))%Q) /\
      ((1 <= q)%Q -> threshold q = (2 ^ 53)%Z))).
      { split; [apply threshold_neg|]. split; [|apply threshold_one]. intros A B. apply (threshold_unit A B). }
      exact G.
    + destruct x as [s|[]| |s m e]; try discriminate F; reflexivity.
Qed.
Print Assumptions C94_coin.

(** The graphs with an [f64] probability are those with a rational probability, so what is
    said of those holds here. *)
Theorem C94_er_c {T : Type} : forall (e : er_c64 T) rs, is_f64 (erc64_prob e) ->
  same_outcome (with_rest (erc_follows e)) (erc64_randomize e rs) (erc_randomize (erc_exact e) rs).
Proof. intros. apply erc_same_randomize; auto. Qed.
Print Assumptions C94_er_c.

Theorem C94_er_c_step {T : Type} : forall p (e : er_c64 T) rs, is_f64 (erc64_prob e) ->
  same_outcome (with_step (erc_follows e)) (erc64_m_step p e rs) (erc_m_step p (erc_exact e) rs).
Proof. intros. apply erc_same_step; auto. Qed.
Print Assumptions C94_er_c_step.

Theorem C94_small_world {T : Type} : forall p (e : sw_ensemble64 T) rs, is_f64 (sw64_r_prob e) ->
  same_outcome (with_rest (sw_follows e)) (sw64_randomize p e rs) (sw_randomize p (sw_exact e) rs).
Proof. intros. apply sw_same_randomize; auto. Qed.
Print Assumptions C94_small_world.

Theorem C94_small_world_step {T : Type} : forall p (e : sw_ensemble64 T) rs, is_f64 (sw64_r_prob e) ->
  same_outcome (with_step (sw_follows e)) (sw64_m_step p e rs) (sw_m_step p (sw_exact e) rs).
Proof. intros. apply sw_same_step; auto. Qed.
Print Assumptions C94_small_world_step.

Theorem C94_small_world_new {T : Type} : forall p (mk : nat -> T) n x rs, is_f64 x ->
  same_outcome (with_rest (fun e f => f = sw_exact e /\ sw64_r_prob e = x))
    (sw64_new p mk n x rs) (sw_new p mk n (prob_value x) rs).
Proof.
  intros p mk n x rs V. unfold sw64_new, sw_new. apply same_bind_eq. intros g.
  exact (sw_same_randomize (e := mk_swe64 g x) p rs V).
Qed.
Print Assumptions C94_small_world_new.

Theorem C94_small_world_new_with_distance {T : Type} : forall p (mk : nat -> T) n d x rs, is_f64 x ->
  same_outcome (same_result (with_rest (fun e f => f = sw_exact e /\ sw64_r_prob e = x)))
    (sw64_new_with_distance p mk n d x rs) (sw_new_with_distance p mk n d (prob_value x) rs).
Proof.
  intros p mk n d x rs V. unfold sw64_new_with_distance, sw_new_with_distance. apply same_bind_eq. intros [[u|err] g].
  - eapply same_bind; [exact (sw_same_randomize (e := mk_swe64 g x) p rs V)|]. intros a b H. exact H.
  - reflexivity.
Qed.
Print Assumptions C94_small_world_new_with_distance.

Theorem C94_watts {T : Type} : forall p (e : ws_ensemble64 T) rs, is_f64 (ws64_rewire_prob e) ->
  same_outcome (with_rest (ws_follows e)) (ws64_randomize p e rs) (ws_randomize p (ws_exact e) rs).
Proof. intros. apply ws_same_randomize; auto. Qed.
Print Assumptions C94_watts.

Theorem C94_watts_new {T : Type} : forall p (mk : nat -> T) n d x rs, is_f64 x ->
  same_outcome (same_result (with_rest (fun e f => f = ws_exact e /\ ws64_rewire_prob e = x /\ ws64_distance e = d)))
    (ws64_new p mk n d x rs) (ws_new p mk n d (prob_value x) rs).
Proof.
  intros p mk n d x rs V. unfold ws64_new, ws_new. destruct (n <? 1 + 2 * d); [reflexivity|].
  apply same_bind_eq. intros [[u|err] g].
  - eapply same_bind; [exact (ws_same_randomize (e := mk_wse64 g x d) p rs V)|]. intros a b H. exact H.
  - reflexivity.
Qed.
Print Assumptions C94_watts_new.

(** [ErEnsembleC] with [n] vertices and connectivity [c]: [new] and [set_target_connectivity]
    take a probability that accepts the share c/(n-1) of the random numbers, to within three
    halves of one of them.  With c at least n-1 every pair is joined. *)
Theorem C94_connectivity : forall p n c, (2 <= n) -> (Z.of_nat n <= 2 ^ 53 + 1)%Z -> is_f64 c ->
  exists x k, erc64_probability p n c = Done x /\ is_f64 x /\ (0 <= k <= 2 ^ 53)%Z /\ accepts_first x k /\
  match fval c with
  | Some q =>
      ((q < 0)%Q -> (k <= 1)%Z) /\
      ((0 <= q)%Q -> (q <= inject_Z (Z.of_nat (n - 1)))%Q ->
         (1 <= k)%Z /\
         (Qabs (inject_Z k - q / inject_Z (Z.of_nat (n - 1)) * inject_Z (2 ^ 53)) <= 3 # 2)%Q) /\
      ((inject_Z (Z.of_nat (n - 1)) <= q)%Q -> k = (2 ^ 53)%Z)
  | None => k = match c with S754_infinity false => 2 ^ 53 | _ => 0 end%Z
  end.
Proof.
  intros p n c H2 Hn V. set (x := f64_div c (f64_of_nat (n - 1))).
  assert (Vx : is_f64 x) by apply (div_valid hp he).
  exists x, (threshold (prob_value x)). split; [|split; [|split; [|split]]]; auto.
  - unfold erc64_probability, usub. destruct (1 <=? n) eqn:E; [reflexivity|]. apply Nat.leb_gt in E. lia.
  - unfold threshold. lia.
  - apply threshold_accepts, Vx.
  - destruct (@of_nat_pos (n - 1) ltac:(lia) ltac:(lia)) as (m & e & D & _).
    destruct (fval c) as [q|] eqn:F.
    + destruct (@probability_value (n - 1) c q x ltac:(lia) ltac:(lia) V F eq_refl) as (P1 & P2 & P3).
      assert (G : ((q < 0)%Q -> (threshold (prob_value x) <= 1)%Z) /\
        ((0 <= q)%Q -> (q <= inject_Z (Z.of_nat (n - 1)))%Q ->
          (1 <= threshold (prob_value x))%Z /\
          (Qabs (inject_Z (threshold (prob_value x)) - q / inject_Z (Z.of_nat (n - 1)) * inject_Z (2 ^ 53)) <= 3 # 2)%Q) /\
        ((inject_Z (Z.of_nat (n - 1)) <= q)%Q -> threshold (prob_value x) = (2 ^ 53)%Z)).
      { split; [|split].
        - intros A. specialize (P1 A). destruct (Qlt_le_dec (prob_value x) 0) as [K|K]; [rewrite threshold_neg by auto; lia|].
          destruct (@threshold_unit (prob_value x)) as (T1 & T2 & T3); [auto|lra|].
          assert (T4 : (inject_Z (threshold (prob_value x) - 1) <= inject_Z 0)%Q).
          { change (inject_Z 0) with 0%Q. change (inject_Z (2 ^ 53)) with (9007199254740992 # 1) in T2. lra. }
          rewrite <- Zle_Qle in T4. lia.
        - intros A B. destruct (P2 A B) as (Q1 & Q2 & Q3). set (y := (q / inject_Z (Z.of_nat (n - 1)))%Q) in *.
          change (inject_Z (2 ^ 53)) with (9007199254740992 # 1).
          destruct (Qlt_le_dec (prob_value x) 1) as [K|K].
          + destruct (@threshold_unit (prob_value x)) as (T1 & T2 & T3); auto. split; [lia|].
            unfold Z.sub in T2. rewrite inject_Z_plus in T2. change (inject_Z (-(1))) with (-1)%Q in T2.
            change (inject_Z (2 ^ 53)) with (9007199254740992 # 1) in T2, T3.
            revert Q3. apply Qabs_case; intros ? ?; apply Qabs_case; intros ?; lra.
          + rewrite threshold_one by auto. split; [lia|]. change (inject_Z (2 ^ 53)) with (9007199254740992 # 1).
            revert Q3. apply Qabs_case; intros ? ?; apply Qabs_case; intros ?; lra.
        - intros A. apply threshold_one, P3, A. }
      exact G.
    + unfold x, f64_div. rewrite D. destruct c as [s|[]| |s mc ec]; try discriminate F; reflexivity.
Qed.
Print Assumptions C94_connectivity.

Theorem C94_er_c_new {T : Type} : forall p (mk : nat -> T) n c rs x, erc64_probability p n c = Done x ->
  same_outcome (with_rest (fun e f => f = erc_exact e /\ erc64_prob e = x /\ erc64_c_target e = c))
    (erc64_new p mk n c rs) (erc_randomize (mk_erc (graph_new mk n) (prob_value x) (prob_value c)) rs).
Proof.
  intros p mk n c rs x E. unfold erc64_new. rewrite E. cbn [bind].
  assert (V : is_f64 x).
  { unfold erc64_probability in E. destruct (usub p n 1); try discriminate E. injection E as <-. apply (div_valid hp he). }
  exact (erc_same_randomize (e := mk_erc64 (graph_new mk n) x c) rs V).
Qed.
Print Assumptions C94_er_c_new.

(** [set_target_connectivity] leaves the graph as it is and takes the probability that [new]
    takes for as many vertices. *)
Theorem C94_set_connectivity {T : Type} : forall p (e f : er_c64 T) c rs rs' mk,
  erc64_new p mk (vertex_count (erc64_graph e)) c rs = Done (f, rs') ->
  exists e', erc64_set_target_connectivity p e c = Done e' /\ erc64_graph e' = erc64_graph e /\
    erc64_prob e' = erc64_prob f /\ erc64_c_target e' = c /\ erc64_c_target f = c.
Proof.
  intros p e f c rs rs' mk H. unfold erc64_set_target_connectivity. unfold erc64_new in H.
  destruct (erc64_probability p (vertex_count (erc64_graph e)) c) as [x| | |]; try discriminate H.
  cbn [bind] in *. exists (mk_erc64 (erc64_graph e) x c). split; auto. split; auto.
  unfold erc64_randomize in H. cbn [erc64_graph erc64_prob erc64_c_target] in H.
  destruct (foldM _ _ _) as [[g r]| | |]; try discriminate H. injection H as <- <-. auto.
Qed.
Print Assumptions C94_set_connectivity.

(** Three vertices with connectivity 0.5: the probability is 0.25, and a quarter of the numbers
    and one more are accepted. *)
Example C94_case :
  let half := S754_finite false 4503599627370496 (-53) in
  let quarter := S754_finite false 4503599627370496 (-54) in
  is_f64 half /\ erc64_probability Debug 3 half = Done quarter /\
  accepts_first quarter (2 ^ 51 + 1) /\
  SFleb (unit_f64 5) quarter = true /\ is_f64 S754_nan /\ accepts_first S754_nan 0.
Proof.
  cbn zeta. split; [reflexivity|]. split; [reflexivity|]. split; [|split; [reflexivity|split; [reflexivity|]]].
  - exact (threshold_accepts (x := S754_finite false 4503599627370496 (-54)) eq_refl).
  - exact (threshold_accepts (x := S754_nan) eq_refl).
Qed.
