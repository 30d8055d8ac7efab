(** Comparing a random number with a probability. *)
From Verif Require Import Base BaseFacts Containers Graph GraphFacts Rng RngFacts ErC Sw Ws FloatSpec Rounding Float FloatFacts LoadSpec LoadFacts
  FloatValid Prob ProbSpec.
From Coq Require Import ZArith QArith Qpower Qabs Qround Lqa SpecFloat.
Set Implicit Arguments.
Unset Strict Implicit.
Local Open Scope Q_scope.

Lemma hp : (1 < 53)%Z. Proof. lia. Qed.
Lemma he : (53 < 1024)%Z. Proof. lia. Qed.

Lemma p2_53 : p2 (-53) == 1 # 9007199254740992.
Proof. reflexivity. Qed.

Lemma unit_valid r : is_f64 (unit_f64 r).
Proof. apply (normalize_valid hp he). Qed.

Lemma unit_range r : 0 <= unit_float r /\ unit_float r < 1.
Proof.
  unfold unit_float. pose proof (Z.mod_pos_bound (Z.of_nat r) 9007199254740992 ltac:(lia)) as B.
  unfold Qle, Qlt. cbn [Qnum Qden]. lia.
Qed.

Lemma unit_value r : exists q, fval (unit_f64 r) = Some q /\ q == unit_float r.
Proof.
  set (k := (Z.of_nat r mod 9007199254740992)%Z).
  pose proof (Z.mod_pos_bound (Z.of_nat r) 9007199254740992 ltac:(lia)) as B. fold k in B.
  assert (V : unit_float r == inject_Z k * p2 (-53)).
  { rewrite p2_53. unfold unit_float. fold k. unfold Qeq, inject_Z. cbn [Qmult Qnum Qden]. lia. }
  apply (@nearest_exact 53 1024).
  - exists k, (-53)%Z. split; auto. split; [|unfold emin; lia].
    change (2 ^ 53)%Z with 9007199254740992%Z. lia.
  - unfold unit_f64. fold k. apply (normalize_spec hp he); auto; [lia|].
    destruct (unit_range r) as [_ U]. apply (Qlt_le_trans _ 1); auto. change 1 with (p2 0). apply p2_le. lia.
Qed.

Lemma coin x r : is_f64 x -> SFleb (unit_f64 r) x = Qle_bool (unit_float r) (prob_value x).
Proof.
  intros V. destruct (unit_value r) as (q & F & E). destruct (unit_range r) as [U0 U1].
  apply Bool.eq_iff_eq_true. rewrite Qle_bool_iff. unfold prob_value.
  destruct (fval x) as [qx|] eqn:Fx.
  - rewrite (leb_value hp he (unit_valid r) V F Fx) by lra. rewrite E. reflexivity.
  - destruct x as [s|s| |s m e]; try discriminate.
    + destruct s.
      * split; [|intros; lra]. unfold SFleb. destruct (unit_f64 r) as [|[]| |]; try discriminate.
      * split; [intros; lra|]. intros _. unfold SFleb. destruct (unit_f64 r) as [|[]| |]; try discriminate; reflexivity.
    + split; [|intros; lra]. unfold SFleb. destruct (unit_f64 r) as [|[]| |]; try discriminate.
Qed.

Lemma unit_le r q : unit_float r <= q <-> inject_Z (Z.of_nat r mod 2 ^ 53) <= q * inject_Z (2 ^ 53).
Proof.
  change (2 ^ 53)%Z with 9007199254740992%Z. set (k := (Z.of_nat r mod 9007199254740992)%Z).
  assert (V : unit_float r == inject_Z k * (1 # 9007199254740992)).
  { unfold unit_float. fold k. unfold Qeq, inject_Z. cbn [Qmult Qnum Qden]. lia. }
  rewrite V. change (inject_Z 9007199254740992) with (9007199254740992 # 1). split; intros H; lra.
Qed.

(** The number of accepted draws. *)
Definition threshold (q : Q) : Z := Z.max 0 (Z.min (2 ^ 53) (Qfloor (q * inject_Z (2 ^ 53)) + 1)).

Lemma threshold_accepts x : is_f64 x -> accepts_first x (threshold (prob_value x)).
Proof.
  intros V r. rewrite coin by auto. rewrite Qle_bool_iff, unit_le.
  pose proof (Z.mod_pos_bound (Z.of_nat r) (2 ^ 53) ltac:(lia)) as B. set (k := (Z.of_nat r mod 2 ^ 53)%Z) in *.
  set (w := prob_value x * inject_Z (2 ^ 53)). unfold threshold. fold w.
  assert (K : inject_Z k <= w <-> (k <= Qfloor w)%Z).
  { split; intros H.
    - rewrite <- (Qfloor_Z k). apply Qfloor_resp_le, H.
    - apply (Qle_trans _ (inject_Z (Qfloor w))); [rewrite <- Zle_Qle; auto|apply Qfloor_le]. }
  rewrite K. lia.
Qed.

Lemma threshold_neg q : q < 0 -> threshold q = 0%Z.
Proof.
  intros H. unfold threshold. assert ((Qfloor (q * inject_Z (2 ^ 53)) < 0)%Z); [|lia].
  rewrite Zlt_Qlt. apply (Qle_lt_trans _ (q * inject_Z (2 ^ 53))); [apply Qfloor_le|].
  change (inject_Z (2 ^ 53)) with (9007199254740992 # 1). change (inject_Z 0) with 0. lra.
Qed.

Lemma threshold_one q : 1 <= q -> threshold q = (2 ^ 53)%Z.
Proof.
  intros H. unfold threshold. assert ((2 ^ 53 <= Qfloor (q * inject_Z (2 ^ 53)))%Z); [|lia].
  rewrite <- (Qfloor_Z (2 ^ 53)) at 1. apply Qfloor_resp_le.
  change (inject_Z (2 ^ 53)) with (9007199254740992 # 1). lra.
Qed.

Lemma threshold_unit q : 0 <= q -> q < 1 ->
  (1 <= threshold q <= 2 ^ 53)%Z /\
  inject_Z (threshold q - 1) <= q * inject_Z (2 ^ 53) /\ q * inject_Z (2 ^ 53) < inject_Z (threshold q).
Proof.
  intros H0 H1. unfold threshold. set (w := q * inject_Z (2 ^ 53)).
  assert (W0 : 0 <= w) by (unfold w; change (inject_Z (2 ^ 53)) with (9007199254740992 # 1); lra).
  assert (W1 : w < inject_Z (2 ^ 53)) by (unfold w; change (inject_Z (2 ^ 53)) with (9007199254740992 # 1); lra).
  pose proof (Qfloor_le w) as F1. pose proof (Qlt_floor w) as F2.
  assert (G0 : (0 <= Qfloor w)%Z) by (rewrite <- (Qfloor_Z 0); apply Qfloor_resp_le, W0).
  assert (G1 : (Qfloor w < 2 ^ 53)%Z) by (rewrite Zlt_Qlt; apply (Qle_lt_trans _ w); auto).
  replace (Z.max 0 (Z.min (2 ^ 53) (Qfloor w + 1))) with (Qfloor w + 1)%Z by lia.
  split; [lia|]. split; auto. replace (Qfloor w + 1 - 1)%Z with (Qfloor w) by lia. auto.
Qed.

(** ** The probability of [ErEnsembleC] *)

(** Rounding a number of the unit interval. *)
Lemma nearest_unit x r q : 0 <= x -> x <= 1 -> nearest 53 1024 x r -> fval r = Some q ->
  0 <= q /\ q <= 1 /\ Qabs (q - x) <= 1 # 18014398509481984.
Proof.
  intros X0 X1 (q' & F & _ & N) F'. rewrite F in F'. injection F' as ->.
  set (k := Qfloor (x * inject_Z (2 ^ 53) + (1 # 2))).
  assert (K1 : inject_Z k <= x * inject_Z (2 ^ 53) + (1 # 2)) by apply Qfloor_le.
  assert (K2 : x * inject_Z (2 ^ 53) + (1 # 2) < inject_Z (k + 1)) by apply Qlt_floor.
  rewrite inject_Z_plus in K2. change (inject_Z 1) with 1 in K2.
  change (inject_Z (2 ^ 53)) with (9007199254740992 # 1) in *.
  assert (Rep : forall z, (0 <= z <= 2 ^ 53)%Z -> representable 53 1024 (inject_Z z * p2 (-53))).
  { intros z Hz. destruct (Z.eq_dec z (2 ^ 53)) as [->|Nz].
    - exists 1%Z, 0%Z. split; [reflexivity|]. split; [cbn; lia|unfold emin; lia].
    - exists z, (-53)%Z. split; [reflexivity|]. split; [|unfold emin; lia]. change (2 ^ 53)%Z with 9007199254740992%Z in *. lia. }
  assert (Hk : (0 <= k <= 2 ^ 53)%Z).
  { split.
    - unfold k. rewrite <- (Qfloor_Z 0). apply Qfloor_resp_le. change (inject_Z 0) with 0.
      change (inject_Z (2 ^ 53)) with (9007199254740992 # 1). lra.
    - apply Z.lt_succ_r. rewrite Zlt_Qlt. unfold Z.succ. rewrite inject_Z_plus.
      change (inject_Z (2 ^ 53)) with (9007199254740992 # 1). change (inject_Z 1) with 1. lra. }
  pose proof (N _ (Rep _ Hk)) as N1. rewrite p2_53 in N1.
  assert (B : Qabs (inject_Z k * (1 # 9007199254740992) - x) <= 1 # 18014398509481984)
    by (apply Qabs_case; intros; lra).
  assert (E : Qabs (q - x) <= 1 # 18014398509481984) by lra.
  pose proof (N _ (Rep 0%Z ltac:(lia))) as N2. pose proof (N _ (Rep (2 ^ 53)%Z ltac:(lia))) as N3.
  rewrite p2_53 in N2, N3. change (inject_Z (2 ^ 53)) with (9007199254740992 # 1) in N3. change (inject_Z 0) with 0 in N2.
  split; [|split; auto].
  - revert N2. apply Qabs_case; intros ?; [|apply Qabs_case; intros ?; lra]. intros _. lra.
  - revert N3. apply Qabs_case; intros ?; apply Qabs_case; intros ?; lra.
Qed.

(** ** The ensembles with a rational probability *)

Local Open Scope nat_scope.

Lemma same_bind {X Y X' Y'} (R : X -> Y -> Prop) (S : X' -> Y' -> Prop) a b k l :
  same_outcome R a b -> (forall x y, R x y -> same_outcome S (k x) (l y)) -> same_outcome S (bind a k) (bind b l).
Proof. destruct a, b; cbn; intros H K; try contradiction; auto. Qed.

Lemma same_bind_eq {X X' Y'} (S : X' -> Y' -> Prop) (a : outcome X) k l :
  (forall x, same_outcome S (k x) (l x)) -> same_outcome S (bind a k) (bind a l).
Proof. destruct a; cbn; intros K; auto. Qed.

Lemma same_foldM {X Y Z} (R : X -> Y -> Prop) (f : X -> Z -> outcome X) g :
  (forall x y z, R x y -> same_outcome R (f x z) (g y z)) ->
  forall l x y, R x y -> same_outcome R (foldM f x l) (foldM g y l).
Proof.
  intros H l. induction l as [|z l IH]; intros x y K; cbn; auto.
  apply (@same_bind X Y X Y R); [apply H; auto|]. intros x' y' K'. apply IH, K'.
Qed.

(** Equal, if the results are. *)
Lemma same_eq {X} (R : X -> X -> Prop) (a b : outcome X) : (forall x y, R x y -> x = y) -> same_outcome R a b -> a = b.
Proof. intros H. destruct a, b; cbn; intros K; try contradiction; auto. f_equal. apply H, K. Qed.

Lemma coin_bind {X Y} (S : X -> Y -> Prop) x rs (k : bool -> rng -> outcome X) l : is_f64 x ->
  (forall b rs', same_outcome S (k b rs') (l b rs')) ->
  same_outcome S (do ' (u, rs1) <- gen_unit rs; k (SFleb u x) rs1) (do ' (u, rs1) <- gen_f64 rs; l (Qle_bool u (prob_value x)) rs1).
Proof.
  intros V H. unfold gen_unit, gen_f64, draw. destruct rs as [|r t]; cbn [bind same_outcome]; auto.
  rewrite (coin r V). apply H.
Qed.

Section Er.
Context {T : Type}.
Implicit Types e : er_c64 T.

Lemma erc_same_randomize e rs : is_f64 (erc64_prob e) ->
  same_outcome (with_rest (erc_follows e)) (erc64_randomize e rs) (erc_randomize (erc_exact e) rs).
Proof.
  intros V. unfold erc64_randomize, erc_randomize. cbn [erc_exact erc_graph erc_prob erc_c_target].
  apply (@same_bind _ _ _ _ eq).
  - apply same_foldM; auto. intros [g r] _ ij <-.
    apply (@coin_bind _ _ eq _ r
      (fun b r1 => if b then do g1 <- push_both g (fst ij) (snd ij); Done (g1, r1) else Done (g, r1))
      (fun b r1 => if b then do g1 <- push_both g (fst ij) (snd ij); Done (g1, r1) else Done (g, r1))); auto.
    intros [] r1; cbn; auto. apply same_bind_eq. intros; cbn; auto.
  - intros [g r] _ <-. cbn. repeat split.
Qed.

Lemma erc_same_step p e rs : is_f64 (erc64_prob e) ->
  same_outcome (with_step (erc_follows e)) (erc64_m_step p e rs) (erc_m_step p (erc_exact e) rs).
Proof.
  intros V. unfold erc64_m_step, erc_m_step. cbn [erc_exact erc_graph erc_prob erc_c_target].
  apply same_bind_eq. intros [[a b] r1].
  apply (@coin_bind _ _ (with_step (erc_follows e)) _ r1
    (fun t rs2 => if t then do ' (r, g) <- add_edge p (erc64_graph e) a b;
         match r with
         | Ok _ => Done (ErC_AddedEdge (a, b), mk_erc64 g (erc64_prob e) (erc64_c_target e), rs2)
         | Err _ => Done (ErC_Nothing, mk_erc64 g (erc64_prob e) (erc64_c_target e), rs2)
         end
       else do ' (r, g) <- remove_edge p (erc64_graph e) a b;
         match r with
         | Ok _ => Done (ErC_RemovedEdge (a, b), mk_erc64 g (erc64_prob e) (erc64_c_target e), rs2)
         | Err _ => Done (ErC_Nothing, mk_erc64 g (erc64_prob e) (erc64_c_target e), rs2)
         end)
    (fun t rs2 => if t then do ' (r, g) <- add_edge p (erc64_graph e) a b;
         match r with
         | Ok _ => Done (ErC_AddedEdge (a, b), mk_erc g (prob_value (erc64_prob e)) (prob_value (erc64_c_target e)), rs2)
         | Err _ => Done (ErC_Nothing, mk_erc g (prob_value (erc64_prob e)) (prob_value (erc64_c_target e)), rs2)
         end
       else do ' (r, g) <- remove_edge p (erc64_graph e) a b;
         match r with
         | Ok _ => Done (ErC_RemovedEdge (a, b), mk_erc g (prob_value (erc64_prob e)) (prob_value (erc64_c_target e)), rs2)
         | Err _ => Done (ErC_Nothing, mk_erc g (prob_value (erc64_prob e)) (prob_value (erc64_c_target e)), rs2)
         end)); auto.
  intros [] r2; apply same_bind_eq; intros [[] g]; cbn; repeat split.
Qed.

End Er.

Section Small.
Context {T : Type}.
Implicit Types e : sw_ensemble64 T.

Lemma sw_follows_set e g : sw_follows e (sw64_set e g) (sw_set (sw_exact e) g).
Proof. split; reflexivity. Qed.

Lemma sw_same_edge p e i0 i1 rs : is_f64 (sw64_r_prob e) ->
  same_outcome (with_step (sw_follows e)) (sw64_randomize_edge p e i0 i1 rs) (sw_randomize_edge p (sw_exact e) i0 i1 rs).
Proof.
  intros V. unfold sw64_randomize_edge, sw_randomize_edge. cbn [sw_exact sw_graph sw_r_prob].
  apply (@coin_bind _ _ (with_step (sw_follows e)) _ rs
    (fun t rs1 => if t then
        do h <- usub p (vertex_count (sw64_graph e)) 1;
        do ' (k, rs2) <- draw_remaining i0 h rs1;
        do ' (s, g) <- sw_rewire_edge p (sw64_graph e) i0 i1 k;
        Done (s, sw64_set e g, rs2)
      else
        do ' (s, g) <- sw_reset_edge p (sw64_graph e) i0 i1;
        Done (s, sw64_set e g, rs1))
    (fun t rs1 => if t then
        do h <- usub p (vertex_count (sw64_graph e)) 1;
        do ' (k, rs2) <- draw_remaining i0 h rs1;
        do ' (s, g) <- sw_rewire_edge p (sw64_graph e) i0 i1 k;
        Done (s, sw_set (sw_exact e) g, rs2)
      else
        do ' (s, g) <- sw_reset_edge p (sw64_graph e) i0 i1;
        Done (s, sw_set (sw_exact e) g, rs1))); auto.
  intros [] r1.
  - apply same_bind_eq. intros h. apply same_bind_eq. intros [k r2]. apply same_bind_eq. intros [s g]. cbn.
    repeat split.
  - apply same_bind_eq. intros [s g]. cbn. repeat split.
Qed.

Lemma sw_same_step p e rs : is_f64 (sw64_r_prob e) ->
  same_outcome (with_step (sw_follows e)) (sw64_m_step p e rs) (sw_m_step p (sw_exact e) rs).
Proof.
  intros V. unfold sw64_m_step, sw_m_step.
  change (sw_draw_edge (sw_exact e) rs) with (sw64_draw_edge e rs).
  apply same_bind_eq. intros [[i0 i1] r1]. apply sw_same_edge, V.
Qed.

Lemma sw_same_vertex p e0 s t i : is_f64 (sw64_r_prob e0) -> with_rest (sw_follows e0) s t ->
  same_outcome (with_rest (sw_follows e0)) (sw64_randomize_vertex p s i) (sw_randomize_vertex p t i).
Proof.
  intros V. destruct s as [e rs], t as [f rs']. intros [[Q P] K]. cbn [fst snd] in Q, P, K. subst f rs'.
  assert (V' : is_f64 (sw64_r_prob e)) by congruence.
  unfold sw64_randomize_vertex, sw_randomize_vertex. cbn [sw_exact sw_graph].
  apply same_bind_eq. intros c. apply same_bind_eq. intros first. apply same_bind_eq. intros second.
  apply same_bind_eq. intros _.
  eapply same_bind; [apply sw_same_edge; auto|].
  intros [[s1 e1] r1] [[t1 f1] r1'] (Q1 & [Q2 P1] & Q3). cbn [fst snd] in *. subst.
  apply same_bind_eq. intros _.
  eapply same_bind; [apply sw_same_edge; congruence|].
  intros [[s2 e2] r2] [[t2 f2] r2'] (Q1 & [Q2 P2] & Q3). cbn [fst snd] in *. subst.
  apply same_bind_eq. intros _. cbn. repeat split. cbn. congruence.
Qed.

Lemma sw_same_randomize p e rs : is_f64 (sw64_r_prob e) ->
  same_outcome (with_rest (sw_follows e)) (sw64_randomize p e rs) (sw_randomize p (sw_exact e) rs).
Proof.
  intros V. unfold sw64_randomize, sw_randomize. cbn [sw_exact sw_graph].
  apply same_foldM; [|repeat split]. intros s t i K. apply sw_same_vertex; auto.
Qed.

End Small.

Section Watts.
Context {T : Type}.
Implicit Types e : ws_ensemble64 T.

Lemma ws_same_pick x s j : is_f64 x -> ws64_pick x s j = ws_pick (prob_value x) s j.
Proof.
  intros V. destruct s as [[[to orig] rewire] rs]. unfold ws64_pick, ws_pick.
  destruct (vget orig j) as [e| | |]; cbn [bind]; auto. destruct (oe_at_origin e); auto.
  unfold gen_unit, gen_f64, draw. destruct rs as [|r t]; cbn [bind]; auto. rewrite (coin r V). reflexivity.
Qed.

Lemma foldM_same {X Y} (f g : X -> Y -> outcome X) l : (forall x y, f x y = g x y) -> forall x, foldM f x l = foldM g x l.
Proof.
  intros H. induction l as [|y l IH]; intros x; cbn; auto. rewrite H. destruct (g x y); cbn; auto.
Qed.

Lemma ws_same_vertex p x (s : graph (ws_container T) * rng) i : is_f64 x ->
  ws64_randomize_vertex p x s i = ws_randomize_vertex p (prob_value x) s i.
Proof.
  intros V. destruct s as [g rs]. unfold ws64_randomize_vertex, ws_randomize_vertex.
  destruct (vget (vertices g) i) as [c| | |]; cbn [bind]; auto.
  rewrite (@foldM_same _ _ (ws64_pick x) (ws_pick (prob_value x))); auto.
  intros. apply ws_same_pick, V.
Qed.

Lemma ws_same_randomize p e rs : is_f64 (ws64_rewire_prob e) ->
  same_outcome (with_rest (ws_follows e)) (ws64_randomize p e rs) (ws_randomize p (ws_exact e) rs).
Proof.
  intros V. unfold ws64_randomize, ws_randomize. cbn [ws_exact ws_graph ws_distance ws_rewire_prob].
  apply same_bind_eq. intros [r g]. apply same_bind_eq. intros _.
  rewrite (@foldM_same _ _ (ws64_randomize_vertex p (ws64_rewire_prob e)) (ws_randomize_vertex p (prob_value (ws64_rewire_prob e))))
    by (intros; apply ws_same_vertex; auto).
  apply same_bind_eq. intros [g' r']. cbn. repeat split.
Qed.

End Watts.

(** ** What [new] makes of the connectivity *)

Local Open Scope Q_scope.

Lemma round_aux_sign prec emax s m e l x : binary_round_aux prec emax s m e l = x ->
  x = S754_nan \/ x = S754_zero s \/ x = S754_infinity s \/ exists m' e', x = S754_finite s m' e'.
Proof.
  intros <-. unfold binary_round_aux. destruct (shr_fexp _ _ _ _ _) as [mrs e'].
  destruct (shr_fexp _ _ _ _ _) as [mrs'' e'']. destruct (shr_m mrs''); auto.
  destruct (_ <=? _)%Z; eauto 6.
Qed.

Lemma div_sign prec emax s m e m' e' x : SFdiv prec emax (S754_finite s m e) (S754_finite false m' e') = x ->
  x = S754_nan \/ x = S754_zero s \/ x = S754_infinity s \/ exists m' e', x = S754_finite s m' e'.
Proof.
  cbn [SFdiv]. destruct (SFdiv_core_binary _ _ _ _ _ _) as [[mz ez] lz]. rewrite Bool.xorb_false_r. apply round_aux_sign.
Qed.

Lemma of_nat_pos n : (0 < n)%nat -> (Z.of_nat n <= 2 ^ 53)%Z -> exists m e,
  f64_of_nat n = S754_finite false m e /\ exists q, fval (f64_of_nat n) = Some q /\ q == inject_Z (Z.of_nat n).
Proof.
  intros P L.
  destruct (@of_nat_exact 53 1024 ltac:(lia) ltac:(lia) ltac:(lia) n ltac:(lia) L) as (q & F & E).
  change (of_nat 53 1024 n) with (f64_of_nat n) in F. unfold qnat in E.
  assert (Q0 : 0 < q) by (rewrite E; change 0 with (inject_Z 0); rewrite <- Zlt_Qlt; lia).
  destruct (f64_of_nat n) as [s|s| |s m e] eqn:D; try discriminate.
  - injection F as <-. lra.
  - exists m, e. assert (s = false) as -> by (apply (@finite_sign s m e q F); lra). eauto.
Qed.

(** The largest numbers, divided by one. *)
Local Open Scope Z_scope.
Lemma div_one m : digits2_pos m = 53%positive ->
  SFdiv 53 1024 (S754_finite false m 971) (S754_finite false 4503599627370496 (-52)) = S754_finite false m 971.
Proof.
  intros D. cbn [SFdiv]. unfold SFdiv_core_binary. cbn [Zdigits2]. rewrite D.
  set (e' := Z.min _ _). vm_compute in e'. subst e'.
  change (971 - -52 - 970)%Z with 53%Z. cbv iota.
  rewrite Z.shiftl_mul_pow2 by lia.
  pose proof (Z_div_mod_eq_full (Z.pos m * 2 ^ 53) 4503599627370496) as E.
  replace (Z.div_eucl (Z.pos m * 2 ^ 53) 4503599627370496) with (Zpos (xO m), 0).
  2: { rewrite (surjective_pairing (Z.div_eucl (Z.pos m * 2 ^ 53) 4503599627370496)).
       change (fst (Z.div_eucl (Z.pos m * 2 ^ 53) 4503599627370496)) with (Z.pos m * 2 ^ 53 / 4503599627370496) || idtac.
       f_equal.
       - change (Zpos (xO m) = Z.pos m * 2 ^ 53 / 4503599627370496).
         replace (Z.pos m * 2 ^ 53) with (Zpos (xO m) * 4503599627370496) by lia. rewrite Z.div_mul; lia.
       - change (0 = (Z.pos m * 2 ^ 53) mod 4503599627370496).
         replace (Z.pos m * 2 ^ 53) with (Zpos (xO m) * 4503599627370496) by lia. rewrite Z.mod_mul; lia. }
  cbv beta iota. change (new_location 4503599627370496 0) with loc_Exact.
  unfold binary_round_aux, shr_fexp. cbn [Zdigits2 digits2_pos]. rewrite D.
  change (fexp 53 1024 (Z.pos (Pos.succ 53) + 970) - 970) with 1.
  unfold shr. cbn [shr_record_of_loc iter_pos shr_1 orb]. cbn [shr_m loc_of_shr_record round_nearest_even Zdigits2]. rewrite D.
  reflexivity.
Qed.
Lemma large_shape c q : is_f64 c -> fval c = Some q -> (p2 1023 <= q)%Q ->
  exists m, c = S754_finite false m 971 /\ digits2_pos m = 53%positive.
Proof.
  intros V F L. pose proof (p2_pos 1023) as P.
  destruct c as [s|s| |s m e]; try discriminate; [injection F as <-; exfalso; lra|].
  assert (s = false) as -> by (apply (@finite_sign s m e q F); lra).
  unfold is_f64 in V. cbn in V. unfold bounded in V. apply andb_prop in V. destruct V as [C B].
  apply (@canonical_iff 53 1024) in C. apply Zle_bool_imp_le in B.
  injection F as <-.
  assert (M : (Zpos m < 2 ^ Z.pos (digits2_pos m))%Z).
  { apply digits2_bounds. }
  assert (D : 1023 < Z.pos (digits2_pos m) + e).
  { apply Z.nle_gt. intros K. assert (inject_Z (Zpos m) * p2 e < p2 1023)%Q; [|lra].
    apply (Qlt_le_trans _ (p2 (Z.pos (digits2_pos m) + e))); [|apply p2_le; auto].
    rewrite p2_plus. rewrite (@p2_Z (Zpos (digits2_pos m))) by lia. apply Qmult_lt_compat_r; [apply p2_pos|].
    rewrite <- Zlt_Qlt. auto. }
  unfold fexp, emin in C. assert (e = 971 /\ Z.pos (digits2_pos m) = 53) as [-> E] by lia.
  exists m. split; auto. lia.
Qed.
Local Open Scope Q_scope.

Lemma one_representable : representable 53 1024 1.
Proof. exists 1%Z, 0%Z. split; [reflexivity|]. split; [cbn; lia|unfold emin; lia]. Qed.

(** An [f64] is less than 2^1024. *)
Lemma f64_bound c q : is_f64 c -> fval c = Some q -> q < p2 1024.
Proof.
  intros V F. destruct (Qlt_le_dec q (p2 1023)) as [L|L].
  - apply (Qlt_le_trans _ _ _ L). apply p2_le. lia.
  - destruct (@large_shape c q V F L) as (m & -> & D). injection F as <-.
    pose proof (digits2_bounds m) as B. rewrite D in B.
    change 1024%Z with (53 + 971)%Z. rewrite p2_plus. apply Qmult_lt_compat_r; [apply p2_pos|].
    rewrite p2_Z by lia. rewrite <- Zlt_Qlt. apply B.
Qed.

Lemma probability_value n c qc pr : (0 < n)%nat -> (Z.of_nat n <= 2 ^ 53)%Z -> is_f64 c -> fval c = Some qc ->
  pr = f64_div c (f64_of_nat n) ->
  (qc < 0 -> prob_value pr <= 0) /\
  (0 <= qc -> qc <= inject_Z (Z.of_nat n) ->
     0 <= prob_value pr /\ prob_value pr <= 1 /\
     Qabs (prob_value pr - qc / inject_Z (Z.of_nat n)) <= 1 # 18014398509481984) /\
  (inject_Z (Z.of_nat n) <= qc -> 1 <= prob_value pr).
Proof.
  intros P L V F ->.
  assert (Nn : 1 <= inject_Z (Z.of_nat n)) by (change 1 with (inject_Z 1); rewrite <- Zle_Qle; lia).
  assert (Inv : 0 < / inject_Z (Z.of_nat n)) by (apply Qinv_lt_0_compat; lra).
  destruct (of_nat_pos P L) as (m & e & D & qn & Fn & En).
  assert (Pn : 0 < qn) by (rewrite En; lra).
  pose proof (f64_bound V F) as Bd.
  assert (Near : 0 <= qc -> qc / inject_Z (Z.of_nat n) < p2 1023 ->
     exists q, fval (f64_div c (f64_of_nat n)) = Some q /\ nearest 53 1024 (qc / inject_Z (Z.of_nat n)) (f64_div c (f64_of_nat n))).
  { intros H0 Hl. assert (E : qc / qn == qc / inject_Z (Z.of_nat n)) by (rewrite En; reflexivity).
    pose proof (div_spec hp he c (f64_of_nat n) F Fn H0 Pn) as S. cbn [Z.sub] in S.
    change (1024 - 1)%Z with 1023%Z in S.
    assert (Hl' : qc / qn < p2 1023) by (rewrite E; auto). specialize (S Hl').
    apply (@nearest_eq _ _ _ _ _ E) in S. pose proof S as (q & Fq & _). exists q. split; auto. }
  split; [|split].
  - intros Neg. unfold f64_div. rewrite D. destruct c as [s|s| |s mc ec]; try discriminate F.
    + injection F as <-. exfalso. lra.
    + assert (s = true) as ->.
      { destruct s; auto. injection F as <-. exfalso. assert (0 <= inject_Z (Zpos mc) * p2 ec); [|lra].
        apply Qmult_le_0_compat; [discriminate|]. apply Qlt_le_weak, p2_pos. }
      destruct (@div_sign 53 1024 true mc ec m e _ eq_refl) as [K|[K|[K|(m' & e' & K)]]]; rewrite K; unfold prob_value; cbn [fval]; try lra.
      setoid_replace (inject_Z (Zneg m') * p2 e') with (- (inject_Z (Zpos m') * p2 e')) by (change (Zneg m') with (- Zpos m')%Z; rewrite inject_Z_opp; ring).
      assert (0 <= inject_Z (Zpos m') * p2 e'); [|lra]. apply Qmult_le_0_compat; [discriminate|]. apply Qlt_le_weak, p2_pos.
  - intros H0 H1.
    assert (X0 : 0 <= qc / inject_Z (Z.of_nat n)) by (apply Qle_shift_div_l; lra).
    assert (X1 : qc / inject_Z (Z.of_nat n) <= 1) by (apply Qle_shift_div_r; lra).
    destruct (Near H0) as (q & Fq & S).
    { apply (Qle_lt_trans _ 1 _ X1). reflexivity. }
    unfold prob_value. rewrite Fq. apply (nearest_unit X0 X1 S Fq).
  - intros H1.
    assert (X1 : 1 <= qc / inject_Z (Z.of_nat n)) by (apply Qle_shift_div_l; lra).
    destruct (Qlt_le_dec (qc / inject_Z (Z.of_nat n)) (p2 1023)) as [Hl|Hl].
    + destruct (Near ltac:(lra) Hl) as (q & Fq & S). unfold prob_value. rewrite Fq.
      apply (@nearest_ge 53 1024 _ _ 1 q S one_representable X1 Fq).
    + assert (n = 1)%nat as ->.
      { destruct (Nat.eq_dec n 1) as [|N1]; auto. exfalso.
        assert (N2 : 2 <= inject_Z (Z.of_nat n)) by (change 2 with (inject_Z 2); rewrite <- Zle_Qle; lia).
        assert (qc / inject_Z (Z.of_nat n) < p2 1023); [|lra].
        apply Qlt_shift_div_r; [lra|]. change 1024%Z with (1023 + 1)%Z in Bd. rewrite p2_succ in Bd.
        pose proof (p2_pos 1023) as P3.
        assert (p2 1023 * 2 <= p2 1023 * inject_Z (Z.of_nat n)); [|lra].
        rewrite !(Qmult_comm (p2 1023)). apply Qmult_le_compat_r; lra. }
      assert (Hq : p2 1023 <= qc).
      { change (inject_Z (Z.of_nat 1)) with 1 in Hl. setoid_replace (qc / 1) with qc in Hl by field. auto. }
      destruct (large_shape V F Hq) as (mc & -> & Dg).
      change (f64_of_nat 1) with (S754_finite false 4503599627370496 (-52)). unfold f64_div. rewrite (div_one Dg).
      unfold prob_value. rewrite F. apply (Qle_trans _ (p2 1023)); [discriminate|auto].
Qed.
