(** Chains whose states are known up to an equivalence. *)
From Verif Require Import Base BaseFacts Sums GraphSpec GraphFacts Rng Markov UniformSpec UniformFacts BalanceSpec BalanceFacts SurelyFacts
  FairSpec ConvergeSpec.
Set Implicit Arguments.
Unset Strict Implicit.

Lemma powers_length k D : length (powers k D) = length D ^ k.
Proof.
  induction k as [|k IH]; auto. cbn [powers Nat.pow].
  rewrite <- (Nat.mul_1_r (length (flat_map _ _))), <- sum_over_const, sum_over_flat_map.
  rewrite (@sum_over_ext _ _ (fun _ => length D ^ k)); [apply sum_over_const|].
  intros d _. rewrite sum_over_map, sum_over_const. lia.
Qed.

Lemma distance_sym a b : distance a b = distance b a.
Proof. unfold distance. lia. Qed.

Lemma distance_mul c a b : distance (c * a) (c * b) = c * distance a b.
Proof. unfold distance. rewrite Nat.mul_add_distr_l, !Nat.mul_sub_distr_l. auto. Qed.

Lemma distance_le a b c : a <= b + c -> b <= a + c -> distance a b <= c.
Proof. unfold distance. lia. Qed.

Lemma powers_snoc D (G : list nat -> nat) k : forall F, (forall u, F u = sum_over (fun p => G (u ++ p)) D) ->
  sum_over G (powers (S k) D) = sum_over F (powers k D).
Proof.
  revert G. induction k as [|k IH]; intros G F HF.
  - cbn [powers]. rewrite sum_over_flat_map, sum_over_one, HF. apply sum_over_ext. intros d _.
    cbn [map app]. rewrite sum_over_one, app_nil_r. auto.
  - change (powers (S (S k)) D) with (flat_map (fun d => map (app d) (powers (S k) D)) D).
    cbn [powers]. rewrite !sum_over_flat_map. apply sum_over_ext. intros d _. rewrite !sum_over_map.
    apply (IH (fun u => G (d ++ u)) (fun u => F (d ++ u))). intros u. rewrite HF. apply sum_over_ext. intros q _.
    rewrite app_assoc. auto.
Qed.

Lemma chain_sum D (cd : nat -> list (list nat)) : (forall k, cd (S k) = flat_map (fun d => map (app d) D) (cd k)) ->
  forall k (F : list nat -> nat), sum_over F (cd k) = sum_over (fun d => sum_over (fun u => F (d ++ u)) (powers k D)) (cd 0).
Proof.
  intros Hcd. induction k as [|k IH]; intros F.
  - apply sum_over_ext. intros d _. cbn [powers]. rewrite sum_over_one, app_nil_r. auto.
  - rewrite Hcd, sum_over_flat_map. rewrite (@sum_over_ext _ _ (fun d => sum_over (fun q => F (d ++ q)) D)) by (intros; apply sum_over_map).
    rewrite IH. apply sum_over_ext. intros d _. symmetry. apply powers_snoc. intros u. apply sum_over_ext. intros q _.
    rewrite app_assoc. auto.
Qed.

Section Chain.
Variables (St R : Type) (m : St -> rng -> outcome (R * St * rng)) (D : list (list nat)).
Variables (Inv : St -> Prop) (eqv : St -> St -> bool).
Hypothesis loc : forall s, local (m s).
Hypothesis step : forall s d, Inv s -> In d D -> exists r s', m s d = Done (r, s', []) /\ Inv s'.
Hypothesis some_draw : D <> [].
Hypothesis eqv_refl : forall x, Inv x -> eqv x x = true.
Hypothesis eqv_sym : forall x y, Inv x -> Inv y -> eqv x y = true -> eqv y x = true.
Hypothesis eqv_trans : forall x y z, Inv x -> Inv y -> Inv z -> eqv x y = true -> eqv y z = true -> eqv x z = true.

Local Notation hh := (length D).

Definition nxt (s : St) (d : list nat) : St := match m s d with Done (_, s', _) => s' | _ => s end.

Lemma nxt_inv s d : Inv s -> In d D -> Inv (nxt s d).
Proof using step. intros I Id. destruct (step I Id) as (r & s' & E & I'). unfold nxt. rewrite E. auto. Qed.

Lemma nxt_step s d rest : Inv s -> In d D -> exists r, m s (d ++ rest) = Done (r, nxt s d, rest).
Proof using step loc.
  intros I Id. destruct (step I Id) as (r & s' & E & I'). exists r. unfold nxt. rewrite E. apply (loc E).
Qed.

(** The number of draws of [k] steps that lead to a state with [P]. *)
Fixpoint ways (P : St -> bool) (k : nat) (s : St) : nat :=
  match k with
  | 0 => b2n (P s)
  | S k => sum_over (fun d => ways P k (nxt s d)) D
  end.

Lemma arrivals_ways P k : forall s, Inv s -> arrivals m D s P k = ways P k s.
Proof using step loc.
  unfold arrivals. induction k as [|k IH]; intros s I.
  - unfold count. cbn [powers m_steps filter arrives ways]. destruct (P s); reflexivity.
  - cbn [powers ways]. unfold count. rewrite length_filter_sum, sum_over_flat_map. apply sum_over_ext. intros d Id.
    rewrite sum_over_map, <- IH by (apply nxt_inv; auto). unfold count. rewrite length_filter_sum.
    apply sum_over_ext. intros u _. destruct (@nxt_step s d u I Id) as (r & E). cbn [m_steps]. rewrite E. cbn [bind].
    destruct (m_steps m k (nxt s d) u) as [[[l s2] [|? ?]]| | |]; auto.
Qed.

Lemma ways_le P k : forall s, ways P k s <= hh ^ k.
Proof.
  induction k as [|k IH]; intros s; cbn [ways Nat.pow]; [destruct (P s); cbn; lia|].
  rewrite <- sum_over_const. apply sum_over_le. auto.
Qed.

(** ** States that are alike *)

Lemma count_sum_app {X} (f : X -> bool) l1 l2 : count f (l1 ++ l2) = count f l1 + count f l2.
Proof. unfold count. rewrite filter_app, app_length. auto. Qed.

(** Two lists with the same number of states of each kind have the same sums. *)
Lemma pair_sums x0 (g : St -> nat) : (forall x y, Inv x -> Inv y -> eqv x y = true -> g x = g y) -> Inv x0 ->
  forall l l', Forall Inv l -> Forall Inv l' -> length l = length l' ->
  (forall c, Inv c -> eqv x0 c = false -> count (eqv c) l = count (eqv c) l') ->
  sum_over g l = sum_over g l'.
Proof using eqv_refl eqv_sym eqv_trans.
  intros Hg I0.
  assert (Base : forall l l', Forall Inv l -> Forall Inv l' -> length l = length l' ->
    (forall x, In x l -> eqv x0 x = true) -> (forall x, In x l' -> eqv x0 x = true) -> sum_over g l = sum_over g l').
  { intros l l' F F' L A A'. rewrite (@sum_over_ext _ g (fun _ => g x0) l), (@sum_over_ext _ g (fun _ => g x0) l').
    - rewrite !sum_over_const, L. auto.
    - intros x Hx. symmetry. rewrite Forall_forall in F'. apply Hg; auto.
    - intros x Hx. symmetry. rewrite Forall_forall in F. apply Hg; auto. }
  assert (G : forall k l l', length l = k -> Forall Inv l -> Forall Inv l' -> length l = length l' ->
    (forall c, Inv c -> eqv x0 c = false -> count (eqv c) l = count (eqv c) l') -> sum_over g l = sum_over g l').
  2:{ intros l l'. apply (G (length l) l l' eq_refl). }
  induction k as [|k IH]; intros l l' Lk F F' L Hc.
  { destruct l; [|discriminate]. destruct l'; [reflexivity|discriminate]. }
  destruct (existsb (fun x => negb (eqv x0 x)) l) eqn:Ex.
  - apply existsb_exists in Ex as (c & Ic & Nc). apply negb_true_iff in Nc.
    rewrite Forall_forall in F, F'. pose proof (F c Ic) as Hcc.
    assert (P1 : 0 < count (eqv c) l').
    { rewrite <- (Hc c Hcc Nc). unfold count. assert (In c (filter (eqv c) l)) by (apply filter_In; auto).
      destruct (filter (eqv c) l); [contradiction|cbn; lia]. }
    assert (Y : exists y, In y l' /\ eqv c y = true).
    { unfold count in P1. destruct (filter (eqv c) l') as [|y t] eqn:E; [cbn in P1; lia|].
      exists y. apply filter_In. rewrite E. simpl; auto. }
    destruct Y as (y & Iy & Ey). pose proof (F' y Iy) as Hy.
    apply in_split in Ic as (a1 & a2 & ->). apply in_split in Iy as (b1 & b2 & ->).
    rewrite !sum_over_app, !sum_over_cons, (Hg c y) by auto.
    assert (S : sum_over g (a1 ++ a2) = sum_over g (b1 ++ b2)); [|rewrite !sum_over_app in S; lia].
    rewrite !app_length in *. cbn [length] in *. apply IH.
    + rewrite app_length. lia.
    + apply Forall_forall. intros x Hx. apply F. rewrite in_app_iff in *. simpl. tauto.
    + apply Forall_forall. intros x Hx. apply F'. rewrite in_app_iff in *. simpl. tauto.
    + rewrite !app_length. lia.
    + intros q Iq Nq. specialize (Hc q Iq Nq). rewrite !count_sum_app in *. unfold count in *. cbn [filter] in Hc.
      assert (Eq : eqv q c = eqv q y).
      { apply eq_true_iff_eq. split; intros A; eauto. }
      rewrite Eq in Hc. destruct (eqv q y); cbn [length] in Hc; lia.
  - assert (A : forall x, In x l -> eqv x0 x = true).
    { intros x Hx. apply not_false_iff_true. intros E. enough (existsb (fun x => negb (eqv x0 x)) l = true) by congruence.
      apply existsb_exists. exists x. rewrite E. auto. }
    apply Base; auto. intros y Hy. apply not_false_iff_true. intros E.
    rewrite Forall_forall in F, F'. pose proof (F' y Hy) as Iy. specialize (Hc y Iy E).
    assert (P1 : 0 < count (eqv y) l').
    { unfold count. assert (In y (filter (eqv y) l')) by (apply filter_In; auto).
      destruct (filter (eqv y) l'); [contradiction|cbn; lia]. }
    assert (X : exists x, In x l /\ eqv y x = true).
    { unfold count in Hc, P1. destruct (filter (eqv y) l) as [|x t] eqn:Ef; [cbn in Hc; lia|].
      exists x. apply filter_In. rewrite Ef. simpl; auto. }
    destruct X as (x & Hx & Exy). rewrite (eqv_trans (y := x)) in E; auto. discriminate.
Qed.

(** The number of draws that lead to another kind of state depends only on the kind of the state. *)
Hypothesis lump : forall x y c, Inv x -> Inv y -> Inv c -> eqv x y = true -> eqv x c = false ->
  count (fun d => eqv c (nxt x d)) D = count (fun d => eqv c (nxt y d)) D.

Lemma count_map {X Y} (f : Y -> bool) (g : X -> Y) l : count f (map g l) = count (fun x => f (g x)) l.
Proof. unfold count. induction l as [|x l IH]; auto. cbn [map filter]. destruct (f (g x)); cbn [length]; auto. Qed.

Lemma next_sums x y (g : St -> nat) : Inv x -> Inv y -> eqv x y = true ->
  (forall x y, Inv x -> Inv y -> eqv x y = true -> g x = g y) ->
  sum_over (fun d => g (nxt x d)) D = sum_over (fun d => g (nxt y d)) D.
Proof using step eqv_refl eqv_sym eqv_trans lump.
  intros Ix Iy E Hg. rewrite <- (sum_over_map g (nxt x)), <- (sum_over_map g (nxt y)).
  apply (@pair_sums x g Hg Ix).
  - apply Forall_forall. intros s Hs. apply in_map_iff in Hs as (d & <- & Id). apply nxt_inv; auto.
  - apply Forall_forall. intros s Hs. apply in_map_iff in Hs as (d & <- & Id). apply nxt_inv; auto.
  - rewrite !map_length. auto.
  - intros c Ic Nc. rewrite !count_map. apply lump; auto.
Qed.

Variable P : St -> bool.
Hypothesis P_eqv : forall x y, Inv x -> Inv y -> eqv x y = true -> P x = P y.

Lemma ways_eqv k : forall x y, Inv x -> Inv y -> eqv x y = true -> ways P k x = ways P k y.
Proof using step eqv_refl eqv_sym eqv_trans lump P_eqv.
  induction k as [|k IH]; intros x y Ix Iy E; cbn [ways].
  - rewrite (P_eqv Ix Iy E). auto.
  - apply (@next_sums x y (ways P k)); auto.
Qed.

(** ** Walks *)

Definition walk (s : St) (w : list (list nat)) : St := fold_left nxt w s.

Fixpoint paths (k : nat) : list (list (list nat)) :=
  match k with
  | 0 => [[]]
  | S k => flat_map (fun d => map (cons d) (paths k)) D
  end.

Lemma paths_length k : length (paths k) = hh ^ k.
Proof.
  induction k as [|k IH]; auto. cbn [paths Nat.pow].
  rewrite <- (Nat.mul_1_r (length (flat_map _ _))), <- sum_over_const, sum_over_flat_map.
  rewrite (@sum_over_ext _ _ (fun _ => hh ^ k)); [apply sum_over_const|].
  intros d _. rewrite sum_over_map, sum_over_const. lia.
Qed.

Lemma In_paths w : Forall (fun d => In d D) w -> In w (paths (length w)).
Proof.
  induction 1 as [|d w Hd Hw IH]; cbn [length paths]; [simpl; auto|].
  apply in_flat_map. exists d. split; auto. apply in_map. auto.
Qed.

Lemma paths_draws k w : In w (paths k) -> Forall (fun d => In d D) w.
Proof.
  revert w. induction k as [|k IH]; intros w Hw; cbn [paths] in Hw.
  - destruct Hw as [<-|[]]. constructor.
  - apply in_flat_map in Hw as (d & Hd & Hw). apply in_map_iff in Hw as (v & <- & Hv). constructor; auto.
Qed.

Lemma walk_inv w : Forall (fun d => In d D) w -> forall s, Inv s -> Inv (walk s w).
Proof using step.
  induction 1 as [|d w Hd Hw IH]; intros s I; auto. cbn [walk fold_left]. apply IH. apply nxt_inv; auto.
Qed.

Lemma ways_split B k : forall s, ways P (B + k) s = sum_over (fun w => ways P k (walk s w)) (paths B).
Proof.
  induction B as [|B IH]; intros s; cbn [plus ways paths].
  - rewrite sum_over_one. auto.
  - rewrite sum_over_flat_map. apply sum_over_ext. intros d _. rewrite IH, sum_over_map. auto.
Qed.

(** ** Forgetting the start *)

Variable B : nat.
Hypothesis meet : forall x y, Inv x -> Inv y -> exists w w',
  Forall (fun d => In d D) w /\ Forall (fun d => In d D) w' /\ length w = B /\ length w' = B /\
  eqv (walk x w) (walk y w') = true.

Lemma sum_bound {X Y} (f : X -> nat) (g : Y -> nat) b l l' : length l = length l' ->
  (forall x y, In x l -> In y l' -> f x <= g y + b) -> sum_over f l <= sum_over g l' + length l * b.
Proof.
  revert l'. induction l as [|x l IH]; intros [|y l'] L Hb; cbn [length] in *; try lia; [cbn; lia|].
  rewrite !sum_over_cons. specialize (IH l' ltac:(lia)).
  assert (sum_over f l <= sum_over g l' + length l * b) by (apply IH; intros; apply Hb; simpl; auto).
  pose proof (Hb x y (or_introl eq_refl) (or_introl eq_refl)). lia.
Qed.

Lemma contract k b : (forall x y, Inv x -> Inv y -> ways P k x <= ways P k y + b) ->
  forall x y, Inv x -> Inv y -> ways P (B + k) x <= ways P (B + k) y + (hh ^ B - 1) * b.
Proof using step eqv_refl eqv_sym eqv_trans lump P_eqv meet.
  intros Hb x y Ix Iy. destruct (meet Ix Iy) as (w & w' & F & F' & L & L' & E).
  rewrite !ways_split. pose proof (In_paths F) as I. pose proof (In_paths F') as I'. rewrite L in I. rewrite L' in I'.
  pose proof (paths_length B) as LB. pose proof (@paths_draws B) as PD.
  assert (S1 : exists l, Permutation (w :: l) (paths B)).
  { apply in_split in I as (l1 & l2 & ->). exists (l1 ++ l2). apply Permutation_middle. }
  assert (S2 : exists l, Permutation (w' :: l) (paths B)).
  { apply in_split in I' as (l1 & l2 & ->). exists (l1 ++ l2). apply Permutation_middle. }
  destruct S1 as (l & Pl). destruct S2 as (l' & Pl').
  rewrite <- (sum_over_perm _ Pl) at 1. rewrite <- (sum_over_perm _ Pl'). rewrite !sum_over_cons.
  rewrite (ways_eqv k (walk_inv F Ix) (walk_inv F' Iy) E).
  pose proof (Permutation_length Pl) as Q. pose proof (Permutation_length Pl') as Q'. cbn [length] in Q, Q'.
  assert (Sb : sum_over (fun w => ways P k (walk x w)) l <= sum_over (fun w => ways P k (walk y w)) l' + length l * b).
  { apply sum_bound; [lia|]. intros u v Hu Hv. apply Hb; apply walk_inv; auto; apply PD.
    - apply (Permutation_in _ Pl). simpl; auto.
    - apply (Permutation_in _ Pl'). simpl; auto. }
  replace (hh ^ B - 1) with (length l) by lia. lia.
Qed.

Lemma contract_iter j q : forall x y, Inv x -> Inv y ->
  ways P (q * B + j) x <= ways P (q * B + j) y + (hh ^ B - 1) ^ q * hh ^ j.
Proof using step eqv_refl eqv_sym eqv_trans lump P_eqv meet.
  induction q as [|q IH]; intros x y Ix Iy.
  - cbn [Nat.mul plus Nat.pow]. pose proof (ways_le P j x). lia.
  - cbn [Nat.mul Nat.pow]. rewrite <- Nat.add_assoc, <- Nat.mul_assoc. apply contract; auto.
Qed.

Theorem spread N : exists k0, forall k x y, k0 <= k -> Inv x -> Inv y -> N * distance (ways P k x) (ways P k y) <= hh ^ k.
Proof using step some_draw eqv_refl eqv_sym eqv_trans lump P_eqv meet.
  assert (HH : 0 < hh) by (destruct D; [congruence|cbn; lia]).
  assert (Pos : forall k, 0 < hh ^ k) by (intros k; apply Nat.neq_0_lt_0, Nat.pow_nonzero; lia).
  destruct (Nat.eq_dec B 0) as [B0|NB].
  { exists 0. intros k x y _ Ix Iy. pose proof (contract_iter k 1 Ix Iy) as C1. pose proof (contract_iter k 1 Iy Ix) as C2.
    rewrite B0 in *. cbn in C1, C2. pose proof (distance_le C1 C2). nia. }
  exists ((N * hh ^ B + 1) * B). intros k x y Hk Ix Iy.
  pose proof (Nat.div_mod k B NB) as E. set (q := k / B) in *. set (j := Nat.modulo k B) in *.
  assert (Hj : j < B) by (apply Nat.mod_upper_bound; auto).
  assert (Hq : N * hh ^ B + 1 <= q) by nia.
  replace k with (q * B + j) by lia.
  pose proof (distance_le (contract_iter j q Ix Iy) (contract_iter j q Iy Ix)) as W.
  pose proof (Pos B) as PB. pose proof (Pos j) as Pj.
  rewrite Nat.pow_add_r, (Nat.mul_comm q B), Nat.pow_mul_r.
  assert (Be : N * (hh ^ B - 1) ^ q <= (hh ^ B - 1 + 1) ^ q) by (apply (@bernoulli 1); nia).
  replace (hh ^ B - 1 + 1) with (hh ^ B) in Be by lia.
  set (u := (hh ^ B - 1) ^ q) in *. set (v := (hh ^ B) ^ q) in *.
  rewrite (Nat.mul_comm B q). set (d := distance _ _) in *. clearbody d u v. nia.
Qed.

Theorem forgetting s t : Inv s -> Inv t -> forgets m D s t P.
Proof using All.
  intros Is It N. destruct (spread N) as (k0 & S). exists k0. intros k Hk.
  rewrite !arrivals_ways, powers_length by auto. apply S; auto.
Qed.

(** ** The limit, from samples whose distribution the steps keep *)

Lemma sums_distance {X} (f : X -> nat) a c l N : (forall x, In x l -> N * distance (f x) a <= c) ->
  N * distance (sum_over f l) (length l * a) <= length l * c.
Proof.
  induction l as [|x l IH]; intros Hx; [cbn; lia|]. rewrite sum_over_cons. cbn [length Nat.mul].
  pose proof (Hx x (or_introl eq_refl)) as H1.
  assert (H2 : N * distance (sum_over f l) (length l * a) <= length l * c) by (apply IH; intros; apply Hx; simpl; auto).
  unfold distance in *. set (u := sum_over f l) in *. set (v := length l * a) in *. clearbody u v.
  assert (T : (f x + u - (a + v)) + (a + v - (f x + u)) <= (f x - a + (a - f x)) + (u - v + (v - u))) by lia.
  nia.
Qed.

Theorem limit_from_samples (L : list St) num s : Inv s -> Forall Inv L -> L <> [] ->
  (forall k, sum_over (ways P k) L = num * hh ^ k) -> tends_to num (length L) m D s P.
Proof using All.
  intros Is FL NL Sm. rewrite Forall_forall in FL. split; [destruct L; [congruence|cbn; lia]|].
  intros N. destruct (spread N) as (k0 & S). exists k0. intros k Hk. rewrite arrivals_ways, powers_length by auto.
  rewrite <- Sm, distance_sym. apply sums_distance. intros x Hx. apply S; auto.
Qed.

Theorem limit_from_chain (randomize : St -> rng -> outcome (St * rng)) (cd : nat -> list (list nat)) e num s :
  local (randomize e) -> (forall k, cd (S k) = flat_map (fun d => map (app d) D) (cd k)) ->
  (forall d, In d (cd 0) -> exists s', randomize e d = Done (s', []) /\ Inv s') -> cd 0 <> [] ->
  (forall k, count (fun d => ends P (sample_and_steps randomize m k e d)) (cd k) = num * hh ^ k) ->
  Inv s -> tends_to num (length (cd 0)) m D s P.
Proof using All.
  intros Lr Hcd Hr Ne Hc Is.
  set (samp := fun d => match randomize e d with Done (s', _) => s' | _ => e end).
  replace (length (cd 0)) with (length (map samp (cd 0))) by apply map_length.
  assert (Is' : forall d, In d (cd 0) -> Inv (samp d)).
  { intros d Hd. destruct (Hr d Hd) as (s' & E & I). unfold samp. rewrite E. auto. }
  apply limit_from_samples; auto.
  - apply Forall_forall. intros x Hx. apply in_map_iff in Hx as (d & <- & Hd). auto.
  - destruct (cd 0); [congruence|discriminate].
  - intros k. rewrite <- Hc, sum_over_map. unfold count. rewrite length_filter_sum.
    rewrite (chain_sum Hcd k). apply sum_over_ext. intros d Hd.
    rewrite <- arrivals_ways by auto. unfold arrivals, count. rewrite length_filter_sum.
    apply sum_over_ext. intros u _. unfold sample_and_steps. destruct (Hr d Hd) as (s' & E & I).
    rewrite (Lr _ _ _ E u). cbn [bind app]. unfold samp. rewrite E.
    destruct (m_steps m k s' u) as [[[l s2] [|? ?]]| | |]; auto.
Qed.

End Chain.
