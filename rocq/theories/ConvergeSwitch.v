(** The chain of [ConfigurationModel] forgets its start. *)
From Verif Require BalanceFixed.
From Verif Require Import Base BaseFacts Sums Containers ContainerSpec ContainerFacts Graph GraphSpec GraphFacts GraphOps
  Rng RngFacts Runs Markov EnsembleFacts Config ConfigSpec ConfigFacts ConfigRun ConfigStep ErMFacts UniformSpec UniformFacts TransitivityFacts PlaceFacts
  SwitchSpec SwitchFacts SwitchStep Properties_Switch BalanceSpec BalanceFacts
  SurelyFacts FairSpec ConvergeSpec ConvergeFacts ConvergeBack.
Set Implicit Arguments.
Unset Strict Implicit.
Local Open Scope nat_scope.

(** *** Sublists *)

Lemma filter_sublist {X} (f : X -> bool) l : In (filter f l) (sublists l).
Proof.
  induction l as [|x l IH]; cbn [filter sublists]; [simpl; auto|]. apply in_app_iff.
  destruct (f x); [left; apply in_map; auto|right; auto].
Qed.

Lemma sublist_incl {X} (l s : list X) : In s (sublists l) -> incl s l.
Proof.
  revert s. induction l as [|x l IH]; intros s H; cbn [sublists] in H.
  - destruct H as [<-|[]]. apply incl_refl.
  - apply in_app_iff in H as [H|H].
    + apply in_map_iff in H as (t & <- & H). apply IH in H. intros y [<-|Hy]; simpl; auto.
    + apply IH in H. intros y Hy. simpl; auto.
Qed.

Lemma sublist_NoDup {X} (l s : list X) : NoDup l -> In s (sublists l) -> NoDup s.
Proof.
  intros N. revert s. induction N as [|x l Nx N IH]; intros s H; cbn [sublists] in H.
  - destruct H as [<-|[]]. constructor.
  - apply in_app_iff in H as [H|H]; auto. apply in_map_iff in H as (t & <- & H). constructor; auto.
    intros K. apply Nx. apply (sublist_incl H K).
Qed.

Lemma sublists_NoDup {X} (l : list X) : NoDup l -> NoDup (sublists l).
Proof.
  induction 1 as [|x l Nx N IH]; cbn [sublists]; [repeat constructor; auto|].
  apply NoDup_app_iff. split; [|split]; auto.
  - apply FinFun.Injective_map_NoDup; auto. intros a b E. congruence.
  - intros s H K. apply in_map_iff in H as (t & <- & H). apply sublist_incl in K. apply Nx, K. simpl; auto.
Qed.

(** A sublist is what its members select. *)
Lemma sublist_select {X} (f : X -> bool) (l s : list X) : NoDup l -> In s (sublists l) ->
  (forall x, In x l -> (f x = true <-> In x s)) -> filter f l = s.
Proof.
  intros N. revert s. induction N as [|x l Nx N IH]; intros s H E; cbn [sublists] in H.
  - destruct H as [<-|[]]. auto.
  - cbn [filter]. apply in_app_iff in H as [H|H].
    + apply in_map_iff in H as (t & <- & H). assert (F : f x = true) by (apply E; simpl; auto). rewrite F. f_equal.
      apply IH; auto. intros y Hy. rewrite E by (simpl; auto). cbn [In]. split; [|auto]. intros [->|?]; auto. contradiction.
    + destruct (f x) eqn:F; [|apply IH; auto; intros y Hy; apply E; simpl; auto].
      apply E in F; [|simpl; auto]. apply (sublist_incl H) in F. contradiction.
Qed.

(** *** Edge lists as relations *)

Definition member (l : list (nat * nat)) (x y : nat) : bool :=
  existsb (fun ij => (fst ij =? Nat.min x y) && (snd ij =? Nat.max x y)) l.

Lemma member_In l x y : member l x y = true <-> In (Nat.min x y, Nat.max x y) l.
Proof.
  unfold member. rewrite existsb_exists. split.
  - intros ([i j] & I & E). cbn [fst snd] in E. rewrite andb_true_iff, !Nat.eqb_eq in E. destruct E as [<- <-]. auto.
  - intros I. eexists. split; [exact I|]. cbn [fst snd]. rewrite !Nat.eqb_refl. auto.
Qed.

Lemma member_proper n l : incl l (pairs_below n) -> proper n (member l).
Proof.
  intros H. split; [|split].
  - intros x y K. apply member_In, H, In_pairs_below in K. lia.
  - intros x y. unfold member. rewrite Nat.min_comm, Nat.max_comm. auto.
  - intros x. apply not_true_iff_false. rewrite member_In. intros K. apply H, In_pairs_below in K. lia.
Qed.

Lemma member_degree n l x : NoDup l -> incl l (pairs_below n) -> count (member l x) (seq 0 n) = edges_at l x.
Proof.
  intros N H. unfold count. rewrite length_filter_sum.
  rewrite (@sum_over_ext _ _ (fun y => sum_over (fun ij => b2n ((fst ij =? Nat.min x y) && (snd ij =? Nat.max x y))) l)).
  2:{ intros y _. clear H. unfold member. induction N as [|[i j] l Nx N IH]; auto. cbn [existsb]. rewrite sum_over_cons, <- IH.
      cbn [fst snd]. destruct (Nat.eqb_spec i (Nat.min x y)) as [E1|], (Nat.eqb_spec j (Nat.max x y)) as [E2|]; cbn [andb orb b2n]; auto.
      replace (existsb _ l) with false; auto. symmetry. apply not_true_iff_false. intros K. apply member_In in K.
      rewrite <- E1, <- E2 in K. contradiction. }
  rewrite sum_over_exchange. unfold edges_at, count. rewrite length_filter_sum. apply sum_over_ext. intros [i j] I.
  apply H, In_pairs_below in I. cbn [fst snd].
  assert (One : forall (f : nat -> bool) a, a < n -> f a = true -> (forall b, f b = true -> b = a) -> sum_over (fun y => b2n (f y)) (seq 0 n) = 1).
  { intros f a Ha Fa U. rewrite <- length_filter_sum, (@filter_single _ f a); auto; [apply seq_NoDup|apply in_seq; lia]. }
  destruct (Nat.eqb_spec i x) as [->|Ni]; [|destruct (Nat.eqb_spec j x) as [->|Nj]]; cbn [orb b2n].
  - apply One with (a := j); [lia| |intros y]; rewrite andb_true_iff, !Nat.eqb_eq; lia.
  - apply One with (a := i); [lia| |intros y]; rewrite andb_true_iff, !Nat.eqb_eq; lia.
  - apply sum_over_zero. intros y _.
    destruct (Nat.eqb_spec i (Nat.min x y)), (Nat.eqb_spec j (Nat.max x y)); auto. lia.
Qed.

Section Switch.
Context {T : Type}.
Variables (p : profile) (v b : list nat) (M : nat).

Local Notation n := (length v).
Local Notation all := (rolls [list_sum v - 1; list_sum v; M; M]).
Local Notation go := (nxt (cm_m_step (T := T) p)).

Definition first_of (t1 t2 : nat) : nat := nth (if t1 =? t2 then length b - 1 else t1) b 0.
Definition differ (d : list nat) : bool :=
  match d with t1 :: t2 :: _ => negb (first_of t1 t2 =? nth t2 b 0) | _ => false end.
Definition D : list (list nat) := filter differ all.

Definition cmi (e : config T) : Prop := cm_ok v e /\ cm_backup e = b.
Definition cmeqv (x y : config T) : bool := same_edges (cm_graph x) (cm_graph y).

(** *** The draws *)

Lemma In_all d : In d all <-> exists t1 t2 r1 r2, d = [t1; t2; r1; r2] /\
  t1 < list_sum v - 1 /\ t2 < list_sum v /\ r1 < M /\ r2 < M.
Proof.
  split.
  - intros I. apply rolls_In in I.
    repeat match goal with K : Forall2 _ _ _ |- _ => inversion K; clear K; subst end. do 4 eexists. splits; eauto.
  - intros (t1 & t2 & r1 & r2 & -> & H). apply rolls_In. repeat constructor; tauto.
Qed.

Lemma draws_made e t1 t2 r1 r2 : cmi e -> t1 < list_sum v - 1 -> t2 < list_sum v ->
  if differ [t1; t2; r1; r2]
  then exists s e', cm_m_step p e [t1; t2; r1; r2] = Done (s, e', []) /\ cmi e'
  else forall r, cm_m_step p e [t1; t2; r1; r2] <> Done r.
Proof.
  intros [K B] H1 H2. rewrite <- (backup_length (co_backup K)) in H1, H2.
  unfold differ, first_of. rewrite <- B.
  set (x := nth (if t1 =? t2 then length (cm_backup e) - 1 else t1) (cm_backup e) 0). set (y := nth t2 (cm_backup e) 0).
  destruct (Nat.eqb_spec x y) as [E|N]; cbn [negb].
  - intros r F. rewrite (step_retry p [r1; r2] K H1 H2 E) in F. revert F. apply step_short; cbn; auto. lia.
  - assert (Ix : In x (cm_backup e)) by (apply nth_In; destruct (t1 =? t2); lia).
    assert (Iy : In y (cm_backup e)) by (apply nth_In; auto).
    destruct (container_at K Ix) as (c & _ & _ & Nx). destruct (container_at K Iy) as (c' & _ & _ & Ny).
    rewrite (step_at p r1 r2 [] K H1 H2 N). fold x y.
    match goal with |- exists s e', step_tail p e ?x ?j ?y ?l _ = _ /\ _ =>
      destruct (@step_tail_exact _ p v e x j y l K) as (s & e' & E & K' & Ef & _) end; auto.
    + apply nth_In, Nat.mod_upper_bound. intros Q. apply length_zero_iff_nil in Q. auto.
    + apply nth_In, Nat.mod_upper_bound. intros Q. apply length_zero_iff_nil in Q. auto.
    + exists s, e'. split; auto. split; auto. rewrite <- B. destruct s as [|[? ?] [? ?]]; cbn in Ef; [subst; auto|].
      destruct Ef as (_ & _ & _ & _ & _ & _ & _ & _ & Q). tauto.
Qed.

Lemma D_taken e : cmi e -> D = taken (cm_m_step p) e all.
Proof.
  intros I. unfold D, taken. apply filter_ext_in. intros d Hd. apply In_all in Hd as (t1 & t2 & r1 & r2 & -> & H1 & H2 & _).
  pose proof (@draws_made e t1 t2 r1 r2 I H1 H2) as S. destruct (differ _).
  - destruct S as (s & e' & -> & _). auto.
  - destruct (cm_m_step p e _) as [[[s e'] [|? ?]]| | |]; auto. destruct (S _ eq_refl).
Qed.

Lemma cm_step_D e d : cmi e -> In d D -> exists s e', cm_m_step p e d = Done (s, e', []) /\ cmi e'.
Proof.
  intros I Hd. apply filter_In in Hd as [Hd F]. apply In_all in Hd as (t1 & t2 & r1 & r2 & -> & H1 & H2 & _).
  pose proof (@draws_made e t1 t2 r1 r2 I H1 H2) as S. rewrite F in S. auto.
Qed.

Lemma loop_local {S X} (body : S -> rng -> outcome ((S + X) * rng)) : (forall s, local (body s)) ->
  forall f s rs x rs' k rest, loop f body s rs = Done (x, rs') -> loop (f + k) body s (rs ++ rest) = Done (x, rs' ++ rest).
Proof.
  intros Lb. induction f as [|f IH]; intros s rs x rs' k rest E; [discriminate|]. cbn [loop plus] in *.
  apply bind_done in E as ([[s'|y] rs1] & E1 & E); rewrite (Lb _ _ _ _ E1 rest); cbn [bind]; auto.
  injection E as <- <-. auto.
Qed.

Lemma choose_unwrap_local {X} (l : list X) : local (choose_unwrap l).
Proof.
  unfold choose_unwrap. apply (local_bind (@local_gen_range _)). intros i. apply local_pure. intros x. apply local_done.
Qed.

Lemma round_local (l : list nat) s : local (cm_draw_round l s).
Proof.
  unfold cm_draw_round. apply (@local_bind _ _ (choose_two l)).
  - unfold choose_two. destruct (length l) as [|[|k]]; [apply local_done| |].
    + apply (local_bind (@local_gen_range _)). intros t. apply local_pure. intros x. apply local_done.
    + apply (local_bind (@local_gen_range _)). intros t1. apply (local_bind (@local_gen_range _)). intros t2.
      apply local_pure. intros x. apply local_pure. intros y. apply local_done.
  - intros l2. apply local_pure. intros x. apply local_pure. intros y. apply local_if; apply local_done.
Qed.

Lemma cm_m_step_local (e : config T) : local (cm_m_step p e).
Proof.
  intros rs x rs' E rest. unfold cm_m_step in *. apply bind_done in E as ([[v0 v1] rs1] & E1 & E).
  pose proof (@loop_local _ _ _ (@round_local (cm_backup e)) _ _ _ _ _ (length rest) rest E1) as E2.
  rewrite app_length. replace (S (length rs + length rest)) with (S (length rs) + length rest) by lia. rewrite E2. cbn [bind].
  clear E1 E2. apply bind_done in E as (c0 & -> & E). cbn [bind]. apply bind_done in E as ([j rs2] & E1 & E).
  rewrite (choose_unwrap_local E1 rest). cbn [bind]. apply bind_done in E as (c1 & -> & E). cbn [bind].
  apply bind_done in E as ([l rs3] & E2 & E). rewrite (choose_unwrap_local E2 rest). cbn [bind].
  destruct (_ || _); [injection E as <- <-; auto|].
  apply bind_done in E as ([r1 g1] & -> & E). cbn [bind]. destruct r1; [|injection E as <- <-; auto].
  apply bind_done in E as ([r2 g2] & -> & E). cbn [bind]. destruct r2.
  - apply bind_done in E as (g3 & -> & E). cbn [bind]. apply bind_done in E as (g4 & -> & E). cbn [bind]. injection E as <- <-; auto.
  - apply bind_done in E as (g3 & -> & E). cbn [bind]. injection E as <- <-; auto.
Qed.

(** *** States *)

Lemma cm_adjb x y : cmi x -> cmi y -> (cmeqv x y = true <-> forall i j, adjb (cm_graph x) i j = adjb (cm_graph y) i j).
Proof.
  intros [K _] [K' _]. unfold cmeqv. apply same_adjb; try apply (co_simple K); try apply (co_simple K').
  rewrite (proj1 (co_degrees K)), (proj1 (co_degrees K')). auto.
Qed.

Lemma cmeqv_refl x : cmi x -> cmeqv x x = true.
Proof. intros I. apply cm_adjb; auto. Qed.

Lemma cmeqv_sym x y : cmi x -> cmi y -> cmeqv x y = true -> cmeqv y x = true.
Proof. intros I I'. rewrite !cm_adjb by auto. intros H i j. auto. Qed.

Lemma cmeqv_trans x y z : cmi x -> cmi y -> cmi z -> cmeqv x y = true -> cmeqv y z = true -> cmeqv x z = true.
Proof. intros I I' I''. rewrite !cm_adjb by auto. intros H H' i j. rewrite H. auto. Qed.

Hypothesis HS : 0 < list_sum v.
Hypothesis HM : 0 < M.
Hypothesis DM : forall d, In d v -> d <> 0 -> exists q, M = q * d.

Lemma cm_count x c : cmi x -> cmi c -> cmeqv x c = false ->
  count (fun d => cmeqv c (go x d)) D = M * M * switches (cm_graph x) (cm_graph c).
Proof using HS HM DM.
  intros I I' F. pose proof I as [K B]. pose proof I' as [K' _].
  rewrite <- (C82_step p v x (cm_graph c) M K (co_simple K') (proj1 (co_degrees K')) F DM).
  unfold count, D. rewrite !length_filter_sum, sum_over_filter. apply sum_over_ext. intros d Hd.
  apply In_all in Hd as (t1 & t2 & r1 & r2 & -> & H1 & H2 & _).
  pose proof (@draws_made x t1 t2 r1 r2 I H1 H2) as S. destruct (differ _); cbn [b2n].
  - destruct S as (s & e' & E & Ie). unfold nxt. rewrite E, Nat.mul_1_l. f_equal. apply eq_true_iff_eq. split; apply cmeqv_sym; auto.
  - rewrite Nat.mul_0_l. destruct (cm_m_step p x _) as [r| | |]; auto. destruct (S _ eq_refl).
Qed.

Lemma switches_ext x y (c : config T) : cmi x -> cmi y -> (forall i j, adjb (cm_graph x) i j = adjb (cm_graph y) i j) ->
  switches (cm_graph x) (cm_graph c) = switches (cm_graph y) (cm_graph c).
Proof.
  intros [K _] [K' _] E. unfold switches. rewrite (proj1 (co_degrees K)), (proj1 (co_degrees K')).
  unfold count. f_equal. apply filter_ext. intros [|a1 [|a2 [|a3 [|a4 [|]]]]]; auto. unfold switch. rewrite !E.
  rewrite (proj1 (co_degrees K)), (proj1 (co_degrees K')). f_equal. apply BalanceFixed.forallb_ext_in. intros [i j] _. rewrite E. auto.
Qed.

Lemma cm_lump x y c : cmi x -> cmi y -> cmi c -> cmeqv x y = true -> cmeqv x c = false ->
  count (fun d => cmeqv c (go x d)) D = count (fun d => cmeqv c (go y d)) D.
Proof using HS HM DM.
  intros I1 I2 I3 E F.
  assert (F' : cmeqv y c = false).
  { apply not_true_iff_false. intros Q. apply not_true_iff_false in F. apply F. apply (@cmeqv_trans x y); auto. }
  rewrite !cm_count by auto. f_equal. apply switches_ext; auto. apply cm_adjb; auto.
Qed.

Lemma cm_balance x y : cmi x -> cmi y -> cmeqv x y = false ->
  1 * count (fun d => cmeqv y (go x d)) D = 1 * count (fun d => cmeqv x (go y d)) D.
Proof using HS HM DM.
  intros I1 I2 F.
  assert (F' : cmeqv y x = false).
  { apply not_true_iff_false. intros Q. apply not_true_iff_false in F. apply F. apply cmeqv_sym; auto. }
  rewrite !cm_count by auto. do 2 f_equal. destruct I1 as [K _], I2 as [K' _].
  apply switches_sym; try apply (co_simple K); try apply (co_simple K').
  rewrite (proj1 (co_degrees K)), (proj1 (co_degrees K')). auto.
Qed.


Lemma degree_M x : nth x v 0 <> 0 -> nth x v 0 <= M.
Proof using HS HM DM.
  intros N. assert (I : In (nth x v 0) v).
  { destruct (Nat.lt_ge_cases x n) as [|G]; [apply nth_In; auto|]. rewrite nth_overflow in N by auto. congruence. }
  destruct (DM I N) as [[|q] Q]; nia.
Qed.

(** Every choice of two edges can be drawn. *)
Lemma choice e x j y l : cmi e -> adj (cm_graph e) x j -> adj (cm_graph e) y l -> x <> y ->
  exists d, In d D /\ forall rs, cm_m_step p e (d ++ rs) = step_tail p e x j y l rs.
Proof using HS HM DM.
  intros I A1 A2 N. pose proof I as [K B].
  destruct (@switch_draws T p v e x j y l K A1 A2 N) as (t1 & t2 & r1 & r2 & J & E).
  exists [t1; t2; r1; r2]. split; [|exact E]. apply rolls_In in J.
  repeat match goal with Q : Forall2 _ _ _ |- _ => inversion Q; clear Q; subst end.
  assert (Dx : nth x v 0 <> 0) by lia. assert (Dy : nth y v 0 <> 0) by lia. apply degree_M in Dx, Dy.
  apply filter_In. split; [apply In_all; exists t1, t2, r1, r2; splits; auto; lia|].
  pose proof (@draws_made e t1 t2 r1 r2 I) as S. destruct (differ _) eqn:F; auto.
  exfalso. destruct (step_tail_exact p K A1 A2 N) as (s & e' & E' & _).
  eapply S; auto. rewrite (E []). apply E'.
Qed.

Lemma an_edge e : cmi e -> exists x j, adj (cm_graph e) x j.
Proof using HS HM DM.
  intros [K B]. destruct (cm_backup e) as [|x t] eqn:Eb.
  - pose proof (backup_length (co_backup K)) as L. rewrite Eb in L. cbn in L. lia.
  - assert (I : In x (cm_backup e)) by (rewrite Eb; simpl; auto). destruct (container_at K I) as (c & _ & _ & Nx).
    exists x. unfold adj. destruct (nbrs (cm_graph e) x) as [|j l]; [congruence|]. exists j. simpl. auto.
Qed.

Lemma cm_stay x : cmi x -> exists d, In d D /\ cmeqv x (go x d) = true.
Proof using HS HM DM.
  intros I. pose proof I as [K B]. destruct (an_edge I) as (a & j & A). pose proof (co_simple K) as W.
  pose proof (sg_sym W _ _ A) as A'. assert (N : a <> j) by (intros ->; apply (sg_irrefl W _ A)).
  destruct (choice I A A' N) as (d & Id & E). exists d. split; auto. unfold nxt. specialize (E []). rewrite app_nil_r in E.
  rewrite E. destruct (step_tail_exact p K A A' N) as (s & e' & E' & K' & Ef & Cs). rewrite E'.
  destruct Cs as [[-> _]| ->]; [cbn in Ef; subst e'; apply cmeqv_refl; auto|].
  destruct Ef as (_ & _ & X & _). contradiction.
Qed.

Lemma walk_to A B : reach A B -> forall e, cmi e -> (forall x y, A x y = adjb (cm_graph e) x y) ->
  exists w, Forall (fun d => In d D) w /\ forall x y, adjb (cm_graph (walk (cm_m_step p) e w)) x y = B x y.
Proof using HS HM DM.
  induction 1 as [A B E|A x j y l B C H1 H2 IH]; intros e I Q.
  - exists []. split; auto. intros x y. cbn. rewrite <- Q. auto.
  - destruct (sw_ext Q H1) as (S1 & S2 & S3 & S4 & S5 & S6 & S7). apply adjb_spec in S1, S2. pose proof I as [K Bk].
    destruct (choice I S1 S2 S3) as (d & Id & E). destruct (cm_step_D I Id) as (s0 & e0 & E0 & I0).
    destruct (step_tail_exact p K S1 S2 S3) as (s & e' & E' & K' & Ef & Cs).
    specialize (E []). rewrite app_nil_r in E. rewrite E, E' in E0. injection E0 as <- <-.
    assert (Eg : go e d = e') by (unfold nxt; rewrite E, E'; auto).
    apply not_true_iff_false in S5, S6. rewrite adjb_spec in S5, S6.
    destruct Cs as [[-> Cs]| ->]; [tauto|]. destruct Ef as (_ & _ & _ & _ & _ & _ & Ad & _).
    destruct (IH e' I0) as (w & Fw & Ew).
    { intros a c. rewrite S7. apply eq_true_iff_eq. rewrite switched_spec, !adjb_spec, Ad. unfold ConfigSpec.ends. cbn [fst snd]. tauto. }
    exists (d :: w). split; auto. cbn [walk fold_left]. fold (walk (cm_m_step p) (go e d) w). rewrite Eg. auto.
Qed.

Lemma walk_rel e B : cmi e -> proper n B -> (forall x, count (B x) (seq 0 n) = nth x v 0) ->
  exists w, Forall (fun d => In d D) w /\ forall x y, adjb (cm_graph (walk (cm_m_step p) e w)) x y = B x y.
Proof using HS HM DM.
  intros I P Dg. pose proof I as [K _]. pose proof (co_simple K) as W. pose proof (co_degrees K) as [V De].
  apply (@walk_to (adjb (cm_graph e))); auto. apply (@all_reach n); auto.
  - rewrite <- V. apply adjb_proper; auto.
  - intros x. rewrite Dg. rewrite <- V at 1. rewrite adjb_degree, De; auto.
Qed.

Lemma cm_walk_inv e w : cmi e -> Forall (fun d => In d D) w -> cmi (walk (cm_m_step p) e w).
Proof. intros I F. apply (walk_inv cm_step_D F I). Qed.

Lemma cm_reach x y : cmi x -> cmi y -> exists w, Forall (fun d => In d D) w /\ cmeqv (walk (cm_m_step p) x w) y = true.
Proof using HS HM DM.
  intros Ix Iy. pose proof Iy as [K _]. pose proof (co_simple K) as W. pose proof (co_degrees K) as [V De].
  destruct (@walk_rel x (adjb (cm_graph y)) Ix) as (w & F & E).
  - rewrite <- V. apply adjb_proper; auto.
  - intros i. rewrite <- V at 1. rewrite adjb_degree, De; auto.
  - exists w. split; auto. apply cm_adjb; auto using cm_walk_inv.
Qed.

(** *** The edges as a list *)

Definition cm_code (e : config T) : list (nat * nat) := filter (fun ij => adjb (cm_graph e) (fst ij) (snd ij)) (pairs_below n).

Lemma cm_code_in x : cmi x -> In (cm_code x) (sublists (pairs_below n)).
Proof. intros _. apply filter_sublist. Qed.

Lemma cm_code_eqv x y : cmi x -> cmi y -> cm_code x = cm_code y -> cmeqv x y = true.
Proof.
  intros Ix Iy E. unfold cmeqv. rewrite same_edges_spec. pose proof Iy as [K _]. rewrite (proj1 (co_degrees K)).
  intros i j Hi Hj. assert (G : forall z, adj (cm_graph z) i j <-> In (i, j) (cm_code z)).
  { intros z. unfold cm_code. rewrite filter_In, In_pairs_below. cbn [fst snd]. rewrite adjb_spec. tauto. }
  rewrite !G, E. tauto.
Qed.

Lemma cm_eqv_code x y : cmi x -> cmi y -> cmeqv x y = true -> cm_code x = cm_code y.
Proof. intros Ix Iy E. rewrite cm_adjb in E by auto. apply filter_ext. intros ij. apply E. Qed.

Lemma cm_limit e g : cmi e -> cmi g ->
  tends_to 1 (length (realizations v)) (cm_m_step p) D e (cmeqv g).
Proof using HS HM DM.
  intros Ie Ig.
  assert (Dg : forall l, In l (sublists (pairs_below n)) -> forall x, count (member l x) (seq 0 n) = edges_at l x).
  { intros l Hl x. apply member_degree; [apply (sublist_NoDup (NoDup_pairs_below n) Hl)|apply sublist_incl; auto]. }
  assert (Rp : forall L, incl L (realizations v) -> exists reps, Forall cmi reps /\ map cm_code reps = L).
  { induction L as [|l L IH]; intros HL; [exists []; auto|].
    destruct IH as (reps & Fr & Er); [intros z Hz; apply HL; simpl; auto|].
    assert (Il : In l (realizations v)) by (apply HL; simpl; auto). apply filter_In in Il as [Il Fl].
    rewrite forallb_forall in Fl. pose proof (member_proper (sublist_incl Il)) as Pl.
    destruct (@walk_rel e (member l) Ie Pl) as (w & Fw & Ew).
    { intros x. rewrite Dg by auto. destruct (Nat.lt_ge_cases x n) as [Hx|Hx].
      - apply Nat.eqb_eq, Fl, in_seq. lia.
      - rewrite nth_overflow by auto. unfold edges_at, count. apply length_zero_iff_nil.
        destruct (filter _ l) as [|ij t] eqn:Ef; auto. assert (J : In ij (ij :: t)) by (simpl; auto). rewrite <- Ef in J.
        apply filter_In in J as [J Fj]. destruct ij as [i j]. apply (sublist_incl Il), In_pairs_below in J. cbn [fst snd] in Fj.
        rewrite orb_true_iff, !Nat.eqb_eq in Fj. lia. }
    exists (walk (cm_m_step p) e w :: reps). split; [constructor; auto using cm_walk_inv|]. cbn [map]. f_equal; auto.
    unfold cm_code. apply sublist_select; auto; [apply NoDup_pairs_below|]. intros [i j] Hij. cbn [fst snd].
    apply In_pairs_below in Hij. rewrite Ew, member_In. rewrite Nat.min_l, Nat.max_r by lia. tauto. }
  destruct (Rp _ (incl_refl _)) as (reps & Fr & Er).
  replace (length (realizations v)) with (sum_over (fun _ : config T => 1) reps)
    by (rewrite sum_over_const, Nat.mul_1_r, <- Er, map_length; auto).
  apply (@kinds_limit _ _ (cm_m_step p) D cmi cmeqv cm_m_step_local cm_step_D cmeqv_refl cmeqv_sym cmeqv_trans
    _ cm_code _ cm_code_in cm_code_eqv cm_lump cm_stay cm_reach (fun _ => 1)); auto.
  - apply cm_balance.
  - intros X. destruct (cm_stay Ie) as (d & Id & _). rewrite X in Id. destruct Id.
  - assert (N : NoDup (map cm_code reps)) by (rewrite Er; apply NoDup_filter, sublists_NoDup, NoDup_pairs_below).
    clear Er. unfold apart. induction Fr as [|x reps Ix Fr IH]; [constructor|]. cbn [map] in N. inversion_clear N as [|? ? Nx N'].
    constructor; auto. apply Forall_forall. intros y Iy. apply not_true_iff_false. intros E. apply Nx.
    rewrite Forall_forall in Fr. rewrite (cm_eqv_code Ix (Fr y Iy) E). apply in_map. auto.
  - intros x Ix. assert (J : In (cm_code x) (map cm_code reps)).
    { rewrite Er. apply filter_In. split; [apply cm_code_in; auto|]. apply forallb_forall. intros i _. apply Nat.eqb_eq.
      rewrite <- Dg by (apply cm_code_in; auto). pose proof Ix as [K _]. pose proof (co_simple K) as W.
      rewrite <- (proj2 (co_degrees K) i), <- adjb_degree by auto. rewrite (proj1 (co_degrees K)).
      unfold count. f_equal. apply filter_ext_in. intros j Hj. apply eq_true_iff_eq. rewrite member_In.
      unfold cm_code. rewrite filter_In, In_pairs_below, adjb_spec. cbn [fst snd].
      assert (Sy : adj (cm_graph x) (Nat.min i j) (Nat.max i j) <-> adj (cm_graph x) i j).
      { destruct (Nat.le_ge_cases i j); [rewrite Nat.min_l, Nat.max_r by auto; tauto|].
        rewrite Nat.min_r, Nat.max_l by auto. split; apply (sg_sym W). }
      rewrite Sy, <- adjb_spec. split; [tauto|]. intros A. pose proof A as A1. apply adjb_spec in A1.
      pose proof (adj_lt W A1) as [R1 R2]. rewrite (proj1 (co_degrees K)) in *.
      assert (i <> j) by (intros ->; apply (sg_irrefl W _ A1)). splits; auto; lia. }
    apply in_map_iff in J as (c & Ec & Ic). exists c. split; auto. rewrite Forall_forall in Fr. apply cm_code_eqv; auto.
Qed.

End Switch.
