(** Any two simple graphs with the same degrees are connected by switches. *)
From Verif Require Import Base BaseFacts Containers Graph GraphSpec GraphFacts UniformSpec UniformFacts SwitchSpec.
Set Implicit Arguments.
Unset Strict Implicit.

Local Notation rel := (nat -> nat -> bool).

Definition proper (n : nat) (A : rel) : Prop :=
  (forall x y, A x y = true -> x < n /\ y < n) /\ (forall x y, A x y = A y x) /\ (forall x, A x x = false).

Definition switched (A : rel) (a b c d x y : nat) : bool :=
  (A x y && negb (joins a b x y) && negb (joins c d x y)) || joins a c x y || joins b d x y.

Definition sw (A : rel) (a b c d : nat) (B : rel) : Prop :=
  A a b = true /\ A c d = true /\ a <> c /\ b <> d /\ A a c = false /\ A b d = false /\
  forall x y, B x y = switched A a b c d x y.

Lemma joins_spec a b x y : joins a b x y = true <-> (x = a /\ y = b) \/ (x = b /\ y = a).
Proof. unfold joins. rewrite orb_true_iff, !andb_true_iff, !Nat.eqb_eq. tauto. Qed.

Lemma joins_sym a b x y : joins a b x y = joins a b y x.
Proof. apply eq_true_iff_eq. rewrite !joins_spec. tauto. Qed.

Lemma joins_swap a b x y : joins a b x y = joins b a x y.
Proof. apply eq_true_iff_eq. rewrite !joins_spec. tauto. Qed.

Lemma switched_spec A a b c d x y : switched A a b c d x y = true <->
  (A x y = true /\ ~ ((x = a /\ y = b) \/ (x = b /\ y = a)) /\ ~ ((x = c /\ y = d) \/ (x = d /\ y = c))) \/
  ((x = a /\ y = c) \/ (x = c /\ y = a)) \/ ((x = b /\ y = d) \/ (x = d /\ y = b)).
Proof.
  unfold switched. rewrite !orb_true_iff, !andb_true_iff, !negb_true_iff, <- !not_true_iff_false, !joins_spec. tauto.
Qed.

Lemma sw_distinct n A a b c d B : proper n A -> sw A a b c d B ->
  a <> b /\ c <> d /\ a <> d /\ b <> c /\ a <> c /\ b <> d.
Proof.
  intros (_ & S & I) (H1 & H2 & H3 & H4 & H5 & H6 & _).
  repeat split; auto; intros ->.
  - rewrite I in H1. discriminate.
  - rewrite I in H2. discriminate.
  - rewrite S in H1. congruence.
  - congruence.
Qed.

Lemma sw_proper n A a b c d B : proper n A -> sw A a b c d B -> proper n B.
Proof.
  intros P Hs. pose proof (sw_distinct P Hs) as Ds. destruct P as (R & S & I), Hs as (H1 & H2 & H3 & H4 & H5 & H6 & E).
  destruct (R _ _ H1), (R _ _ H2). split; [|split].
  - intros x y. rewrite E, switched_spec. intros [[Hxy _]|[[[-> ->]|[-> ->]]|[[-> ->]|[-> ->]]]]; auto.
  - intros x y. rewrite !E. unfold switched. rewrite S, !(joins_sym _ _ x y). auto.
  - intros x. apply not_true_iff_false. rewrite E, switched_spec. intros [[Hx _]|Hx]; [rewrite I in Hx; discriminate|]. intuition congruence.
Qed.

Lemma sw_sym n A a b c d B : proper n A -> sw A a b c d B -> sw B a c b d A.
Proof.
  intros P Hs. pose proof (sw_distinct P Hs) as Ds. destruct P as (R & S & I), Hs as (H1 & H2 & H3 & H4 & H5 & H6 & E).
  unfold sw. rewrite !E. repeat split; try tauto.
  - apply switched_spec. auto.
  - apply switched_spec. auto.
  - apply not_true_iff_false. rewrite switched_spec. intuition congruence.
  - apply not_true_iff_false. rewrite switched_spec. intuition congruence.
  - intros x y. apply eq_true_iff_eq. rewrite switched_spec, E, switched_spec. split.
    + intros H. destruct (A x y) eqn:Exy; [|discriminate].
      assert (Q1 : ~ ((x = a /\ y = c) \/ (x = c /\ y = a))).
      { intros [[-> ->]|[-> ->]]; [congruence|]. rewrite S in Exy. congruence. }
      assert (Q2 : ~ ((x = b /\ y = d) \/ (x = d /\ y = b))).
      { intros [[-> ->]|[-> ->]]; [congruence|]. rewrite S in Exy. congruence. }
      destruct (joins a b x y) eqn:J1; [apply joins_spec in J1; tauto|].
      destruct (joins c d x y) eqn:J2; [apply joins_spec in J2; tauto|].
      apply not_true_iff_false in J1, J2. rewrite joins_spec in J1, J2. tauto.
    + intros [[[[H _]|H] [N1 N2]]|[[[-> ->]|[-> ->]]|[[-> ->]|[-> ->]]]]; auto; try tauto; rewrite S; auto.
Qed.

(** *** Reachability *)

Inductive reach : rel -> rel -> Prop :=
| reach_refl A B : (forall x y, A x y = B x y) -> reach A B
| reach_step A a b c d B D : sw A a b c d B -> reach B D -> reach A D.

Lemma sw_ext A A' a b c d B : (forall x y, A x y = A' x y) -> sw A a b c d B -> sw A' a b c d B.
Proof.
  intros Eq (H1 & H2 & H3 & H4 & H5 & H6 & E). unfold sw. rewrite <- !Eq. repeat split; auto.
  intros x y. rewrite E. unfold switched. rewrite Eq. auto.
Qed.

Lemma reach_ext_l A A' B : (forall x y, A x y = A' x y) -> reach A B -> reach A' B.
Proof.
  intros Eq H. destruct H as [A B H|A a b c d B D H1 H2].
  - apply reach_refl. intros. rewrite <- Eq. auto.
  - eapply reach_step; eauto. eapply sw_ext; eauto.
Qed.

Lemma reach_trans A B D : reach A B -> reach B D -> reach A D.
Proof.
  induction 1 as [A B E|A a b c d B D0 H1 H2 IH]; intros H.
  - apply (reach_ext_l (A := B)); auto.
  - eapply reach_step; eauto.
Qed.

Lemma reach_sym n A B : proper n A -> reach A B -> reach B A.
Proof.
  intros P H. revert P. induction H as [A B E|A a b c d B D H1 H2 IH]; intros P.
  - apply reach_refl. auto.
  - apply (reach_trans (B := B)); [apply IH, (sw_proper P H1)|].
    eapply reach_step; [apply (sw_sym P H1)|]. apply reach_refl. auto.
Qed.

Lemma reach_proper n A B : proper n A -> reach A B -> proper n B.
Proof.
  intros P H. revert P. induction H as [A B E|A a b c d B D H1 H2 IH]; intros P.
  - destruct P as (R & S & I). split; [|split].
    + intros x y. rewrite <- E. apply R.
    + intros x y. rewrite <- !E. apply S.
    + intros x. rewrite <- E. apply I.
  - apply IH, (sw_proper P H1).
Qed.

(** *** Degrees *)

Lemma count_cons {X} (f : X -> bool) a l : count f (a :: l) = (if f a then 1 else 0) + count f l.
Proof. unfold count. cbn [filter]. destruct (f a); auto. Qed.

Lemma count_app2 {X} (f : X -> bool) l l' : count f (l ++ l') = count f l + count f l'.
Proof. unfold count. rewrite filter_app, app_length. auto. Qed.

Lemma count_ext_in {X} (f g : X -> bool) l : (forall x, In x l -> f x = g x) -> count f l = count g l.
Proof. intros H. unfold count. f_equal. apply filter_ext_in. auto. Qed.

(** One element leaves and another one enters. *)
Lemma count_exchange (f f' : nat -> bool) l u w : NoDup l -> In u l -> In w l -> u <> w ->
  f u = true -> f w = false -> f' u = false -> f' w = true ->
  (forall x, x <> u -> x <> w -> f' x = f x) -> count f' l = count f l.
Proof.
  intros N Iu Iw Nuw Fu Fw Fu' Fw' E.
  rewrite (@count_remove_one _ f (fun x => f x && negb (x =? u)) l u), (@count_remove_one _ f' (fun x => f' x && negb (x =? w)) l w); auto.
  - f_equal. apply count_ext_in. intros x _. destruct (Nat.eqb_spec x u) as [->|Nu]; [rewrite Fu', andb_false_r; auto|].
    destruct (Nat.eqb_spec x w) as [->|Nw]; [rewrite Fw, andb_false_r; auto|]. rewrite E; auto.
  - intros x _. rewrite andb_true_iff, negb_true_iff, Nat.eqb_neq. tauto.
  - intros x _. rewrite andb_true_iff, negb_true_iff, Nat.eqb_neq. tauto.
Qed.

Lemma sw_degree n A a b c d B : proper n A -> sw A a b c d B ->
  forall x, count (B x) (seq 0 n) = count (A x) (seq 0 n).
Proof.
  intros P Hs x. pose proof (sw_distinct P Hs) as (D1 & D2 & D3 & D4 & D5 & D6).
  pose proof (sw_sym P Hs) as Hs'. pose proof (sw_proper P Hs) as P'.
  destruct P as (R & S & I), Hs as (H1 & H2 & H3 & H4 & H5 & H6 & E). destruct P' as (_ & S' & _).
  destruct Hs' as (K1 & K2 & _ & _ & K5 & K6 & _).
  destruct (R _ _ H1) as [La Lb], (R _ _ H2) as [Lc Ld].
  assert (Other : forall x y, ~ ((x = a /\ y = b) \/ (x = b /\ y = a)) -> ~ ((x = c /\ y = d) \/ (x = d /\ y = c)) ->
    ~ ((x = a /\ y = c) \/ (x = c /\ y = a)) -> ~ ((x = b /\ y = d) \/ (x = d /\ y = b)) -> B x y = A x y).
  { intros x0 y0 N1 N2 N3 N4. apply eq_true_iff_eq. rewrite E, switched_spec. tauto. }
  destruct (Nat.eq_dec x a) as [->|Na]; [|destruct (Nat.eq_dec x b) as [->|Nb]; [|destruct (Nat.eq_dec x c) as [->|Nc]; [|destruct (Nat.eq_dec x d) as [->|Nd]]]].
  - apply (count_exchange (u := b) (w := c)); auto; try apply seq_NoDup; try (apply in_seq; lia).
    intros y N1 N2. apply Other; intuition congruence.
  - apply (count_exchange (u := a) (w := d)); auto; try apply seq_NoDup; try (apply in_seq; lia); try (rewrite S; auto; fail); try (rewrite S'; auto; fail).
    intros y N1 N2. apply Other; intuition congruence.
  - apply (count_exchange (u := d) (w := a)); auto; try apply seq_NoDup; try (apply in_seq; lia); try (rewrite S; auto; fail); try (rewrite S'; auto; fail).
    intros y N1 N2. apply Other; intuition congruence.
  - apply (count_exchange (u := c) (w := b)); auto; try apply seq_NoDup; try (apply in_seq; lia); try (rewrite S; auto; fail); try (rewrite S'; auto; fail).
    intros y N1 N2. apply Other; intuition congruence.
  - apply count_ext_in. intros y _. apply Other; intuition congruence.
Qed.

Lemma reach_degree n A B : proper n A -> reach A B -> forall x, count (B x) (seq 0 n) = count (A x) (seq 0 n).
Proof.
  intros P H. revert P. induction H as [A B E|A a b c d B D H1 H2 IH]; intros P x.
  - apply count_ext_in. auto.
  - rewrite IH by apply (sw_proper P H1). apply (sw_degree P H1).
Qed.

(** *** One vertex at a time *)

Definition agree (k : nat) (A B : rel) : Prop := forall x y, x < k -> A x y = B x y.

Lemma agree_col k A B n x y : proper n A -> proper n B -> agree k A B -> y < k -> A x y = B x y.
Proof. intros (_ & S & _) (_ & S' & _) H Hy. rewrite S, S'. auto. Qed.

Lemma upper_degree n k A B x : proper n A -> proper n B -> agree k A B -> k <= n ->
  count (A x) (seq 0 n) = count (B x) (seq 0 n) -> count (A x) (seq k (n - k)) = count (B x) (seq k (n - k)).
Proof.
  intros P P' H Hk E. replace n with (k + (n - k)) in E by lia. rewrite seq_app, !count_app2 in E. cbn [Nat.add] in E.
  assert (Z : count (A x) (seq 0 k) = count (B x) (seq 0 k)).
  { apply count_ext_in. intros y Hy. apply in_seq in Hy. apply (agree_col x P P' H). lia. }
  lia.
Qed.

(** A neighbour of [a] that [b] does not have. *)
Lemma spare n k A a b : proper n A -> k < n -> k < a -> a <> b -> A k a = false -> A k b = true ->
  count (A b) (seq k (n - k)) <= count (A a) (seq k (n - k)) ->
  exists c, k <= c /\ c <> b /\ A a c = true /\ A b c = false.
Proof.
  intros (R & S & I) Hk Hka Nab Ha Hb Le.
  destruct (filter (fun c => A a c && negb (A b c) && negb (c =? b)) (seq k (n - k))) as [|c t] eqn:F.
  2: { exists c. assert (Ic : In c (c :: t)) by (simpl; auto). rewrite <- F in Ic.
       apply filter_In in Ic as [Ic H]. rewrite !andb_true_iff, !negb_true_iff, Nat.eqb_neq in H. apply in_seq in Ic. repeat split; tauto. }
  exfalso.
  assert (Sub : forall c, k <= c -> A a c = true -> c <> b -> A b c = true).
  { intros c Hc H Nc. destruct (A b c) eqn:E; auto. exfalso.
    assert (Ic : In c (filter (fun c => A a c && negb (A b c) && negb (c =? b)) (seq k (n - k)))).
    { apply filter_In. split; [apply in_seq; destruct (R _ _ H); lia|]. rewrite H, E. cbn.
      apply negb_true_iff, Nat.eqb_neq; auto. }
    rewrite F in Ic. destruct Ic. }
  (* exchanging [a] and [b] makes the neighbours of [a] other neighbours of [b] than [k] *)
  set (f := fun c => if c =? b then a else c).
  assert (Inj : NoDup (map f (filter (A a) (seq k (n - k))))).
  { apply NoDup_map_in; [apply NoDup_filter, seq_NoDup|]. intros x y Hx Hy. apply filter_In in Hx as [_ Hx], Hy as [_ Hy].
    unfold f. destruct (Nat.eqb_spec x b), (Nat.eqb_spec y b); subst; auto; intros ->; congruence. }
  assert (Le2 : length (k :: map f (filter (A a) (seq k (n - k)))) <= length (filter (A b) (seq k (n - k)))).
  { apply NoDup_incl_length.
    - constructor; auto. intros Ik. apply in_map_iff in Ik as (x & E & Hx). apply filter_In in Hx as [Hx Hax].
      unfold f in E. destruct (Nat.eqb_spec x b) as [Ex|Nx]; [lia|].
      rewrite E, S in Hax. congruence.
    - intros x [<-|Hx].
      + apply filter_In. split; [apply in_seq; lia|]. rewrite S. auto.
      + apply in_map_iff in Hx as (y & <- & Hy). apply filter_In in Hy as [Hy Hay]. unfold f.
        apply in_seq in Hy. destruct (Nat.eqb_spec y b) as [->|Ny].
        * apply filter_In. split; [|rewrite S; auto]. apply in_seq. destruct (R _ _ Hay). lia.
        * apply filter_In. split; [apply in_seq; lia|]. apply Sub; auto. lia. }
  cbn [length] in Le2. rewrite map_length in Le2. unfold count in Le. lia.
Qed.

(** In [A] the neighbour [b] of [k] is exchanged for [a]. *)
Lemma improve n k A B a b : proper n A -> proper n B -> agree k A B -> k < n ->
  k < a -> k < b -> A k a = false -> A k b = true -> B k a = true -> B k b = false ->
  count (A b) (seq k (n - k)) <= count (A a) (seq k (n - k)) ->
  exists A', reach A A' /\ agree k A' B /\
    count (fun y => xorb (A' k y) (B k y)) (seq 0 n) < count (fun y => xorb (A k y) (B k y)) (seq 0 n).
Proof.
  intros P P' H Hk Ha Hb Aa Ab Ba Bb Le.
  assert (Nab : a <> b) by congruence.
  destruct (spare P Hk Ha Nab Aa Ab Le) as (c & Hc & Ncb & Aac & Abc).
  assert (Nca : c <> a) by (intros ->; rewrite (proj2 (proj2 P)) in Aac; discriminate).
  assert (Nck : c <> k) by (intros ->; rewrite (proj1 (proj2 P)) in Aac; congruence).
  set (A' := switched A k b a c).
  assert (Hs : sw A k b a c A') by (unfold sw; repeat split; auto; lia).
  exists A'. split; [eapply reach_step; [exact Hs|apply reach_refl; auto]|].
  destruct Hs as (_ & _ & _ & _ & _ & _ & E). split.
  - intros x y Hx. rewrite <- H by auto. apply eq_true_iff_eq. rewrite E, switched_spec. intuition lia.
  - assert (Row : forall y, y <> a -> y <> b -> A' k y = A k y).
    { intros y N1 N2. apply eq_true_iff_eq. rewrite E, switched_spec. intuition lia. }
    assert (Ra : A' k a = true) by (rewrite E; apply switched_spec; auto).
    assert (Rb : A' k b = false) by (apply not_true_iff_false; rewrite E, switched_spec; intuition lia).
    destruct P' as (R' & _). destruct P as (R & _). destruct (R _ _ Ab), (R' _ _ Ba).
    rewrite (@count_remove_one _ (fun y => xorb (A k y) (B k y)) (fun y => xorb (A k y) (B k y) && negb (y =? a)) (seq 0 n) a).
    + apply Nat.lt_succ_r. unfold count. apply NoDup_incl_length; [apply NoDup_filter, seq_NoDup|].
      intros y Hy. apply filter_In in Hy as [I Hy]. apply filter_In. split; auto.
      destruct (Nat.eqb_spec y a) as [->|Na]; [rewrite Ra, Ba in Hy; discriminate|].
      destruct (Nat.eqb_spec y b) as [->|Nb]; [rewrite Rb, Bb in Hy; discriminate|].
      rewrite <- Row, Hy by auto. auto.
    + apply seq_NoDup.
    + apply in_seq. lia.
    + rewrite Aa, Ba. auto.
    + intros y _. rewrite andb_true_iff, negb_true_iff, Nat.eqb_neq. tauto.
Qed.

Lemma count_pos {X} (f : X -> bool) l : 0 < count f l -> exists x, In x l /\ f x = true.
Proof.
  unfold count. intros H. destruct (filter f l) as [|x t] eqn:E; [cbn in H; lia|].
  exists x. apply filter_In. rewrite E. simpl; auto.
Qed.

(** Two sets of the same size that differ have an element each that the other one lacks. *)
Lemma both_ways (f g : nat -> bool) l : count f l = count g l -> 0 < count (fun y => xorb (f y) (g y)) l ->
  exists a b, In a l /\ In b l /\ f a = false /\ g a = true /\ f b = true /\ g b = false.
Proof.
  intros E H.
  pose proof (count_split f g l) as E1. pose proof (count_split g f l) as E2.
  assert (E3 : count (fun x => f x && g x) l = count (fun x => g x && f x) l)
    by (apply count_ext_in; intros; apply andb_comm).
  assert (K : 0 < count (fun x => f x && negb (g x)) l /\ 0 < count (fun x => g x && negb (f x)) l).
  { destruct (Nat.eq_dec (count (fun x => f x && negb (g x)) l) 0) as [Z|Z]; [|lia]. exfalso.
    assert (Z2 : count (fun x => g x && negb (f x)) l = 0) by lia.
    apply count_pos in H as (x & I & Hx).
    assert (P : forall h : nat -> bool, h x = true -> count h l = 0 -> False).
    { intros h Hh Hc. unfold count in Hc. apply length_zero_iff_nil in Hc.
      assert (Ix : In x (filter h l)) by (apply filter_In; auto). rewrite Hc in Ix. destruct Ix. }
    destruct (f x) eqn:Fx, (g x) eqn:Gx; try discriminate.
    - apply (P (fun x => f x && negb (g x))); auto. rewrite Fx, Gx. auto.
    - apply (P (fun x => g x && negb (f x))); auto. rewrite Fx, Gx. auto. }
  destruct K as [K1 K2]. apply count_pos in K1 as (b & Ib & Hb), K2 as (a & Ia & Ha).
  rewrite andb_true_iff, negb_true_iff in Ha, Hb. exists a, b. tauto.
Qed.

Lemma settle n k : k < n -> forall m A B, proper n A -> proper n B -> agree k A B ->
  (forall x, count (A x) (seq 0 n) = count (B x) (seq 0 n)) ->
  count (fun y => xorb (A k y) (B k y)) (seq 0 n) <= m ->
  exists A' B', reach A A' /\ reach B B' /\ agree (S k) A' B'.
Proof.
  intros Hk. induction m as [|m IH]; intros A B P P' H D Le.
  - exists A, B. split; [apply reach_refl; auto|]. split; [apply reach_refl; auto|].
    intros x y Hx. destruct (Nat.eq_dec x k) as [->|]; [|apply H; lia].
    assert (Z : count (fun y => xorb (A k y) (B k y)) (seq 0 n) = 0) by lia.
    unfold count in Z. apply length_zero_iff_nil in Z.
    destruct (xorb (A k y) (B k y)) eqn:X; [|apply xorb_eq; auto]. exfalso.
    assert (Iy : In y (filter (fun y => xorb (A k y) (B k y)) (seq 0 n))).
    { apply filter_In. split; auto. apply in_seq. destruct P as (R & _), P' as (R' & _).
      destruct (A k y) eqn:E1; [destruct (R _ _ E1); lia|]. destruct (B k y) eqn:E2; [destruct (R' _ _ E2); lia|discriminate]. }
    rewrite Z in Iy. destruct Iy.
  - destruct (Nat.eq_dec (count (fun y => xorb (A k y) (B k y)) (seq 0 n)) 0) as [Z|Z].
    { apply (IH A B); auto. lia. }
    destruct (@both_ways (A k) (B k) (seq 0 n)) as (a & b & Ia & Ib & Aa & Ba & Ab & Bb); auto; [lia|].
    assert (Up : forall y, A k y <> B k y -> k < y).
    { intros y Ny. destruct (lt_eq_lt_dec k y) as [[L| ->]|L]; auto; exfalso; apply Ny.
      - rewrite (proj2 (proj2 P)), (proj2 (proj2 P')). auto.
      - apply (agree_col k P P' H L). }
    assert (Ka : k < a) by (apply Up; congruence). assert (Kb : k < b) by (apply Up; congruence).
    pose proof (fun x => upper_degree P P' H (Nat.lt_le_incl _ _ Hk) (D x)) as U.
    destruct (Nat.le_ge_cases (count (A b) (seq k (n - k))) (count (A a) (seq k (n - k)))) as [L|L].
    + destruct (improve P P' H Hk Ka Kb Aa Ab Ba Bb L) as (A1 & R1 & H1 & L1).
      destruct (IH A1 B) as (A' & B' & R2 & R3 & H2); auto.
      * apply (reach_proper P R1).
      * intros x. rewrite (reach_degree P R1). auto.
      * lia.
      * exists A', B'. split; auto. apply (reach_trans R1 R2).
    + assert (Hsym : agree k B A) by (intros x y Hx; symmetry; auto).
      rewrite !U in L.
      destruct (improve P' P Hsym Hk Kb Ka Bb Ba Ab Aa L) as (B1 & R1 & H1 & L1).
      destruct (IH A B1) as (A' & B' & R2 & R3 & H2); auto.
      * apply (reach_proper P' R1).
      * intros x y Hx. symmetry. auto.
      * intros x. rewrite (reach_degree P' R1). auto.
      * assert (Q : forall X Y, count (fun y => xorb (X k y) (Y k y)) (seq 0 n) = count (fun y => xorb (Y k y) (X k y)) (seq 0 n))
          by (intros X Y; apply count_ext_in; intros; apply xorb_comm).
        rewrite (Q A B1). rewrite (Q B A) in L1. lia.
      * exists A', B'. split; auto. split; auto. apply (reach_trans R1 R3).
Qed.

Theorem all_reach n A B : proper n A -> proper n B ->
  (forall x, count (A x) (seq 0 n) = count (B x) (seq 0 n)) -> reach A B.
Proof.
  intros P P' D.
  assert (Go : forall j k A B, k + j = n -> proper n A -> proper n B -> agree k A B ->
    (forall x, count (A x) (seq 0 n) = count (B x) (seq 0 n)) -> reach A B).
  { clear. induction j as [|j IH]; intros k A B Hk P P' H D.
    - apply reach_refl. intros x y. destruct (Nat.lt_ge_cases x k) as [L|L]; [apply H; auto|].
      destruct P as (R & _), P' as (R' & _).
      destruct (A x y) eqn:E1; [destruct (R _ _ E1); lia|]. destruct (B x y) eqn:E2; [destruct (R' _ _ E2); lia|auto].
    - assert (Lk : k < n) by lia.
      destruct (settle Lk P P' H D (Nat.le_refl _)) as (A' & B' & R1 & R2 & H').
      apply (reach_trans R1). apply (reach_trans (B := B')); [|apply (reach_sym P' R2)].
      apply (IH (S k)); [lia|apply (reach_proper P R1)|apply (reach_proper P' R2)|auto|].
      intros x. rewrite (reach_degree P R1), (reach_degree P' R2). auto. }
  apply (Go n 0); auto. intros x y Hx. lia.
Qed.
