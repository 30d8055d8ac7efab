(** Chains with weights for which every step is as likely forth as back. *)
From Verif Require Import Base BaseFacts Sums GraphSpec GraphFacts Rng Markov UniformSpec UniformFacts BalanceSpec BalanceFacts SurelyFacts
  FairSpec ConvergeSpec ConvergeFacts.
Set Implicit Arguments.
Unset Strict Implicit.

Section Back.
Variables (St R : Type) (m : St -> rng -> outcome (R * St * rng)) (D : list (list nat)).
Variables (Inv : St -> Prop) (eqv : St -> St -> bool).
Hypothesis loc : forall s, local (m s).
Hypothesis step : forall s d, Inv s -> In d D -> exists r s', m s d = Done (r, s', []) /\ Inv s'.
Hypothesis eqv_refl : forall x, Inv x -> eqv x x = true.
Hypothesis eqv_sym : forall x y, Inv x -> Inv y -> eqv x y = true -> eqv y x = true.
Hypothesis eqv_trans : forall x y z, Inv x -> Inv y -> Inv z -> eqv x y = true -> eqv y z = true -> eqv x z = true.

Local Notation hh := (length D).
Local Notation go := (nxt m).
Local Notation wys := (ways m D).

(** There are only so many kinds of states, and each can be reached from each and be kept. *)
Variables (X : Type) (code : St -> X) (codes : list X).
Hypothesis code_in : forall x, Inv x -> In (code x) codes.
Hypothesis code_eqv : forall x y, Inv x -> Inv y -> code x = code y -> eqv x y = true.
Hypothesis lump : forall x y c, Inv x -> Inv y -> Inv c -> eqv x y = true -> eqv x c = false ->
  count (fun d => eqv c (go x d)) D = count (fun d => eqv c (go y d)) D.
Hypothesis stay : forall x, Inv x -> exists d, In d D /\ eqv x (go x d) = true.
Hypothesis reach : forall x y, Inv x -> Inv y -> exists w, Forall (fun d => In d D) w /\ eqv (walk m x w) y = true.

Lemma go_inv x d : Inv x -> In d D -> Inv (go x d).
Proof using step. apply (nxt_inv step). Qed.

Lemma go_walk x w : Inv x -> Forall (fun d => In d D) w -> Inv (walk m x w).
Proof using step. intros. apply (walk_inv step); auto. Qed.

Lemma some_count {Y} (f : Y -> bool) l : 0 < count f l -> exists x, In x l /\ f x = true.
Proof.
  unfold count. destruct (filter f l) as [|x t] eqn:E; [cbn; lia|]. intros _. exists x.
  apply filter_In. rewrite E. simpl; auto.
Qed.

Lemma count_some {Y} (f : Y -> bool) l x : In x l -> f x = true -> 0 < count f l.
Proof.
  intros I F. unfold count. assert (J : In x (filter f l)) by (apply filter_In; auto).
  destruct (filter f l); [contradiction|cbn; lia].
Qed.

Lemma follow_one x y d : Inv x -> Inv y -> eqv x y = true -> In d D ->
  exists d', In d' D /\ eqv (go x d) (go y d') = true.
Proof using step eqv_refl eqv_sym eqv_trans lump stay.
  intros Ix Iy E Id. pose proof (go_inv Ix Id) as I1. destruct (eqv x (go x d)) eqn:S.
  - destruct (stay Iy) as (d' & Id' & E'). exists d'. split; auto.
    apply (@eqv_trans _ x); auto using go_inv. apply (@eqv_trans _ y); auto using go_inv.
  - assert (C : 0 < count (fun d' => eqv (go x d) (go x d')) D) by (apply count_some with (x := d); auto).
    rewrite (lump Ix Iy I1 E S) in C. apply some_count in C. auto.
Qed.

Lemma follow w : forall x y, Inv x -> Inv y -> eqv x y = true -> Forall (fun d => In d D) w ->
  exists w', Forall (fun d => In d D) w' /\ length w' = length w /\ eqv (walk m x w) (walk m y w') = true.
Proof using step eqv_refl eqv_sym eqv_trans lump stay.
  induction w as [|d w IH]; intros x y Ix Iy E F.
  - exists []. auto.
  - inversion_clear F as [|? ? Id Fw]. destruct (follow_one Ix Iy E Id) as (d' & Id' & E').
    destruct (IH _ _ (go_inv Ix Id) (go_inv Iy Id') E' Fw) as (w' & F' & L & E2).
    exists (d' :: w'). splits; cbn [length]; auto.
Qed.

Lemma resting k : forall x, Inv x -> exists w, Forall (fun d => In d D) w /\ length w = k /\ eqv x (walk m x w) = true.
Proof using step eqv_refl eqv_trans stay.
  induction k as [|k IH]; intros x Ix; [exists []; splits; auto; cbn; auto|].
  destruct (stay Ix) as (d & Id & E). destruct (IH _ (go_inv Ix Id)) as (w & F & L & E2).
  exists (d :: w). splits; cbn [length]; auto. apply (@eqv_trans _ (go x d)); auto using go_inv.
  apply (@go_walk x (d :: w)); auto.
Qed.

Lemma walk_app x w w' : walk m x (w ++ w') = walk m (walk m x w) w'.
Proof. apply fold_left_app. Qed.

(** A list longer than the number of codes has two places with the same code. *)
Lemma twice {Y} (f : nat -> Y) (l : list Y) k : (forall i, i <= k -> In (f i) l) -> length l <= k ->
  exists i j, i < j /\ j <= k /\ f i = f j.
Proof using X codes.
  clear. revert f l. induction k as [|k IH]; intros f l Hf Hl.
  - destruct l; [destruct (Hf 0); lia|cbn in Hl; lia].
  - pose proof (Hf (S k) (le_n _)) as I. apply in_split in I as (l1 & l2 & El).
    assert (C : (exists i, i <= k /\ f i = f (S k)) \/ forall i, i <= k -> In (f i) (l1 ++ l2) \/ f i = f (S k)).
    { right. intros i Hi. assert (J : In (f i) l) by (apply Hf; lia). rewrite El in J. apply in_app_iff in J as [J|[J|J]].
      - left. apply in_app_iff. auto.
      - right. auto.
      - left. apply in_app_iff. auto. }
    assert (C' : (exists i, i <= k /\ f i = f (S k)) \/ forall i, i <= k -> In (f i) (l1 ++ l2)).
    { destruct C as [C|C]; [auto|].
      assert (G : forall b, b <= S k -> (exists i, i < b /\ f i = f (S k)) \/ forall i, i < b -> In (f i) (l1 ++ l2)).
      { induction b as [|b IHb]; intros Hb; [right; intros; lia|]. destruct IHb as [(i & Hi & E)|G]; [lia|left; exists i; split; auto; lia|].
        destruct (C b ltac:(lia)) as [J|J].
        - right. intros i Hi. destruct (Nat.eq_dec i b) as [->|]; auto. apply G. lia.
        - left. exists b. auto. }
      destruct (G (S k) (le_n _)) as [(i & Hi & E)|G']; [left; exists i; split; auto; lia|].
      right. intros i Hi. apply G'. lia. }
    destruct C' as [(i & Hi & E)|C']; [exists i, (S k); splits; auto; lia|].
    destruct (IH f (l1 ++ l2) C') as (i & j & Hij & Hj & E).
    + rewrite El, app_length in Hl. cbn [length] in Hl. rewrite app_length. lia.
    + exists i, j. splits; auto.
Qed.

Lemma Forall_firstn {Y} (Q : Y -> Prop) l k : Forall Q l -> Forall Q (firstn k l).
Proof. intros F. rewrite <- (firstn_skipn k l) in F. apply Forall_app in F. tauto. Qed.

Lemma Forall_skipn {Y} (Q : Y -> Prop) l k : Forall Q l -> Forall Q (skipn k l).
Proof. intros F. rewrite <- (firstn_skipn k l) in F. apply Forall_app in F. tauto. Qed.

Lemma short k : forall x y w, length w <= k -> Inv x -> Inv y -> Forall (fun d => In d D) w -> eqv (walk m x w) y = true ->
  exists w', Forall (fun d => In d D) w' /\ length w' <= length codes /\ eqv (walk m x w') y = true.
Proof using step eqv_refl eqv_sym eqv_trans lump stay code_in code_eqv.
  induction k as [|k IH]; intros x y w Hk Ix Iy F E.
  - exists w. splits; auto. lia.
  - destruct (Nat.le_gt_cases (length w) (length codes)) as [|G]; [exists w; auto|].
    destruct (@twice X (fun i => code (walk m x (firstn i w))) codes (length w)) as (i & j & Hij & Hj & Ec).
    { intros i Hi. apply code_in, go_walk; auto. apply Forall_firstn; auto. }
    { lia. }
    assert (Ii : Inv (walk m x (firstn i w))) by (apply go_walk; auto; apply Forall_firstn; auto).
    assert (Ij : Inv (walk m x (firstn j w))) by (apply go_walk; auto; apply Forall_firstn; auto).
    pose proof (code_eqv Ii Ij Ec) as Eij.
    assert (Ew : walk m x w = walk m (walk m x (firstn j w)) (skipn j w)) by (rewrite <- walk_app, firstn_skipn; auto).
    destruct (@follow (skipn j w) _ _ Ij Ii (eqv_sym Ii Ij Eij) (Forall_skipn j F)) as (w' & F' & L' & E').
    assert (Fn : Forall (fun d => In d D) (firstn i w ++ w')) by (apply Forall_app; split; auto; apply Forall_firstn; auto).
    apply (IH x y (firstn i w ++ w')); auto.
    + rewrite app_length, firstn_length_le, L', skipn_length by lia. lia.
    + rewrite <- Ew in E'. rewrite <- walk_app in E'.
      apply (@eqv_trans _ (walk m x w)); auto using go_walk.
Qed.

Lemma meeting x y : Inv x -> Inv y -> exists w w',
  Forall (fun d => In d D) w /\ Forall (fun d => In d D) w' /\ length w = length codes /\ length w' = length codes /\
  eqv (walk m x w) (walk m y w') = true.
Proof using step eqv_refl eqv_sym eqv_trans lump stay reach code_in code_eqv.
  intros Ix Iy. destruct (reach Ix Iy) as (w0 & F0 & E0).
  destruct (short (le_n _) Ix Iy F0 E0) as (w & F & L & E). pose proof (go_walk Ix F) as Iw.
  destruct (@resting (length codes - length w) _ Iw) as (v & Fv & Lv & Ev).
  destruct (@resting (length codes) y Iy) as (u & Fu & Lu & Eu).
  assert (Fn : Forall (fun d => In d D) (w ++ v)) by (apply Forall_app; auto).
  exists (w ++ v), u. splits; auto.
  - rewrite app_length. lia.
  - rewrite walk_app. apply (@eqv_trans _ (walk m x w)); auto using go_walk.
    apply (@eqv_trans _ y); auto using go_walk.
Qed.

(** ** Sums over kinds *)

Definition apart (l : list St) : Prop := ForallOrdPairs (fun x y => eqv x y = false) l.

Lemma one_kind (f : St -> nat) s reps : (forall x y, Inv x -> Inv y -> eqv x y = true -> f x = f y) -> Inv s -> Forall Inv reps ->
  apart reps -> (exists c, In c reps /\ eqv c s = true) -> sum_over (fun c => b2n (eqv c s) * f c) reps = f s.
Proof using eqv_sym eqv_trans.
  intros Hf Is. induction reps as [|a reps IH]; intros F Ap (c & Ic & Ec); [destruct Ic|].
  inversion_clear F as [|? ? Ia Fr]. inversion_clear Ap as [|? ? Aa Ar]. rewrite sum_over_cons.
  destruct (eqv a s) eqn:Ea.
  - rewrite (@sum_over_ext _ _ (fun _ => 0)), sum_over_const.
    + cbn [b2n]. rewrite (Hf _ _ Ia Is Ea). lia.
    + intros z Iz. rewrite Forall_forall in Aa, Fr. destruct (eqv z s) eqn:Ez; auto.
      specialize (Aa z Iz). rewrite (eqv_trans Ia Is (Fr z Iz) Ea) in Aa; [discriminate|apply eqv_sym; auto].
  - cbn [b2n]. rewrite IH; auto. destruct Ic as [->|Ic]; [congruence|eauto].
Qed.

Lemma kinds_sum (f : St -> nat) l reps : (forall x y, Inv x -> Inv y -> eqv x y = true -> f x = f y) -> Forall Inv l -> Forall Inv reps ->
  apart reps -> (forall s, In s l -> exists c, In c reps /\ eqv c s = true) ->
  sum_over f l = sum_over (fun c => count (eqv c) l * f c) reps.
Proof using eqv_sym eqv_trans.
  intros Hf Fl Fr Ap Cv. induction l as [|s l IH].
  - symmetry. apply sum_over_zero. auto.
  - inversion_clear Fl as [|? ? Is Fl']. rewrite sum_over_cons, IH by (auto; intros; apply Cv; simpl; auto).
    rewrite <- (one_kind Hf Is Fr Ap (Cv s (or_introl eq_refl))), <- sum_over_plus. apply sum_over_ext. intros c _.
    unfold count. cbn [filter]. destruct (eqv c s); cbn [b2n length]; lia.
Qed.

Fixpoint thin (l : list St) : list St :=
  match l with
  | [] => []
  | x :: l => if existsb (fun y => eqv y x) (thin l) then thin l else x :: thin l
  end.

Lemma thin_In l x : In x (thin l) -> In x l.
Proof.
  induction l as [|y l IH]; cbn [thin]; auto. destruct (existsb _ _); simpl; tauto.
Qed.

Lemma thin_apart l : Forall Inv l -> apart (thin l).
Proof using eqv_sym.
  induction 1 as [|x l Ix Fl IH]; cbn [thin]; [constructor|]. destruct (existsb _ _) eqn:E; auto.
  constructor; auto. apply Forall_forall. intros y Iy. apply not_true_iff_false. intros K.
  enough (existsb (fun y => eqv y x) (thin l) = true) by congruence. apply existsb_exists. exists y. split; auto.
  rewrite Forall_forall in Fl. apply eqv_sym; auto. apply Fl, thin_In; auto.
Qed.

Lemma thin_covers l : Forall Inv l -> forall s, In s l -> exists c, In c (thin l) /\ eqv c s = true.
Proof using eqv_refl.
  induction 1 as [|x l Ix Fl IH]; intros s Is; [destruct Is|]. cbn [thin].
  destruct (existsb _ _) eqn:E; destruct Is as [->|Is]; auto.
  - apply existsb_exists in E as (y & Iy & Ey). eauto.
  - exists s. split; [simpl; auto|auto].
  - destruct (IH s Is) as (c & Ic & Ec). exists c. simpl. auto.
Qed.

(** ** Weights *)

Variable wgt : St -> nat.
Hypothesis wgt_pos : forall x, Inv x -> 0 < wgt x.
Hypothesis wgt_eqv : forall x y, Inv x -> Inv y -> eqv x y = true -> wgt x = wgt y.
Hypothesis balance : forall x y, Inv x -> Inv y -> eqv x y = false ->
  wgt x * count (fun d => eqv y (go x d)) D = wgt y * count (fun d => eqv x (go y d)) D.

Lemma eqv_left x y z : Inv x -> Inv y -> Inv z -> eqv x y = true -> eqv z x = eqv z y.
Proof using eqv_sym eqv_trans. intros Ix Iy Iz E. apply eq_true_iff_eq. split; intros K; eauto. Qed.

Lemma eqv_right x y z : Inv x -> Inv y -> Inv z -> eqv x y = true -> eqv x z = eqv y z.
Proof using eqv_sym eqv_trans. intros Ix Iy Iz E. apply eq_true_iff_eq. split; intros K; eauto. Qed.

Lemma count_sum {Y} (f : Y -> bool) l : count f l = sum_over (fun x => b2n (f x)) l.
Proof. unfold count. apply length_filter_sum. Qed.

Lemma balance_all x y : Inv x -> Inv y ->
  wgt x * count (fun d => eqv y (go x d)) D = wgt y * count (fun d => eqv x (go y d)) D.
Proof using step eqv_refl eqv_sym eqv_trans lump wgt_eqv balance.
  intros Ix Iy. destruct (eqv x y) eqn:E; auto. rewrite (wgt_eqv Ix Iy E). f_equal. rewrite !count_sum.
  rewrite (@next_sums _ _ m D Inv eqv step eqv_refl eqv_sym eqv_trans lump x y (fun s => b2n (eqv y s))); auto.
  - apply sum_over_ext. intros d Id. f_equal. symmetry. apply eqv_right; auto using go_inv.
  - intros u v Iu Iv Euv. f_equal. apply eqv_left; auto.
Qed.

Lemma wys_eqv g k x y : Inv g -> Inv x -> Inv y -> eqv x y = true -> wys (eqv g) k x = wys (eqv g) k y.
Proof using step eqv_refl eqv_sym eqv_trans lump.
  intros Ig Ix Iy E. apply (@ways_eqv _ _ m D Inv eqv step eqv_refl eqv_sym eqv_trans lump (eqv g)); auto.
  intros u v Iu Iv Euv. apply eqv_left; auto.
Qed.

Lemma wys_target g h k x : Inv g -> Inv h -> Inv x -> eqv g h = true -> wys (eqv g) k x = wys (eqv h) k x.
Proof using step eqv_sym eqv_trans.
  intros Ig Ih. revert x. induction k as [|k IH]; intros x Ix E; cbn [ways].
  - f_equal. apply eqv_right; auto.
  - apply sum_over_ext. intros d Id. apply IH; auto using go_inv.
Qed.

Lemma wys_last P k x : wys P (S k) x = sum_over (fun w => count (fun d => P (go (walk m x w) d)) D) (paths D k).
Proof.
  replace (S k) with (k + 1) by lia. rewrite ways_split. apply sum_over_ext. intros w _. cbn [ways]. rewrite count_sum. auto.
Qed.

Lemma wys_count P k x : wys P k x = count P (map (walk m x) (paths D k)).
Proof.
  rewrite count_sum, sum_over_map. replace k with (k + 0) at 1 by lia. rewrite ways_split. auto.
Qed.

Theorem back k : forall x g, Inv x -> Inv g -> wgt x * wys (eqv g) k x = wgt g * wys (eqv x) k g.
Proof using step eqv_refl eqv_sym eqv_trans lump wgt_eqv balance.
  induction k as [|k IH]; intros x g Ix Ig.
  - cbn [ways]. destruct (eqv g x) eqn:E.
    + rewrite (wgt_eqv Ig Ix E), (eqv_sym Ig Ix E). auto.
    + destruct (eqv x g) eqn:E'; [rewrite (eqv_sym Ix Ig E') in E; discriminate|cbn [b2n]; lia].
  - set (l1 := map (go x) D). set (l2 := map (walk m g) (paths D k)).
    assert (F1 : Forall Inv l1) by (apply Forall_forall; intros s Hs; apply in_map_iff in Hs as (d & <- & Id); auto using go_inv).
    assert (F2 : Forall Inv l2) by (apply Forall_forall; intros s Hs; apply in_map_iff in Hs as (w & <- & Iw); apply go_walk; eauto using paths_draws).
    assert (F : Forall Inv (l1 ++ l2)) by (apply Forall_app; auto).
    set (reps := thin (l1 ++ l2)).
    assert (Fr : Forall Inv reps) by (rewrite Forall_forall in *; intros s Hs; apply F, thin_In; auto).
    pose proof (thin_apart F : apart reps) as Ap. pose proof (thin_covers F) as Cv. fold reps in Cv.
    transitivity (wgt x * sum_over (fun c => count (eqv c) l1 * wys (eqv g) k c) reps).
    { f_equal. rewrite <- (@kinds_sum (fun c => wys (eqv g) k c) l1 reps); auto.
      - unfold l1. rewrite sum_over_map. reflexivity.
      - intros u v Iu Iv E. apply wys_eqv; auto.
      - intros s Hs. apply Cv, in_app_iff. auto. }
    transitivity (wgt g * sum_over (fun c => count (eqv c) l2 * count (fun d => eqv x (go c d)) D) reps).
    2:{ f_equal. rewrite <- (@kinds_sum (fun c => count (fun d => eqv x (go c d)) D) l2 reps); auto.
      - unfold l2. rewrite wys_last, sum_over_map. reflexivity.
      - intros u v Iu Iv E. rewrite !count_sum.
        apply (@next_sums _ _ m D Inv eqv step eqv_refl eqv_sym eqv_trans lump u v (fun s => b2n (eqv x s))); auto.
        intros a b Ia Ib Eab. f_equal. apply eqv_left; auto.
      - intros s Hs. apply Cv, in_app_iff. auto. }
    rewrite <- !sum_over_mul. apply sum_over_ext. intros c Ic. rewrite Forall_forall in Fr. pose proof (Fr c Ic) as Hc.
    unfold l1, l2. rewrite count_map, <- (wys_count (eqv c) k g).
    pose proof (balance_all Ix Hc) as B. pose proof (IH c g Hc Ig) as B'.
    set (u := count (fun d => eqv c (go x d)) D) in *. set (v := count (fun d => eqv x (go c d)) D) in *.
    rewrite !Nat.mul_assoc, B. transitivity (v * (wgt c * wys (eqv g) k c)); [ring|]. rewrite B'. ring.
Qed.

Theorem ratio_limit s g h : D <> [] -> Inv s -> Inv g -> Inv h -> tends_to_ratio (wgt g) (wgt h) m D s (eqv g) (eqv h).
Proof using All.
  intros Ne Is Ig Ih N.
  destruct (@spread _ _ m D Inv eqv step Ne eqv_refl eqv_sym eqv_trans lump (eqv s)
    ltac:(intros u v Iu Iv E; apply eqv_left; auto) _ meeting (N * (wgt g * wgt h))) as (k0 & Sp).
  exists k0. intros k Hk. specialize (Sp k g h Hk Ig Ih). rewrite !(arrivals_ways loc step) by auto. rewrite powers_length.
  pose proof (back k Is Ig) as B1. pose proof (back k Is Ih) as B2. pose proof (wgt_pos Is) as Ws.
  assert (E : wgt s * distance (wgt h * wys (eqv g) k s) (wgt g * wys (eqv h) k s) =
    wgt g * wgt h * distance (wys (eqv s) k g) (wys (eqv s) k h)).
  { rewrite <- !distance_mul. f_equal.
    - transitivity (wgt h * (wgt s * wys (eqv g) k s)); [ring|]. rewrite B1. ring.
    - transitivity (wgt g * (wgt s * wys (eqv h) k s)); [ring|]. rewrite B2. ring. }
  set (d1 := distance (wgt h * _) _) in *. set (d2 := distance (wys (eqv s) k g) _) in *.
  clearbody d1 d2. clear B1 B2. nia.
Qed.

(** With a list of all kinds also the probabilities themselves. *)
Theorem kinds_limit s g reps : D <> [] -> Inv s -> Inv g -> Forall Inv reps -> apart reps ->
  (forall x, Inv x -> exists c, In c reps /\ eqv c x = true) ->
  tends_to (wgt g) (sum_over wgt reps) m D s (eqv g).
Proof using All.
  intros Ne Is Ig Fr Ap Cv. rewrite Forall_forall in Fr. split.
  { destruct (Cv g Ig) as (c & Ic & _). apply in_split in Ic as (l1 & l2 & ->).
    rewrite sum_over_app, sum_over_cons. pose proof (wgt_pos (Fr c ltac:(apply in_app_iff; simpl; auto))). lia. }
  assert (Tot : forall k, sum_over (fun c => wys (eqv c) k s) reps = hh ^ k).
  { intros k. rewrite <- (paths_length D k), <- (Nat.mul_1_r (length _)), <- sum_over_const.
    rewrite <- (sum_over_map (fun _ => 1) (walk m s) (paths D k)).
    rewrite (@kinds_sum (fun _ => 1) _ reps); auto.
    - apply sum_over_ext. intros c _. rewrite wys_count. lia.
    - apply Forall_forall. intros x Hx. apply in_map_iff in Hx as (w & <- & Iw). apply go_walk; eauto using paths_draws.
    - apply Forall_forall. auto.
    - intros x Hx. apply Cv. apply in_map_iff in Hx as (w & <- & Iw). apply go_walk; eauto using paths_draws. }
  intros N.
  assert (K0 : exists k0, forall k c, k0 <= k -> In c reps ->
    N * distance (wgt c * wys (eqv g) k s) (wgt g * wys (eqv c) k s) <= hh ^ k).
  { clear Cv Ap Tot. induction reps as [|c reps IH]; [exists 0; intros k c _ []|].
    destruct IH as (k1 & H1); [intros; apply Fr; simpl; auto|].
    destruct (@ratio_limit s g c Ne Is Ig (Fr c (or_introl eq_refl)) N) as (k2 & H2).
    exists (k1 + k2). intros k c' Hk [<-|Ic]; [|apply H1; auto; lia]. specialize (H2 k ltac:(lia)).
    rewrite !(arrivals_ways loc step), powers_length in H2 by auto. auto. }
  destruct K0 as (k0 & Hk0). exists k0. intros k Hk. rewrite !(arrivals_ways loc step), powers_length by auto.
  rewrite <- (Tot k), <- sum_over_mul, (Nat.mul_comm (sum_over wgt reps)), <- sum_over_mul.
  assert (G : forall l, incl l reps -> N * distance (sum_over (fun c => wys (eqv g) k s * wgt c) l) (sum_over (fun c => wgt g * wys (eqv c) k s) l)
    <= length l * hh ^ k).
  { induction l as [|c l IH]; intros Hl; [cbn; lia|]. rewrite !sum_over_cons. cbn [length Nat.mul].
    pose proof (Hk0 k c Hk (Hl c (or_introl eq_refl))) as H1. assert (Hl' : incl l reps) by (intros z Hz; apply Hl; simpl; auto).
    specialize (IH Hl'). rewrite (Nat.mul_comm (wgt c)) in H1. unfold distance in *.
    set (a := sum_over (fun c => wys (eqv g) k s * wgt c) l) in *. set (b := sum_over _ l) in *.
    set (a' := wys (eqv g) k s * wgt c) in *. set (b' := wgt g * _) in *. clearbody a b a' b'.
    assert (T : (a' + a - (b' + b)) + (b' + b - (a' + a)) <= (a' - b' + (b' - a')) + (a - b + (b - a))) by lia. nia. }
  pose proof (G reps (incl_refl _)) as G1. rewrite Tot.
  assert (W : length reps <= sum_over wgt reps).
  { rewrite <- (Nat.mul_1_r (length reps)), <- sum_over_const. apply sum_over_le. intros c Ic. pose proof (wgt_pos (Fr c Ic)). lia. }
  nia.
Qed.

End Back.

(** Only the states that are reached matter. *)
Section Same.
Variables (St R : Type) (m : St -> rng -> outcome (R * St * rng)) (D : list (list nat)) (Inv : St -> Prop).
Hypothesis loc : forall s, local (m s).
Hypothesis step : forall s d, Inv s -> In d D -> exists r s', m s d = Done (r, s', []) /\ Inv s'.

Lemma ways_same P Q : (forall s, Inv s -> P s = Q s) -> forall k s, Inv s -> ways m D P k s = ways m D Q k s.
Proof using step.
  intros E. induction k as [|k IH]; intros s I; cbn [ways]; [rewrite E; auto|].
  apply sum_over_ext. intros d Id. apply IH. apply (nxt_inv step); auto.
Qed.

Lemma tends_to_same num den s P Q : (forall s, Inv s -> P s = Q s) -> Inv s -> tends_to num den m D s P -> tends_to num den m D s Q.
Proof using loc step.
  intros E I [Hd H]. split; auto. intros N. destruct (H N) as (k0 & Hk). exists k0. intros k Lk. specialize (Hk k Lk).
  rewrite (arrivals_ways loc step) in * by auto. rewrite <- (ways_same E) by auto. auto.
Qed.

Lemma ratio_same v w s P P' Q Q' : (forall s, Inv s -> P s = P' s) -> (forall s, Inv s -> Q s = Q' s) -> Inv s ->
  tends_to_ratio v w m D s P Q -> tends_to_ratio v w m D s P' Q'.
Proof using loc step.
  intros E E' I H N. destruct (H N) as (k0 & Hk). exists k0. intros k Lk. specialize (Hk k Lk).
  rewrite !(arrivals_ways loc step) in * by auto. rewrite <- (ways_same E), <- (ways_same E') by auto. auto.
Qed.
End Same.
