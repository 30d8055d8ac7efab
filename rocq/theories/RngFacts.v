(** Lemmas about the random draws. *)
From Verif Require Import Base BaseFacts GraphFacts Rng.
From Coq Require Import QArith.
Set Implicit Arguments.
Unset Strict Implicit.
Local Open Scope nat_scope.

Lemma gen_range_done high rs x rs' :
  gen_range high rs = Done (x, rs') ->
  x < high /\ exists r, rs = r :: rs' /\ x = Nat.modulo r high.
Proof.
  unfold gen_range, draw. destruct (Nat.eqb_spec high 0) as [E|E]; [discriminate|].
  destruct rs as [|r t]; cbn [bind]; [discriminate|].
  injection 1 as <- <-. split; eauto. apply Nat.mod_upper_bound; auto.
Qed.

Lemma gen_range_cons high r rs :
  0 < high -> gen_range high (r :: rs) = Done (Nat.modulo r high, rs).
Proof.
  intros H. unfold gen_range. destruct (Nat.eqb_spec high 0); [lia|]. reflexivity.
Qed.

Lemma gen_range_small high r rs : r < high -> gen_range high (r :: rs) = Done (r, rs).
Proof. intros H. rewrite gen_range_cons by lia. rewrite Nat.mod_small; auto. Qed.

Lemma gen_range_no_ub high rs : gen_range high rs <> UB.
Proof.
  unfold gen_range, draw. destruct (high =? 0); [discriminate|]. destruct rs; discriminate.
Qed.

(** ** [swap] *)

Lemma swap_done {X} (l : list X) i j :
  i < length l -> j < length l ->
  exists l', swap l i j = Done l' /\ length l' = length l /\ Permutation l l' /\
    forall k, nth_error l' k = if k =? j then nth_error l i
                               else if k =? i then nth_error l j else nth_error l k.
Proof.
  intros Hi Hj. destruct (vget_lt _ Hi) as [a Ea]. destruct (vget_lt _ Hj) as [b Eb].
  unfold swap, vget. rewrite Ea, Eb. cbn [bind]. eexists; splits; [reflexivity| | |].
  - rewrite !upd_length; auto.
  - apply Permutation_nth_error. split; [rewrite !upd_length; auto|].
    exists (fun k => if k =? j then i else if k =? i then j else k). split.
    + intros x y. destruct (Nat.eqb_spec x j), (Nat.eqb_spec y j),
        (Nat.eqb_spec x i), (Nat.eqb_spec y i); lia.
    + intros k. rewrite !nth_error_upd, !upd_length.
      rewrite (Nat.eqb_sym j k), (Nat.eqb_sym i k).
      destruct (Nat.eqb_spec k j) as [->|H1]; cbn [andb].
      * destruct (Nat.ltb_spec j (length l)); [auto|lia].
      * destruct (Nat.eqb_spec k i) as [->|H2]; cbn [andb]; auto.
        destruct (Nat.ltb_spec i (length l)); [auto|lia].
  - intros k. rewrite !nth_error_upd, !upd_length.
    rewrite (Nat.eqb_sym j k), (Nat.eqb_sym i k).
    destruct (Nat.eqb_spec k j) as [->|H1]; cbn [andb].
    + destruct (Nat.ltb_spec j (length l)); [auto|lia].
    + destruct (Nat.eqb_spec k i) as [->|H2]; cbn [andb]; auto.
      destruct (Nat.ltb_spec i (length l)); [auto|lia].
Qed.

Lemma swap_out {X} (l : list X) i j :
  length l <= i \/ length l <= j -> swap l i j = Panic.
Proof.
  intros H. unfold swap, vget.
  destruct (nth_error l i) eqn:Ei; auto. cbn [bind].
  destruct (nth_error l j) eqn:Ej; auto.
  apply nth_error_lt in Ei, Ej. lia.
Qed.

Lemma swap_inv {X} (l l' : list X) i j :
  swap l i j = Done l' -> i < length l /\ j < length l /\ length l' = length l /\
  Permutation l l' /\ swap l' i j = Done l.
Proof.
  intros E. destruct (Nat.lt_ge_cases i (length l)) as [Hi|Hi];
    [|rewrite swap_out in E by auto; discriminate].
  destruct (Nat.lt_ge_cases j (length l)) as [Hj|Hj];
    [|rewrite swap_out in E by auto; discriminate].
  destruct (swap_done Hi Hj) as (l1 & E1 & Ll & P & N). rewrite E1 in E. injection E as <-.
  splits; auto.
  destruct (@swap_done _ l1 i j) as (l2 & E2 & L2 & P2 & N2); try lia.
  rewrite E2. f_equal. apply list_ext. intros k. rewrite N2, !N, !Nat.eqb_refl.
  destruct (Nat.eqb_spec k j) as [->|H1].
  - destruct (Nat.eqb_spec i j); congruence.
  - destruct (Nat.eqb_spec k i) as [->|H2]; auto.
Qed.

Lemma shuffle_down_spec {X} k : forall (l : list X) rs,
  k <= length l -> k - 1 <= length rs ->
  exists l', shuffle_down k l rs = Done (l', skipn (k - 1) rs) /\ Permutation l l'.
Proof.
  induction k as [|k IH]; intros l rs Hk Hr; [exists l; auto|].
  destruct k as [|k]; [exists l; auto|].
  change (shuffle_down (S (S k)) l rs) with
    (do ' (j, t) <- gen_range (S (S k)) rs; do l' <- swap l (S k) j; shuffle_down (S k) l' t).
  destruct rs as [|r rs]; [simpl in Hr; lia|].
  rewrite gen_range_cons by lia. cbn [bind].
  pose proof (Nat.mod_upper_bound r (S (S k))) as B. specialize (B ltac:(lia)).
  destruct (@swap_done _ l (S k) (Nat.modulo r (S (S k)))) as (l1 & -> & L1 & P1 & _); try lia.
  cbn [bind]. simpl in Hr.
  destruct (IH l1 rs) as (l2 & E2 & P2); try lia. rewrite E2. exists l2. split.
  - do 2 f_equal. replace (S (S k) - 1) with (S (S k - 1)) by lia. reflexivity.
  - etransitivity; eauto.
Qed.

Lemma shuffle_spec {X} (l : list X) rs :
  length l - 1 <= length rs ->
  exists l', shuffle l rs = Done (l', skipn (length l - 1) rs) /\ Permutation l l'.
Proof. intros H. apply shuffle_down_spec; auto. Qed.

Lemma shuffle_down_done {X} k : forall (l : list X) rs l' rs',
  shuffle_down k l rs = Done (l', rs') -> Permutation l l'.
Proof.
  induction k as [|k IH]; intros l rs l' rs'; [injection 1 as <- <-; auto|].
  destruct k as [|k]; [injection 1 as <- <-; auto|].
  change (shuffle_down (S (S k)) l rs) with
    (do ' (j, t) <- gen_range (S (S k)) rs; do l' <- swap l (S k) j; shuffle_down (S k) l' t).
  intros E. apply bind_done in E as ([j t] & _ & E). apply bind_done in E as (l1 & E1 & E).
  apply IH in E. apply swap_inv in E1. etransitivity; [apply E1|auto].
Qed.

Lemma shuffle_done {X} (l : list X) rs l' rs' :
  shuffle l rs = Done (l', rs') -> Permutation l l'.
Proof. apply shuffle_down_done. Qed.

(** The draws of [gen_f64] are in the half-open unit interval. *)
Lemma unit_float_range r : (0 <= unit_float r /\ unit_float r < 1)%Q.
Proof.
  unfold unit_float, Qle, Qlt. cbn [Qnum Qden].
  pose proof (Z.mod_pos_bound (Z.of_nat r) 9007199254740992). lia.
Qed.

(** Every order can be the result of [shuffle]. *)
Lemma shuffle_down_reach {X} k : forall (l l' : list X), k <= length l -> Permutation l l' ->
  (forall i, k <= i -> nth_error l' i = nth_error l i) ->
  exists ds, length ds = k - 1 /\ forall rest, shuffle_down k l (ds ++ rest) = Done (l', rest).
Proof.
  induction k as [|k IH]; intros l l' Hk P H.
  - exists []. split; auto. intros rest. cbn. do 2 f_equal. apply list_ext. intros i. symmetry. apply H. lia.
  - destruct k as [|k].
    + exists []. split; auto. intros rest. cbn. do 2 f_equal.
      assert (L : length l' = length l) by (symmetry; apply Permutation_length; auto).
      destruct l as [|a l]; [apply Permutation_nil in P; auto|].
      destruct l' as [|b l']; [discriminate L|].
      assert (l' = l).
      { apply list_ext. intros i. apply (H (S i)). lia. }
      subst l'. f_equal.
      change (a :: l) with ([a] ++ l) in P. change (b :: l) with ([b] ++ l) in P.
      apply Permutation_app_inv_r in P. apply Permutation_length_1 in P. auto.
    + (* the last of the first [k + 2] comes from somewhere *)
      set (i := S k) in *.
      assert (Li : i < length l) by (unfold i in *; lia).
      assert (L : length l' = length l) by (symmetry; apply Permutation_length; auto).
      destruct (nth_error l' i) as [x|] eqn:Ex; [|apply nth_error_None in Ex; lia].
      assert (Hj : exists j, j <= i /\ nth_error l j = Some x).
      { assert (E1 : l = firstn (S i) l ++ skipn (S i) l) by (symmetry; apply firstn_skipn).
        assert (E2 : l' = firstn (S i) l' ++ skipn (S i) l') by (symmetry; apply firstn_skipn).
        assert (E3 : skipn (S i) l' = skipn (S i) l).
        { apply list_ext. intros m.
          assert (N : forall (z : list X) q m, nth_error (skipn q z) m = nth_error z (q + m)).
          { induction z as [|c z IHz]; intros [|q] m'; cbn; auto. destruct m'; auto. }
          rewrite !N. apply H. lia. }
        rewrite E1, E2, E3 in P. apply Permutation_app_inv_r in P.
        assert (Hx : In x (firstn (S i) l')).
        { assert (F : nth_error (firstn (S i) l') i = Some x).
          { rewrite <- Ex. rewrite E2 at 2. rewrite nth_error_app1; auto. rewrite firstn_length. lia. }
          apply nth_error_In in F. auto. }
        rewrite <- P in Hx. apply In_nth_error in Hx as [j Hj].
        assert (Lj : j < length (firstn (S i) l)) by (apply nth_error_Some; congruence).
        pose proof Lj as Lj'. rewrite firstn_length in Lj'.
        exists j. split; [lia|]. rewrite E1, nth_error_app1; auto. }
      destruct Hj as (j & Lj & Ej).
      destruct (@swap_done _ l i j Li ltac:(lia)) as (l1 & E1 & L1 & P1 & N1).
      destruct (IH l1 l') as (ds & Ld & Hd).
      { lia. }
      { rewrite <- P1. auto. }
      { intros m Hm. rewrite N1. destruct (Nat.eqb_spec m j) as [->|Nj].
        - assert (j = i) by lia. subst j. rewrite Ex. congruence.
        - destruct (Nat.eqb_spec m i) as [->|Ni]; [congruence|]. apply H. lia. }
      exists (j :: ds). split; [cbn [length]; lia|]. intros rest.
      cbn [shuffle_down app]. fold i. rewrite gen_range_small by lia. cbn [bind]. rewrite E1. cbn [bind].
      apply Hd.
Qed.

Lemma shuffle_reach {X} (l l' : list X) : Permutation l l' ->
  exists ds, forall rest, shuffle l (ds ++ rest) = Done (l', rest).
Proof.
  intros P. destruct (@shuffle_down_reach X (length l) l l' (le_n _) P) as (ds & _ & H).
  - intros i Hi. rewrite (proj2 (nth_error_None l i)) by auto. apply nth_error_None.
    rewrite <- (Permutation_length P). auto.
  - exists ds. auto.
Qed.
