(** Sums over lists and the handshake identity. *)
From Verif Require Import Base BaseFacts.
Set Implicit Arguments.

Definition sum_over {X} (f : X -> nat) (l : list X) : nat := list_sum (map f l).

Lemma sum_over_app {X} (f : X -> nat) l1 l2 :
  sum_over f (l1 ++ l2) = sum_over f l1 + sum_over f l2.
Proof. unfold sum_over. rewrite map_app, list_sum_app; auto. Qed.

Lemma sum_over_ext {X} (f g : X -> nat) l :
  (forall x, In x l -> f x = g x) -> sum_over f l = sum_over g l.
Proof. intros H. unfold sum_over. f_equal. apply map_ext_in; auto. Qed.

Lemma sum_over_cons {X} (f : X -> nat) x l : sum_over f (x :: l) = f x + sum_over f l.
Proof. reflexivity. Qed.

Lemma sum_over_one {X} (f : X -> nat) x : sum_over f [x] = f x.
Proof. unfold sum_over; simpl; lia. Qed.

Lemma sum_over_plus {X} (f g : X -> nat) l :
  sum_over (fun x => f x + g x) l = sum_over f l + sum_over g l.
Proof. induction l; auto. rewrite !sum_over_cons, IHl; lia. Qed.

Lemma sum_over_zero {X} (f : X -> nat) l :
  (forall x, In x l -> f x = 0) -> sum_over f l = 0.
Proof.
  induction l as [|x l IH]; intros H; auto. rewrite sum_over_cons, H, IH; simpl; auto.
  intros; apply H; simpl; auto.
Qed.

Lemma sum_over_perm {X} (f : X -> nat) l l' :
  Permutation l l' -> sum_over f l = sum_over f l'.
Proof. intros P. apply list_sum_perm, Permutation_map, P. Qed.

Lemma sum_over_mul {X} (f : X -> nat) k l :
  sum_over (fun x => k * f x) l = k * sum_over f l.
Proof. induction l; simpl; [unfold sum_over; simpl; lia|]. rewrite !sum_over_cons, IHl; lia. Qed.

Lemma sum_over_exchange {X Y} (f : X -> Y -> nat) l m :
  sum_over (fun x => sum_over (f x) m) l = sum_over (fun y => sum_over (fun x => f x y) l) m.
Proof.
  induction l as [|x l IH].
  - symmetry; apply sum_over_zero; auto.
  - rewrite sum_over_cons, IH.
    rewrite <- sum_over_plus. apply sum_over_ext; intros; auto.
Qed.

Lemma sum_over_const {X} (l : list X) k : sum_over (fun _ => k) l = length l * k.
Proof. induction l; auto. rewrite sum_over_cons, IHl; simpl; lia. Qed.

Lemma sum_over_map {X Y} (f : Y -> nat) (g : X -> Y) l :
  sum_over f (map g l) = sum_over (fun x => f (g x)) l.
Proof. unfold sum_over. rewrite map_map; auto. Qed.

Lemma sum_over_flat_map {X Y} (f : Y -> nat) (g : X -> list Y) l :
  sum_over f (flat_map g l) = sum_over (fun x => sum_over f (g x)) l.
Proof.
  induction l as [|x l IH]; auto.
  simpl flat_map. rewrite sum_over_app, IH; auto.
Qed.

Lemma sum_over_seq_upd (f g : nat -> nat) n i :
  i < n -> (forall k, k <> i -> f k = g k) ->
  sum_over f (seq 0 n) + g i = sum_over g (seq 0 n) + f i.
Proof.
  intros Hi H.
  assert (S : seq 0 n = seq 0 i ++ i :: seq (S i) (n - S i)).
  { replace n with (i + (1 + (n - S i))) at 1 by lia.
    rewrite !seq_app. simpl. repeat f_equal. lia. }
  rewrite S, !sum_over_app, !sum_over_cons.
  rewrite (@sum_over_ext _ f g (seq 0 i)), (@sum_over_ext _ f g (seq (Datatypes.S i) _)).
  - lia.
  - intros x Hx. apply in_seq in Hx. apply H; lia.
  - intros x Hx. apply in_seq in Hx. apply H; lia.
Qed.

(** Boolean as a number. *)
Definition b2n (b : bool) : nat := if b then 1 else 0.

Lemma length_filter_sum {X} (f : X -> bool) l :
  length (filter f l) = sum_over (fun x => b2n (f x)) l.
Proof.
  induction l as [|x l IH]; auto. rewrite sum_over_cons; simpl.
  destruct (f x); simpl; auto.
Qed.

Lemma NoDup_length_count (l : list nat) n :
  NoDup l -> (forall x, In x l -> x < n) ->
  length l = sum_over (fun j => b2n (existsb (Nat.eqb j) l)) (seq 0 n).
Proof.
  intros N R. rewrite <- length_filter_sum.
  apply Permutation_length. apply NoDup_Permutation; auto.
  - apply NoDup_filter, seq_NoDup.
  - intros x. rewrite filter_In, in_seq. split.
    + intros H. split; [split; [lia|apply R; auto]|]. apply contains_In; auto.
    + intros [_ H]. apply contains_In; auto.
Qed.

(** The sum over all ordered pairs of a symmetric function with zero diagonal is
    twice the sum over pairs [i < j]. *)
Lemma handshake (f : nat -> nat -> nat) n :
  (forall i, f i i = 0) -> (forall i j, f i j = f j i) ->
  sum_over (fun i => sum_over (f i) (seq 0 n)) (seq 0 n) =
  2 * sum_over (fun j => sum_over (fun i => f i j) (seq 0 j)) (seq 0 n).
Proof.
  intros D Sy. induction n as [|n IH]; auto.
  rewrite !seq_S. simpl (0 + n). rewrite !sum_over_app.
  rewrite (@sum_over_ext _ (fun i => sum_over (f i) (seq 0 n ++ [n]))
             (fun i => sum_over (f i) (seq 0 n) + f i n)).
  2:{ intros. rewrite sum_over_app, sum_over_one; auto. }
  rewrite sum_over_plus, IH, !sum_over_one, sum_over_app, sum_over_one, D.
  rewrite (@sum_over_ext _ (f n) (fun i => f i n)) by auto. lia.
Qed.
