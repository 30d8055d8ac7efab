(** Lemmas about the operations of [Base]. *)
From Verif Require Import Base.
From Coq Require Import Sorted.
Set Implicit Arguments.

Lemma bind_done {A B} (m : outcome A) (f : A -> outcome B) b :
  bind m f = Done b -> exists a, m = Done a /\ f a = Done b.
Proof. destruct m; simpl; intros; try discriminate; eauto. Qed.

(** ** [upd] *)

Lemma upd_length {A} (l : list A) i x : length (upd l i x) = length l.
Proof. revert i; induction l; intros [|i]; simpl; auto. Qed.

Lemma nth_error_upd_same {A} (l : list A) i x :
  i < length l -> nth_error (upd l i x) i = Some x.
Proof.
  revert i; induction l; intros [|i]; simpl; intros; try lia; auto.
  apply IHl; lia.
Qed.

Lemma nth_error_upd_other {A} (l : list A) i j x :
  i <> j -> nth_error (upd l i x) j = nth_error l j.
Proof.
  revert i j; induction l; intros [|i] [|j]; simpl; intros; try lia; auto.
Qed.

Lemma nth_error_upd {A} (l : list A) i j x :
  nth_error (upd l i x) j =
  if (i =? j) && (i <? length l) then Some x else nth_error l j.
Proof.
  destruct (Nat.eqb_spec i j) as [->|H]; simpl.
  - destruct (Nat.ltb_spec j (length l)).
    + apply nth_error_upd_same; auto.
    + transitivity (@None A); [|symmetry]; apply nth_error_None;
        rewrite ?upd_length; auto.
  - apply nth_error_upd_other; auto.
Qed.

Lemma upd_same {A} (l : list A) i x : nth_error l i = Some x -> upd l i x = l.
Proof.
  revert i; induction l; intros [|i]; simpl; intros; try discriminate.
  - congruence.
  - f_equal; auto.
Qed.

Lemma upd_upd {A} (l : list A) i x y : upd (upd l i x) i y = upd l i y.
Proof. revert i; induction l; intros [|i]; simpl; auto; f_equal; auto. Qed.

Lemma upd_comm {A} (l : list A) i j x y :
  i <> j -> upd (upd l i x) j y = upd (upd l j y) i x.
Proof.
  revert i j; induction l; intros [|i] [|j]; simpl; intros; try lia; auto.
  f_equal; auto.
Qed.

Lemma upd_app_r {A} (l1 l2 : list A) i x :
  length l1 <= i -> upd (l1 ++ l2) i x = l1 ++ upd l2 (i - length l1) x.
Proof.
  revert i; induction l1; simpl; intros i H.
  - f_equal; lia.
  - destruct i; [lia|]. simpl. f_equal. apply IHl1. lia.
Qed.

Lemma upd_app_l {A} (l1 l2 : list A) i x :
  i < length l1 -> upd (l1 ++ l2) i x = upd l1 i x ++ l2.
Proof.
  revert i; induction l1; simpl; intros i H; [lia|].
  destruct i; simpl; auto. f_equal; apply IHl1; lia.
Qed.

Lemma map_upd {A B} (f : A -> B) l i x : map f (upd l i x) = upd (map f l) i (f x).
Proof. revert i; induction l; intros [|i]; simpl; auto; f_equal; auto. Qed.

Lemma map_upd_same {A B} (f : A -> B) l i x y :
  nth_error l i = Some y -> f x = f y -> map f (upd l i x) = map f l.
Proof.
  intros H E. rewrite map_upd. apply upd_same.
  rewrite nth_error_map, H; simpl; congruence.
Qed.

(** ** [vget], [vset] *)

Lemma vget_done {A} (l : list A) i x : nth_error l i = Some x -> vget l i = Done x.
Proof. unfold vget; intros ->; auto. Qed.

Lemma vget_lt {A} (l : list A) i : i < length l -> exists x, nth_error l i = Some x.
Proof.
  intros H. destruct (nth_error l i) eqn:E; eauto.
  apply nth_error_None in E; lia.
Qed.

Lemma vget_inv {A} (l : list A) i x : vget l i = Done x -> nth_error l i = Some x.
Proof. unfold vget; destruct (nth_error l i); congruence. Qed.

Lemma vset_done {A} (l : list A) i x : i < length l -> vset l i x = Done (upd l i x).
Proof. intros H. unfold vset. apply Nat.ltb_lt in H; rewrite H; auto. Qed.

Lemma nth_error_lt {A} (l : list A) i x : nth_error l i = Some x -> i < length l.
Proof. intros H. apply nth_error_Some. congruence. Qed.

(** ** [position], [contains] *)

Lemma contains_In l x : contains l x = true <-> In x l.
Proof.
  unfold contains. rewrite existsb_exists. split.
  - intros (y & H & E). apply Nat.eqb_eq in E; subst; auto.
  - intros; exists x; rewrite Nat.eqb_refl; auto.
Qed.

Lemma contains_not_In l x : contains l x = false <-> ~ In x l.
Proof. rewrite <- contains_In. destruct (contains l x); split; congruence. Qed.

Lemma position_None {A} (f : A -> bool) l :
  position f l = None <-> forall x, In x l -> f x = false.
Proof.
  induction l as [|a l IH]; simpl.
  - split; auto. intros _ x [].
  - destruct (f a) eqn:E.
    + split; [discriminate|]. intros H. rewrite H in E by auto; discriminate.
    + destruct (position f l); simpl.
      * split; [discriminate|]. intros H. destruct IH as [_ IH].
        discriminate IH; auto.
      * split; auto. intros _ x [->|H]; auto. apply IH; auto.
Qed.

Lemma position_Some {A} (f : A -> bool) l i :
  position f l = Some i ->
  exists x l1 l2, l = l1 ++ x :: l2 /\ f x = true /\ length l1 = i /\
                  forall y, In y l1 -> f y = false.
Proof.
  revert i; induction l as [|a l IH]; simpl; intros i H; [discriminate|].
  destruct (f a) eqn:E.
  - injection H as <-. exists a, [], l; simpl; repeat split; auto. intros y [].
  - destruct (position f l) as [k|]; simpl in H; [|discriminate].
    injection H as <-. destruct (IH k eq_refl) as (x & l1 & l2 & -> & F & L & N).
    exists x, (a :: l1), l2; simpl; repeat split; auto.
    intros y [->|Hy]; auto.
Qed.

Lemma position_lt {A} (f : A -> bool) l i : position f l = Some i -> i < length l.
Proof.
  intros H. destruct (position_Some _ _ H) as (x & l1 & l2 & -> & _ & L & _).
  rewrite app_length; simpl; lia.
Qed.

Lemma position_nth {A} (f : A -> bool) l i :
  position f l = Some i -> exists x, nth_error l i = Some x /\ f x = true.
Proof.
  intros H. destruct (position_Some _ _ H) as (x & l1 & l2 & -> & F & L & _).
  exists x; split; auto. subst i. rewrite nth_error_app2, Nat.sub_diag; auto.
Qed.

Lemma position_exists {A} (f : A -> bool) l x :
  In x l -> f x = true -> exists i, position f l = Some i.
Proof.
  intros H F. destruct (position f l) eqn:E; eauto.
  rewrite (proj1 (position_None f l) E x H) in F; discriminate.
Qed.

Lemma position_map {A B} (g : A -> B) (f : B -> bool) l :
  position f (map g l) = position (fun x => f (g x)) l.
Proof. induction l; simpl; auto. rewrite IHl; auto. Qed.

Lemma position_ext {A} (f g : A -> bool) l :
  (forall x, In x l -> f x = g x) -> position f l = position g l.
Proof.
  induction l as [|a l IH]; simpl; intros H; auto.
  rewrite (H a), IH; auto.
Qed.

Lemma position_app_r {A} (f : A -> bool) l x :
  (forall y, In y l -> f y = false) -> f x = true ->
  position f (l ++ [x]) = Some (length l).
Proof.
  intros H F; induction l as [|a l IH]; simpl.
  - rewrite F; auto.
  - rewrite (H a) by (simpl; auto). rewrite IH; simpl; auto.
    intros; apply H; simpl; auto.
Qed.

(** ** [swap_remove] *)

Lemma rev_cons_app {A} (l : list A) x t : rev l = x :: t -> l = rev t ++ [x].
Proof. intros H. rewrite <- (rev_involutive l), H; auto. Qed.

Lemma swap_remove_snoc {A} (l : list A) y i :
  i < S (length l) ->
  swap_remove (l ++ [y]) i = Done (if i =? length l then l else upd l i y).
Proof.
  intros Hi. unfold swap_remove. rewrite rev_app_distr; simpl.
  rewrite app_length; simpl.
  destruct (Nat.ltb_spec i (length l + 1)); [|lia].
  f_equal. destruct (Nat.eqb_spec i (length l)) as [->|Hne].
  - rewrite upd_app_r by lia. rewrite Nat.sub_diag; simpl.
    apply removelast_last.
  - rewrite upd_app_l by lia. apply removelast_last.
Qed.

Lemma upd_perm {A} (l : list A) i x y :
  nth_error l i = Some x -> Permutation (y :: l) (x :: upd l i y).
Proof.
  revert i; induction l as [|a l IH]; intros [|i]; simpl; intros H; try discriminate.
  - injection H as ->. apply perm_swap.
  - rewrite perm_swap. rewrite (IH _ H). apply perm_swap.
Qed.

Lemma swap_remove_spec {A} (l : list A) i x :
  nth_error l i = Some x ->
  exists l', swap_remove l i = Done l' /\ Permutation l (x :: l').
Proof.
  intros H. destruct (rev l) as [|y r] eqn:E.
  - destruct l; [destruct i; discriminate|]. apply rev_cons_app in E || idtac.
    exfalso. apply (f_equal (@length A)) in E. rewrite rev_length in E. discriminate.
  - apply rev_cons_app in E. subst l.
    pose proof (nth_error_lt _ _ H) as L. rewrite app_length in L; simpl in L.
    rewrite swap_remove_snoc by lia. eexists; split; [reflexivity|].
    destruct (Nat.eqb_spec i (length (rev r))) as [->|Hne].
    + rewrite nth_error_app2, Nat.sub_diag in H by lia. injection H as <-.
      rewrite Permutation_app_comm; auto.
    + rewrite nth_error_app1 in H by lia.
      rewrite Permutation_app_comm; simpl. apply upd_perm; auto.
Qed.

Lemma swap_remove_map {A B} (f : A -> B) l i l' :
  swap_remove l i = Done l' -> swap_remove (map f l) i = Done (map f l').
Proof.
  unfold swap_remove. rewrite <- map_rev. destruct (rev l) as [|x r] eqn:E; simpl.
  - discriminate.
  - rewrite map_length. destruct (i <? length l); intros H; [|discriminate].
    injection H as <-. f_equal. rewrite <- map_upd.
    generalize (upd l i x). clear. intros l.
    induction l as [|a l IH]; simpl; auto. destruct l; simpl in *; auto.
    f_equal; auto.
Qed.

Lemma swap_remove_length {A} (l : list A) i l' :
  swap_remove l i = Done l' -> length l = S (length l').
Proof.
  intros H. unfold swap_remove in H. destruct (rev l); [discriminate|].
  destruct (Nat.ltb_spec i (length l)); [|discriminate].
  destruct (vget_lt l H0) as [x Hx].
  destruct (swap_remove_spec _ _ Hx) as (l'' & E & P).
  unfold swap_remove in E. destruct (rev l) eqn:R.
  - discriminate.
  - apply Permutation_length in P. rewrite P.
    destruct (i <? length l); [|discriminate]. simpl. f_equal.
    assert (length (upd l i a) <> 0) by (rewrite upd_length; lia).
    assert (K : forall (m : list A), length (removelast m) = length m - 1).
    { clear. induction m as [|a m IH]; simpl; auto. destruct m; simpl in *; auto.
      rewrite IH; lia. }
    injection E as <-. injection H as <-. rewrite !K, !upd_length; auto.
Qed.

(** ** [mapM], [permute] *)

Lemma mapM_done {A B} (f : A -> outcome B) (g : A -> B) l :
  (forall x, In x l -> f x = Done (g x)) -> mapM f l = Done (map g l).
Proof.
  induction l as [|a l IH]; simpl; intros H; auto.
  rewrite H by auto; simpl. rewrite IH; auto.
Qed.

Lemma mapM_length {A B} (f : A -> outcome B) l l' :
  mapM f l = Done l' -> length l' = length l.
Proof.
  revert l'; induction l as [|a l IH]; simpl; intros l' H.
  - injection H as <-; auto.
  - apply bind_done in H as (y & _ & H). apply bind_done in H as (ys & H1 & H).
    injection H as <-. simpl; f_equal; auto.
Qed.

Lemma map_nth_seq {A} (d : A) l : map (fun i => nth i l d) (seq 0 (length l)) = l.
Proof.
  induction l as [|a l IH]; simpl; auto. f_equal.
  rewrite <- seq_shift, map_map. auto.
Qed.

Lemma permute_spec {A} p (l : list A) :
  Permutation p (seq 0 (length l)) ->
  exists l', permute p l = Done l' /\ Permutation l l'.
Proof.
  intros P. destruct l as [|d l0].
  - simpl in P. apply Permutation_sym, Permutation_nil in P; subst.
    exists []; split; auto.
  - set (l := d :: l0) in *.
    exists (map (fun i => nth i l d) p). split.
    + unfold permute. apply mapM_done. intros x Hx.
      apply vget_done. apply nth_error_nth'.
      rewrite P in Hx. apply in_seq in Hx; lia.
    + rewrite P. rewrite map_nth_seq; auto.
Qed.

Lemma permute_map {A B} (f : A -> B) p l l' :
  permute p l = Done l' -> permute p (map f l) = Done (map f l').
Proof.
  unfold permute. revert l'; induction p as [|i p IH]; simpl; intros l' H.
  - injection H as <-; auto.
  - apply bind_done in H as (y & H1 & H). apply bind_done in H as (ys & H2 & H).
    injection H as <-. apply vget_inv in H1.
    rewrite (vget_done (map f l) i (x := f y)); simpl.
    + rewrite (IH _ H2); auto.
    + rewrite nth_error_map, H1; auto.
Qed.

(** ** Sorting *)

Lemma insert_by_perm {A} (key : A -> nat) x l :
  Permutation (insert_by key x l) (x :: l).
Proof.
  induction l as [|y l IH]; simpl; auto.
  destruct (key x <=? key y); auto. rewrite IH. apply perm_swap.
Qed.

Lemma sort_by_perm {A} (key : A -> nat) l : Permutation (sort_by key l) l.
Proof.
  induction l as [|y l IH]; simpl; auto. rewrite insert_by_perm, IH; auto.
Qed.

Lemma insert_by_sorted {A} (key : A -> nat) x l :
  StronglySorted (fun a b => key a <= key b) l ->
  StronglySorted (fun a b => key a <= key b) (insert_by key x l).
Proof.
  induction l as [|y l IH]; simpl; intros H.
  - repeat constructor.
  - inversion_clear H as [|? ? H1 H2].
    destruct (Nat.leb_spec (key x) (key y)).
    + constructor; [constructor; auto|]. constructor; auto.
      eapply Forall_impl; [|exact H2]. simpl; intros; lia.
    + constructor; auto. apply Forall_forall. intros z Hz.
      rewrite insert_by_perm in Hz. destruct Hz as [<-|Hz]; [lia|].
      rewrite Forall_forall in H2; auto.
Qed.

Lemma sort_by_sorted {A} (key : A -> nat) l :
  StronglySorted (fun a b => key a <= key b) (sort_by key l).
Proof.
  induction l as [|y l IH]; simpl; [constructor|]. apply insert_by_sorted; auto.
Qed.

Lemma insert_by_map {A} (key : A -> nat) x l :
  map key (insert_by key x l) = insert_by (fun n => n) (key x) (map key l).
Proof.
  induction l as [|y l IH]; simpl; auto.
  destruct (key x <=? key y); simpl; auto. f_equal; auto.
Qed.

Lemma sort_by_map {A} (key : A -> nat) l :
  map key (sort_by key l) = sort_by (fun n => n) (map key l).
Proof. induction l; simpl; auto. rewrite insert_by_map, IHl; auto. Qed.

Lemma sort_by_length {A} (key : A -> nat) l : length (sort_by key l) = length l.
Proof. apply Permutation_length, sort_by_perm. Qed.

Lemma insert_desc_perm x l : Permutation (insert_desc x l) (x :: l).
Proof.
  induction l as [|y l IH]; simpl; auto.
  destruct (y <=? x); auto. rewrite IH. apply perm_swap.
Qed.

Lemma sort_desc_perm l : Permutation (sort_desc l) l.
Proof.
  induction l as [|y l IH]; simpl; auto. rewrite insert_desc_perm, IH; auto.
Qed.

Lemma insert_desc_sorted x l :
  StronglySorted (fun a b => b <= a) l -> StronglySorted (fun a b => b <= a) (insert_desc x l).
Proof.
  induction l as [|y l IH]; simpl; intros H.
  - repeat constructor.
  - inversion_clear H as [|? ? H1 H2].
    destruct (Nat.leb_spec y x).
    + constructor; [constructor; auto|]. constructor; auto.
      eapply Forall_impl; [|exact H2]. simpl; intros; lia.
    + constructor; auto. apply Forall_forall. intros z Hz.
      rewrite insert_desc_perm in Hz. destruct Hz as [<-|Hz]; [lia|].
      rewrite Forall_forall in H2; auto.
Qed.

Lemma sort_desc_sorted l : StronglySorted (fun a b => b <= a) (sort_desc l).
Proof.
  induction l as [|y l IH]; simpl; [constructor|]. apply insert_desc_sorted; auto.
Qed.

(** ** Sums *)

Lemma list_sum_upd l i x y :
  nth_error l i = Some y -> list_sum (upd l i x) + y = list_sum l + x.
Proof.
  revert i; induction l as [|a l IH]; intros [|i]; simpl; intros H; try discriminate.
  - injection H as ->. lia.
  - specialize (IH _ H). lia.
Qed.

Lemma list_sum_perm l l' : Permutation l l' -> list_sum l = list_sum l'.
Proof. induction 1; simpl; lia. Qed.

(** ** Further list facts *)

Lemma NoDup_map_in {A B} (f : A -> B) l :
  (forall a b, In a l -> In b l -> f a = f b -> a = b) -> NoDup l -> NoDup (map f l).
Proof.
  intros H N. induction N as [|x l Hx N IH]; simpl; constructor.
  - intros K. apply in_map_iff in K as (y & E & Hy).
    assert (y = x) by (apply H; simpl; auto). subst; auto.
  - apply IH. intros; apply H; simpl; auto.
Qed.

Lemma NoDup_app_iff {A} (l1 l2 : list A) :
  NoDup (l1 ++ l2) <-> NoDup l1 /\ NoDup l2 /\ forall x, In x l1 -> ~ In x l2.
Proof.
  induction l1 as [|a l1 IH]; simpl.
  - split; [intros; repeat split; auto; constructor|tauto].
  - rewrite !NoDup_cons_iff, IH, in_app_iff. split.
    + intros (H1 & H2 & H3 & H4). repeat split; auto.
      intros x [<-|Hx]; auto.
    + intros ((H1 & H2) & H3 & H4). repeat split; auto.
      * intros [K|K]; auto. apply (H4 a); auto.
Qed.

Lemma foldM_app {X S} (f : S -> X -> outcome S) l1 l2 s :
  foldM f s (l1 ++ l2) = bind (foldM f s l1) (fun s' => foldM f s' l2).
Proof.
  revert s; induction l1 as [|x l1 IH]; simpl; intros; auto.
  destruct (f s x); simpl; auto.
Qed.

(** A [for k in 0..n] loop with an invariant. *)
Lemma foldM_seq_inv {S} (f : S -> nat -> outcome S) (I : nat -> S -> Prop) n s0 :
  I 0 s0 ->
  (forall k s, k < n -> I k s -> exists s', f s k = Done s' /\ I (Datatypes.S k) s') ->
  exists s', foldM f s0 (seq 0 n) = Done s' /\ I n s'.
Proof.
  intros H0 Hs.
  assert (G : forall m a s, a + m = n -> I a s -> exists s', foldM f s (seq a m) = Done s' /\ I n s').
  { induction m as [|m IH]; intros a s E Ha; simpl.
    - exists s. split; auto. replace n with a by lia. auto.
    - destruct (Hs a s) as (s1 & E1 & H1); [lia|auto|]. rewrite E1. simpl. apply IH; auto. lia. }
  apply G; auto.
Qed.

(** A [for x in l] loop with an invariant on the part already processed. *)
Lemma foldM_list_inv {S X} (f : S -> X -> outcome S) (I : list X -> S -> Prop) l s0 :
  I [] s0 ->
  (forall l1 x l2 s, l = l1 ++ x :: l2 -> I l1 s ->
     exists s', f s x = Done s' /\ I (l1 ++ [x]) s') ->
  exists s', foldM f s0 l = Done s' /\ I l s'.
Proof.
  intros H0 Hs.
  assert (G : forall m a s, l = a ++ m -> I a s -> exists s', foldM f s m = Done s' /\ I l s').
  { induction m as [|x m IH]; intros a s E Ha; simpl.
    - exists s. rewrite app_nil_r in E. subst. auto.
    - destruct (Hs a x m s E Ha) as (s1 & E1 & H1). rewrite E1. simpl.
      apply (IH (a ++ [x])); auto. rewrite <- app_assoc. auto. }
  apply (G l []); auto.
Qed.
