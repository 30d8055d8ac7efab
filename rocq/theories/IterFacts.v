(** Facts about the iterators. *)
From Verif Require Import Base BaseFacts Containers ContainerSpec ContainerFacts Graph GraphSpec GraphFacts GraphOps TraversalSpec TraversalFacts DualFacts Iter IterSpec.
Set Implicit Arguments.
Unset Strict Implicit.

Lemma rev_case {X} (l : list X) : l = [] \/ exists l' x, l = l' ++ [x].
Proof. destruct l using rev_ind; eauto. Qed.

(** ** Simulation of a list by an iterator *)

Section Sim.
Context {S X : Type}.
Variable R : S -> list X -> Prop.

Definition sim {Y} (m : S -> outcome (Y * S)) (f : list X -> Y * list X) : Prop :=
  forall s l, R s l -> exists s', m s = Done (fst (f l), s') /\ R s' (snd (f l)).

Definition lawful (I : iter S X) : Prop :=
  forall c, sim (iter_call I c) (list_call c).

Lemma lawful_calls I cs s l : lawful I -> R s l ->
  exists s', iter_calls I cs s = Done (fst (list_calls cs l), s') /\ R s' (snd (list_calls cs l)).
Proof.
  intros W. revert s l. induction cs as [|c cs IH]; intros s l H; simpl.
  - exists s. auto.
  - destruct (W c s l H) as (s1 & E1 & H1). destruct (list_call c l) as [a l1]. simpl in *.
    destruct (IH s1 l1 H1) as (s2 & E2 & H2). destruct (list_calls cs l1) as [r l2]. simpl in *.
    exists s2. rewrite E1. simpl. rewrite E2. simpl. auto.
Qed.

Lemma lawful_behaves I s l : lawful I -> R s l -> behaves_as I s l.
Proof. intros W H cs. destruct (lawful_calls cs W H) as (s' & E & _). eauto. Qed.

(** *** Default methods *)

Definition list_next (l : list X) := (nth_error l 0, skipn 1 l).
Definition list_nth n (l : list X) := (nth_error l n, skipn (Datatypes.S n) l).
Definition list_next_back (l : list X) := (nth_error (rev l) 0, firstn (length l - 1) l).
Definition list_nth_back n (l : list X) :=
  (nth_error (rev l) n, firstn (length l - Datatypes.S n) l).

Lemma next_back_snoc (l : list X) x : list_next_back (l ++ [x]) = (Some x, l).
Proof.
  unfold list_next_back. rewrite rev_app_distr, app_length. simpl.
  replace (length l + 1 - 1) with (length l) by lia.
  rewrite firstn_app, firstn_all, Nat.sub_diag. simpl. rewrite app_nil_r. auto.
Qed.

Lemma nth_back_snoc n (l : list X) x :
  list_nth_back (Datatypes.S n) (l ++ [x]) = list_nth_back n l.
Proof.
  unfold list_nth_back. rewrite rev_app_distr, app_length. simpl.
  replace (length l + 1 - Datatypes.S (Datatypes.S n)) with (length l - Datatypes.S n) by lia.
  rewrite firstn_app. replace (length l - Datatypes.S n - length l) with 0 by lia.
  simpl. rewrite app_nil_r. auto.
Qed.

Lemma std_nth_back step n : sim step list_next_back -> sim (std_nth step n) (list_nth_back n).
Proof.
  intros W. induction n as [|n IH]; intros s l H; simpl std_nth.
  - apply W; auto.
  - destruct (W s l H) as (s1 & E & H1). rewrite E.
    destruct (rev_case l) as [->|(l' & x & ->)].
    + simpl in *. exists s1. auto.
    + rewrite next_back_snoc in *. cbn [fst snd bind] in *. rewrite nth_back_snoc. apply IH; auto.
Qed.

Lemma std_all_sim step fuel f s l : sim step list_next -> R s l -> length l < fuel ->
  exists s', std_all step fuel f s =
    Done (upto (fun x => negb (f x)) l, forallb f l, s') /\ R s' (beyond (fun x => negb (f x)) l).
Proof.
  intros W. revert fuel s. induction l as [|x l IH]; intros [|fuel] s H Hf; simpl in Hf; try lia; simpl std_all.
  - destruct (W s [] H) as (s1 & E & H1). rewrite E. simpl in *. eauto.
  - destruct (W s (x :: l) H) as (s1 & E & H1). rewrite E. simpl in *. destruct (f x); simpl; eauto.
    destruct (IH fuel s1 H1) as (s2 & E2 & H2); [lia|]. exists s2. rewrite E2. simpl. auto.
Qed.

Lemma std_any_sim step fuel f s l : sim step list_next -> R s l -> length l < fuel ->
  exists s', std_any step fuel f s = Done (upto f l, existsb f l, s') /\ R s' (beyond f l).
Proof.
  intros W. revert fuel s. induction l as [|x l IH]; intros [|fuel] s H Hf; simpl in Hf; try lia; simpl std_any.
  - destruct (W s [] H) as (s1 & E & H1). rewrite E. simpl in *. eauto.
  - destruct (W s (x :: l) H) as (s1 & E & H1). rewrite E. simpl in *. destruct (f x); simpl; eauto.
    destruct (IH fuel s1 H1) as (s2 & E2 & H2); [lia|]. exists s2. rewrite E2. simpl. auto.
Qed.

Lemma std_fold_sim {B} step fuel (f : B -> X -> B) b s l : sim step list_next -> R s l -> length l < fuel ->
  std_fold step fuel f b s = Done (fold_left f l b).
Proof.
  intros W. revert fuel s b. induction l as [|x l IH]; intros [|fuel] s b H Hf; simpl in Hf; try lia; simpl std_fold.
  - destruct (W s [] H) as (s1 & E & H1). rewrite E. simpl in *. auto.
  - destruct (W s (x :: l) H) as (s1 & E & H1). rewrite E. simpl in *. apply IH; auto. lia.
Qed.

Lemma std_reduce_sim step fuel (f : X -> X -> X) s l : sim step list_next -> R s l -> length l <= fuel ->
  std_reduce step fuel f s =
  Done (match l with [] => None | x :: t => Some (fold_left f t x) end).
Proof.
  intros W H Hf. unfold std_reduce. destruct (W s l H) as (s1 & E & H1). rewrite E.
  destruct l as [|x t]; simpl in *; auto. erewrite std_fold_sim; eauto. simpl. auto.
Qed.

(** What remains to be shown when the other methods are the default ones. *)
Lemma lawful_std I :
  sim (it_next I) list_next -> (forall n, sim (it_nth I n) (list_nth n)) ->
  sim (it_next_back I) list_next_back ->
  (forall n, sim (it_nth_back I n) (list_nth_back n)) ->
  (forall s l f, R s l -> exists s', it_all I f s =
     Done (upto (fun x => negb (f x)) l, forallb f l, s') /\ R s' (beyond (fun x => negb (f x)) l)) ->
  (forall s l f, R s l -> exists s', it_any I f s = Done (upto f l, existsb f l, s') /\ R s' (beyond f l)) ->
  (forall s l, R s l -> it_len I s = length l) ->
  (forall s l, R s l -> it_size_hint I s = (length l, Some (length l))) ->
  lawful I.
Proof.
  intros H1 H2 H3 H4 H5 H6 H7 H8 c s l H. destruct c; simpl.
  - destruct (H1 s l H) as (s' & E & K). rewrite E. simpl. eauto.
  - destruct (H2 n s l H) as (s' & E & K). rewrite E. simpl. eauto.
  - destruct (H3 s l H) as (s' & E & K). rewrite E. simpl. eauto.
  - destruct (H4 n s l H) as (s' & E & K). rewrite E. simpl. eauto.
  - destruct (H5 s l f H) as (s' & E & K). rewrite E. simpl. eauto.
  - destruct (H6 s l f H) as (s' & E & K). rewrite E. simpl. eauto.
  - rewrite (H7 s l H). eauto.
  - rewrite (H8 s l H). eauto.
Qed.

End Sim.

(** ** Slices *)

Lemma slice_until_eq {X} f (l : list X) :
  slice_until f l = (upto f l, existsb f l, beyond f l).
Proof.
  induction l as [|x l IH]; simpl; auto. rewrite IH. destruct (f x); auto.
Qed.

Lemma upto_all {X} f (l : list X) : existsb (fun x => negb (f x)) l = negb (forallb f l).
Proof. induction l as [|x l IH]; simpl; auto. rewrite IH. destruct (f x); auto. Qed.

Lemma removelast_first {X} (l : list X) : removelast l = firstn (length l - 1) l.
Proof.
  destruct (rev_case l) as [->|(l' & x & ->)]; auto.
  pose proof (next_back_snoc l' x) as E. unfold list_next_back in E. injection E as _ ->.
  apply removelast_last.
Qed.

Lemma hd_nth {X} (l : list X) : hd_error l = nth_error l 0.
Proof. destruct l; auto. Qed.

Lemma slice_lawful {X} : lawful (fun l m : list X => l = m) slice_iter.
Proof.
  apply lawful_std.
  - intros s l ->. simpl. rewrite hd_nth. exists (tl l). destruct l; auto.
  - intros n s l ->. simpl. eauto.
  - intros s l ->. simpl. rewrite hd_nth, removelast_first. eauto.
  - intros n s l ->. simpl. eauto.
  - intros s l f ->. simpl. rewrite slice_until_eq, upto_all, negb_involutive. eauto.
  - intros s l f ->. simpl. rewrite slice_until_eq. eauto.
  - intros s l ->. auto.
  - intros s l ->. auto.
Qed.

(** The three methods that [SwEdgeIterNeighbors] and [ContainedIter] share. *)
Section Mapped.
Context {E Y : Type}.
Variable item : E -> Y.

Let R (s : list E) (l : list Y) := l = map item s.

Lemma split_first_sim :
  sim R (fun l => match split_first l with None => Done (None, l) | Some (e, r) => Done (Some (item e), r) end)
      list_next.
Proof. intros s l ->. destruct s as [|e s]; simpl; [exists []|exists s]; unfold R; auto. Qed.

Lemma split_last_snoc (l : list E) x : split_last (l ++ [x]) = Some (x, l).
Proof. unfold split_last. rewrite rev_app_distr. simpl. rewrite rev_involutive. auto. Qed.

Lemma split_last_sim :
  sim R (fun l => match split_last l with None => Done (None, l) | Some (e, r) => Done (Some (item e), r) end)
      list_next_back.
Proof.
  intros s l ->. destruct (rev_case s) as [->|(s' & x & ->)].
  - exists []. unfold R. auto.
  - rewrite split_last_snoc. exists s'. rewrite map_app. cbn [map]. rewrite next_back_snoc. unfold R. auto.
Qed.

Lemma split_at_sim n :
  sim R (fun l => if length l <=? n then Done (None, [])
                  else do ' (elements, r) <- split_at (n + 1) l;
                       do e <- vget elements n; Done (Some (item e), r)) (list_nth n).
Proof.
  intros s l ->. unfold list_nth. cbn [fst snd]. destruct (Nat.leb_spec (length s) n) as [Hn|Hn].
  - exists []. rewrite (proj2 (nth_error_None _ _)) by (rewrite map_length; lia).
    rewrite skipn_all2 by (rewrite map_length; lia). unfold R. auto.
  - unfold split_at. destruct (Nat.leb_spec (n + 1) (length s)); [|lia]. simpl bind.
    destruct (nth_error s n) as [e|] eqn:Ee; [|apply nth_error_None in Ee; lia].
    assert (Ef : nth_error (firstn (n + 1) s) n = Some e).
    { rewrite <- Ee. rewrite <- (firstn_skipn (n + 1) s) at 2. rewrite nth_error_app1; auto.
      rewrite firstn_length. lia. }
    unfold vget. rewrite Ef. simpl bind. exists (skipn (n + 1) s).
    rewrite nth_error_map, Ee. split; auto. unfold R.
    replace (n + 1) with (S n) by lia. rewrite skipn_map. auto.
Qed.

Lemma mapped_lawful I :
  it_next I = (fun l => match split_first l with None => Done (None, l) | Some (e, r) => Done (Some (item e), r) end) ->
  it_nth I = (fun n l => if length l <=? n then Done (None, [])
                  else do ' (elements, r) <- split_at (n + 1) l;
                       do e <- vget elements n; Done (Some (item e), r)) ->
  it_next_back I = (fun l => match split_last l with None => Done (None, l) | Some (e, r) => Done (Some (item e), r) end) ->
  it_nth_back I = std_nth (it_next_back I) ->
  it_all I = (fun f l => std_all (it_next I) (S (length l)) f l) ->
  it_any I = (fun f l => std_any (it_next I) (S (length l)) f l) ->
  it_len I = (fun l => length l) -> it_size_hint I = (fun l => (length l, Some (length l))) ->
  lawful R I.
Proof.
  intros E1 E2 E3 E4 E5 E6 E7 E8.
  assert (N : sim R (it_next I) list_next) by (rewrite E1; apply split_first_sim).
  assert (B : sim R (it_next_back I) list_next_back) by (rewrite E3; apply split_last_sim).
  apply lawful_std; auto.
  - intros n. rewrite E2. apply split_at_sim.
  - intros n. rewrite E4. apply std_nth_back; auto.
  - intros s l f H. rewrite E5. apply std_all_sim; auto. unfold R in H. rewrite H, map_length. auto.
  - intros s l f H. rewrite E6. apply std_any_sim; auto. unfold R in H. rewrite H, map_length. auto.
  - intros s l ->. rewrite E7, map_length. auto.
  - intros s l ->. rewrite E8, map_length. auto.
Qed.
End Mapped.

Lemma sw_lawful : lawful (fun s l => l = map se_to s) sw_iter.
Proof. apply mapped_lawful; auto. Qed.

Lemma wrapper_sim {Y} (m : wrapper -> outcome (Y * wrapper)) (mg : list nat -> outcome (Y * list nat))
  (ms : list sw_edge -> outcome (Y * list sw_edge)) f :
  (forall l, m (GenericIter l) = rewrap GenericIter (mg l)) ->
  (forall l, m (SwIter l) = rewrap_sw (ms l)) ->
  sim (fun l k : list nat => l = k) mg f -> sim (fun s l => l = map se_to s) ms f ->
  sim (fun w l => l = wrapper_items w) m f.
Proof.
  intros E1 E2 H1 H2 [l|l] k ->; simpl wrapper_items.
  - rewrite E1. destruct (H1 l l eq_refl) as (s' & E & K). rewrite E. exists (GenericIter s'). simpl. auto.
  - rewrite E2. destruct (H2 l _ eq_refl) as (s' & E & K). rewrite E. exists (SwIter s'). simpl. auto.
Qed.

Lemma sim_field {S X Y} (R : S -> list X -> Prop) (m : S -> outcome (option X * S)) (k : option X -> Y)
  (f : list X -> option X * list X) :
  sim R (fun s => do ' (o, s') <- m s; Done (k o, s')) (fun l => (k (fst (f l)), snd (f l))) ->
  (forall a b, k a = k b -> a = b) -> sim R m f.
Proof.
  intros H Inj s l Hs. destruct (H s l Hs) as (s' & E & K). exists s'.
  destruct (m s) as [[o s1]| | |]; try discriminate. simpl in E. injection E as E <-.
  apply Inj in E. subst. auto.
Qed.

Lemma lawful_next {S X} R (I : iter S X) : lawful R I -> sim R (it_next I) list_next.
Proof. intros W. apply (@sim_field _ _ (answer X) R (it_next I) (@Item X)); [exact (W Next)|congruence]. Qed.
Lemma lawful_nth {S X} R (I : iter S X) n : lawful R I -> sim R (it_nth I n) (list_nth n).
Proof. intros W. apply (@sim_field _ _ (answer X) R (it_nth I n) (@Item X)); [exact (W (Nth n))|congruence]. Qed.
Lemma lawful_next_back {S X} R (I : iter S X) : lawful R I -> sim R (it_next_back I) list_next_back.
Proof. intros W. apply (@sim_field _ _ (answer X) R (it_next_back I) (@Item X)); [exact (W NextBack)|congruence]. Qed.
Lemma lawful_nth_back {S X} R (I : iter S X) n : lawful R I -> sim R (it_nth_back I n) (list_nth_back n).
Proof. intros W. apply (@sim_field _ _ (answer X) R (it_nth_back I n) (@Item X)); [exact (W (NthBack n))|congruence]. Qed.
Lemma lawful_all {S X} R (I : iter S X) f s l : lawful R I -> R s l -> exists s', it_all I f s =
   Done (upto (fun x => negb (f x)) l, forallb f l, s') /\ R s' (beyond (fun x => negb (f x)) l).
Proof.
  intros W H. destruct (W (All f) s l H) as (s' & E & K). simpl in *. exists s'.
  destruct (it_all I f s) as [[[xs b] s1]| | |]; try discriminate. simpl in E.
  injection E as -> -> ->. auto.
Qed.
Lemma lawful_any {S X} R (I : iter S X) f s l : lawful R I -> R s l -> exists s', it_any I f s =
   Done (upto f l, existsb f l, s') /\ R s' (beyond f l).
Proof.
  intros W H. destruct (W (Any f) s l H) as (s' & E & K). simpl in *. exists s'.
  destruct (it_any I f s) as [[[xs b] s1]| | |]; try discriminate. simpl in E.
  injection E as -> -> ->. auto.
Qed.
Lemma lawful_len {S X} R (I : iter S X) s l : lawful R I -> R s l -> it_len I s = length l.
Proof. intros W H. destruct (W Len s l H) as (s' & E & _). simpl in E. congruence. Qed.
Lemma lawful_hint {S X} R (I : iter S X) s l : lawful R I -> R s l ->
  it_size_hint I s = (length l, Some (length l)).
Proof.
  intros W H. destruct (W SizeHint s l H) as (s' & E & _). simpl in E.
  destruct (it_size_hint I s). congruence.
Qed.

Definition wrapped (w : wrapper) (l : list nat) : Prop := l = wrapper_items w.

Lemma wrapper_lawful : lawful wrapped wrapper_iter.
Proof.
  pose proof (@slice_lawful nat) as G. pose proof sw_lawful as W.
  assert (B : sim wrapped (it_next_back wrapper_iter) list_next_back).
  { eapply wrapper_sim; try (intros; reflexivity); eapply lawful_next_back; eauto. }
  apply lawful_std; auto.
  - eapply wrapper_sim; try (intros; reflexivity); eapply lawful_next; eauto.
  - intros n. eapply wrapper_sim; try (intros; reflexivity); eapply lawful_nth; eauto.
  - intros n. apply std_nth_back; auto.
  - intros [l|l] k f ->; change (it_all wrapper_iter) with wrapper_all; unfold wrapper_all.
    + destruct (lawful_all f G eq_refl (s := l)) as (s' & E & K). rewrite E. exists (GenericIter s').
      unfold wrapped. simpl. auto.
    + destruct (lawful_all f W eq_refl (s := l)) as (s' & E & K). rewrite E. exists (SwIter s').
      unfold wrapped. simpl. auto.
  - intros [l|l] k f ->; change (it_any wrapper_iter) with wrapper_any; unfold wrapper_any.
    + destruct (lawful_any f G eq_refl (s := l)) as (s' & E & K). rewrite E. exists (GenericIter s').
      unfold wrapped. simpl. auto.
    + destruct (lawful_any f W eq_refl (s := l)) as (s' & E & K). rewrite E. exists (SwIter s').
      unfold wrapped. simpl. auto.
  - intros [l|l] k ->; simpl; rewrite ?map_length; auto.
  - intros [l|l] k ->; simpl; rewrite ?map_length; auto.
Qed.

Lemma fold_snoc {X} (l : list X) : forall a, fold_left (fun v x => v ++ [x]) l a = a ++ l.
Proof.
  induction l as [|x l IH]; intros a; simpl; [rewrite app_nil_r; auto|].
  rewrite IH, <- app_assoc. auto.
Qed.

Lemma sw_fold {B} (f : B -> nat -> B) b l :
  std_fold sw_next (S (length l)) f b l = Done (fold_left f (map se_to l) b).
Proof.
  eapply (@std_fold_sim _ _ (fun s l => l = map se_to s)); eauto.
  - exact (lawful_next sw_lawful).
  - rewrite map_length. lia.
Qed.

(** ** Looking up indices *)

Section Lookup.
Context {V S Y : Type}.
Variable (R : S -> list nat -> Prop) (I : iter S nat).
Variable (get get_back : V -> nat -> outcome Y) (v : V).
Hypothesis HI : lawful R I.

Definition looked (s : V * S) (ys : list Y) : Prop :=
  fst s = v /\ exists l, R (snd s) l /\
    Forall2 (fun i y => get v i = Done y /\ get_back v i = Done y) l ys.

Lemma Forall2_nth {X Z} (P : X -> Z -> Prop) l m n : Forall2 P l m ->
  match nth_error l n, nth_error m n with
  | Some x, Some z => P x z
  | None, None => True
  | _, _ => False
  end.
Proof. intros H. revert n. induction H; intros [|n]; simpl; auto. apply IHForall2. Qed.

Lemma Forall2_skipn {X Z} (P : X -> Z -> Prop) n l m : Forall2 P l m -> Forall2 P (skipn n l) (skipn n m).
Proof. intros H. revert n. induction H; intros [|n]; simpl; auto. Qed.

Lemma Forall2_firstn {X Z} (P : X -> Z -> Prop) n l m : Forall2 P l m -> Forall2 P (firstn n l) (firstn n m).
Proof. intros H. revert n. induction H; intros [|n]; simpl; auto. Qed.

Lemma Forall2_rev' {X Z} (P : X -> Z -> Prop) l m : Forall2 P l m -> Forall2 P (rev l) (rev m).
Proof. induction 1; simpl; auto. apply Forall2_app; auto. Qed.

Lemma look_sim g step (f : forall X, list X -> option X * list X) :
  (g = get \/ g = get_back) ->
  sim R step (f nat) ->
  (forall l ys, Forall2 (fun i y => get v i = Done y /\ get_back v i = Done y) l ys ->
     Forall2 (fun i y => get v i = Done y /\ get_back v i = Done y) (snd (f nat l)) (snd (f Y ys)) /\
     match fst (f nat l), fst (f Y ys) with
     | Some i, Some y => get v i = Done y /\ get_back v i = Done y
     | None, None => True
     | _, _ => False
     end) ->
  sim looked (look g step) (f Y).
Proof using HI.
  intros Hg W F [v' s] ys (Hv & l & Hl & Hf). simpl in Hv, Hl. subst v'. unfold look. simpl fst; simpl snd.
  destruct (W s l Hl) as (s' & E & K). rewrite E. simpl bind.
  destruct (F l ys Hf) as (F1 & F2). exists (v, s').
  destruct (fst (f nat l)) as [i|], (fst (f Y ys)) as [y|]; try tauto.
  - destruct F2 as [E1 E2]. assert (Eg : g v i = Done y) by (destruct Hg as [->| ->]; auto).
    rewrite Eg. simpl. split; auto. split; eauto.
  - split; auto. split; eauto.
Qed.

Lemma lookup_lawful : lawful looked (lookup_iter I get get_back).
Proof using HI.
  assert (N : sim looked (look get (it_next I)) list_next).
  { apply (@look_sim get _ (fun X => @list_next X)); auto. { apply lawful_next; auto. }
    intros l ys F. unfold list_next. cbn [fst snd]. split; [apply Forall2_skipn; auto|].
    apply (Forall2_nth 0 F). }
  assert (B : sim looked (look get_back (it_next_back I)) list_next_back).
  { apply (@look_sim get_back _ (fun X => @list_next_back X)); auto. { apply lawful_next_back; auto. }
    intros l ys F. unfold list_next_back. cbn [fst snd]. rewrite (Forall2_length_eq F).
    split; [apply Forall2_firstn; auto|]. apply (Forall2_nth 0 (Forall2_rev' F)). }
  assert (L : forall s l, looked s l -> it_len I (snd s) = length l).
  { intros [v' s] ys (_ & l & Hl & F). rewrite (lawful_len HI Hl). apply (Forall2_length_eq F). }
  apply lawful_std; auto.
  - intros n. apply (@look_sim get _ (fun X => @list_nth X n)); auto. { apply lawful_nth; auto. }
    intros l ys F. unfold list_nth. cbn [fst snd]. split; [apply Forall2_skipn; auto|].
    apply (Forall2_nth n F).
  - intros n. apply std_nth_back; auto.
  - intros s l f H. cbn [it_all lookup_iter]. apply std_all_sim; auto. rewrite (L _ _ H). auto.
  - intros s l f H. cbn [it_any lookup_iter]. apply std_any_sim; auto. rewrite (L _ _ H). auto.
  - intros [v' s] ys (_ & l & Hl & F). change (it_size_hint I s = (length ys, Some (length ys))). simpl in Hl. rewrite (lawful_hint HI Hl), (Forall2_length_eq F). auto.
Qed.

End Lookup.

(** ** Items are given out once *)

Lemma upto_beyond {X} f (l : list X) : upto f l ++ beyond f l = l.
Proof. induction l as [|x l IH]; simpl; auto. destruct (f x); simpl; congruence. Qed.

Lemma nth_skip {X} n (l : list X) x : nth_error l n = Some x ->
  l = firstn n l ++ x :: skipn (S n) l.
Proof.
  revert l. induction n as [|n IH]; intros [|y l] H; simpl in *; try discriminate.
  - congruence.
  - f_equal. apply IH. auto.
Qed.

Lemma list_call_parts {X} (c : call X) l :
  exists dropped, Permutation l (given (fst (list_call c l)) ++ dropped ++ snd (list_call c l)).
Proof.
  assert (N : forall n, exists d, Permutation l (given (Item (nth_error l n)) ++ d ++ skipn (S n) l)).
  { intros n. destruct (nth_error l n) as [x|] eqn:E.
    - exists (firstn n l). simpl given. rewrite (nth_skip E) at 1. simpl app.
      symmetry. apply Permutation_middle.
    - exists l. apply nth_error_None in E. rewrite skipn_all2 by lia. simpl. rewrite app_nil_r. auto. }
  assert (B : forall n, exists d, Permutation l (given (Item (nth_error (rev l) n)) ++ d ++ firstn (length l - S n) l)).
  { intros n. destruct (nth_error (rev l) n) as [x|] eqn:E.
    - exists (rev (firstn n (rev l))).
      assert (Er : l = rev (skipn (S n) (rev l)) ++ x :: rev (firstn n (rev l))).
      { rewrite <- (rev_involutive l) at 1. rewrite (nth_skip E) at 1.
        rewrite rev_app_distr. simpl. rewrite <- app_assoc. auto. }
      assert (Es : rev (skipn (S n) (rev l)) = firstn (length l - S n) l).
      { rewrite skipn_rev, rev_involutive. auto. }
      rewrite Es in Er. rewrite Er at 1. simpl.
      etransitivity; [symmetry; apply Permutation_middle|]. constructor. apply Permutation_app_comm.
    - exists l. apply nth_error_None in E. rewrite rev_length in E.
      replace (length l - S n) with 0 by lia. simpl. rewrite app_nil_r. auto. }
  destruct c; unfold list_call; cbn [fst snd]; auto.
  - exists []. simpl. rewrite upto_beyond. auto.
  - exists []. simpl. rewrite upto_beyond. auto.
  - exists []. simpl. auto.
  - exists []. simpl. auto.
Qed.

Lemma NoDup_parts {X} (l a b c : list X) : NoDup l -> Permutation l (a ++ b ++ c) ->
  NoDup a /\ NoDup c /\ (forall x, In x a -> In x l /\ ~ In x c) /\ incl c l.
Proof.
  intros N P. pose proof (Permutation_NoDup P N) as N'.
  apply NoDup_app_iff in N'. destruct N' as (Na & Nbc & D).
  apply NoDup_app_iff in Nbc. destruct Nbc as (_ & Nc & _).
  split; auto. split; auto. split.
  - intros x H. split.
    + apply (Permutation_in _ (Permutation_sym P)). apply in_or_app. auto.
    + intros K. apply (D x H). apply in_or_app. auto.
  - intros x H. apply (Permutation_in _ (Permutation_sym P)). rewrite !in_app_iff. auto.
Qed.

Lemma list_calls_given {X} (cs : list (call X)) : forall l, NoDup l ->
  NoDup (flat_map given (fst (list_calls cs l))) /\
  incl (flat_map given (fst (list_calls cs l))) l.
Proof.
  induction cs as [|c cs IH]; intros l N; simpl.
  - split; [constructor|intros x []].
  - destruct (list_call_parts c l) as (d & P). destruct (list_call c l) as [a l1]. simpl in P.
    destruct (NoDup_parts N P) as (Na & N1 & D & I1).
    destruct (IH l1 N1) as (N2 & I2). destruct (list_calls cs l1) as [r l2]. simpl in *.
    split.
    + apply NoDup_app_iff. split; auto. split; auto. intros x H K. apply (proj2 (D x H)). auto.
    + intros x H. apply in_app_iff in H. destruct H as [H|H]; [apply D; auto|apply I1; auto].
Qed.

Lemma NoDup_map_incl {X Z} (f : X -> Z) l m : NoDup (map f l) -> incl m l -> NoDup m -> NoDup (map f m).
Proof.
  intros N I M. induction M as [|x m H M IH]; simpl; constructor.
  - intros K. apply in_map_iff in K. destruct K as (y & E & Hy).
    assert (y = x).
    { assert (Hx : In x l) by (apply I; simpl; auto). assert (Hy' : In y l) by (apply I; simpl; auto).
      clear - N E Hx Hy'. induction l as [|z l IH]; [destruct Hx|]. simpl in N. apply NoDup_cons_iff in N.
      destruct N as [N1 N2]. destruct Hx as [->|Hx], Hy' as [->|Hy']; auto.
      - exfalso. apply N1. rewrite <- E. apply in_map. auto.
      - exfalso. apply N1. rewrite E. apply in_map. auto. }
    subst. auto.
  - apply IH. intros y Hy. apply I. simpl. auto.
Qed.

(** ** Clients that write *)

Section Clients.
Context {T A : Type} {C : AdjContainer T A} {L : AdjLaws C}.
Context {S X : Type}.
Variable (R : S -> list X -> Prop) (I : iter S X) (ref : X -> nat).

Lemma client_spec (HI : lawful R I) (prog : list (action T X)) : forall g s l refs,
  simple_graph g -> R s l -> (forall x, In x l -> ref x < vertex_count g) ->
  (forall x, In x refs -> ref x < vertex_count g) ->
  exists g', client I ref prog g s refs =
      Done (fst (list_calls (calls_of prog) l),
            refs ++ flat_map given (fst (list_calls (calls_of prog) l)), g') /\
    simple_graph g' /\ vertex_count g' = vertex_count g /\ edge_count g' = edge_count g /\
    (forall v, nbrs g' v = nbrs g v) /\
    (forall v, ~ In v (map ref (refs ++ flat_map given (fst (list_calls (calls_of prog) l)))) ->
       nth_error (payloads g') v = nth_error (payloads g) v).
Proof.
  induction prog as [|[c|k t] prog IH]; intros g s l refs W Hs Hl Hr; simpl client.
  - exists g. simpl. rewrite app_nil_r. auto 10.
  - simpl calls_of. simpl app. cbn [list_calls].
    destruct (HI c s l Hs) as (s1 & E & H1). rewrite E. simpl bind.
    destruct (list_call_parts c l) as (d & P).
    destruct (list_call c l) as [a l1]. simpl in P, H1. simpl fst. simpl snd.
    assert (G : forall x, In x (given a) -> ref x < vertex_count g).
    { intros x H. apply Hl. apply (Permutation_in _ (Permutation_sym P)). apply in_or_app. auto. }
    destruct (IH g s1 l1 (refs ++ given a) W H1) as (g' & E2 & K).
    { intros x H. apply Hl. apply (Permutation_in _ (Permutation_sym P)). rewrite !in_app_iff. auto. }
    { intros x H. apply in_app_iff in H. destruct H; auto. }
    exists g'. rewrite E2. simpl bind.
    change (flat_map (fun a0 => match a0 with Call c0 => [c0] | Write _ _ => [] end) prog)
      with (calls_of prog).
    destruct (list_calls (calls_of prog) l1) as [r l2]. simpl fst in *. simpl flat_map.
    rewrite <- app_assoc in K |- *. auto.
  - simpl calls_of.
    destruct (nth_error refs k) as [x|] eqn:Ek; [|apply IH; auto].
    assert (Hx : In x refs) by (eapply nth_error_In; eauto).
    destruct (at_mut_set_spec t W (Hr x Hx)) as (g1 & E1 & W1 & V1 & C1 & P1 & N1).
    rewrite E1. simpl bind.
    destruct (IH g1 s l refs W1 Hs) as (g' & E2 & W2 & V2 & C2 & N2 & P2).
    { rewrite V1. auto. } { rewrite V1. auto. }
    exists g'. rewrite E2. split; auto. split; auto. split; [congruence|]. split; [congruence|].
    split; [intros v; rewrite N2; auto|].
    intros v Hv. change (flat_map (fun a0 => match a0 with Call c0 => [c0] | Write _ _ => [] end) prog)
      with (calls_of prog) in Hv. rewrite P2 by auto. rewrite P1. apply nth_error_upd_other.
    intros <-. apply Hv. rewrite map_app. apply in_or_app. left. apply in_map. auto.
Qed.

Lemma client_snoc (prog : list (action T X)) k t : forall g s refs as_ refs' g' x,
  client I ref prog g s refs = Done (as_, refs', g') -> nth_error refs' k = Some x ->
  client I ref (prog ++ [Write k t]) g s refs =
  do g1 <- at_mut_set g' (ref x) t; Done (as_, refs', g1).
Proof.
  induction prog as [|[c|j u] prog IH]; intros g s refs as_ refs' g' x E Hx; simpl in *.
  - injection E as <- <- <-. rewrite Hx. auto.
  - destruct (iter_call I c s) as [[a s1]| | |]; try discriminate. simpl in *.
    destruct (client I ref prog g s1 (refs ++ given a)) as [[[r rf] g2]| | |] eqn:E2; try discriminate.
    simpl in E. injection E as <- <- <-. rewrite (IH _ _ _ _ _ _ _ E2 Hx).
    destruct (at_mut_set g2 (ref x) t); auto.
  - destruct (nth_error refs j); [|eapply IH; eauto].
    destruct (at_mut_set g (ref x0) u) as [g1| | |]; try discriminate. simpl in *. eapply IH; eauto.
Qed.

End Clients.

(** ** Iterators of graphs *)

Section Graphs.
Context {T A : Type} {C : AdjContainer T A} {L : AdjLaws C} {NI : NeighborIter A} {NL : NeighborLaws C NI}.

Lemma neighbors_nbrs g i c : simple_graph g -> nth_error (vertices g) i = Some c ->
  wrapped (neighbors c) (nbrs g i).
Proof. intros W E. unfold wrapped, nbrs. rewrite E, neighbors_law. auto. Qed.

Lemma iter_neighbors_lt g i : simple_graph g -> i < vertex_count g ->
  exists w, iter_neighbors g i = Done (vertices g, w) /\ wrapped w (nbrs g i) /\
    iter_neighbors_mut g i = Done (vertex_count g, w).
Proof.
  intros W Hi. destruct (container_lt W Hi) as (c & Ec & _).
  exists (neighbors c). unfold iter_neighbors, iter_neighbors_mut. rewrite (vget_done _ _ Ec), Ec. simpl.
  split; auto. split; [apply neighbors_nbrs; auto|].
  rewrite (sg_len W). destruct (Nat.ltb_spec i (vertex_count g)); auto. lia.
Qed.

Lemma places_looked p n w l : wrapped w l -> (forall v, In v l -> v < n) ->
  looked wrapped (raw_place p) asserted_place n (n, w) l.
Proof.
  intros Hw H. split; auto. exists l. split; auto.
  clear Hw. induction l as [|v l IH]; constructor.
  - unfold raw_place, asserted_place. destruct (Nat.ltb_spec v n); auto. specialize (H v). simpl in H. lia.
  - apply IH. intros; apply H; simpl; auto.
Qed.

Lemma index_places_looked n w l : wrapped w l -> (forall v, In v l -> v < n) ->
  looked wrapped (fun len i => do r <- asserted_place len i; Done (i, r))
    (fun len i => do r <- asserted_place len i; Done (i, r)) n (n, w) (map (fun v => (v, v)) l).
Proof.
  intros Hw H. split; auto. exists l. split; auto.
  clear Hw. induction l as [|v l IH]; constructor.
  - unfold asserted_place. destruct (Nat.ltb_spec v n); auto. specialize (H v). simpl in H. lia.
  - apply IH. intros; apply H; simpl; auto.
Qed.

End Graphs.
