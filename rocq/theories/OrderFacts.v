(** The words of the generator are read in the order of the draws. *)
From Verif Require Import Base BaseFacts Containers Graph GraphFacts Rng Words WordsMore WordsSpec WordsFacts DrawsSpec DrawsFacts OrderSpec.
From Coq Require Import NArith ZArith QArith SpecFloat.
Set Implicit Arguments.
Unset Strict Implicit.
Local Open Scope nat_scope.

(** ** Reading *)

Lemma reads_ext ask ask' b b' ws rs rest : reads ask b ws rs rest ->
  (forall q c t, rs = q ++ c :: t -> ask' (b' ++ q) = ask (b ++ q)) -> reads ask' b' ws rs rest.
Proof.
  intros R. revert b'. induction R as [|b ws r ws1 rs rest E R IH]; intros b' H; [constructor|].
  econstructor.
  - specialize (H [] r rs eq_refl). rewrite !app_nil_r in H. rewrite H. exact E.
  - apply IH. intros q c t ->. rewrite <- !app_assoc. apply (H (r :: q) c t). reflexivity.
Qed.

Lemma reads_app ask b ws rs mid rs2 rest : reads ask b ws rs mid -> reads ask (b ++ rs) mid rs2 rest ->
  reads ask b ws (rs ++ rs2) rest.
Proof.
  induction 1 as [|b ws r ws1 rs mid E R IH]; intros R2; [now rewrite app_nil_r in R2|].
  cbn [app]. econstructor; [exact E|]. apply IH. now rewrite <- app_assoc.
Qed.

Lemma read_shorter q ws r rest : read q ws = Some (r, rest) -> exists u, ws = u ++ rest /\ u <> [].
Proof.
  induction ws as [|w ws IH]; [discriminate|]. cbn [read]. destruct q as [b n z|k].
  - destruct (_ <? _)%N.
    + intros E. injection E as _ <-. now exists [w].
    + intros E. destruct (IH E) as (u & -> & H). exists (w :: u). split; [reflexivity|discriminate].
  - intros E. injection E as _ <-. now exists [w].
Qed.

Lemma reads_shorter ask b ws rs rest : reads ask b ws rs rest ->
  exists u, ws = u ++ rest /\ length rs <= length u.
Proof.
  induction 1 as [|b ws r ws1 rs rest E R (u & -> & L)]; [now exists []|].
  destruct (read_shorter E) as (v & -> & H). exists (v ++ u). split; [now rewrite app_assoc|].
  rewrite app_length. cbn [length]. destruct v; [now destruct H|]. cbn [length]. lia.
Qed.

(** ** Ways to put calls together *)

(** As data, so that the kinds of draws of a program can be put together from those of its parts. *)
Record ordered {X} (w : list N -> outcome (X * list N)) (f : list nat -> outcome (X * list nat)) := {
  ord_ask : list nat -> kind;
  ord_fair : forall q, fair (ord_ask q);
  ord_follows : follows ord_ask w f;
  ord_settled : settled f
}.

Lemma ordered_in_order {X} (w : list N -> outcome (X * list N)) f : ordered w f -> in_order w f.
Proof. intros O. exists (ord_ask O). split; [apply ord_fair|apply ord_follows]. Qed.

Lemma settled_more {X} (f : list nat -> outcome (X * list nat)) rs x rest more : settled f ->
  f rs = Done (x, rest) -> f (rs ++ more) = Done (x, rest ++ more).
Proof.
  intros S E. destruct (settled_returns S E) as (u & -> & H). rewrite <- app_assoc. apply H.
Qed.

Definition some_kind : kind := Upper 53.

Definition ordered_const {X} (m : outcome X) : ordered (fun ws => do x <- m; Done (x, ws)) (fun rs => do x <- m; Done (x, rs)).
Proof.
  exists (fun _ => some_kind); [reflexivity| |apply settled_const]. intros ws. destruct m; cbn [bind].
  - exists []. split; [constructor|]. reflexivity.
  - exists [], ws. split; [constructor|]. reflexivity.
  - exists [], ws. split; [constructor|]. reflexivity.
  - exists [], ws. split; [constructor|]. right. intros o (x & r & E). discriminate E.
Defined.
Definition ordered_done {X} (x : X) : ordered (fun ws => Done (x, ws)) (fun rs => Done (x, rs)) := ordered_const (Done x).
Definition ordered_stop {X} : ordered (fun _ => Panic : outcome (X * list N)) (fun _ => Panic) := ordered_const (Panic : outcome X).
Definition ordered_ub {X} : ordered (fun _ => UB : outcome (X * list N)) (fun _ => UB) := ordered_const (UB : outcome X).
Definition ordered_fuel {X} : ordered (fun _ => NoFuel : outcome (X * list N)) (fun _ => NoFuel) := ordered_const (NoFuel : outcome X).

Lemma follows_bind {X Y} a1 a2 w f (kw : X -> list N -> outcome (Y * list N)) kf :
  settled f -> follows a1 w f -> (forall x q r, f q = Done (x, r) -> follows (a2 x) (kw x) (kf x)) ->
  follows (fun rs => match f rs with Done (x, r) => a2 x r | _ => a1 rs end)
    (fun ws => do ' (x, t) <- w ws; kw x t) (fun rs => do ' (x, t) <- f rs; kf x t).
Proof.
  intros S F1 F2. set (ask := fun rs => match f rs with Done (x, r) => a2 x r | _ => a1 rs end).
  assert (E1 : forall ws rs rest, reads a1 [] ws rs rest ->
    (forall x r, f rs = Done (x, r) -> r = []) -> reads ask [] ws rs rest).
  { intros ws rs rest R H. apply (reads_ext R). intros q c t ->. cbn [app]. unfold ask.
    destruct (f q) as [[y r]| | |] eqn:E; auto. apply (settled_more (c :: t) S) in E.
    apply H in E. destruct r; discriminate E. }
  intros ws. pose proof (F1 ws) as F. destruct (w ws) as [[x mid]| | |] eqn:E; cbn [bind].
  - destruct F as (rs1 & R1 & D1).
    assert (R1' : reads ask [] ws rs1 mid).
    { apply E1; auto. intros y r Hy. specialize (D1 []). rewrite app_nil_r, Hy in D1. now injection D1. }
    assert (R2' : forall rs2 rest, reads (a2 x) [] mid rs2 rest -> reads ask [] ws (rs1 ++ rs2) rest).
    { intros rs2 rest R2. apply (reads_app R1'). apply (reads_ext R2). intros q c t _. cbn [app]. unfold ask. now rewrite D1. }
    pose proof (F2 x _ _ (D1 []) mid) as G. destruct (kw x mid) as [[y rest]| | |] eqn:E2.
    + destruct G as (rs2 & R2 & D2). exists (rs1 ++ rs2). split; auto.
      intros o. rewrite <- app_assoc, D1. apply D2.
    + destruct G as (rs2 & rest & R2 & D2). exists (rs1 ++ rs2), rest. split; auto.
      intros r o. rewrite <- app_assoc, D1. apply D2.
    + destruct G as (rs2 & rest & R2 & D2). exists (rs1 ++ rs2), rest. split; auto.
      intros r o. rewrite <- app_assoc, D1. apply D2.
    + destruct G as (rs2 & rest & R2 & D2). exists (rs1 ++ rs2), rest. split; auto.
      destruct D2 as [[D2 N2]|N2]; [left|right].
      * unfold ask, returns. rewrite !D1. split; auto.
      * intros o. unfold returns. rewrite <- app_assoc, D1. apply N2.
  - destruct F as (rs & rest & R & D). exists rs, rest. split.
    + apply E1; auto. intros x r Hx. apply (settled_more [0] S) in Hx. rewrite D in Hx. discriminate Hx.
    + intros r o. now rewrite D.
  - destruct F as (rs & rest & R & D). exists rs, rest. split.
    + apply E1; auto. intros x r Hx. apply (settled_more [0] S) in Hx. rewrite D in Hx. discriminate Hx.
    + intros r o. now rewrite D.
  - destruct F as (rs & rest & R & D).
    assert (NR : ~ returns f rs). { destruct D as [[_ D]|D]; auto. specialize (D []). now rewrite app_nil_r in D. }
    exists rs, rest. split.
    + apply E1; auto. intros x r Hx. destruct NR. now exists x, r.
    + destruct D as [[D _]|D]; [left|right].
      * split.
        -- unfold ask. destruct (f rs) as [[x r]| | |] eqn:Ef; auto. destruct NR. now exists x, r.
        -- intros (x & r & H). destruct (f rs) as [[y r']| | |] eqn:Ef; try discriminate H. destruct NR. now exists y, r'.
      * intros o (x & r & H). destruct (f (rs ++ o)) as [[y r']| | |] eqn:Ef; try discriminate H.
        apply (D o). now exists y, r'.
Qed.

Definition ordered_bind {X Y} w f (kw : X -> list N -> outcome (Y * list N)) kf :
  ordered w f -> (forall x, ordered (kw x) (kf x)) ->
  ordered (fun ws => do ' (x, t) <- w ws; kw x t) (fun rs => do ' (x, t) <- f rs; kf x t).
Proof.
  intros O K.
  exists (fun rs => match f rs with Done (x, r) => ord_ask (K x) r | _ => ord_ask O rs end).
  - intros q. destruct (f q) as [[x r]| | |]; apply ord_fair.
  - apply (follows_bind (ord_settled O) (ord_follows O) (fun x _ _ _ => ord_follows (K x))).
  - apply settled_bind; [exact (ord_settled O)|]. intros x. exact (ord_settled (K x)).
Defined.

Definition ordered_pure {X Y} (m : outcome X) (kw : X -> list N -> outcome (Y * list N)) kf :
  (forall x, ordered (kw x) (kf x)) ->
  ordered (fun ws => do x <- m; kw x ws) (fun rs => do x <- m; kf x rs).
Proof. intros K. destruct m; cbn [bind]; auto using ordered_stop, ordered_ub, ordered_fuel. Defined.

Definition ordered_ext {X} (w w' : list N -> outcome (X * list N)) f f' :
  (forall ws, w ws = w' ws) -> (forall rs, f rs = f' rs) -> ordered w f -> ordered w' f'.
Proof.
  intros W F O. exists (ord_ask O); [apply ord_fair| |exact (settled_ext F (ord_settled O))].
  intros ws. pose proof (ord_follows O ws) as G. rewrite <- W. destruct (w ws) as [[x rest]| | |].
  - destruct G as (rs & R & D). exists rs. split; auto. intros o. now rewrite <- F.
  - destruct G as (rs & rest & R & D). exists rs, rest. split; auto. intros r o. now rewrite <- F.
  - destruct G as (rs & rest & R & D). exists rs, rest. split; auto. intros r o. now rewrite <- F.
  - destruct G as (rs & rest & R & D). exists rs, rest. split; auto. unfold returns in *. destruct D as [[D1 D2]|D]; [left|right].
    + split; auto. now rewrite <- F.
    + intros o. rewrite <- F. apply D.
Defined.

Definition ordered_foldM {X A} (w : X * list N -> A -> outcome (X * list N)) (f : X * list nat -> A -> outcome (X * list nat)) l :
  (forall x a, ordered (fun ws => w (x, ws) a) (fun rs => f (x, rs) a)) ->
  forall x, ordered (fun ws => foldM w (x, ws) l) (fun rs => foldM f (x, rs) l).
Proof.
  intros S. induction l as [|a l IH]; intros x; cbn [foldM]; [apply ordered_done|].
  eapply ordered_ext; [| |apply (ordered_bind (S x a) IH)].
  - intros ws. cbv beta. destruct (w (x, ws) a) as [[]| | |]; reflexivity.
  - intros rs. cbv beta. destruct (f (x, rs) a) as [[]| | |]; reflexivity.
Defined.

(** ** Loops *)

Section Loop.
Context {St X : Type} (bw : St -> list N -> outcome ((St + X) * list N)) (bf : St -> list nat -> outcome ((St + X) * list nat)).
Variable O : forall s, ordered (bw s) (bf s).
Hypothesis goes : forall s rs s' rs', bf s rs = Done (inl s', rs') -> length rs' < length rs \/ forall r, bf s' r = Panic.

Fixpoint loop_ask (fuel : nat) (s : St) (rs : list nat) : kind :=
  match fuel with
  | 0 => some_kind
  | S f => match bf s rs with Done (inl s', r) => loop_ask f s' r | _ => ord_ask (O s) rs end
  end.

Lemma loop_ask_stable n : forall s q m, length q + 2 <= n -> length q + 2 <= m -> loop_ask n s q = loop_ask m s q.
Proof.
  induction n as [|n IH]; intros s q m L M; [lia|]. destruct m as [|m]; [lia|]. cbn [loop_ask].
  destruct (bf s q) as [[[s'|x] r]| | |] eqn:E; auto. destruct (goes E) as [G|G].
  - apply IH; lia.
  - destruct n as [|n]; [lia|]. destruct m as [|m]; [lia|]. cbn [loop_ask]. now rewrite G.
Qed.

Definition asks (s : St) (rs : list nat) : kind := loop_ask (length rs + 2) s rs.

Lemma asks_next s s' r1 q : (forall o, bf s (r1 ++ o) = Done (inl s', o)) -> asks s (r1 ++ q) = asks s' q.
Proof.
  intros D. unfold asks. rewrite app_length. replace (length r1 + length q + 2) with (S (length r1 + length q + 1)) by lia.
  cbn [loop_ask]. rewrite D. destruct (goes (D [])) as [G|G].
  - rewrite app_nil_r in G. cbn [length] in G. apply loop_ask_stable; lia.
  - replace (length r1 + length q + 1) with (S (length r1 + length q)) by lia.
    replace (length q + 2) with (S (length q + 1)) by lia. cbn [loop_ask]. now rewrite G.
Qed.

Lemma asks_here s q : (forall x r, bf s q <> Done (inl x, r)) -> asks s q = ord_ask (O s) q.
Proof.
  intros H. unfold asks. replace (length q + 2) with (S (length q + 1)) by lia. cbn [loop_ask].
  destruct (bf s q) as [[[s'|x] r]| | |] eqn:E; auto. now destruct (H s' r).
Qed.

Lemma asks_reads s ws rs rest : reads (ord_ask (O s)) [] ws rs rest ->
  (forall y r, bf s rs = Done (y, r) -> r = []) -> reads (asks s) [] ws rs rest.
Proof.
  intros R H. apply (reads_ext R). intros q c t ->. cbn [app]. apply asks_here.
  intros x r E. apply (settled_more (c :: t) (ord_settled (O s))) in E. apply H in E. destruct r; discriminate E.
Qed.

Lemma asks_on s ws s' r1 mid r2 rest : reads (ord_ask (O s)) [] ws r1 mid ->
  (forall o, bf s (r1 ++ o) = Done (inl s', o)) -> reads (asks s') [] mid r2 rest -> reads (asks s) [] ws (r1 ++ r2) rest.
Proof.
  intros R1 D R2. apply reads_app with (mid := mid).
  - apply asks_reads; auto. intros y r E. specialize (D []). rewrite app_nil_r, E in D. now injection D.
  - apply (reads_ext R2). intros q c t _. cbn [app]. now apply asks_next.
Qed.

Lemma loop_follows n : forall s ws, length ws < n ->
  match w_loop n bw s ws with
  | Done (x, rest) => exists rs, reads (asks s) [] ws rs rest /\
      forall f o, length rs < f -> loop f bf s (rs ++ o) = Done (x, o)
  | Panic => exists rs rest, reads (asks s) [] ws rs rest /\
      forall f r o, S (length rs) < f -> loop f bf s (rs ++ r :: o) = Panic
  | UB => exists rs rest, reads (asks s) [] ws rs rest /\
      forall f r o, S (length rs) < f -> loop f bf s (rs ++ r :: o) = UB
  | NoFuel => exists rs rest, reads (asks s) [] ws rs rest /\
      ((read (asks s rs) rest = None /\ forall f, ~ returns (loop f bf s) rs) \/
       forall f o, ~ returns (loop f bf s) (rs ++ o))
  end.
Proof.
  induction n as [|n IH]; intros s ws L; [lia|]. cbn [w_loop].
  pose proof (ord_follows (O s) ws) as F. destruct (bw s ws) as [[[s'|x] mid]| | |] eqn:E; cbn [bind].
  - destruct F as (r1 & R1 & D1).
    destruct (reads_shorter R1) as (u & Eu & Lu). assert (Lw : length ws = length u + length mid) by (rewrite Eu; apply app_length).
    assert (G : 0 < length r1 \/ forall r, bf s' r = Panic).
    { destruct (goes (D1 [])) as [G|G]; auto. left. rewrite app_nil_r in G. cbn [length] in G. lia. }
    destruct (le_lt_dec n (length mid)) as [M|M].
    + (* the round used nothing: the next one panics *)
      destruct G as [G|G]; [lia|]. assert (length r1 = 0) by lia. destruct r1; [|discriminate]. cbn [app] in D1.
      assert (NR : forall f o, ~ returns (loop f bf s) o).
      { intros f o (y & r & H0). destruct f as [|[|f]]; cbn [loop] in H0; try discriminate H0;
          rewrite D1 in H0; cbn [bind] in H0; try discriminate H0. rewrite G in H0. discriminate H0. }
      assert (PP : forall f o, 1 < f -> loop f bf s o = Panic).
      { intros f o Hf. destruct f as [|[|f]]; try lia. cbn [loop]. rewrite D1. cbn [bind]. now rewrite G. }
      destruct n as [|n]; cbn [w_loop].
      { exists [], mid. split; [apply asks_reads; auto; intros y r E'; rewrite D1 in E'; now injection E'|].
        right. intros f o. apply NR. }
      pose proof (ord_follows (O s') mid) as F'. destruct (bw s' mid) as [[y rest]| | |] eqn:E'; cbn [bind].
      * destruct F' as (rs & _ & D'). specialize (D' []). rewrite G in D'. discriminate D'.
      * exists [], mid. split; [apply asks_reads; auto; intros y r E2; rewrite D1 in E2; now injection E2|].
        intros f r o Hf. apply PP. cbn [length] in Hf. exact Hf.
      * destruct F' as (rs & rest & _ & D'). specialize (D' 0 []). rewrite G in D'. discriminate D'.
      * exists [], mid. split; [apply asks_reads; auto; intros y r E2; rewrite D1 in E2; now injection E2|].
        right. intros f o. apply NR.
    + specialize (IH s' mid M). destruct (w_loop n bw s' mid) as [[x rest]| | |] eqn:Ew.
      * destruct IH as (r2 & R2 & D2). exists (r1 ++ r2). split; [exact (asks_on R1 D1 R2)|].
        intros f o Hf. rewrite app_length in Hf. destruct f as [|f]; [lia|]. cbn [loop].
        rewrite <- app_assoc, D1. cbn [bind]. apply D2. destruct G as [G|G]; [lia|].
        specialize (D2 (S (length r2)) [] ltac:(lia)). cbn [loop] in D2. rewrite G in D2. discriminate D2.
      * destruct IH as (r2 & rest & R2 & D2). destruct G as [G|G].
        -- exists (r1 ++ r2), rest. split; [exact (asks_on R1 D1 R2)|].
           intros f r o Hf. rewrite app_length in Hf. destruct f as [|f]; [lia|]. cbn [loop].
           rewrite <- app_assoc, D1. cbn [bind]. apply D2. lia.
        -- exists (r1 ++ r2), rest. split; [exact (asks_on R1 D1 R2)|].
           intros f r o Hf. rewrite app_length in Hf. destruct f as [|[|f]]; try lia. cbn [loop].
           rewrite <- app_assoc, D1. cbn [bind]. now rewrite G.
      * destruct IH as (r2 & rest & R2 & D2). exists (r1 ++ r2), rest. split; [exact (asks_on R1 D1 R2)|].
        intros f r o Hf. rewrite app_length in Hf. destruct f as [|f]; [lia|]. cbn [loop].
        rewrite <- app_assoc, D1. cbn [bind]. apply D2. destruct G as [G|G]; [lia|].
        specialize (D2 (S (S (length r2))) 0 [] ltac:(lia)). cbn [loop] in D2. rewrite G in D2. discriminate D2.
      * destruct IH as (r2 & rest & R2 & D2). exists (r1 ++ r2), rest. split; [exact (asks_on R1 D1 R2)|].
        assert (K : forall f o, returns (loop f bf s) (r1 ++ o) -> exists f', returns (loop f' bf s') o).
        { intros f o (y & r & H0). destruct f as [|f]; [discriminate H0|]. cbn [loop] in H0. rewrite D1 in H0.
          cbn [bind] in H0. exists f, y, r. exact H0. }
        destruct D2 as [[D2 N2]|N2]; [left|right].
        -- split; [now rewrite (asks_next _ D1)|]. intros f H0. destruct (K _ _ H0) as (f' & H1). exact (N2 _ H1).
        -- intros f o H0. rewrite <- app_assoc in H0. destruct (K _ _ H0) as (f' & H1). exact (N2 _ _ H1).
  - destruct F as (rs & R & D). exists rs. split.
    + apply asks_reads; auto. intros y r E'. specialize (D []). rewrite app_nil_r, E' in D. now injection D.
    + intros f o Hf. destruct f as [|f]; [lia|]. cbn [loop]. now rewrite D.
  - destruct F as (rs & rest & R & D). exists rs, rest. split.
    + apply asks_reads; auto. intros y r E'. apply (settled_more [0] (ord_settled (O s))) in E'. rewrite D in E'. discriminate E'.
    + intros f r o Hf. destruct f as [|f]; [lia|]. cbn [loop]. now rewrite D.
  - destruct F as (rs & rest & R & D). exists rs, rest. split.
    + apply asks_reads; auto. intros y r E'. apply (settled_more [0] (ord_settled (O s))) in E'. rewrite D in E'. discriminate E'.
    + intros f r o Hf. destruct f as [|f]; [lia|]. cbn [loop]. now rewrite D.
  - destruct F as (rs & rest & R & D).
    assert (NR : ~ returns (bf s) rs). { destruct D as [[_ D]|D]; auto. specialize (D []). now rewrite app_nil_r in D. }
    assert (K : forall f o, returns (loop f bf s) o -> returns (bf s) o).
    { intros f o (y & r & H0). destruct f as [|f]; [discriminate H0|]. cbn [loop] in H0.
      destruct (bf s o) as [[y' r']| | |] eqn:E'; try discriminate H0. exists y', r'. exact E'. }
    exists rs, rest. split.
    + apply asks_reads; auto. intros y r E'. destruct NR. exists y, r. exact E'.
    + destruct D as [[D _]|D]; [left|right].
      * split.
        -- rewrite asks_here; auto. intros y r E'. destruct NR. now exists (inl y), r.
        -- intros f H0. exact (NR (K _ _ H0)).
      * intros f o H0. exact (D _ (K _ _ H0)).
Qed.

Definition ordered_loop s : ordered (fun ws => w_loop (S (length ws)) bw s ws) (fun rs => loop (S (length rs)) bf s rs).
Proof.
  exists (asks s).
  { intros q. unfold asks. generalize (length q + 2). intros k. revert s q.
    induction k as [|k IH]; intros s q; [reflexivity|]. cbn [loop_ask].
    destruct (bf s q) as [[[s'|x] r]| | |]; [apply IH|apply ord_fair..]. }
  2: { apply settled_loop; [intros s'; exact (ord_settled (O s'))|exact goes]. }
  intros ws. pose proof (@loop_follows (S (length ws)) s ws ltac:(lia)) as H.
  destruct (w_loop _ _ _ _) as [[x rest]| | |].
  - destruct H as (rs & R & D). exists rs. split; auto. intros o. apply D. rewrite app_length. lia.
  - destruct H as (rs & rest & R & D). exists rs, rest. split; auto. intros r o. apply D. rewrite app_length. cbn [length]. lia.
  - destruct H as (rs & rest & R & D). exists rs, rest. split; auto. intros r o. apply D. rewrite app_length. cbn [length]. lia.
  - destruct H as (rs & rest & R & D). exists rs, rest. split; auto. destruct D as [[D1 D2]|D]; [left|right].
    + split; auto. apply (D2 (S (length rs))).
    + intros o. apply (D (S (length (rs ++ o)))).
Defined.

End Loop.
