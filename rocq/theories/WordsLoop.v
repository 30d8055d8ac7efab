(** Loops on the words of the generator have the runs of the loops on draws. *)
From Verif Require Import Base BaseFacts Rng Words WordsMore WordsSpec WordsFacts DrawsSpec GraphFacts.
From Coq Require Import NArith.
Set Implicit Arguments.
Unset Strict Implicit.
Local Open Scope nat_scope.

(** One direction, between any two kinds of generators. *)
Record leads {A B X} (Q : B -> Prop) (w : list A -> outcome (X * list A)) (f : list B -> outcome (X * list B)) : Prop := {
  leads_return : forall ws x rest, w ws = Done (x, rest) ->
    exists rs, Forall Q rs /\ length rs + length rest <= length ws /\ forall others, f (rs ++ others) = Done (x, others);
  leads_panic : forall ws, w ws = Panic -> exists rs, Forall Q rs /\ f rs = Panic;
  leads_undefined : forall ws, w ws = UB -> exists rs, Forall Q rs /\ f rs = UB
}.

Lemma same_leads {X} w f : same_runs w f ->
  leads (X := X) (fun _ => True) w f /\ leads (fun v => v < 2 ^ 64)%N f w.
Proof.
  intros [R1 P1 U1 W1 R2 V1 P2 U2 S1]. split; split; auto.
  - intros ws x rest H. destruct (R1 _ _ _ H) as (_ & rs & L & E). exists rs. splits; auto. apply Forall_any.
  - intros ws H. destruct (P1 _ H) as (rs & E). exists rs. split; auto. apply Forall_any.
  - intros ws H. destruct (U1 _ H) as (rs & E). exists rs. split; auto. apply Forall_any.
Qed.

Fixpoint gloop {A St X} (fuel : nat) (body : St -> list A -> outcome ((St + X) * list A)) (s : St) (l : list A)
  : outcome (X * list A) :=
  match fuel with
  | 0 => NoFuel
  | S f => do ' (r, l1) <- body s l;
           match r with
           | inl s' => gloop f body s' l1
           | inr x => Done (x, l1)
           end
  end.
Lemma loop_gloop {St X} fuel body (s : St) rs : loop (X := X) fuel body s rs = gloop fuel body s rs.
Proof.
  revert s rs. induction fuel as [|f IH]; intros s rs; [reflexivity|]. cbn [loop gloop].
  destruct (body s rs) as [[[]]| | |]; cbn [bind]; auto.
Qed.
Lemma w_loop_gloop {St X} fuel body (s : St) ws : w_loop (X := X) fuel body s ws = gloop fuel body s ws.
Proof.
  revert s ws. induction fuel as [|f IH]; intros s ws; [reflexivity|]. cbn [w_loop gloop].
  destruct (body s ws) as [[[]]| | |]; cbn [bind]; auto.
Qed.

Section Loop.
Context {A B St X : Type} (Q : B -> Prop) (b0 : B) (P : St -> Prop).
Context (ba : St -> list A -> outcome ((St + X) * list A)) (bb : St -> list B -> outcome ((St + X) * list B)).
Hypothesis HQ : Q b0.
Hypothesis body : forall s, P s -> leads Q (ba s) (bb s).
Hypothesis keeps : forall s l s' l', P s -> bb s l = Done (inl s', l') -> P s'.
Hypothesis goes : forall s l s' l', P s -> bb s l = Done (inl s', l') -> length l' < length l \/ forall r, bb s' r = Panic.

Lemma gloop_return fuel : forall s ws x rest, P s -> gloop fuel ba s ws = Done (x, rest) ->
  exists rs, Forall Q rs /\ length rs + length rest <= length ws /\
    forall fuel' o, length rs < fuel' -> gloop fuel' bb s (rs ++ o) = Done (x, o).
Proof.
  induction fuel as [|f IH]; intros s ws x rest Hs H; [discriminate|]. cbn [gloop] in H.
  destruct (ba s ws) as [[[s'|y] ws1]| | |] eqn:E; try discriminate H; cbn [bind] in H.
  - destruct (leads_return (body Hs) E) as (r1 & Q1 & L1 & E1).
    assert (Hs' : P s') by exact (keeps Hs (E1 [])).
    destruct (IH _ _ _ _ Hs' H) as (r2 & Q2 & L2 & E2).
    exists (r1 ++ r2). splits; [now apply Forall_app|rewrite app_length; lia|]. intros fuel' o L. rewrite app_length in L.
    destruct fuel' as [|f']; [lia|]. cbn [gloop]. rewrite <- app_assoc, E1. cbn [bind]. apply E2.
    destruct (goes Hs (E1 [])) as [G|G].
    + rewrite app_nil_r in G. cbn [length] in G. lia.
    + specialize (E2 (S (length r2)) [] (Nat.lt_succ_diag_r _)). cbn [gloop] in E2. rewrite G in E2. discriminate E2.
  - injection H as <- <-. destruct (leads_return (body Hs) E) as (r1 & Q1 & L1 & E1). exists r1. splits; auto.
    intros fuel' o L. destruct fuel' as [|f']; [lia|]. cbn [gloop]. now rewrite E1.
Qed.

Lemma gloop_panic fuel : forall s ws, P s -> gloop fuel ba s ws = Panic ->
  exists rs, Forall Q rs /\ forall fuel', length rs < fuel' -> gloop fuel' bb s rs = Panic.
Proof.
  induction fuel as [|f IH]; intros s ws Hs H; [discriminate|]. cbn [gloop] in H.
  destruct (ba s ws) as [[[s'|y] ws1]| | |] eqn:E; try discriminate H; cbn [bind] in H.
  - destruct (leads_return (body Hs) E) as (r1 & Q1 & L1 & E1).
    assert (Hs' : P s') by exact (keeps Hs (E1 [])).
    destruct (goes Hs (E1 [])) as [G|G].
    + rewrite app_nil_r in G. cbn [length] in G. destruct (IH _ _ Hs' H) as (r2 & Q2 & E2).
      exists (r1 ++ r2). split; [now apply Forall_app|]. intros fuel' L. rewrite app_length in L.
      destruct fuel' as [|f']; [lia|]. cbn [gloop]. rewrite E1. cbn [bind]. apply E2. lia.
    + exists (r1 ++ [b0]). split; [apply Forall_app; auto|]. intros fuel' L. rewrite app_length in L.
      cbn [length] in L. destruct fuel' as [|[|f']]; try lia. cbn [gloop]. rewrite E1. cbn [bind]. now rewrite G.
  - destruct (leads_panic (body Hs) E) as (r1 & Q1 & E1). exists r1. split; auto.
    intros fuel' L. destruct fuel' as [|f']; [lia|]. cbn [gloop]. now rewrite E1.
Qed.

Lemma gloop_undefined fuel : forall s ws, P s -> gloop fuel ba s ws = UB ->
  exists rs, Forall Q rs /\ forall fuel', length rs < fuel' -> gloop fuel' bb s rs = UB.
Proof.
  induction fuel as [|f IH]; intros s ws Hs H; [discriminate|]. cbn [gloop] in H.
  destruct (ba s ws) as [[[s'|y] ws1]| | |] eqn:E; try discriminate H; cbn [bind] in H.
  - destruct (leads_return (body Hs) E) as (r1 & Q1 & L1 & E1).
    assert (Hs' : P s') by exact (keeps Hs (E1 [])).
    destruct (IH _ _ Hs' H) as (r2 & Q2 & E2).
    exists (r1 ++ r2). split; [now apply Forall_app|]. intros fuel' L. rewrite app_length in L.
    destruct fuel' as [|f']; [lia|]. cbn [gloop]. rewrite E1. cbn [bind]. apply E2.
    destruct (goes Hs (E1 [])) as [G|G].
    + rewrite app_nil_r in G. cbn [length] in G. lia.
    + specialize (E2 (S (length r2)) (Nat.lt_succ_diag_r _)). cbn [gloop] in E2. rewrite G in E2. discriminate E2.
  - destruct (leads_undefined (body Hs) E) as (r1 & Q1 & E1). exists r1. split; auto.
    intros fuel' L. destruct fuel' as [|f']; [lia|]. cbn [gloop]. now rewrite E1.
Qed.

Lemma gloop_leads s : P s -> leads Q (fun l => gloop (S (length l)) ba s l) (fun l => gloop (S (length l)) bb s l).
Proof.
  intros Hs. split.
  - intros ws x rest H. destruct (gloop_return Hs H) as (rs & F & L & E). exists rs. splits; auto.
    intros o. apply E. rewrite app_length. lia.
  - intros ws H. destruct (gloop_panic Hs H) as (rs & F & E). exists rs. split; auto.
  - intros ws H. destruct (gloop_undefined Hs H) as (rs & F & E). exists rs. split; auto.
Qed.

End Loop.

(** What a loop returns is settled by what it uses. *)
Lemma gloop_settled {A St X} (P : St -> Prop) (body : St -> list A -> outcome ((St + X) * list A)) :
  (forall s, P s -> fixes (body s)) ->
  (forall s l s' l', P s -> body s l = Done (inl s', l') -> P s') ->
  (forall s l s' l', P s -> body s l = Done (inl s', l') -> length l' < length l \/ forall r, body s' r = Panic) ->
  forall fuel s l x rest, P s -> gloop fuel body s l = Done (x, rest) ->
  exists u, l = u ++ rest /\ forall fuel' o, length u < fuel' -> gloop fuel' body s (u ++ o) = Done (x, o).
Proof.
  intros B K G. induction fuel as [|f IH]; intros s l x rest Hs H; [discriminate|]. cbn [gloop] in H.
  destruct (body s l) as [[[s'|y] l1]| | |] eqn:E; try discriminate H; cbn [bind] in H.
  - destruct (B _ Hs _ _ _ E) as (u & -> & Hu).
    destruct (IH _ _ _ _ (K _ _ _ _ Hs E) H) as (v & -> & Hv).
    exists (u ++ v). split; [now rewrite app_assoc|]. intros fuel' o L. rewrite app_length in L.
    destruct fuel' as [|f']; [lia|]. cbn [gloop]. rewrite <- app_assoc, Hu. cbn [bind]. apply Hv.
    destruct (G _ _ _ _ Hs E) as [Z|Z].
    + rewrite (app_length u) in Z. lia.
    + specialize (Hv (S (length v)) [] (Nat.lt_succ_diag_r _)). cbn [gloop] in Hv. rewrite Z in Hv. discriminate Hv.
  - injection H as <- <-. destruct (B _ Hs _ _ _ E) as (u & -> & Hu). exists u. split; auto.
    intros fuel' o L. destruct fuel' as [|f']; [lia|]. cbn [gloop]. now rewrite Hu.
Qed.

(** Where it stops, it has used enough rounds to stop with more. *)
Lemma gloop_stuck {A St X} (P : St -> Prop) (body : St -> list A -> outcome ((St + X) * list A)) (bad : outcome (X * list A)) :
  (forall s, P s -> fixes (body s)) ->
  (forall s l, P s -> body s l = Panic -> forall o, body s (l ++ o) = Panic) ->
  (forall s l, P s -> body s l = UB -> forall o, body s (l ++ o) = UB) ->
  (forall s l s' l', P s -> body s l = Done (inl s', l') -> P s') ->
  (bad = Panic \/ bad = UB) ->
  forall fuel s l, P s -> gloop fuel body s l = bad ->
  forall fuel' o, fuel <= fuel' -> gloop fuel' body s (l ++ o) = bad.
Proof.
  intros B BP BU K Hb. induction fuel as [|f IH]; intros s l Hs H.
  { destruct Hb; subst; discriminate. }
  intros fuel' o L. destruct fuel' as [|f']; [lia|]. cbn [gloop] in H |- *.
  destruct (body s l) as [[[s'|y] l1]| | |] eqn:E; cbn [bind] in H.
  - destruct (B _ Hs _ _ _ E) as (u & -> & Hu). rewrite <- app_assoc, Hu. cbn [bind].
    apply IH; [exact (K _ _ _ _ Hs E)|auto|lia].
  - destruct Hb; subst; discriminate.
  - rewrite (BP _ _ Hs E). exact H.
  - rewrite (BU _ _ Hs E). exact H.
  - destruct Hb; subst; discriminate.
Qed.

(** A loop that has run out. *)
Lemma gloop_waits {A B St X} (QA : A -> Prop) (QB : B -> Prop) (P : St -> Prop)
  (ba : St -> list A -> outcome ((St + X) * list A)) (bb : St -> list B -> outcome ((St + X) * list B)) :
  (forall s, P s -> fixes (ba s)) -> (forall s, P s -> fixes (bb s)) ->
  (forall s, P s -> leads QB (ba s) (bb s)) -> (forall s, P s -> leads QA (bb s) (ba s)) ->
  (forall s, P s -> waits QA QB (ba s) (bb s)) ->
  (forall s l s' l', P s -> ba s l = Done (inl s', l') -> P s') ->
  (forall s l s' l', P s -> bb s l = Done (inl s', l') -> P s') ->
  (forall s l s' l', P s -> ba s l = Done (inl s', l') -> length l' < length l \/ forall r, ba s' r = Panic) ->
  forall s, P s -> waits QA QB (fun l => gloop (S (length l)) ba s l) (fun l => gloop (S (length l)) bb s l).
Proof.
  intros FA FB LA LB WA KA KB GA.
  assert (W : forall fuel s ws, P s -> length ws < fuel -> gloop fuel ba s ws = NoFuel ->
    exists rs, Forall QB rs /\ (forall fuel' x rest, gloop fuel' bb s rs <> Done (x, rest)) /\
    forall fuel' more x, gloop fuel' bb s (rs ++ more) = Done (x, []) ->
    exists ws', Forall QA ws' /\ length ws' <= length more /\
      forall fuel' o, length (ws ++ ws') < fuel' -> gloop fuel' ba s (ws ++ ws' ++ o) = Done (x, o)).
  { induction fuel as [|f IH]; intros s ws Hs L H; [lia|]. cbn [gloop] in H.
    destruct (ba s ws) as [[[s'|y] ws1]| | |] eqn:E; try discriminate H; cbn [bind] in H.
    - pose proof (KA _ _ _ _ Hs E) as Hs'. destruct (FA s Hs _ _ _ E) as (u & -> & Hu).
      destruct (leads_return (LA s Hs) E) as (r1 & Q1 & _ & Hr1).
      destruct (GA _ _ _ _ Hs E) as [Z|Z].
      + destruct (IH s' ws1 Hs' ltac:(lia) H) as (r2 & Q2 & N & M). exists (r1 ++ r2).
        split; [now apply Forall_app|]. split.
        * intros fuel' x rest. destruct fuel' as [|f']; [discriminate|]. cbn [gloop]. rewrite Hr1. cbn [bind]. apply N.
        * intros fuel' more x Hx. destruct fuel' as [|f']; [discriminate|]. cbn [gloop] in Hx.
          rewrite <- app_assoc, Hr1 in Hx. cbn [bind] in Hx. destruct (M _ _ _ Hx) as (ws' & F & L' & G).
          exists ws'. splits; auto. intros fuel'' o Lf. destruct fuel'' as [|f'']; [lia|]. cbn [gloop].
          rewrite <- app_assoc, Hu. cbn [bind]. apply G. rewrite !app_length in *. lia.
      + assert (ZF : forall r, bb s' r = Panic \/ bb s' r = NoFuel).
        { intros r. destruct (bb s' r) as [[q t]| | |] eqn:Eq; auto.
          - destruct (leads_return (LB _ Hs') Eq) as (v & _ & _ & Hv). specialize (Hv []). rewrite Z in Hv. discriminate Hv.
          - destruct (leads_undefined (LB _ Hs') Eq) as (v & _ & Hv). rewrite Z in Hv. discriminate Hv. }
        assert (ZL : forall fuel' l x rest, gloop fuel' bb s (r1 ++ l) <> Done (x, rest)).
        { intros fuel' l x rest. destruct fuel' as [|f']; [discriminate|]. cbn [gloop]. rewrite Hr1. cbn [bind].
          destruct f' as [|f']; [discriminate|]. cbn [gloop]. destruct (ZF l) as [->| ->]; discriminate. }
        exists r1. splits; auto.
        * intros fuel' x rest. rewrite <- (app_nil_r r1). apply ZL.
        * intros fuel' more x Hx. now destruct (ZL _ _ _ _ Hx).
    - destruct (WA s Hs _ E) as (rs & Q0 & N & M). exists rs. splits; auto.
      + intros fuel' x rest Hx. destruct fuel' as [|f']; [discriminate|]. cbn [gloop] in Hx.
        destruct (bb s rs) as [[r t]| | |] eqn:Ef; try discriminate Hx. exact (N _ _ eq_refl).
      + intros fuel' more x Hx. destruct fuel' as [|f']; [discriminate|]. cbn [gloop] in Hx.
        destruct (bb s (rs ++ more)) as [[r t]| | |] eqn:Ef; try discriminate Hx. cbn [bind] in Hx.
        destruct (fixes_resume (FB s Hs) N Ef) as (m1 & -> & E1).
        destruct (M _ _ E1) as (v1 & F1 & L1 & G1). destruct r as [s'|y].
        * pose proof (KB _ _ _ _ Hs Ef) as Hs'.
          destruct (@gloop_return _ _ _ _ QA P bb ba LB KA GA f' s' t x [] Hs' Hx) as (v2 & F2 & L2 & G2).
          exists (v1 ++ v2). rewrite !app_length. splits; [now apply Forall_app|cbn [length] in L2; lia|].
          intros fuel'' o Lf. destruct fuel'' as [|f'']; [lia|]. cbn [gloop]. rewrite <- app_assoc, G1. cbn [bind]. apply G2.
          pose proof (G1 []) as G1'. destruct (GA _ _ _ _ Hs G1') as [Z|Z].
          -- rewrite !app_length in Z. cbn [length] in Z. lia.
          -- specialize (G2 (S (length v2)) [] (Nat.lt_succ_diag_r _)). cbn [gloop] in G2. rewrite Z in G2. discriminate G2.
        * injection Hx as <- ->. exists v1. rewrite app_nil_r in *. splits; auto.
          intros fuel'' o Lf. destruct fuel'' as [|f'']; [lia|]. cbn [gloop]. now rewrite G1. }
  intros s Hs ws H. destruct (W _ _ _ Hs (Nat.lt_succ_diag_r _) H) as (rs & F0 & N & M). exists rs. splits; auto.
  intros more x Hx. destruct (M _ _ _ Hx) as (ws' & F & L & G). exists ws'. splits; auto.
  intros o. apply G. rewrite !app_length. lia.
Qed.

(** A round that goes on uses a word and a draw, or the next one panics. *)
Lemma same_loop {St X} (P : St -> Prop) (bw : St -> list N -> outcome ((St + X) * list N)) bf :
  (forall s, P s -> same_runs (bw s) (bf s)) ->
  (forall s rs s' rs', P s -> bf s rs = Done (inl s', rs') -> P s') ->
  (forall s ws s' ws', P s -> bw s ws = Done (inl s', ws') -> length ws' < length ws \/ forall r, bw s' r = Panic) ->
  (forall s rs s' rs', P s -> bf s rs = Done (inl s', rs') -> length rs' < length rs \/ forall r, bf s' r = Panic) ->
  forall s, P s -> same_runs (fun ws => w_loop (S (length ws)) bw s ws) (fun rs => loop (S (length rs)) bf s rs).
Proof.
  intros SR K GW GF s Hs.
  assert (KW : forall s ws s' ws', P s -> bw s ws = Done (inl s', ws') -> P s').
  { intros s0 ws s' ws' H0 E. destruct (words_return (SR s0 H0) E) as (_ & rs & _ & Hrs). exact (K _ _ _ _ H0 (Hrs [])). }
  assert (BW : forall s, P s -> fixes (bw s)) by (intros s0 H0; exact (same_words_fix (SR s0 H0))).
  assert (BF : forall s, P s -> fixes (bf s)) by (intros s0 H0; exact (same_draws_fix (SR s0 H0))).
  assert (LW : forall s, P s -> leads (fun _ => True) (bw s) (bf s)) by (intros s0 H0; apply (same_leads (SR s0 H0))).
  assert (LF : forall s, P s -> leads (fun v => v < 2 ^ 64)%N (bf s) (bw s)) by (intros s0 H0; apply (same_leads (SR s0 H0))).
  apply same_ext with (w := fun ws => gloop (S (length ws)) bw s ws)
    (f := fun rs => gloop (S (length rs)) bf s rs).
  { intros ws. now rewrite w_loop_gloop. } { intros rs. now rewrite loop_gloop. }
  pose proof (@gloop_leads _ _ _ _ (fun _ => True) 0 P bw bf I LW K GF s Hs) as [R1 P1 U1].
  pose proof (@gloop_leads _ _ _ _ (fun v => v < 2 ^ 64)%N 0%N P bf bw eq_refl LF KW GW s Hs) as [R2 P2 U2].
  split; auto.
  - intros ws x rest H. split.
    + destruct (gloop_settled BW KW GW Hs H) as (u & -> & Hu). exists u. split; auto. intros o. apply Hu. rewrite app_length. lia.
    + destruct (R1 _ _ _ H) as (rs & _ & L & E). eauto.
  - intros ws H. destruct (P1 _ H) as (rs & _ & E). eauto.
  - intros ws H. destruct (U1 _ H) as (rs & _ & E). eauto.
  - apply wait_words. apply (@gloop_waits _ _ _ _ (fun v => v < 2 ^ 64)%N (fun _ => True) P bw bf); auto.
    intros s0 H0. exact (same_words_wait (SR s0 H0)).
  - apply wait_draws. apply (@gloop_waits _ _ _ _ (fun _ => True) (fun v => v < 2 ^ 64)%N P bf bw); auto.
    intros s0 H0. exact (same_draws_wait (SR s0 H0)).
  - split.
    + intros rs x rest H. destruct (gloop_settled BF K GF Hs H) as (u & -> & Hu). exists u. split; auto.
      intros o. apply Hu. rewrite app_length. lia.
    + intros rs H more. eapply (gloop_stuck (P := P) (bad := Panic)); eauto.
      * intros s0 l H0 E. exact (settled_panics (draws_settled (SR s0 H0)) E).
      * intros s0 l H0 E. exact (settled_undefined_too (draws_settled (SR s0 H0)) E).
      * rewrite app_length. lia.
    + intros rs H more. eapply (gloop_stuck (P := P) (bad := UB)); eauto.
      * intros s0 l H0 E. exact (settled_panics (draws_settled (SR s0 H0)) E).
      * intros s0 l H0 E. exact (settled_undefined_too (draws_settled (SR s0 H0)) E).
      * rewrite app_length. lia.
Qed.
