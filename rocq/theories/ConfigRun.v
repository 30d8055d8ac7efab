(** Drawing graphs and Markov steps of the configuration model. *)
From Verif Require Import Base BaseFacts Containers ContainerSpec ContainerFacts Graph GraphSpec
  Sums GraphFacts GraphOps GraphBuild Rng RngFacts Runs EnsembleFacts Config ConfigSpec ConfigFacts.
Set Implicit Arguments.
Unset Strict Implicit.
Local Open Scope nat_scope.

Local Notation cnt := (count_occ Nat.eq_dec).

Lemma shuffle_perm {X} (l l' : list X) rs rs' : shuffle l rs = Done (l', rs') -> Permutation l l'.
Proof. intros E. apply (runs_done (@runs_shuffle True _ l) E). Qed.

Lemma cnt_perm l l' (v : list nat) : Permutation l l' ->
  (forall i, cnt l i = nth i v 0) -> forall i, cnt l' i = nth i v 0.
Proof. intros P H i. rewrite <- H. symmetry. apply Permutation_count_occ; auto. Qed.

Lemma loop_done {St X} (body : St -> rng -> outcome ((St + X) * rng)) (I : St -> Prop) (Q : X -> Prop) :
  (forall s rs r rs', I s -> body s rs = Done (r, rs') -> match r with inl s' => I s' | inr x => Q x end) ->
  forall f s rs x rs', I s -> loop f body s rs = Done (x, rs') -> Q x.
Proof.
  intros H. induction f as [|f IH]; intros s rs x rs' Is E; [discriminate|]. cbn [loop] in E.
  apply bind_done in E as ([[s'|y] rs1] & E1 & E).
  - pose proof (H _ _ _ _ Is E1) as K. cbv beta iota in K. exact (IH _ _ _ _ K E).
  - pose proof (H _ _ _ _ Is E1) as K. injection E as <- <-. exact K.
Qed.

Lemma shuffle_uses {X} (l l' : list X) rs rs' : 2 <= length l -> shuffle l rs = Done (l', rs') ->
  length rs' < length rs.
Proof.
  assert (K : forall k (l l' : list X) rs rs', shuffle_down k l rs = Done (l', rs') -> length rs' <= length rs).
  { induction k as [|[|k] IH]; intros m m' us us' E; [injection E as <- <-; auto..|].
    change (shuffle_down (S (S k)) m us) with
      (do ' (j, t) <- gen_range (S (S k)) us; do m1 <- swap m (S k) j; shuffle_down (S k) m1 t) in E.
    apply bind_done in E as ([j t] & E1 & E). apply bind_done in E as (m1 & E2 & E).
    apply IH in E. apply gen_range_done in E1 as (_ & r & -> & _). cbn. lia. }
  intros H E. unfold shuffle in E. destruct (length l) as [|[|k]] eqn:El; try lia.
  change (shuffle_down (S (S k)) l rs) with
    (do ' (j, t) <- gen_range (S (S k)) rs; do m1 <- swap l (S k) j; shuffle_down (S k) m1 t) in E.
  apply bind_done in E as ([j t] & E1 & E). apply bind_done in E as (m1 & E2 & E).
  apply K in E. apply gen_range_done in E1 as (_ & r & -> & _). cbn. lia.
Qed.

Section Model.
Context {T : Type}.
Local Notation G := (graph (node_container T)).
Implicit Types (g : G) (e : config T).

(** Ready for drawing graphs with the degrees [v]. *)
Record cm_ready (v : list nat) e : Prop := {
  cr_simple : simple_graph (cm_graph e);
  cr_count : vertex_count (cm_graph e) = length v;
  cr_vec : cm_degrees e = v;
  cr_backup : forall i, cnt (cm_backup e) i = nth i v 0
}.

Lemma ok_ready v e : cm_ok v e -> cm_ready v e.
Proof. intros [A1 [A2 A3] A4 A5]. constructor; auto. Qed.

Lemma backup_length v l : (forall i, cnt l i = nth i v 0) -> length l = list_sum v.
Proof. intros H. rewrite (Permutation_length (halfs_perm H)). apply edge_halfs_length. Qed.

(** What the loop of [randomize] leaves behind. *)
Definition built v (ps : list T) (s : G * list nat * list nat) : Prop :=
  let '(g, b, h) := s in
  simple_graph g /\ payloads g = ps /\ has_degrees v g /\ h = [] /\ forall i, cnt b i = nth i v 0.

Definition building v (ps : list T) (s : G * list nat * list nat) : Prop :=
  let '(g, b, h) := s in
  simple_graph g /\ payloads g = ps /\ vertex_count g = length v /\ h <> [] /\
  (forall i, cnt b i = nth i v 0) /\ forall i, length (nbrs g i) + cnt h i = cnt b i.

Lemma building_lt v ps g b h : building v ps (g, b, h) -> forall x, In x h -> x < length v.
Proof.
  intros (_ & _ & _ & _ & B & H) x I. apply (@halfs_lt b v x B).
  apply (count_occ_In Nat.eq_dec). apply (count_occ_In Nat.eq_dec) in I. rewrite <- H. lia.
Qed.

Lemma cleared v ps g b : simple_graph g -> payloads g = ps -> vertex_count g = length v ->
  b <> [] -> (forall i, cnt b i = nth i v 0) -> building v ps (clear_edges g, b, b).
Proof.
  intros W P V N B. destruct (clear_edges_spec W) as (W' & V' & _ & P' & H').
  unfold building. splits; auto; try congruence. intros i. rewrite H'. auto.
Qed.

Lemma perm_nonempty {X} (l l' : list X) : Permutation l l' -> l <> [] -> l' <> [].
Proof. intros P N ->. apply N. apply Permutation_nil. symmetry; auto. Qed.

Lemma round_done p v ps s rs r rs' : building v ps s -> cm_round p s rs = Done (r, rs') ->
  match r with inl s' => building v ps s' | inr s' => built v ps s' end.
Proof.
  destruct s as [[g b] h]. intros B E. pose proof (building_lt B) as Hlt.
  destruct B as (W & P & V & N & Hb & H). unfold cm_round in E.
  apply bind_done in E as ([[added g1] h1] & E1 & E).
  pose proof (add_multiple_spec p W V Hlt N (Nat.lt_succ_diag_r _) H) as S. rewrite E1 in S.
  destruct S as (W1 & V1 & P1 & S). apply bind_done in E as ([s' rs1] & E2 & E).
  destruct added.
  - injection E2 as <- <-. cbn [snd] in E. destruct (S eq_refl) as [S1 _].
    destruct h1 as [|x h1]; injection E as <- <-.
    + unfold built, has_degrees. splits; auto; try congruence.
      intros i. specialize (S1 i). cbn in S1. rewrite <- Hb. lia.
    + unfold building. splits; auto; try congruence.
  - apply bind_done in E2 as ([b' rs2] & E2 & E3). injection E3 as <- <-. cbn [snd] in E.
    pose proof (shuffle_perm E2) as Pb.
    assert (N' : b' <> []).
    { apply (perm_nonempty Pb). intros ->. destruct h as [|x h]; [congruence|].
      specialize (H x). cbn in H. destruct (Nat.eq_dec x x); [lia|congruence]. }
    destruct b' as [|x b2] eqn:Eb; [congruence|]. rewrite <- Eb in *. injection E as <- <-.
    apply cleared; auto; try congruence. apply (cnt_perm Pb Hb).
Qed.

Lemma randomize_done p v e rs e' rs' : cm_ready v e -> cm_randomize p e rs = Done (e', rs') ->
  cm_ok v e' /\ payloads (cm_graph e') = payloads (cm_graph e) /\ cm_halfs e' = [].
Proof.
  intros [W V D B] E. unfold cm_randomize in E. apply bind_done in E as ([b rs1] & E1 & E).
  pose proof (cnt_perm (shuffle_perm E1) B) as Bb. destruct (clear_edges_spec W) as (W' & V' & _ & P' & H').
  destruct b as [|x b2] eqn:Eb.
  - injection E as <- <-. cbn. splits; auto. constructor; cbn; auto.
    split; [congruence|]. intros i. rewrite H'. rewrite <- Bb. auto.
  - rewrite <- Eb in *. apply bind_done in E as ([[[g1 b1] h1] rs2] & E2 & E). injection E as <- <-.
    apply (loop_done (I := building v (payloads (cm_graph e))) (Q := built v (payloads (cm_graph e)))) in E2.
    + destruct E2 as (A1 & A2 & A3 & A4 & A5). cbn. splits; auto. constructor; cbn; auto.
    + intros s us r us'. apply round_done.
    + apply cleared; auto. congruence.
Qed.

(** States between the rounds, for an even sum. *)
Definition between v ps (s : G * list nat * list nat) : Prop :=
  let '(g, b, h) := s in building v ps s /\ h = b /\ forall i, nbrs g i = [].

Lemma building_ready v ps g b : building v ps (g, b, b) -> between v ps (g, b, b).
Proof.
  intros B. split; auto. split; auto. destruct B as (_ & _ & _ & _ & _ & H). intros i.
  specialize (H i). destruct (nbrs g i); auto. cbn in H. lia.
Qed.

Section Even.
Variables (p : profile) (v : list nat) (ps : list T).
Hypothesis even_sum : Nat.Even (list_sum v).

Lemma between_length g b h : between v ps (g, b, h) -> 2 <= length b /\ Nat.Even (length b).
Proof.
  intros ((_ & _ & _ & N & Hb & _) & -> & _). rewrite (backup_length Hb).
  split; auto. destruct even_sum as [m Em]. rewrite <- (backup_length Hb) in Em.
  rewrite <- (backup_length Hb). destruct b; [congruence|]. cbn [length] in *. lia.
Qed.

(** The two ways a round can go. *)
Lemma round_cases s : between v ps s ->
  (exists s', built v ps s' /\ forall rs, cm_round p s rs = Done (inr s', rs)) \/
  (exists g1, simple_graph g1 /\ payloads g1 = ps /\ vertex_count g1 = length v /\
     forall rs, cm_round p s rs =
       do ' (b', rs1) <- shuffle (snd (fst s)) rs;
       Done (inl (clear_edges g1, b', b'), rs1)).
Proof.
  destruct s as [[g b] h]. intros Bt. destruct (between_length Bt) as [L2 Ev].
  destruct Bt as (B & -> & Nb). pose proof (building_lt B) as Hlt.
  destruct B as (W & P & V & N & Hb & H).
  pose proof (add_multiple_spec p W V Hlt N (Nat.lt_succ_diag_r _) H) as S.
  unfold cm_round.
  destruct (cm_add_multiple (Datatypes.S (length b)) p g b) as [[[added g1] h1]| | |]; cbn [bind]; try tauto.
  - destruct S as (W1 & V1 & P1 & S). destruct added.
    + left. destruct (S eq_refl) as [S1 S2]. specialize (S2 Ev). subst h1.
      exists (g1, b, []). split; auto. unfold built, has_degrees. splits; auto; try congruence.
      intros i. specialize (S1 i). cbn in S1. rewrite <- Hb. lia.
    + right. exists g1. splits; auto; try congruence. intros rs. cbn [fst snd].
      destruct (shuffle b rs) as [[b' rs1]| | |] eqn:E; cbn [bind]; auto.
      destruct b' as [|x b']; auto. exfalso. apply (perm_nonempty (shuffle_perm E) N). auto.
  - exfalso. destruct S as [m Em], Ev as [m' Em']. lia.
Qed.

Lemma round_runs live s : between v ps s ->
  runs live (fun r => match r with inl s' => between v ps s' | inr s' => built v ps s' end) (cm_round p s).
Proof.
  intros Bt. destruct (round_cases Bt) as [(s' & B & E)|(g1 & W1 & P1 & V1 & E)].
  - apply runs_ext with (m := fun rs => Done (inr s', rs)); [intros; symmetry; auto|].
    apply runs_ret. auto.
  - eapply runs_ext; [intros rs; symmetry; apply E|].
    destruct s as [[g b] h]. destruct Bt as ((_ & _ & _ & N & Hb & _) & -> & _). cbn [fst snd].
    apply (@runs_bind live _ _ (fun b' => Permutation b b') _ (shuffle b)
      (fun b' rs1 => Done (inl (clear_edges g1, b', b'), rs1))).
    + apply runs_shuffle.
    + intros b' Pb. apply runs_ret. apply building_ready, cleared; auto.
      * apply (perm_nonempty Pb N).
      * apply (cnt_perm Pb Hb).
Qed.

Lemma round_uses s rs s' rs1 : between v ps s -> cm_round p s rs = Done (inl s', rs1) ->
  length rs1 < length rs.
Proof.
  intros Bt E. destruct (round_cases Bt) as [(s2 & B & E2)|(g1 & W1 & P1 & V1 & E2)];
    rewrite E2 in E; [discriminate|].
  apply bind_done in E as ([b' rs2] & E1 & E). injection E as <- <-.
  destruct s as [[g b] h]. apply (shuffle_uses (proj1 (between_length Bt)) E1).
Qed.

Lemma round_arr g b es : between v ps (g, b, b) -> pairs_ok (length v) es -> fresh g es -> b = arr es ->
  exists s', built v ps s' /\ forall rs, cm_round p (g, b, b) rs = Done (inr s', rs).
Proof.
  intros Bt Pk Fr ->. destruct (round_cases Bt) as [H|(g1 & _ & _ & _ & E)]; auto. exfalso.
  destruct Bt as ((W & P & V & N & Hb & H) & _ & Nb).
  destruct (@add_multiple_arr _ p es (S (length (arr es))) g) as (g' & Ea); auto.
  - rewrite V; auto.
  - intros ->. apply N; auto.
  - specialize (E []). unfold cm_round in E. rewrite Ea in E. cbn [bind snd fst] in E.
    destruct (shuffle (arr es) []) as [[? ?]| | |]; cbn in E; discriminate.
Qed.

Lemma loop_finish s : graphical v -> between v ps s -> exists ds s', built v ps s' /\
  forall rest, loop (S (length (ds ++ rest))) (cm_round p) s (ds ++ rest) = Done (s', rest).
Proof.
  intros Gr Bt. destruct (round_cases Bt) as [(s' & B & E)|(g1 & W1 & P1 & V1 & E)].
  - exists [], s'. split; auto. intros rest. cbn [loop app]. rewrite E. reflexivity.
  - destruct s as [[g b] h].
    assert (B : building v ps (g, b, h)) by apply Bt. destruct Bt as (_ & -> & _).
    destruct B as (_ & _ & _ & N & Hb & _). cbn [fst snd] in E.
    destruct (graphical_arr Gr Hb) as (es & Pk & Pe & Fr).
    destruct (shuffle_reach Pe) as (ds & Hd).
    assert (Bt' : between v ps (clear_edges g1, arr es, arr es)).
    { apply building_ready, cleared; auto; [apply (perm_nonempty Pe N)|apply (cnt_perm Pe Hb)]. }
    destruct (round_arr Bt' Pk) as (s' & B' & E'); auto.
    { apply Fr. apply Bt'. }
    exists ds, s'. split; auto. intros rest.
    assert (Lt : length rest < length (ds ++ rest)).
    { apply (shuffle_uses (l := b) (l' := arr es)); auto.
      rewrite (Permutation_length Pe). apply (between_length Bt'). }
    destruct (length (ds ++ rest)) as [|k] eqn:Ek; [lia|]. cbn [loop]. rewrite E, Hd. cbn [bind].
    rewrite E'. reflexivity.
Qed.
End Even.

Lemma randomize_runs p v e : cm_ready v e -> Nat.Even (list_sum v) ->
  runs (graphical v) (fun e' => cm_ok v e' /\ payloads (cm_graph e') = payloads (cm_graph e))
    (cm_randomize p e).
Proof.
  intros R Ev. destruct R as [W V D B]. unfold cm_randomize.
  apply (@runs_bind _ _ _ (fun b => Permutation (cm_backup e) b) _ (shuffle (cm_backup e))
    (fun b rs1 => match b with
       | [] => Done (mk_cm (clear_edges (cm_graph e)) (cm_degrees e) [] [], rs1)
       | _ => do ' (g', backup', halfs', rs2) <-
                loop (S (length rs1)) (cm_round p) (clear_edges (cm_graph e), b, b) rs1;
              Done (mk_cm g' (cm_degrees e) halfs' backup', rs2)
       end)); [apply runs_shuffle|].
  intros b Pb. pose proof (cnt_perm Pb B) as Bb.
  destruct (clear_edges_spec W) as (W' & V' & _ & P' & H').
  destruct b as [|x b2] eqn:Eb.
  - apply runs_ret. cbn. split; auto. constructor; cbn; auto. split; [congruence|].
    intros i. rewrite H', <- Bb. auto.
  - rewrite <- Eb in *.
    apply runs_ext with (m := fun rs1 => do ' (s, rs2) <-
        loop (S (length rs1)) (cm_round p) (clear_edges (cm_graph e), b, b) rs1;
        Done (mk_cm (fst (fst s)) (cm_degrees e) (snd s) (snd (fst s)), rs2)).
    { intros rs. destruct (loop _ _ _ rs) as [[[[? ?] ?] ?]| | |]; reflexivity. }
    apply (@runs_bind _ _ _ (built v (payloads (cm_graph e))) _
      (fun rs1 => loop (S (length rs1)) (cm_round p) (clear_edges (cm_graph e), b, b) rs1)
      (fun s rs2 => Done (mk_cm (fst (fst s)) (cm_degrees e) (snd s) (snd (fst s)), rs2))).
    + apply (runs_loop (I := between v (payloads (cm_graph e)))).
      * intros s Hs. apply round_runs; auto.
      * intros s rs s' rs1. apply round_uses; auto.
      * intros Gr s Hs. apply loop_finish; auto.
      * apply building_ready, cleared; auto. congruence.
    + intros [[g1 b1] h1] (A1 & A2 & A3 & A4 & A5). apply runs_ret. cbn. split; auto.
      constructor; cbn; auto.
Qed.

Lemma new_ready mk v : cm_ready v (mk_cm (T := T) (graph_new mk (length v)) v [] (edge_halfs v)).
Proof.
  destruct (@graph_new_spec T (node_container T) _ _ mk (length v)) as (W & V & _). constructor; cbn; auto.
  apply edge_halfs_count.
Qed.

Lemma swap_ready v w e h : cm_ok v e -> length v = length w ->
  cm_ready w (mk_cm (cm_graph e) w h (edge_halfs w)).
Proof.
  intros [A1 [A2 _] A3 A4] E. constructor; cbn; auto; try congruence. apply edge_halfs_count.
Qed.

End Model.
