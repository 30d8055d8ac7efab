(** The other ensembles on the words of the generator have the runs of those on draws. *)
From Verif Require Import Base BaseFacts Containers Graph GraphFacts Rng ErC Ws Ba Config Spacial Words WordsMore WordsSpec WordsFacts WordsLoop DrawsSpec DrawsFacts OrderSpec OrderFacts OrderRuns.
From Coq Require Import NArith ZArith QArith SpecFloat.
Set Implicit Arguments.
Unset Strict Implicit.
Local Open Scope nat_scope.

(** A call takes at least a word for a draw. *)
Lemma ordered_spends {X} (w : list N -> outcome (X * list N)) f ws x rest : ordered w f -> w ws = Done (x, rest) ->
  exists rs, f rs = Done (x, []) /\ length rs + length rest <= length ws.
Proof.
  intros O E. pose proof (ord_follows O ws) as F. rewrite E in F. destruct F as (rs & R & D).
  exists rs. split; [rewrite <- (app_nil_r rs); apply D|].
  destruct (reads_shorter R) as (u & -> & L). rewrite app_length. lia.
Qed.

(** A loop whose rounds use draws. *)
Lemma same_loop_uses {St X} (P : St -> Prop) (bw : St -> list N -> outcome ((St + X) * list N)) bf :
  (forall s, P s -> same_runs (bw s) (bf s)) -> (forall s, ordered (bw s) (bf s)) ->
  (forall s rs s' rs', P s -> bf s rs = Done (inl s', rs') -> P s') ->
  (forall s rs s' rs', bf s rs = Done (inl s', rs') -> length rs' < length rs) ->
  forall s, P s -> same_runs (fun ws => w_loop (S (length ws)) bw s ws) (fun rs => loop (S (length rs)) bf s rs).
Proof.
  intros SR O K G. apply same_loop; auto.
  - intros s ws s' ws' _ E. left. destruct (ordered_spends (O s) E) as (rs & D & L). apply G in D. cbn [length] in D. lia.
  - intros s rs s' rs' _ E. left. exact (G _ _ _ _ E).
Qed.

#[export] Hint Resolve same_gen_index same_shuffle same_draw_two : same.

Lemma same_choose {X} (l : list X) : (N.of_nat (length l) < 2 ^ 64)%N -> same_runs (w_choose_unwrap l) (choose_unwrap l).
Proof. intros H. unfold w_choose_unwrap, choose_unwrap. same. Qed.

Lemma same_choose_two l : (N.of_nat (length l) < 2 ^ 32)%N -> same_runs (w_choose_two l) (choose_two l).
Proof.
  unfold w_choose_two, choose_two. destruct (length l) as [|[|k]]; intros H.
  - apply same_done.
  - apply same_bind; [apply same_single32; lia|]. intros t. same.
  - apply same_bind; [apply same_single32; lia|]. intros t1. apply same_bind; [apply same_single32; lia|]. intros t2. same.
Qed.

Section Ensembles.
Context {T : Type}.

(** ** WattsStrogatz *)

Lemma ws_create_count p (g : graph (ws_container T)) a b o g' : ws_create_edge p g a b o = Done g' ->
  vertex_count g' = vertex_count g.
Proof.
  unfold ws_create_edge. cbv zeta. destruct (get_2_mut _ _ _ _) as [[x y]| | |]; try discriminate. cbn [bind].
  intros E. now injection E as <-.
Qed.

Lemma ws_add_count p (g : graph (ws_container T)) rs o g' rs' : ws_add_random_edge p (g, rs) o = Done (g', rs') ->
  vertex_count g' = vertex_count g.
Proof.
  unfold ws_add_random_edge. destruct (ws_find_pair _ _ _ _) as [[[a b] r]| | |]; try discriminate. cbn [bind].
  destruct (_ || _).
  - destruct (ws_create_edge _ _ _ _ _) as [h| | |] eqn:E; try discriminate. cbn [bind]. intros F. injection F as <- _.
    exact (ws_create_count E).
  - destruct (ws_create_edge _ _ _ _ _) as [h| | |] eqn:E; try discriminate. cbn [bind]. intros F. injection F as <- _.
    exact (ws_create_count E).
Qed.

Lemma ws_remove_other_count (g : graph (ws_container T)) o g' : ws_remove_other g o = Done g' ->
  vertex_count g' = vertex_count g.
Proof.
  unfold ws_remove_other. destruct (vget _ _) as [c| | |]; try discriminate. cbn [bind].
  destruct (wc_swap_remove_elem _ _) as [c'| | |]; try discriminate. cbn [bind]. intros E. now injection E as <-.
Qed.

Lemma fold_keeps {S A K} (f : S -> A -> outcome S) (k : S -> K) l : (forall s a s', f s a = Done s' -> k s' = k s) ->
  forall s s', foldM f s l = Done s' -> k s' = k s.
Proof.
  intros H. induction l as [|a l IH]; intros s s' E; cbn [foldM] in E; [now injection E as <-|].
  destruct (f s a) as [s1| | |] eqn:E1; try discriminate E. cbn [bind] in E. rewrite (IH _ _ E). exact (H _ _ _ E1).
Qed.

Lemma ws_vertex_count p q (g : graph (ws_container T)) rs i g' rs' : ws_randomize_vertex p q (g, rs) i = Done (g', rs') ->
  vertex_count g' = vertex_count g.
Proof.
  unfold ws_randomize_vertex. destruct (vget _ _) as [c| | |]; try discriminate. cbn [bind]. cbv zeta.
  destruct (match p with Debug => _ | Release => _ end) as [[]| | |]; try discriminate. cbn [bind].
  destruct (foldM (ws_pick q) _ _) as [[[[to orig] rw] r1]| | |]; try discriminate. cbn [bind].
  destruct (foldM _ _ rw) as [g2| | |] eqn:E2; try discriminate. cbn [bind]. intros E3.
  apply (fold_keeps (k := fun g => vertex_count g) (ws_remove_other_count)) in E2.
  apply (fold_keeps (k := fun s => vertex_count (fst s))) in E3.
  - cbn [fst] in E3. rewrite E3, E2. reflexivity.
  - intros [h r] a [h' r'] E. exact (ws_add_count E).
Qed.

Lemma same_ws_add p (g : graph (ws_container T)) o : (N.of_nat (vertex_count g) < 2 ^ 32)%N ->
  same_runs (fun ws => w_ws_add_random_edge p (g, ws) o) (fun rs => ws_add_random_edge p (g, rs) o).
Proof.
  intros H. unfold w_ws_add_random_edge, ws_add_random_edge. cbv beta iota zeta.
  apply same_bind; [|intros [a b]; same].
  eapply same_ext; [reflexivity|intros rs; apply ws_find_pair_loop|].
  apply (@same_loop_uses _ _ (fun _ => True)); auto.
  - intros s _. unfold w_ws_round, ws_round. same.
  - intros s. unfold w_ws_round, ws_round. order.
  - intros s rs s' rs' E. exact (ws_round_goes E).
Qed.

Lemma same_ws_randomize p (e : ws_ensemble T) :
  (forall r g, init_ring p (ws_graph e) (ws_distance e) = Done (r, g) -> (N.of_nat (vertex_count g) < 2 ^ 32)%N) ->
  same_runs (w_ws_randomize p e) (ws_randomize p e).
Proof.
  intros H. unfold w_ws_randomize, ws_randomize.
  apply same_pure_if with (P := fun x => (N.of_nat (vertex_count (snd x)) < 2 ^ 32)%N).
  { intros [r g] E. exact (H _ _ E). }
  clear H. intros [r g] H. cbn [snd] in H. apply same_pure. intros _. apply same_bind; [|intros g'; same].
  generalize (seq 0 (vertex_count g)). intros l.
  apply same_foldM with (P := fun g => (N.of_nat (vertex_count g) < 2 ^ 32)%N); auto.
  - clear g H. intros g i H. unfold w_ws_randomize_vertex, ws_randomize_vertex. apply same_pure. intros c. cbv zeta.
    apply same_pure. intros _.
    apply same_bind.
    { apply same_foldM with (P := fun _ => True); auto. intros [[a b] d] j _. unfold w_ws_pick, ws_pick. same. }
    intros [[to orig] rw].
    apply same_pure_if with (P := fun g => (N.of_nat (vertex_count g) < 2 ^ 32)%N).
    { intros g2 E. apply (fold_keeps (k := fun g => vertex_count g) (ws_remove_other_count)) in E. rewrite E. exact H. }
    intros g2 H2. apply same_foldM with (P := fun g => (N.of_nat (vertex_count g) < 2 ^ 32)%N); auto.
    + intros h o Hh. now apply same_ws_add.
    + intros h o rs h' rs' Hh E. now rewrite (ws_add_count E).
  - clear g H. intros g i rs g' rs' H E. now rewrite (ws_vertex_count E).
Qed.

(** ** BarabasiAlbert *)

Lemma same_ba_insert p m (s : graph (node_container T) * list nat) i : (N.of_nat (list_sum (snd s)) < 2 ^ 64)%N ->
  same_runs (fun ws => w_ba_insert p m (s, ws) i) (fun rs => ba_insert p m (s, rs) i).
Proof.
  destruct s as [g weights]. cbn [snd]. intros H. unfold w_ba_insert, ba_insert. cbv beta iota zeta.
  apply same_pure_if with (P := fun t => (N.of_nat t < 2 ^ 64)%N).
  { intros t E. unfold weighted_new in E. destruct (_ =? 0); [discriminate|]. now injection E as <-. }
  intros t Ht. apply same_bind; [|intros g'; same].
  apply (@same_loop_uses _ _ (fun _ => True)); auto.
  - intros h _. unfold w_ba_attach, ba_attach. same.
  - intros h. unfold w_ba_attach, ba_attach. order.
  - intros h rs h' rs' E. exact (ba_attach_goes E).
Qed.

(** ** ConfigurationModel *)

Lemma w_cm_round_goes p s ws (s' : graph (node_container T) * list nat * list nat) ws' :
  w_cm_round p s ws = Done (inl s', ws') -> length ws' < length ws \/ forall r, w_cm_round p s' r = Panic.
Proof.
  destruct s as [[g b] h]. unfold w_cm_round. intros H.
  destruct (cm_add_multiple (S (length h)) p g h) as [[[[] g1] h1]| | |] eqn:E; try discriminate H; cbn [bind] in H; cbv iota in H.
  - apply cm_add_short in E. cbn [bind snd] in H. destruct h1 as [|x [|y h1]]; cbn [length] in E; [discriminate H| |lia].
    injection H as <- <-. right. intros r. rewrite cm_add_alone. reflexivity.
  - destruct (w_shuffle b ws) as [[b' r]| | |] eqn:F; try discriminate H. cbn [bind] in H.
    destruct (ordered_spends (ordered_shuffle b) F) as (rs & D & L).
    apply shuffle_left in D as [Lb Lr]. cbn [snd] in H. destruct b' as [|x b']; [discriminate H|].
    injection H as <- <-. destruct b' as [|y b'].
    + right. intros r'. rewrite cm_add_alone. reflexivity.
    + left. cbn [length] in *. lia.
Qed.

Lemma cm_round_backup p s rs (s' : graph (node_container T) * list nat * list nat) rs' :
  cm_round p s rs = Done (inl s', rs') -> length (snd (fst s')) = length (snd (fst s)).
Proof.
  destruct s as [[g b] h]. unfold cm_round. intros H.
  destruct (cm_add_multiple (S (length h)) p g h) as [[[[] g1] h1]| | |] eqn:E; try discriminate H; cbn [bind] in H; cbv iota in H.
  - cbn [bind snd] in H. destruct h1; [discriminate H|]. injection H as <- <-. reflexivity.
  - destruct (shuffle b rs) as [[b' r]| | |] eqn:F; try discriminate H. cbn [bind snd] in H.
    apply shuffle_left in F as [Lb Lr]. destruct b'; [discriminate H|]. injection H as <- <-. exact Lb.
Qed.

Lemma same_cm_randomize p (e : config T) : (N.of_nat (length (cm_backup e)) < 2 ^ 64)%N ->
  same_runs (w_cm_randomize p e) (cm_randomize p e).
Proof.
  intros H. unfold w_cm_randomize, cm_randomize. cbv zeta.
  apply same_bind_if with (P := fun l => (N.of_nat (length l) < 2 ^ 64)%N); [now apply same_shuffle| |].
  { intros rs l rest E. apply shuffle_left in E as [E _]. now rewrite E. }
  intros l Hl. destruct l as [|x l]; [apply same_done|]. apply same_bind; [|intros [[a b] c]; same].
  apply same_loop with (P := fun s => (N.of_nat (length (snd (fst s))) < 2 ^ 64)%N); auto.
  - intros [[g b] h] Hb. cbn [fst snd] in Hb. unfold w_cm_round, cm_round. apply same_pure. intros [[added g1] h1].
    apply same_bind; [|intros [[g2 b2] h2]; cbn [snd]; destruct h2; apply same_done].
    destruct added; same.
  - intros s rs s' rs' Hs E. now rewrite (cm_round_backup E).
  - intros s ws s' ws' _ E. exact (w_cm_round_goes E).
  - intros s rs s' rs' _ E. exact (cm_round_goes E).
Qed.

Lemma same_cm_m_step p (e : config T) : (N.of_nat (length (cm_backup e)) < 2 ^ 32)%N ->
  (forall c, In c (vertices (cm_graph e)) -> (N.of_nat (length (nc_adj c)) < 2 ^ 64)%N) ->
  same_runs (w_cm_m_step p e) (cm_m_step p e).
Proof.
  intros H HA. unfold w_cm_m_step, cm_m_step. cbv zeta. apply same_bind.
  - apply (@same_loop_uses _ _ (fun _ => True)); auto.
    + intros s _. unfold w_cm_draw_round, cm_draw_round. apply same_bind; [now apply same_choose_two|]. intros l. same.
    + intros s. unfold w_cm_draw_round, cm_draw_round. order.
    + intros [] rs [] rs' E. apply cm_draw_left in E. lia.
  - assert (HV : forall v c, vget (vertices (cm_graph e)) v = Done c -> (N.of_nat (length (nc_adj c)) < 2 ^ 64)%N).
    { intros v c E. apply HA. unfold vget in E. destruct (nth_error _ _) eqn:E'; [|discriminate]. injection E as ->.
      exact (nth_error_In _ _ E'). }
    intros [v0 v1]. apply same_pure_if with (P := fun c : node_container T => (N.of_nat (length (nc_adj c)) < 2 ^ 64)%N); [apply HV|].
    intros c0 H0. apply same_bind; [now apply same_choose|]. intros j.
    apply same_pure_if with (P := fun c : node_container T => (N.of_nat (length (nc_adj c)) < 2 ^ 64)%N); [apply HV|].
    intros c1 H1. apply same_bind; [now apply same_choose|]. intros l. same.
Qed.

(** ** SpacialEnsemble *)

Lemma same_sp_test (e : spacial T) g i j : same_runs (w_sp_test e g i j) (sp_test e g i j).
Proof. unfold w_sp_test, sp_test. same. Qed.
Lemma same_sp_randomize (e : spacial T) : same_runs (w_sp_randomize e) (sp_randomize e).
Proof.
  unfold w_sp_randomize, sp_randomize. cbv zeta. apply same_bind; [|intros; apply same_done].
  apply same_foldM with (P := fun _ => True); auto. intros g ij _. apply same_bind; [apply same_sp_test|]. intros ok. same.
Qed.
Lemma same_sp_new (mk : nat -> T) n accept : same_runs (w_sp_new mk n accept) (sp_new mk n accept).
Proof.
  unfold w_sp_new, sp_new. apply same_bind; [|intros g; apply same_sp_randomize].
  unfold w_sp_place, sp_place. apply same_bind; [|intros; apply same_done].
  apply same_foldM with (P := fun _ => True); auto. intros g c _. same.
Qed.
Lemma same_sp_m_step p (e : spacial T) : (N.of_nat (vertex_count (sp_graph e)) < 2 ^ 64)%N ->
  same_runs (w_sp_m_step p e) (sp_m_step p e).
Proof.
  intros H. unfold w_sp_m_step, sp_m_step. apply same_bind; [now apply same_draw_two|]. intros [a b].
  apply same_bind; [apply same_sp_test|]. intros ok. same.
Qed.

End Ensembles.
