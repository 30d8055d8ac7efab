(** What the ensembles do is settled by the draws they use. *)
From Verif Require Import Base BaseFacts Containers Graph Rng ErC ErM Sw Ws Config Ba Spacial Dog Prob Markov SafeSpec DrawsSpec.
From Coq Require Import QArith SpecFloat.
Set Implicit Arguments.
Unset Strict Implicit.
Local Open Scope nat_scope.

(** ** Ways to put calls together *)

Lemma settled_const {X} (m : outcome X) : settled (fun rs => do x <- m; Done (x, rs)).
Proof.
  split.
  - intros rs x rest H. destruct m; inversion H; subst. exists []. split; reflexivity.
  - intros rs H more. destruct m; try discriminate H. reflexivity.
  - intros rs H more. destruct m; try discriminate H. reflexivity.
Qed.

Lemma settled_done {X} (x : X) : settled (fun rs => Done (x, rs)).
Proof. exact (settled_const (Done x)). Qed.

Lemma settled_stop {X} : settled (fun _ => Panic : outcome (X * rng)).
Proof. split; intros; try discriminate; reflexivity. Qed.
Lemma settled_undefined {X} : settled (fun _ => UB : outcome (X * rng)).
Proof. split; intros; try discriminate; reflexivity. Qed.
Lemma settled_fuel {X} : settled (fun _ => NoFuel : outcome (X * rng)).
Proof. split; intros; discriminate. Qed.

Lemma settled_bind {X Y} (f : rng -> outcome (X * rng)) (k : X -> rng -> outcome (Y * rng)) :
  settled f -> (forall x, settled (k x)) -> settled (fun rs => do ' (x, rs1) <- f rs; k x rs1).
Proof.
  intros F K. split.
  - intros rs y rest H. destruct (f rs) as [[x rs1]| | |] eqn:E; try discriminate H. simpl in H.
    destruct (settled_returns F E) as (u & -> & Hu).
    destruct (settled_returns (K x) H) as (v & -> & Hv).
    exists (u ++ v). split; [now rewrite app_assoc|]. intros others.
    rewrite <- app_assoc, Hu. simpl. apply Hv.
  - intros rs H more. destruct (f rs) as [[x rs1]| | |] eqn:E; try discriminate H.
    + simpl in H. destruct (settled_returns F E) as (u & -> & Hu).
      rewrite <- app_assoc, Hu. simpl. apply (settled_panics (K x) H).
    + rewrite (settled_panics F E). reflexivity.
  - intros rs H more. destruct (f rs) as [[x rs1]| | |] eqn:E; try discriminate H.
    + simpl in H. destruct (settled_returns F E) as (u & -> & Hu).
      rewrite <- app_assoc, Hu. simpl. apply (settled_undefined_too (K x) H).
    + rewrite (settled_undefined_too F E). reflexivity.
Qed.

Lemma settled_pure {X Y} (m : outcome X) (k : X -> rng -> outcome (Y * rng)) :
  (forall x, settled (k x)) -> settled (fun rs => do x <- m; k x rs).
Proof.
  intros K. destruct m; simpl; auto using settled_stop, settled_undefined, settled_fuel.
Qed.

Lemma settled_foldM {X A} (f : X * rng -> A -> outcome (X * rng)) (l : list A) :
  (forall x a, settled (fun rs => f (x, rs) a)) -> forall x, settled (fun rs => foldM f (x, rs) l).
Proof.
  intros F. induction l as [|a l IH]; intros x; simpl; [apply settled_done|].
  pose proof (settled_bind (F x a) IH) as [H1 H2 H3].
  assert (E : forall rs, (do s' <- f (x, rs) a; foldM f s' l) = (do ' (x0, rs1) <- f (x, rs) a; foldM f (x0, rs1) l)).
  { intros rs. destruct (f (x, rs) a) as [[]| | |]; reflexivity. }
  split; intros rs.
  - intros y rest. rewrite E. intros H. destruct (H1 rs y rest H) as (u & Eu & Hu).
    exists u. split; auto. intros o. rewrite E. auto.
  - rewrite E. intros H more. rewrite E. auto.
  - rewrite E. intros H more. rewrite E. auto.
Qed.

Lemma settled_ext {X} (f g : rng -> outcome (X * rng)) : (forall rs, f rs = g rs) -> settled f -> settled g.
Proof.
  intros E [H1 H2 H3]. split; intros rs.
  - intros x rest. rewrite <- E. intros H. destruct (H1 _ _ _ H) as (u & Eu & Hu). exists u.
    split; auto. intros o. rewrite <- E. auto.
  - rewrite <- E. intros H more. rewrite <- E. auto.
  - rewrite <- E. intros H more. rewrite <- E. auto.
Qed.

(** A loop whose fuel is the number of draws: a round that goes on uses a draw, or the next one
    panics. *)
Lemma settled_loop {St X} (body : St -> rng -> outcome ((St + X) * rng)) :
  (forall s, settled (body s)) ->
  (forall s rs s' rs', body s rs = Done (inl s', rs') -> length rs' < length rs \/ forall r, body s' r = Panic) ->
  forall s, settled (fun rs => loop (S (length rs)) body s rs).
Proof.
  intros B P.
  assert (D : forall f s rs x rest, loop f body s rs = Done (x, rest) ->
    exists u, rs = u ++ rest /\ forall f' o, S (length u) <= f' -> loop f' body s (u ++ o) = Done (x, o)).
  { induction f as [|f IH]; intros s rs x rest H; [discriminate|]. simpl in H.
    destruct (body s rs) as [[[s'|y] rs1]| | |] eqn:E; try discriminate H; simpl in H.
    - destruct (settled_returns (B s) E) as (u & Eu & Hu).
      destruct (IH _ _ _ _ H) as (v & Ev & Hv). subst rs1.
      destruct (P _ _ _ _ E) as [L|L].
      2: { destruct f; simpl in H; [discriminate|]. rewrite L in H. discriminate. }
      subst rs. rewrite !app_length in L.
      exists (u ++ v). split; [now rewrite app_assoc|]. intros f' o Hf. rewrite app_length in Hf.
      destruct f'; [lia|]. simpl. rewrite <- app_assoc, Hu. simpl. apply Hv. lia.
    - injection H as -> ->. destruct (settled_returns (B s) E) as (u & Eu & Hu).
      exists u. split; auto. intros f' o Hf. destruct f'; [lia|]. simpl. rewrite Hu. reflexivity. }
  assert (S1 : forall f s rs, loop f body s rs = Panic -> forall f' more, f <= f' -> loop f' body s (rs ++ more) = Panic).
  { induction f as [|f IH]; intros s rs H f' more Hf; [discriminate|]. simpl in H. destruct f'; [lia|]. simpl.
    destruct (body s rs) as [[[s'|y] rs1]| | |] eqn:E; try discriminate H; simpl in H.
    - destruct (settled_returns (B s) E) as (u & -> & Hu). rewrite <- app_assoc, Hu. simpl.
      apply IH; auto; lia.
    - rewrite (settled_panics (B s) E). reflexivity. }
  assert (S2 : forall f s rs, loop f body s rs = UB -> forall f' more, f <= f' -> loop f' body s (rs ++ more) = UB).
  { induction f as [|f IH]; intros s rs H f' more Hf; [discriminate|]. simpl in H. destruct f'; [lia|]. simpl.
    destruct (body s rs) as [[[s'|y] rs1]| | |] eqn:E; try discriminate H; simpl in H.
    - destruct (settled_returns (B s) E) as (u & -> & Hu). rewrite <- app_assoc, Hu. simpl.
      apply IH; auto; lia.
    - rewrite (settled_undefined_too (B s) E). reflexivity. }
  intros s. split.
  - intros rs x rest H. destruct (D _ _ _ _ _ H) as (u & E & Hu). exists u. split; auto.
    intros o. apply Hu. rewrite app_length. lia.
  - intros rs H more. eapply S1; eauto. rewrite app_length. lia.
  - intros rs H more. eapply S2; eauto. rewrite app_length. lia.
Qed.

Ltac parts x :=
  lazymatch type of x with
  | (_ * _)%type => let a := fresh "a" in let b := fresh "b" in destruct x as [a b]; parts a
  | _ => idtac
  end.

(** Goes through the calls of a program. *)
Ltac settle :=
  repeat (cbv beta iota zeta;
  first
  [ assumption | solve [auto with settled]
  | apply settled_done | apply settled_stop | apply settled_undefined | apply settled_fuel
  | lazymatch goal with
    | |- settled (fun rs => bind (@?f rs) (fun p => let (x, r) := p in @?k x r)) =>
        first [ apply settled_bind; [|let x := fresh "x" in intros x; parts x]
              | apply settled_pure; let x := fresh "x" in intros x; parts x ]
    | |- settled (fun rs => bind ?m _) => apply settled_pure; let x := fresh "x" in intros x; parts x
    | |- settled (fun rs => if ?b then _ else _) => destruct b
    | |- settled (fun rs => match ?b with _ => _ end) => destruct b
    end ]).

(** ** Draws *)

Create HintDb settled.

Lemma settled_draw : settled draw.
Proof.
  split; intros rs; destruct rs; try discriminate; intros x rest H. injection H as -> ->.
  exists [x]. split; reflexivity.
Qed.
#[export] Hint Resolve settled_draw : settled.

Lemma settled_gen_range h : settled (gen_range h).
Proof. unfold gen_range. settle. Qed.
Lemma settled_gen_f64 : settled gen_f64.
Proof. unfold gen_f64. settle. Qed.
Lemma settled_gen_unit : settled gen_unit.
Proof. unfold gen_unit. settle. Qed.
#[export] Hint Resolve settled_gen_range settled_gen_f64 settled_gen_unit : settled.

Lemma settled_shuffle {X} (l : list X) : settled (shuffle l).
Proof.
  unfold shuffle. generalize (length l) as k. intros k. revert l.
  induction k as [|k IH]; intros l; [apply settled_done|]. destruct k as [|k]; [apply settled_done|].
  change (settled (fun rs => do ' (j, t) <- gen_range (S (S k)) rs;
            do l' <- swap l (S k) j; shuffle_down (S k) l' t)). settle.
Qed.

Lemma settled_choose {X} (l : list X) : settled (choose_unwrap l).
Proof. unfold choose_unwrap. settle. Qed.

Lemma settled_two p h : settled (draw_two_from_range p h).
Proof. unfold draw_two_from_range. settle. Qed.

Lemma settled_remaining i h : settled (draw_remaining i h).
Proof. unfold draw_remaining. settle. Qed.

Lemma settled_choose_two l : settled (choose_two l).
Proof. unfold choose_two. settle. Qed.
#[export] Hint Resolve settled_shuffle settled_choose settled_two settled_remaining settled_choose_two : settled.

(** Length of what a draw leaves. *)
Lemma gen_range_left h rs x rest : gen_range h rs = Done (x, rest) -> length rs = S (length rest).
Proof.
  unfold gen_range. destruct (h =? 0); [discriminate|]. destruct rs; [discriminate|]. simpl.
  intros H. injection H as _ <-. reflexivity.
Qed.
Lemma gen_f64_left rs x rest : gen_f64 rs = Done (x, rest) -> length rs = S (length rest).
Proof. destruct rs; [discriminate|]. intros H. injection H as _ <-. reflexivity. Qed.

Section Ensembles.
Context {T : Type}.

(** ** ErEnsembleC and ErEnsembleM *)

Lemma settled_erc_randomize (e : er_c T) : settled (erc_randomize e).
Proof.
  unfold erc_randomize. settle. apply settled_foldM. intros g ij. settle.
Qed.
Lemma settled_erc_step p (e : er_c T) : settled (erc_m_step p e).
Proof. unfold erc_m_step. settle. Qed.
Lemma settled_erm_randomize p (e : er_m T) : settled (erm_randomize p e).
Proof. unfold erm_randomize. settle. Qed.
Lemma settled_erm_step p (e : er_m T) : settled (erm_m_step p e).
Proof. unfold erm_m_step. settle. Qed.

(** ** SpacialEnsemble *)

Lemma settled_sp_test (e : spacial T) g i j : settled (sp_test e g i j).
Proof. unfold sp_test. settle. Qed.
Hint Resolve settled_sp_test : settled.
Lemma settled_sp_randomize (e : spacial T) : settled (sp_randomize e).
Proof. unfold sp_randomize. settle. apply settled_foldM. intros g ij. settle. Qed.
Lemma settled_sp_step p (e : spacial T) : settled (sp_m_step p e).
Proof. unfold sp_m_step. settle. Qed.
Lemma settled_sp_steps p (e : spacial T) k : settled (sp_m_steps_quiet p e k).
Proof. unfold sp_m_steps_quiet. apply settled_foldM. intros x a. settle. Qed.
Lemma settled_sp_place (g : sgraph T) : settled (sp_place g).
Proof. unfold sp_place. settle. apply settled_foldM. intros x a. settle. Qed.

(** ** SwEnsemble *)

Lemma settled_sw_edge p (e : sw_ensemble T) i j : settled (sw_randomize_edge p e i j).
Proof. unfold sw_randomize_edge. settle. Qed.
Hint Resolve settled_sw_edge : settled.
Lemma settled_sw_randomize p (e : sw_ensemble T) : settled (sw_randomize p e).
Proof. unfold sw_randomize. apply settled_foldM. intros x a. unfold sw_randomize_vertex. settle. Qed.
Lemma settled_sw_step p (e : sw_ensemble T) : settled (sw_m_step p e).
Proof. unfold sw_m_step, sw_draw_edge. settle. Qed.

(** ** WattsStrogatzEnsemble *)

Lemma settled_ws_add p (g : graph (ws_container T)) o : settled (fun rs => ws_add_random_edge p (g, rs) o).
Proof.
  unfold ws_add_random_edge. settle.
  pose (body := fun (_ : unit) (rs : rng) =>
      do ' (first, rs1) <- gen_range (vertex_count g) rs;
      do ' (second, rs2) <- gen_range (vertex_count g) rs1;
      if (first =? second)
         || ((first =? oe_from o) && (second =? oe_to o))
         || ((first =? oe_to o) && (second =? oe_from o))
      then Done (inl tt, rs2)
      else
        do c <- vget (vertices g) first;
        if contains (wc_to c) second then Done (inl tt, rs2)
        else Done (inr (first, second), rs2)).
  apply settled_ext with (f := fun rs => loop (S (length rs)) body tt rs).
  - assert (E : forall k rs, loop k body tt rs = ws_find_pair k g o rs); [|auto].
    induction k as [|k IH]; intros rs; [reflexivity|]. simpl loop. simpl ws_find_pair. unfold body at 1.
    destruct (gen_range (vertex_count g) rs) as [[a r1]| | |]; simpl; auto.
    destruct (gen_range (vertex_count g) r1) as [[b r2]| | |]; simpl; auto.
    destruct (_ || _); simpl; auto. destruct (vget (vertices g) a) as [c| | |]; simpl; auto.
    destruct (contains (wc_to c) b); simpl; auto.
  - apply settled_loop.
    + intros []. unfold body. settle.
    + intros [] rs [] rs' H. left. unfold body in H.
      destruct (gen_range (vertex_count g) rs) as [[a r1]| | |] eqn:E1; try discriminate H. simpl in H.
      destruct (gen_range (vertex_count g) r1) as [[b r2]| | |] eqn:E2; try discriminate H. simpl in H.
      apply gen_range_left in E1, E2.
      assert (r2 = rs'); [|subst; lia].
      destruct (_ || _); [injection H; auto|]. destruct (vget (vertices g) a) as [c| | |]; try discriminate H.
      simpl in H. destruct (contains (wc_to c) b); injection H; auto; discriminate.
Qed.

Lemma settled_ws_rest p (g : graph (ws_container T)) l : settled (fun rs => foldM (ws_add_random_edge p) (g, rs) l).
Proof. apply settled_foldM. intros. apply settled_ws_add. Qed.
Hint Resolve settled_ws_rest : settled.

Lemma settled_ws_randomize p (e : ws_ensemble T) : settled (ws_randomize p e).
Proof.
  unfold ws_randomize. settle. apply settled_foldM. intros g i. unfold ws_randomize_vertex. settle.
  apply settled_foldM. intros s j. unfold ws_pick. settle.
Qed.

(** ** BarabasiAlbert *)

Lemma settled_ba_insert p m (s : graph (node_container T) * list nat) i : settled (fun rs => ba_insert p m (s, rs) i).
Proof.
  unfold ba_insert. settle. apply settled_loop.
  - intros g1. unfold ba_attach. settle.
  - intros g1 rs g' rs' H. left. unfold ba_attach in H. destruct (container g1 i) as [c| | |]; try discriminate H.
    simpl in H. destruct (_ <? m); [|discriminate H].
    destruct (gen_range _ rs) as [[r r1]| | |] eqn:E; try discriminate H. simpl in H. apply gen_range_left in E.
    destruct (add_edge _ _ _ _) as [[? ?]| | |]; try discriminate H. injection H as _ <-. lia.
Qed.

Lemma settled_ba_randomize p (e : ba T) : settled (ba_randomize p e).
Proof. unfold ba_randomize. settle. apply settled_foldM. intros s i. apply settled_ba_insert. Qed.

(** ** ConfigurationModel *)

Lemma shuffle_left {X} (l l' : list X) rs rs' : shuffle l rs = Done (l', rs') ->
  length l' = length l /\ length rs = length l - 1 + length rs'.
Proof.
  unfold shuffle. intros H.
  assert (K : forall k (l l' : list X) rs rs', shuffle_down k l rs = Done (l', rs') ->
    length l' = length l /\ length rs = k - 1 + length rs').
  { clear. induction k as [|k IH]; intros l l' rs rs' H; [injection H as -> ->; auto|].
    destruct k as [|k]; [injection H as -> ->; auto|].
    change ((do ' (j, t) <- gen_range (S (S k)) rs; do l1 <- swap l (S k) j; shuffle_down (S k) l1 t) = Done (l', rs')) in H.
    destruct (gen_range _ rs) as [[j t]| | |] eqn:E; try discriminate H. simpl bind in H.
    destruct (swap l (S k) j) as [l1| | |] eqn:W; try discriminate H. simpl bind in H.
    apply IH in H as [-> H]. apply gen_range_left in E. split; [|lia].
    unfold swap in W. destruct (vget l (S k)); try discriminate W. destruct (vget l j); try discriminate W.
    injection W as <-. rewrite !upd_length. reflexivity. }
  apply K in H. exact H.
Qed.

Lemma cm_scan_empty x c : cm_scan x [] c = Panic.
Proof. destruct c; reflexivity. Qed.

(** A vertex that is left alone cannot be joined. *)
Lemma cm_add_alone f p (g : graph (node_container T)) x : cm_add_multiple (S f) p g [x] = Panic.
Proof.
  simpl. destruct p; simpl; [reflexivity|]. rewrite cm_scan_empty. reflexivity.
Qed.

Lemma cm_add_short f p (g g' : graph (node_container T)) l l' :
  cm_add_multiple f p g l = Done (true, g', l') -> length l' <= 1.
Proof.
  revert g l. induction f as [|f IH]; intros g l H; [discriminate|]. simpl in H.
  destruct (expect (pop l)) as [[h x]| | |]; try discriminate H. simpl in H.
  destruct (usub p (length h) 1) as [c| | |]; try discriminate H. simpl in H.
  destruct (cm_scan x h c) as [[k|]| | |]; try discriminate H. simpl in H.
  destruct (vget h k) as [y| | |]; try discriminate H. simpl in H.
  destruct (swap_remove h k) as [h2| | |]; try discriminate H. simpl in H.
  destruct (add_edge p g x y) as [[[u|?] g1]| | |]; try discriminate H. simpl in H.
  destruct (1 <? length h2) eqn:L; [eauto|]. injection H as <- <-. apply Nat.ltb_ge in L. exact L.
Qed.

Lemma settled_cm_round p (s : graph (node_container T) * list nat * list nat) : settled (cm_round p s).
Proof. destruct s as [[g b] h]. unfold cm_round. settle. Qed.

Lemma cm_round_goes p s rs (s' : graph (node_container T) * list nat * list nat) rs' :
  cm_round p s rs = Done (inl s', rs') -> length rs' < length rs \/ forall r, cm_round p s' r = Panic.
Proof.
  destruct s as [[g b] h]. unfold cm_round. intros H.
  destruct (cm_add_multiple (S (length h)) p g h) as [[[[] g1] h1]| | |] eqn:E; try discriminate H; simpl bind in H; cbv iota in H.
  - apply cm_add_short in E. simpl in H. destruct h1 as [|x [|y h1]]; simpl in E; [discriminate H| |lia].
    injection H as <- <-. right. intros r. rewrite cm_add_alone. reflexivity.
  - destruct (shuffle b rs) as [[b' r]| | |] eqn:F; try discriminate H. simpl bind in H.
    apply shuffle_left in F as [Lb Lr]. simpl in H. destruct b' as [|x b']; [discriminate H|].
    injection H as <- <-. destruct b' as [|y b'].
    + right. intros r'. rewrite cm_add_alone. reflexivity.
    + left. simpl in Lb. lia.
Qed.

Lemma settled_cm_randomize p (e : config T) : settled (cm_randomize p e).
Proof.
  unfold cm_randomize. settle. apply settled_loop; [apply settled_cm_round|]. apply cm_round_goes.
Qed.
Hint Resolve settled_cm_randomize : settled.

Lemma choose_two_left l rs k rest : choose_two l rs = Done (k, rest) ->
  length rs = min 2 (length l) + length rest.
Proof.
  unfold choose_two. destruct l as [|x [|y l]]; intros H.
  - injection H as _ <-. reflexivity.
  - simpl length in H. cbv iota in H. destruct (gen_range 1 rs) as [[t r]| | |] eqn:E; try discriminate H. simpl bind in H.
    apply gen_range_left in E. destruct (vget [x] t); try discriminate H. injection H as _ <-. simpl. lia.
  - simpl length in H. cbv iota in H.
    destruct (gen_range _ rs) as [[t1 r1]| | |] eqn:E1; try discriminate H. simpl bind in H.
    destruct (gen_range _ r1) as [[t2 r2]| | |] eqn:E2; try discriminate H. simpl bind in H.
    apply gen_range_left in E1, E2. destruct (vget _ _); try discriminate H. simpl bind in H.
    destruct (vget _ _); try discriminate H. injection H as _ <-. simpl length. simpl min. lia.
Qed.

Lemma cm_draw_left b rs x rest : cm_draw_round b tt rs = Done (x, rest) -> length rs = 2 + length rest.
Proof.
  unfold cm_draw_round. destruct (choose_two b rs) as [[l r]| | |] eqn:E; try discriminate. simpl bind.
  intros H. assert (L : 2 <= length b /\ r = rest).
  { unfold choose_two in E. destruct b as [|u [|v b]].
    - injection E as <- <-. discriminate H.
    - simpl length in E. cbv iota in E. destruct (gen_range 1 rs) as [[t r1]| | |]; try discriminate E. simpl bind in E.
      destruct (vget [u] t); try discriminate E. injection E as <- <-. simpl in H. discriminate H.
    - split; [simpl; lia|]. clear E. destruct (vget l 0); try discriminate H. simpl bind in H.
      destruct (vget l 1); try discriminate H. simpl bind in H. destruct (_ =? _); injection H; auto. }
  destruct L as [L ->]. apply choose_two_left in E. lia.
Qed.

Lemma settled_cm_step p (e : config T) : settled (cm_m_step p e).
Proof.
  unfold cm_m_step. settle. apply settled_loop.
  - intros []. unfold cm_draw_round. settle.
  - intros [] rs [] rs' H. left. apply cm_draw_left in H. lia.
Qed.

(** ** DogEnsemble *)

Lemma settled_lhs_next l : settled (lhs_next l).
Proof. unfold lhs_next. settle. Qed.

Lemma settled_dog_edge p node (s : sgraph T * nat) : settled (fun rs => dog_edge p node (s, rs)).
Proof.
  unfold dog_edge. settle. apply settled_loop.
  - intros h. unfold dog_try. settle.
  - intros h rs h' rs' H. left. unfold dog_try in H.
    destruct (gen_range _ rs) as [[i r1]| | |] eqn:E1; try discriminate H. simpl bind in H.
    apply gen_range_left in E1. destruct (expect _) as [d| | |]; try discriminate H. simpl bind in H.
    destruct (_ =? node); [injection H as _ <-; lia|].
    destruct (gen_f64 r1) as [[u r2]| | |] eqn:E2; try discriminate H. simpl bind in H. apply gen_f64_left in E2.
    destruct (dog_degree_test _ _ _); [|injection H as _ <-; lia].
    destruct (add_edge _ _ _ _) as [[[] ?]| | |]; try discriminate H. injection H as _ <-. lia.
Qed.

Lemma settled_dog_randomize p (e : dog T) : settled (dog_randomize p e).
Proof.
  unfold dog_randomize. settle.
  - apply settled_foldM. intros g [i j]. unfold dog_pair. settle.
  - apply settled_foldM. intros s i. unfold dog_node. settle. apply settled_foldM. intros. apply settled_dog_edge.
Qed.

Lemma settled_dog_place n (g : sgraph T) : settled (dog_place n g).
Proof.
  unfold dog_place. settle. apply settled_foldM. intros s c. settle. apply settled_lhs_next.
Qed.
Lemma settled_dog_jitter n (g : sgraph T) : settled (dog_jitter n g).
Proof. unfold dog_jitter. settle. apply settled_foldM. intros s c. settle. Qed.

(** ** In floating point arithmetic *)

Lemma settled_erc64_randomize (e : er_c64 T) : settled (erc64_randomize e).
Proof. unfold erc64_randomize. settle. apply settled_foldM. intros g ij. settle. Qed.
Lemma settled_erc64_step p (e : er_c64 T) : settled (erc64_m_step p e).
Proof. unfold erc64_m_step. settle. Qed.
Lemma settled_sw64_edge p (e : sw_ensemble64 T) i j : settled (sw64_randomize_edge p e i j).
Proof. unfold sw64_randomize_edge. settle. Qed.
Hint Resolve settled_sw64_edge : settled.
Lemma settled_sw64_randomize p (e : sw_ensemble64 T) : settled (sw64_randomize p e).
Proof. unfold sw64_randomize. apply settled_foldM. intros x a. unfold sw64_randomize_vertex. settle. Qed.
Lemma settled_sw64_step p (e : sw_ensemble64 T) : settled (sw64_m_step p e).
Proof. unfold sw64_m_step, sw64_draw_edge. settle. Qed.
Lemma settled_ws64_randomize p (e : ws_ensemble64 T) : settled (ws64_randomize p e).
Proof.
  unfold ws64_randomize. settle. apply settled_foldM. intros g i. unfold ws64_randomize_vertex. settle.
  apply settled_foldM. intros s j. unfold ws64_pick. settle.
Qed.

(** ** Programs *)

Lemma settled_program {E Call} (call : E -> Call -> rng -> outcome (E * rng)) :
  (forall e c, settled (call e c)) -> forall e l, settled (fun rs => program call (e, rs) l).
Proof. intros H e l. unfold program. apply settled_foldM. intros x c. simpl. apply H. Qed.

Lemma settled_m_steps {S R} (step : S -> rng -> outcome (R * S * rng)) :
  (forall s, settled (step s)) -> forall k s, settled (m_steps step k s).
Proof.
  intros H. induction k as [|k IH]; intros s; simpl; settle.
Qed.

Hint Resolve settled_erc_randomize settled_erc_step settled_erm_randomize settled_erm_step
  settled_sp_randomize settled_sp_step settled_sp_steps settled_sw_randomize settled_sw_step
  settled_ws_randomize settled_ba_randomize settled_cm_step : settled.

Lemma settled_erc_do p (e : er_c T) c : settled (erc_do p e c).
Proof. unfold erc_do. settle. Qed.
Lemma settled_erm_do p (e : er_m T) c : settled (erm_do p e c).
Proof. unfold erm_do. settle. Qed.
Lemma settled_sp_do p (e : spacial T) c : settled (sp_do p e c).
Proof. unfold sp_do. settle. Qed.
Lemma settled_cm_do p (e : config T) c : settled (cm_do p e c).
Proof. unfold cm_do, cm_swap_degree_vec, cm_swap_degree_vec_unchecked. settle. Qed.
Lemma settled_sw_do p (e : sw_ensemble T) c : settled (sw_do p e c).
Proof. unfold sw_do. settle. Qed.
Lemma settled_ws_do p (e : ws_ensemble T) c : settled (ws_do p e c).
Proof. unfold ws_do. settle. Qed.
Lemma settled_ba_do p (e : ba T) c : settled (ba_do p e c).
Proof. unfold ba_do. settle. Qed.

End Ensembles.
