(** Proofs about the dot output. *)
From Coq Require Import String Ascii DecimalString DecimalNat.
From Verif Require Import Base BaseFacts Containers ContainerSpec ContainerFacts Graph GraphSpec GraphFacts Dot DotSpec.
Set Implicit Arguments.
Unset Strict Implicit.
Local Open Scope string_scope.

(** ** Strings *)

Fixpoint chars (s : string) : list ascii :=
  match s with "" => [] | String c t => c :: chars t end.

Lemma append_assoc (a b c : string) : (a ++ b) ++ c = a ++ (b ++ c).
Proof. induction a; simpl; f_equal; auto. Qed.

Lemma append_nil_r (a : string) : a ++ "" = a.
Proof. induction a; simpl; f_equal; auto. Qed.

Lemma append_inj_l (a b c : string) : a ++ b = a ++ c -> b = c.
Proof. induction a; simpl; auto. injection 1; auto. Qed.

Lemma chars_app a b : chars (a ++ b) = (chars a ++ chars b)%list.
Proof. induction a; simpl; f_equal; auto. Qed.

Lemma cat_app l m : cat (l ++ m)%list = cat l ++ cat m.
Proof. induction l; simpl; auto. rewrite IHl, append_assoc; auto. Qed.

Lemma split_first c d d' s s' :
  ~ In c (chars d) -> ~ In c (chars d') ->
  d ++ String c s = d' ++ String c s' -> d = d' /\ s = s'.
Proof.
  revert d'; induction d as [|a d IH]; intros [|b d'] N N' E; simpl in *.
  - injection E; auto.
  - injection E as E1 E2. destruct N'; auto.
  - injection E as E1 E2. destruct N; auto.
  - injection E as E1 E2. destruct (IH d'); auto. subst; auto.
Qed.

Lemma split_last c d d' s s' :
  ~ In c (chars s) -> ~ In c (chars s') ->
  d ++ String c s = d' ++ String c s' -> s = s'.
Proof.
  revert d'; induction d as [|a d IH]; intros [|b d'] N N' E; simpl in *.
  - injection E; auto.
  - injection E as E1 E2. destruct N. rewrite E2, chars_app, in_app_iff. simpl; auto.
  - injection E as E1 E2. destruct N'. rewrite <- E2, chars_app, in_app_iff. simpl; auto.
  - injection E as E1 E2. eapply IH; eauto.
Qed.

(** ** Decimal numbers *)

Lemma to_uint_nonnil n : Nat.to_uint n <> Decimal.Nil.
Proof.
  intros H. pose proof (Unsigned.of_to n) as E. rewrite H in E. cbn in E. subst n. discriminate.
Qed.

Lemma show_inj n m : show n = show m -> n = m.
Proof.
  unfold show. intros H. apply Unsigned.to_uint_inj.
  pose proof (NilZero.usu _ (@to_uint_nonnil n)) as A.
  pose proof (NilZero.usu _ (@to_uint_nonnil m)) as B. congruence.
Qed.

Definition digits : list ascii :=
  ["0"; "1"; "2"; "3"; "4"; "5"; "6"; "7"; "8"; "9"]%char.

Lemma show_digits n c : In c (chars (show n)) -> In c digits.
Proof.
  unfold show. assert (G : forall d, In c (chars (NilEmpty.string_of_uint d)) -> In c digits).
  { induction d; simpl; try tauto; intros [<-|H]; auto; simpl; tauto. }
  pose proof (@to_uint_nonnil n) as N. unfold NilZero.string_of_uint.
  destruct (Nat.to_uint n); [congruence|apply G..].
Qed.

Lemma show_cons n : exists c s, show n = String c s /\ In c digits.
Proof.
  destruct (show n) as [|c s] eqn:E.
  - exfalso. unfold show, NilZero.string_of_uint in E.
    destruct (Nat.to_uint n); discriminate.
  - exists c, s. split; auto. apply (@show_digits n). rewrite E. left; auto.
Qed.

Lemma digits_no c : In c digits ->
  c <> " "%char /\ c <> "010"%char /\ c <> "009"%char /\ c <> "034"%char /\
  c <> ";"%char /\ c <> "}"%char /\ c <> "-"%char.
Proof. simpl. intuition (subst; discriminate). Qed.

Ltac no_digit H := apply show_digits, digits_no in H; destruct H as (? & ? & ? & ? & ? & ? & ?); congruence.

(** ** Edge lines *)

Lemma edge_text_inj i j i' j' s s' :
  edge_text i j ++ s = edge_text i' j' ++ s' -> (i, j) = (i', j') /\ s = s'.
Proof.
  unfold edge_text. rewrite !append_assoc. intros E. apply append_inj_l in E.
  apply (@split_first " ") in E; [|intros H; no_digit H|intros H; no_digit H].
  destruct E as [E1 E]. apply show_inj in E1. simpl in E. injection E as E.
  apply (@split_first "010") in E; [|intros H; no_digit H|intros H; no_digit H].
  destruct E as [E2 E]. apply show_inj in E2. subst. auto.
Qed.

Definition line (e : nat * nat) : string := edge_text (fst e) (snd e).

Lemma edge_lines_inj l l' : cat (map line l) ++ "}" = cat (map line l') ++ "}" -> l = l'.
Proof.
  revert l'; induction l as [|[i j] l IH]; intros [|[i' j'] l'] E; auto.
  - discriminate.
  - discriminate.
  - cbn [map cat] in E. rewrite !append_assoc in E. unfold line at 1 3 in E. cbn [fst snd] in E.
    apply edge_text_inj in E. destruct E as [-> E]. f_equal; auto.
Qed.

Lemma edge_lines_no_quote l : ~ In "034"%char (chars (cat (map line l))).
Proof.
  induction l as [|[i j] l IH]; cbn [map cat]; [simpl; tauto|].
  rewrite chars_app, in_app_iff. intros [H|H]; auto.
  unfold line, edge_text in H. cbn [fst snd] in H. rewrite !chars_app, !in_app_iff in H.
  destruct H as [H|[H|[H|[H|H]]]]; try no_digit H; simpl in H; intuition discriminate.
Qed.

Lemma indices_inj k n n' s s' c :
  ~ In c digits ->
  cat (map (fun i => show i ++ " ") (seq k n)) ++ String c s =
  cat (map (fun i => show i ++ " ") (seq k n')) ++ String c s' -> n = n' /\ s = s'.
Proof.
  intros Hc. revert k n'; induction n as [|n IH]; intros k [|n'] E; cbn [seq map cat] in E.
  - injection E; auto.
  - destruct (show_cons k) as (d & t & Hd & D). rewrite Hd in E. simpl in E.
    injection E as -> _. tauto.
  - destruct (show_cons k) as (d & t & Hd & D). rewrite Hd in E. simpl in E.
    injection E as -> _. tauto.
  - rewrite !append_assoc in E. apply append_inj_l in E. apply append_inj_l in E.
    destruct (IH _ _ E); auto.
Qed.

Section Generic.
Context {T A : Type} {C : AdjContainer T A} {L : AdjLaws C}.
Implicit Types g : graph A.

Definition upper g : list (nat * nat) :=
  flat_map (fun i => map (pair i) (filter (fun j => Nat.ltb i j) (nbrs g i))) (seq 0 (vertex_count g)).

Lemma upper_listed g : simple_graph g -> upper_edges g (upper g).
Proof.
  intros W. split.
  - unfold upper. generalize (seq_NoDup (vertex_count g) 0).
    generalize (seq 0 (vertex_count g)) as l. induction l as [|i l IH]; intros N; cbn [flat_map].
    + constructor.
    + inversion N as [|? ? Hi N']; subst. apply NoDup_app_iff. splits; auto.
      * apply FinFun.Injective_map_NoDup; [intros x y; congruence|].
        apply NoDup_filter, W.
      * intros [a b] H1 H2. apply in_map_iff in H1. destruct H1 as (x & E & _).
        apply in_flat_map in H2. destruct H2 as (y & Hy & H2).
        apply in_map_iff in H2. destruct H2 as (z & E' & _). congruence.
  - intros i j. unfold upper. rewrite in_flat_map. split.
    + intros (x & Hx & H). apply in_map_iff in H. destruct H as (y & E & Hy).
      apply filter_In in Hy. destruct Hy as [Hy Hl]. apply Nat.ltb_lt in Hl.
      injection E as -> ->. auto.
    + intros [H Hl]. exists i. split.
      * apply in_seq. apply (adj_lt W) in H. lia.
      * apply in_map_iff. exists j. split; auto. apply filter_In. split; auto.
        apply Nat.ltb_lt; auto.
Qed.

Lemma edges_text_spec g : simple_graph g -> edges_text g = Done (cat (map line (upper g))).
Proof.
  intros W. unfold edges_text.
  rewrite (@mapM_done _ _ _ (fun i => cat (map line
     (map (pair i) (filter (fun j => Nat.ltb i j) (nbrs g i)))))).
  - cbn [bind]. f_equal. unfold upper. induction (seq 0 (vertex_count g)) as [|i l IH]; auto.
    cbn [map cat flat_map]. rewrite map_app, cat_app, IH. reflexivity.
  - intros i Hi. apply in_seq in Hi. destruct (@container_lt _ _ _ _ g i W) as (c & E & _ & _ & N); [lia|].
    unfold container, vget. rewrite E. cbn [bind]. rewrite N. f_equal. clear N.
    induction (nbrs g i) as [|j l IH]; auto. cbn [map cat filter].
    destruct (Nat.ltb i j); cbn [map cat]; rewrite IH; reflexivity.
Qed.

Lemma upper_edges_adj {T' A'} {C' : AdjContainer T' A'} {L' : AdjLaws C'} (g : graph A) (g' : graph A') E :
  simple_graph g -> simple_graph g' -> upper_edges g E -> upper_edges g' E ->
  forall i j, adj g i j <-> adj g' i j.
Proof.
  intros W W' [_ H] [_ H'].
  assert (G : forall i j, i < j -> adj g i j <-> adj g' i j).
  { intros i j Hl. specialize (H i j). specialize (H' i j). tauto. }
  intros i j. destruct (Nat.lt_trichotomy i j) as [Hl|[->|Hl]]; auto.
  - split; intros X; [destruct (sg_irrefl W _ X)|destruct (sg_irrefl W' _ X)].
  - specialize (G _ _ Hl). split; intros X.
    + apply (sg_sym W') , G, (sg_sym W), X.
    + apply (sg_sym W) , G, (sg_sym W'), X.
Qed.

Lemma labels_enumerate g (f : nat -> A -> string) :
  simple_graph g -> vertex_count g <> 0 ->
  exists p, cat (map (fun ic => label_text (fst ic) (f (fst ic) (snd ic)))
               (enumerate (vertices g))) = p ++ String "034" ("];" ++ nl).
Proof.
  intros W N. rewrite <- (sg_len W) in N. unfold enumerate.
  assert (G : forall l k, l <> [] -> exists p, cat (map (fun ic => label_text (fst ic) (f (fst ic) (snd ic)))
               (enumerate_from k l)) = p ++ String "034" ("];" ++ nl)).
  { induction l as [|x l IH]; intros k Hl; [congruence|]. cbn [enumerate_from map cat fst snd].
    destruct l as [|y l].
    - cbn [enumerate_from map cat]. rewrite append_nil_r.
      exists (tab ++ quote ++ show k ++ quote ++ " [label=" ++ quote ++ f k x).
      unfold label_text. rewrite !append_assoc. reflexivity.
    - destruct (IH (S k)) as [p ->]; [discriminate|].
      exists (label_text k (f k x) ++ p). rewrite append_assoc. auto. }
  apply G. intros Z. rewrite Z in N. simpl in N. auto.
Qed.

Lemma dot_container_ends g opts f :
  simple_graph g -> vertex_count g <> 0 ->
  exists p, dot_from_container_index g opts f =
    Done (p ++ String "034" ("];" ++ nl ++ cat (map line (upper g)) ++ "}")).
Proof.
  intros W N. unfold dot_from_container_index. rewrite edges_text_spec by auto. cbn [bind].
  destruct (labels_enumerate f W N) as [p ->].
  eexists ("graph G{" ++ nl ++ tab ++ opts ++ nl ++ tab ++
        indices_text (vertex_count g) ++ ";" ++ nl ++ p).
  rewrite !append_assoc. reflexivity.
Qed.

Lemma dot_from_indices_as g opts f :
  simple_graph g -> dot_from_indices g opts f = dot_from_container_index g opts (fun i _ => f i).
Proof.
  intros W. unfold dot_from_indices, dot_from_container_index.
  rewrite edges_text_spec by auto. cbn [bind].
  assert (G : forall (l : list A) k, map (fun i => label_text i (f i)) (seq k (length l)) =
     map (fun ic => label_text (fst ic) (f (fst ic))) (enumerate_from k l)).
  { induction l as [|x l IH]; intros k; auto. cbn [length seq map enumerate_from fst snd].
    f_equal; auto. }
  unfold enumerate. rewrite <- G, (sg_len W). reflexivity.
Qed.

End Generic.

Lemma tail_no_quote l : ~ In "034"%char (chars ("];" ++ nl ++ cat (map line l) ++ "}")).
Proof.
  cbn. rewrite chars_app, in_app_iff. intros [H|[H|[H|[H|H]]]]; try discriminate.
  - apply (edge_lines_no_quote H).
  - simpl in H; intuition discriminate.
Qed.

Section Two.
Context {T A : Type} {C : AdjContainer T A} {L : AdjLaws C}.
Context {T' A' : Type} {C' : AdjContainer T' A'} {L' : AdjLaws C'}.

Lemma edges_determined (g : graph A) (g' : graph A') :
  simple_graph g -> simple_graph g' ->
  cat (map line (upper g)) ++ "}" = cat (map line (upper g')) ++ "}" ->
  forall i j, adj g i j <-> adj g' i j.
Proof.
  intros W W' E. apply edge_lines_inj in E.
  apply (@upper_edges_adj _ _ _ _ _ _ _ _ g g' (upper g)); auto.
  - apply upper_listed; auto.
  - rewrite E. apply upper_listed; auto.
Qed.

Lemma dot_container_inj (g : graph A) (g' : graph A') opts opts' f f' :
  simple_graph g -> simple_graph g' -> vertex_count g = vertex_count g' ->
  dot_from_container_index g opts f = dot_from_container_index g' opts' f' ->
  forall i j, adj g i j <-> adj g' i j.
Proof.
  intros W W' V E. destruct (Nat.eq_dec (vertex_count g) 0) as [Z|Z].
  - intros i j. split; intros H; [apply (adj_lt W) in H|apply (adj_lt W') in H]; lia.
  - destruct (@dot_container_ends _ _ _ _ g opts f W) as [p Hp]; auto.
    destruct (@dot_container_ends _ _ _ _ g' opts' f' W') as [p' Hp']; [lia|].
    rewrite Hp, Hp' in E. injection E as E. apply split_last in E.
    + apply edges_determined; auto. apply (@append_inj_l ("];" ++ nl)). exact E.
    + apply tail_no_quote.
    + apply tail_no_quote.
Qed.

Lemma dot_container_count (g : graph A) (g' : graph A') opts f f' :
  simple_graph g -> simple_graph g' ->
  dot_from_container_index g opts f = dot_from_container_index g' opts f' ->
  vertex_count g = vertex_count g'.
Proof.
  intros W W' E. unfold dot_from_container_index in E.
  rewrite !edges_text_spec in E by auto. cbn [bind] in E.
  assert (E1 := f_equal (fun o => match o with Done s => s | _ => "" end) E). cbn beta iota in E1.
  do 6 apply append_inj_l in E1. apply indices_inj in E1; [tauto|].
  intros H. apply digits_no in H. tauto.
Qed.

Lemma to_dot_inj (g : graph A) (g' : graph A') :
  simple_graph g -> simple_graph g' -> to_dot g = to_dot g' ->
  vertex_count g = vertex_count g' /\ forall i j, adj g i j <-> adj g' i j.
Proof.
  intros W W' E. unfold to_dot in E.
  rewrite !edges_text_spec in E by auto. cbn [bind] in E.
  assert (E1 := f_equal (fun o => match o with Done s => s | _ => "" end) E). cbn beta iota in E1.
  do 3 apply append_inj_l in E1. apply indices_inj in E1.
  - destruct E1 as [V E1]. split; auto. apply edges_determined; auto.
  - intros H. apply digits_no in H. tauto.
Qed.

End Two.
