(** Induced subgraphs and dot output. *)
From Coq Require Import String Sorted.
From Verif Require Import Base BaseFacts Containers ContainerSpec ContainerFacts Graph GraphSpec GraphFacts GraphOps Subgraph SubgraphFacts Dot DotSpec DotFacts Properties_Graph.
Local Open Scope string_scope.

(** C30: [None] exactly for the empty list and for lists with an index out of range. *)
Theorem C30_none {T A : Type} {C : AdjContainer T A} {L : AdjLaws C} :
  forall (g : graph A) l, simple_graph g ->
  (cloned_subgraph g l = Done None <-> l = [] \/ exists v, In v l /\ vertex_count g <= v).
Proof.
  intros g l W. split; [|apply cloned_subgraph_none].
  intros H. destruct l as [|x l]; auto. right.
  destruct (existsb (fun v => Nat.leb (vertex_count g) v) (x :: l)) eqn:E.
  - apply existsb_exists in E. destruct E as (v & Hv & E). apply Nat.leb_le in E. eauto.
  - destruct (@cloned_subgraph_some _ _ _ _ g (x :: l) W) as (ks & h & _ & _ & Eh & _).
    + discriminate.
    + intros v Hv. destruct (Nat.lt_ge_cases v (vertex_count g)) as [Hl|Hl]; auto.
      assert (X : existsb (fun v => Nat.leb (vertex_count g) v) (x :: l) = true)
        by (apply existsb_exists; exists v; split; auto; apply Nat.leb_le; auto).
      congruence.
    + congruence.
Qed.
Print Assumptions C30_none.

(** C30: otherwise the subgraph induced by the listed vertices, numbered in ascending
    order; [simple_graph h] includes that [edge_count] is right. *)
Theorem C30_induced {T A : Type} {C : AdjContainer T A} {L : AdjLaws C} :
  forall (g : graph A) l, simple_graph g -> l <> [] ->
  (forall v, In v l -> v < vertex_count g) ->
  exists ks h,
    StronglySorted lt ks /\ (forall v, In v ks <-> In v l) /\
    cloned_subgraph g l = Done (Some h) /\ simple_graph h /\
    vertex_count h = length ks /\
    (forall a v, nth_error ks a = Some v ->
       nth_error (payloads h) a = nth_error (payloads g) v) /\
    (forall a b v w, nth_error ks a = Some v -> nth_error ks b = Some w ->
       (adj h a b <-> adj g v w)).
Proof. intros g l. apply cloned_subgraph_some. Qed.
Print Assumptions C30_induced.

Example C30_case :
  simple_graph ex_graph /\
  match cloned_subgraph ex_graph [3; 0; 2; 3] with
  | Done (Some h) => map (nbrs h) [0; 1; 2] = [[1]; [0; 2]; [1]] /\ edge_count h = 2
  | _ => False
  end.
Proof. split; [apply ex_graph_simple|]. vm_compute. auto. Qed.

(** C33: the text lists all indices in order, one label line per vertex in order, and
    each edge once with the smaller index first. *)
Theorem C33_dot_text {T A : Type} {C : AdjContainer T A} {L : AdjLaws C} :
  forall (g : graph A) opts f, simple_graph g ->
  exists E, upper_edges g E /\
  dot_from_indices g opts f = Done (
    "graph G{" ++ nl ++ tab ++ opts ++ nl ++ tab ++
    cat (map (fun i => show i ++ " ") (seq 0 (vertex_count g))) ++ ";" ++ nl ++
    cat (map (fun i => tab ++ quote ++ show i ++ quote ++ " [label=" ++ quote ++ f i ++
                       quote ++ "];" ++ nl) (seq 0 (vertex_count g))) ++
    cat (map (fun e => tab ++ show (fst e) ++ " -- " ++ show (snd e) ++ nl) E) ++ "}").
Proof.
  intros g opts f W. exists (upper g). split; [apply upper_listed; auto|].
  unfold dot_from_indices. rewrite edges_text_spec by auto. reflexivity.
Qed.
Print Assumptions C33_dot_text.

(** C33: graphs with the same number of vertices and different edge sets never give
    the same text, whatever the options and labels are. *)
Theorem C33_dot_injective {T A : Type} {C : AdjContainer T A} {L : AdjLaws C}
    {T' A' : Type} {C' : AdjContainer T' A'} {L' : AdjLaws C'} :
  forall (g : graph A) (g' : graph A') opts opts' f f',
  simple_graph g -> simple_graph g' -> vertex_count g = vertex_count g' ->
  dot_from_container_index g opts f = dot_from_container_index g' opts' f' ->
  forall i j, adj g i j <-> adj g' i j.
Proof. intros g g' opts opts' f f'. apply dot_container_inj. Qed.
Print Assumptions C33_dot_injective.

(** C33: the same for labels made from the indices; with equal options the text also
    determines the number of vertices. *)
Theorem C33_dot_indices_injective {T A : Type} {C : AdjContainer T A} {L : AdjLaws C}
    {T' A' : Type} {C' : AdjContainer T' A'} {L' : AdjLaws C'} :
  forall (g : graph A) (g' : graph A') opts f f',
  simple_graph g -> simple_graph g' ->
  dot_from_indices g opts f = dot_from_indices g' opts f' ->
  vertex_count g = vertex_count g' /\ forall i j, adj g i j <-> adj g' i j.
Proof.
  intros g g' opts f f' W W' E. rewrite !dot_from_indices_as in E by auto.
  assert (V : vertex_count g = vertex_count g') by (apply dot_container_count in E; auto).
  split; auto. eapply dot_container_inj; eauto.
Qed.
Print Assumptions C33_dot_indices_injective.

(** C33: the deprecated [to_dot]. *)
Theorem C33_to_dot_injective {T A : Type} {C : AdjContainer T A} {L : AdjLaws C}
    {T' A' : Type} {C' : AdjContainer T' A'} {L' : AdjLaws C'} :
  forall (g : graph A) (g' : graph A'),
  simple_graph g -> simple_graph g' -> to_dot g = to_dot g' ->
  vertex_count g = vertex_count g' /\ forall i j, adj g i j <-> adj g' i j.
Proof. intros g g'. apply to_dot_inj. Qed.
Print Assumptions C33_to_dot_injective.

(** C33: none of the writing functions panics. *)
Theorem C33_dot_returns {T A : Type} {C : AdjContainer T A} {L : AdjLaws C} :
  forall (g : graph A) opts f, simple_graph g ->
  (exists s, to_dot g = Done s) /\ (exists s, dot_from_container_index g opts f = Done s).
Proof.
  intros g opts f W. unfold to_dot, dot_from_container_index.
  rewrite edges_text_spec by auto. cbn [bind]. split; eexists; reflexivity.
Qed.
Print Assumptions C33_dot_returns.

Example C33_case :
  simple_graph ex_graph /\
  to_dot ex_graph = Done ("graph{" ++ nl ++ tab ++ "0 1 2 3 4 " ++ nl ++
    tab ++ "0 -- 1" ++ nl ++ tab ++ "0 -- 2" ++ nl ++ tab ++ "1 -- 2" ++ nl ++
    tab ++ "2 -- 3" ++ nl ++ "}").
Proof. split; [apply ex_graph_simple|]. vm_compute. reflexivity. Qed.
