(** The four containers obey the laws of [ContainerSpec]. *)
From Verif Require Import Base BaseFacts Containers ContainerSpec.
From Coq Require Import Sorted.
Set Implicit Arguments.

Lemma removed_first_perm x l l' : removed_first x l l' -> Permutation l (x :: l').
Proof.
  intros (i & P & S). destruct (position_nth _ _ P) as (y & N & E).
  apply Nat.eqb_eq in E; subst y.
  destruct (swap_remove_spec _ _ N) as (l'' & S' & P').
  rewrite S in S'; injection S' as <-. auto.
Qed.

Lemma removed_first_exists x l : In x l -> exists l', removed_first x l l'.
Proof.
  intros H. destruct (position_exists (Nat.eqb x) l x H (Nat.eqb_refl x)) as [i P].
  destruct (position_nth _ _ P) as (y & N & E).
  destruct (swap_remove_spec _ _ N) as (l' & S & _). exists l', i; auto.
Qed.

Lemma removed_first_snoc x l : ~ In x l -> removed_first x (l ++ [x]) l.
Proof.
  intros H. exists (length l). split.
  - apply position_app_r; [|apply Nat.eqb_refl].
    intros y Hy. apply Nat.eqb_neq. intros ->; auto.
  - rewrite swap_remove_snoc by lia. rewrite Nat.eqb_refl; auto.
Qed.

Lemma removed_first_fun x l l1 l2 :
  removed_first x l l1 -> removed_first x l l2 -> l1 = l2.
Proof. intros (i & P & S) (j & P' & S'). congruence. Qed.

Lemma sorted_id l : StronglySorted (fun a b : nat => a <= b) l -> StronglySorted le l.
Proof. auto. Qed.

(** ** NodeContainer *)

Lemma nc_swap_remove_spec {T} (c : node_container T) x :
  In x (nc_adj c) ->
  exists l', nc_swap_remove_element c x = Done (mk_nc (nc_id c) l' (nc_node c)) /\
             removed_first x (nc_adj c) l'.
Proof.
  intros H. destruct (removed_first_exists _ _ H) as (l' & i & P & S).
  exists l'. unfold nc_swap_remove_element. rewrite P; simpl. rewrite S; simpl.
  split; auto. exists i; auto.
Qed.

Lemma nc_swap_remove_of {T} (c : node_container T) x l' :
  removed_first x (nc_adj c) l' ->
  nc_swap_remove_element c x = Done (mk_nc (nc_id c) l' (nc_node c)).
Proof.
  intros (i & P & S). unfold nc_swap_remove_element.
  rewrite P; simpl. rewrite S; auto.
Qed.

Global Instance NodeContainer_laws T : AdjLaws (NodeContainer T).
Proof.
  refine {| ac_wf := fun _ => True |}; simpl; unfold same_vertex; simpl.
  - auto.
  - auto.
  - auto.
  - auto.
  - intros; apply contains_In.
  - intros a _. eexists; split; [reflexivity|]. simpl. repeat split; auto.
    + symmetry; apply sort_by_perm.
    + apply sort_by_sorted.
  - intros p a _ P. destruct (permute_spec _ P) as (l & E & Q).
    rewrite E; simpl. eexists; split; [reflexivity|]; simpl; auto.
  - auto.
  - intros a b H. unfold nc_push. apply contains_In in H. rewrite H; auto.
  - intros a b _ _ H. unfold nc_push. apply contains_not_In in H. rewrite H.
    do 2 eexists; split; [reflexivity|]; simpl; auto 10.
  - intros a b H. unfold nc_remove. apply contains_not_In in H. rewrite H; auto.
  - intros a b _ _ H1 H2. unfold nc_remove.
    rewrite (proj2 (contains_In _ _) H1); simpl.
    destruct (nc_swap_remove_spec _ _ H1) as (l1 & E1 & R1).
    destruct (nc_swap_remove_spec _ _ H2) as (l2 & E2 & R2).
    rewrite E1; simpl. rewrite E2; simpl.
    do 2 eexists; split; [reflexivity|]; simpl; auto 10.
  - intros a b a' b' _ _ H E. unfold nc_push in E.
    destruct (contains (nc_adj a) (nc_id b)) eqn:K; [discriminate|].
    injection E as <- <-. unfold nc_remove; simpl.
    apply contains_not_In in K.
    rewrite (proj2 (contains_In _ _)) by (apply in_or_app; simpl; auto). simpl.
    rewrite (nc_swap_remove_of (mk_nc (nc_id a) (nc_adj a ++ [nc_id b]) (nc_node a))
               (removed_first_snoc _ _ K)); simpl.
    rewrite (nc_swap_remove_of (mk_nc (nc_id b) (nc_adj b ++ [nc_id a]) (nc_node b))
               (removed_first_snoc _ _ H)); simpl.
    destruct a, b; auto.
Defined.

(** ** SwContainer *)

Lemma sc_swap_remove_spec {T} (c : sw_container T) x :
  In x (sc_neighbors c) ->
  exists l', sc_swap_remove_element c x = Done (mk_sc (sc_id c) l' (sc_node c)) /\
             removed_first x (sc_neighbors c) (map se_to l').
Proof.
  intros H. destruct (removed_first_exists _ _ H) as (l1 & i & P & S).
  destruct (position_nth _ _ P) as (y & N & E). unfold sc_neighbors in N.
  rewrite nth_error_map in N. destruct (nth_error (sc_adj c) i) eqn:Ne; [|discriminate].
  destruct (swap_remove_spec _ _ Ne) as (l' & S' & _).
  exists l'. unfold sc_swap_remove_element, sc_adj_position.
  rewrite P; simpl. rewrite S'; simpl. split; auto.
  exists i; split; auto. apply swap_remove_map; auto.
Qed.

Lemma sc_adjacent_In {T} (c : sw_container T) x :
  sc_is_adjacent c x = true <-> In x (sc_neighbors c).
Proof. apply contains_In. Qed.

Lemma sc_not_adjacent {T} (c : sw_container T) x :
  sc_is_adjacent c x = false <-> ~ In x (sc_neighbors c).
Proof. apply contains_not_In. Qed.

Lemma sc_swap_remove_snoc {T} (c : sw_container T) x o :
  ~ In x (sc_neighbors c) ->
  sc_swap_remove_element (mk_sc (sc_id c) (sc_adj c ++ [mk_se x o]) (sc_node c)) x = Done c.
Proof.
  intros H. unfold sc_swap_remove_element, sc_adj_position, sc_neighbors; simpl.
  rewrite map_app; simpl. rewrite position_app_r.
  - simpl. rewrite map_length, swap_remove_snoc by lia.
    rewrite Nat.eqb_refl; simpl. destruct c; auto.
  - intros y Hy. apply Nat.eqb_neq. intros <-; auto.
  - apply Nat.eqb_refl.
Qed.

Global Instance SwContainer_laws T : AdjLaws (SwContainer T).
Proof.
  refine {| ac_wf := fun _ => True |}; simpl; unfold same_vertex; simpl.
  - auto.
  - auto.
  - intros; unfold sc_neighbors; rewrite map_length; auto.
  - intros a. unfold sc_neighbors. destruct (sc_adj a); auto.
  - intros; apply sc_adjacent_In.
  - intros a _. eexists; split; [reflexivity|]. simpl. repeat split; auto;
      unfold sc_neighbors; simpl.
    + apply Permutation_map. symmetry; apply sort_by_perm.
    + rewrite sort_by_map. apply (sort_by_sorted (fun n => n)).
  - intros p a _ P. unfold sc_neighbors in *. rewrite map_length in P.
    destruct (permute_spec _ P) as (l & E & Q).
    rewrite E; simpl. eexists; split; [reflexivity|]; simpl.
    repeat split; auto. apply Permutation_map; auto.
  - auto.
  - intros a b H. unfold sc_push. apply sc_adjacent_In in H. rewrite H; auto.
  - intros a b _ _ H. unfold sc_push. apply sc_not_adjacent in H. rewrite H.
    do 2 eexists; split; [reflexivity|]; simpl.
    unfold sc_neighbors; simpl; rewrite !map_app; auto 10.
  - intros a b H. unfold sc_remove. apply sc_not_adjacent in H. rewrite H; auto.
  - intros a b _ _ H1 H2. unfold sc_remove.
    rewrite (proj2 (sc_adjacent_In _ _) H1); simpl.
    destruct (sc_swap_remove_spec _ _ H1) as (l1 & E1 & R1).
    destruct (sc_swap_remove_spec _ _ H2) as (l2 & E2 & R2).
    rewrite E1; simpl. rewrite E2; simpl.
    do 2 eexists; split; [reflexivity|]; simpl; auto 10.
  - intros a b a' b' _ _ H E. unfold sc_push in E.
    destruct (sc_is_adjacent a (sc_id b)) eqn:K; [discriminate|].
    injection E as <- <-. unfold sc_remove; simpl.
    apply sc_not_adjacent in K.
    rewrite (proj2 (sc_adjacent_In _ _)).
    2:{ unfold sc_neighbors; simpl. rewrite map_app. apply in_or_app; simpl; auto. }
    simpl.
    rewrite sc_swap_remove_snoc by auto. simpl.
    rewrite sc_swap_remove_snoc by auto. auto.
Defined.

(** ** WSContainer *)

Lemma wc_swap_remove_spec {T} (c : ws_container T) x :
  length (wc_to c) = length (wc_original c) ->
  In x (wc_to c) ->
  exists l' o', wc_swap_remove_elem c x = Done (mk_wc (wc_id c) (wc_node c) l' o') /\
             length l' = length o' /\
             removed_first x (wc_to c) l'.
Proof.
  intros L H. destruct (removed_first_exists _ _ H) as (l1 & i & P & S).
  pose proof (position_lt _ _ P) as Lt. rewrite L in Lt.
  destruct (vget_lt _ Lt) as (o & No).
  destruct (swap_remove_spec _ _ No) as (o' & S' & _).
  exists l1, o'. unfold wc_swap_remove_elem. rewrite P; simpl. rewrite S; simpl.
  rewrite S'; simpl. repeat split; auto.
  - apply swap_remove_length in S. apply swap_remove_length in S'. lia.
  - exists i; auto.
Qed.

Lemma wc_swap_remove_snoc {T} (c : ws_container T) x e :
  length (wc_to c) = length (wc_original c) ->
  ~ In x (wc_to c) ->
  wc_swap_remove_elem (mk_wc (wc_id c) (wc_node c) (wc_to c ++ [x]) (wc_original c ++ [e])) x
  = Done c.
Proof.
  intros L H. unfold wc_swap_remove_elem; simpl.
  rewrite position_app_r.
  - simpl. rewrite swap_remove_snoc by lia. simpl. rewrite L.
    rewrite swap_remove_snoc by lia. rewrite Nat.eqb_refl; simpl. destruct c; auto.
  - intros y Hy. apply Nat.eqb_neq. intros <-; auto.
  - apply Nat.eqb_refl.
Qed.

Lemma map_fst_combine {X Y} (l : list X) (o : list Y) :
  length l = length o -> map fst (combine l o) = l.
Proof.
  revert o; induction l; intros [|y o]; simpl; intros; try discriminate; auto.
  f_equal; auto.
Qed.

Lemma map_snd_combine {X Y} (l : list X) (o : list Y) :
  length l = length o -> map snd (combine l o) = o.
Proof.
  revert o; induction l; intros [|y o]; simpl; intros; try discriminate; auto.
  f_equal; auto.
Qed.

Global Instance WSContainer_laws T : AdjLaws (WSContainer T).
Proof.
  refine {| ac_wf := fun c : ws_container T => length (wc_to c) = length (wc_original c) |};
    simpl; unfold same_vertex; simpl.
  - auto.
  - auto.
  - auto.
  - auto.
  - intros; apply contains_In.
  - intros a L. unfold wc_sort_adj. rewrite L, Nat.eqb_refl.
    eexists; split; [reflexivity|]. simpl. repeat split; auto.
    + rewrite !map_length; auto.
    + rewrite sort_by_perm. rewrite map_fst_combine; auto.
    + rewrite sort_by_map. apply (sort_by_sorted (fun n => n)).
  - intros p a L P. unfold wc_shuffle_adj.
    destruct (permute_spec _ P) as (l & E & Q). rewrite L in P.
    destruct (permute_spec _ P) as (o & E' & Q').
    rewrite E; simpl. rewrite E'; simpl. eexists; split; [reflexivity|]; simpl.
    repeat split; auto.
    apply Permutation_length in Q. apply Permutation_length in Q'. lia.
  - auto.
  - intros a b H. unfold wc_push. apply contains_In in H. rewrite H; auto.
  - intros a b L1 L2 H. unfold wc_push. apply contains_not_In in H. rewrite H.
    do 2 eexists; split; [reflexivity|]; simpl. rewrite !app_length; simpl.
    repeat split; auto.
  - intros a b H. unfold wc_remove. apply contains_not_In in H. rewrite H; auto.
  - intros a b L1 L2 H1 H2. unfold wc_remove.
    rewrite (proj2 (contains_In _ _) H1); simpl.
    destruct (wc_swap_remove_spec _ _ L1 H1) as (l1 & o1 & E1 & Q1 & R1).
    destruct (wc_swap_remove_spec _ _ L2 H2) as (l2 & o2 & E2 & Q2 & R2).
    rewrite E1; simpl. rewrite E2; simpl.
    do 2 eexists; split; [reflexivity|]; simpl; auto 10.
  - intros a b a' b' L1 L2 H E. unfold wc_push in E.
    destruct (contains (wc_to a) (wc_id b)) eqn:K; [discriminate|].
    injection E as <- <-. unfold wc_remove; simpl.
    apply contains_not_In in K.
    rewrite (proj2 (contains_In _ _)) by (apply in_or_app; simpl; auto). simpl.
    rewrite wc_swap_remove_snoc by auto. simpl.
    rewrite wc_swap_remove_snoc by auto. auto.
Defined.

(** ** SpacialNodeContainer *)

Lemma spc_swap_remove_of {P T} (c : spacial_container P T) x l' :
  removed_first x (spc_adj c) l' ->
  spc_swap_remove_element c x = Done (mk_spc (spc_id c) l' (spc_node c) (spc_pos c)).
Proof.
  intros (i & Q & S). unfold spc_swap_remove_element.
  rewrite Q; simpl. rewrite S; auto.
Qed.

Global Instance SpacialContainer_laws P T : AdjLaws (SpacialContainer P T).
Proof.
  refine {| ac_wf := fun _ => True |}; simpl; unfold same_vertex; simpl.
  - auto.
  - auto.
  - auto.
  - auto.
  - intros; apply contains_In.
  - intros a _. eexists; split; [reflexivity|]. simpl. repeat split; auto.
    + symmetry; apply sort_by_perm.
    + apply sort_by_sorted.
  - intros p a _ Q. destruct (permute_spec _ Q) as (l & E & Q').
    rewrite E; simpl. eexists; split; [reflexivity|]; simpl; auto.
  - auto.
  - intros a b H. unfold spc_push. apply contains_In in H. rewrite H; auto.
  - intros a b _ _ H. unfold spc_push. apply contains_not_In in H. rewrite H.
    do 2 eexists; split; [reflexivity|]; simpl; auto 10.
  - intros a b H. unfold spc_remove. apply contains_not_In in H. rewrite H; auto.
  - intros a b _ _ H1 H2. unfold spc_remove.
    rewrite (proj2 (contains_In _ _) H1); simpl.
    destruct (removed_first_exists _ _ H1) as (l1 & R1).
    destruct (removed_first_exists _ _ H2) as (l2 & R2).
    rewrite (spc_swap_remove_of _ R1); simpl. rewrite (spc_swap_remove_of _ R2); simpl.
    do 2 eexists; split; [reflexivity|]; simpl; auto 10.
  - intros a b a' b' _ _ H E. unfold spc_push in E.
    destruct (contains (spc_adj a) (spc_id b)) eqn:K; [discriminate|].
    injection E as <- <-. unfold spc_remove; simpl.
    apply contains_not_In in K.
    rewrite (proj2 (contains_In _ _)) by (apply in_or_app; simpl; auto). simpl.
    rewrite (@spc_swap_remove_of _ _ (mk_spc (spc_id a) (spc_adj a ++ [spc_id b]) (spc_node a) (spc_pos a))
               _ _ (removed_first_snoc _ _ K)); simpl.
    rewrite (@spc_swap_remove_of _ _ (mk_spc (spc_id b) (spc_adj b ++ [spc_id a]) (spc_node b) (spc_pos b))
               _ _ (removed_first_snoc _ _ H)); simpl.
    destruct a, b; auto.
Defined.
