(** Theorems about the data of the vertices: the ensembles carry them along, and do not look at
    them. *)
From Verif Require Import Base BaseFacts Containers Graph GraphFacts Rng ErC ErM Sw Ws Config Ba Spacial Dog SafeSpec PayloadSpec PayloadFacts PayloadRuns PayloadRings PayloadData.
From Coq Require Import QArith.
Local Open Scope nat_scope.

(** ** C103 *)

(** For each ensemble: two programs that make the same calls, on ensembles that differ in the data of
    their vertices only, end alike.  They return, panic or are undefined together, leave the
    same edges in the same order, and use the same draws.  The data may be of different types;
    whatever relation [R i] the data of vertex [i] have at first and in all assignments, they
    have at the end. *)
Theorem C103_er_c {T T' : Type} : forall (R : nat -> T -> T' -> Prop) n p e e' l l' rs,
  erc_like n R e e' -> Forall2 (erc_call_like R) l l' ->
  both (drawn (erc_like n R)) (program (erc_do p) (e, rs) l) (program (erc_do p) (e', rs) l').
Proof. intros R n p e e' l l' rs H F. apply both_program with (Q := erc_call_like R); auto. intros; apply both_erc_do; auto. Qed.
Print Assumptions C103_er_c.

Theorem C103_er_m {T T' : Type} : forall (R : nat -> T -> T' -> Prop) n p e e' l l' rs,
  erm_like n R e e' -> Forall2 (erm_call_like R) l l' ->
  both (drawn (erm_like n R)) (program (erm_do p) (e, rs) l) (program (erm_do p) (e', rs) l').
Proof. intros R n p e e' l l' rs H F. apply both_program with (Q := erm_call_like R); auto. intros; apply both_erm_do; auto. Qed.
Print Assumptions C103_er_m.

Theorem C103_config {T T' : Type} : forall (R : nat -> T -> T' -> Prop) n p e e' l l' rs,
  cm_like n R e e' -> Forall2 (cm_call_like R) l l' ->
  both (drawn (cm_like n R)) (program (cm_do p) (e, rs) l) (program (cm_do p) (e', rs) l').
Proof. intros R n p e e' l l' rs H F. apply both_program with (Q := cm_call_like R); auto. intros; apply both_cm_do; auto. Qed.
Print Assumptions C103_config.

Theorem C103_small_world {T T' : Type} : forall (R : nat -> T -> T' -> Prop) n p e e' l l' rs,
  sw_like n R e e' -> Forall2 (sw_call_like R) l l' ->
  both (drawn (sw_like n R)) (program (sw_do p) (e, rs) l) (program (sw_do p) (e', rs) l').
Proof. intros R n p e e' l l' rs H F. apply both_program with (Q := sw_call_like R); auto. intros; apply both_sw_do; auto. Qed.
Print Assumptions C103_small_world.

Theorem C103_watts_strogatz {T T' : Type} : forall (R : nat -> T -> T' -> Prop) n p e e' l l' rs,
  ws_like n R e e' -> Forall2 (plain_call_like R) l l' ->
  both (drawn (ws_like n R)) (program (ws_do p) (e, rs) l) (program (ws_do p) (e', rs) l').
Proof. intros R n p e e' l l' rs H F. apply both_program with (Q := plain_call_like R); auto. intros; apply both_ws_do; auto. Qed.
Print Assumptions C103_watts_strogatz.

Theorem C103_spacial {T T' : Type} : forall (R : nat -> T -> T' -> Prop) n p e e' l l' rs,
  sp_like n R e e' -> Forall2 (sp_call_like R) l l' ->
  both (drawn (sp_like n R)) (program (sp_do p) (e, rs) l) (program (sp_do p) (e', rs) l').
Proof. intros R n p e e' l l' rs H F. apply both_program with (Q := sp_call_like R); auto. intros; apply both_sp_do; auto. Qed.
Print Assumptions C103_spacial.

Theorem C103_barabasi_albert {T T' : Type} : forall (R R2 : nat -> T -> T' -> Prop) n k p e e' l l' rs,
  ba_like n R k R2 e e' -> Forall2 (plain_call_like R) l l' ->
  both (drawn (ba_like n R k R2)) (program (ba_do p) (e, rs) l) (program (ba_do p) (e', rs) l').
Proof. intros R R2 n k p e e' l l' rs H F. apply both_program with (Q := plain_call_like R); auto. intros; apply both_ba_do; auto. Qed.
Print Assumptions C103_barabasi_albert.

(** [DogEnsemble] has [randomize] only. *)
Theorem C103_dog {T T' : Type} : forall (R : nat -> T -> T' -> Prop) n p k e e' rs, dog_like n R e e' ->
  both (drawn (dog_like n R)) (foldM (fun s _ => dog_randomize p (fst s) (snd s)) (e, rs) (seq 0 k))
    (foldM (fun s _ => dog_randomize p (fst s) (snd s)) (e', rs) (seq 0 k)).
Proof. exact (@both_dog_runs T T'). Qed.
Print Assumptions C103_dog.

(** The steps that the functions return are the same, too. *)
Theorem C103_steps {T T' : Type} : forall (R : nat -> T -> T' -> Prop) n p rs,
  (forall e e', erc_like n R e e' -> both (told_drawn (erc_like n R)) (erc_m_step p e rs) (erc_m_step p e' rs)) /\
  (forall e e', erm_like n R e e' -> both (told_drawn (erm_like n R)) (erm_m_step p e rs) (erm_m_step p e' rs)) /\
  (forall e e', cm_like n R e e' -> both (told_drawn (cm_like n R)) (cm_m_step p e rs) (cm_m_step p e' rs)) /\
  (forall e e', sw_like n R e e' -> both (told_drawn (sw_like n R)) (sw_m_step p e rs) (sw_m_step p e' rs)) /\
  (forall e e', sp_like n R e e' -> both (told_drawn (sp_like n R)) (sp_m_step p e rs) (sp_m_step p e' rs)).
Proof.
  intros R n p rs. splits; intros; [apply both_erc_step|apply both_erm_m_step|apply both_cm_m_step|apply both_sw_step|apply both_sp_step]; auto.
Qed.
Print Assumptions C103_steps.

(** So does undoing: it returns the same report. *)
Theorem C103_undo {T T' : Type} : forall (R : nat -> T -> T' -> Prop) n p,
  (forall e e' s, erc_like n R e e' -> both (told (erc_like n R)) (erc_undo_step p e s) (erc_undo_step p e' s)) /\
  (forall e e' s, cm_like n R e e' -> both (told (cm_like n R)) (cm_undo_step p e s) (cm_undo_step p e' s)) /\
  (forall e e' s, sw_like n R e e' -> both (told (sw_like n R)) (sw_undo_step p e s) (sw_undo_step p e' s)) /\
  (forall e e' s, sp_like n R e e' -> both (told (sp_like n R)) (sp_undo_step p e s) (sp_undo_step p e' s)).
Proof.
  intros R n p. splits; intros; [apply both_erc_undo|apply both_cm_undo|apply both_sw_undo|apply both_sp_undo]; auto.
Qed.
Print Assumptions C103_undo.

(** The constructors make such ensembles, from two ways [mk] and [mk'] to make the data. *)
Theorem C103_new {T T' : Type} : forall (R : nat -> T -> T' -> Prop) p mk mk' n rs, (forall i, R i (mk i) (mk' i)) ->
  (forall c, both (drawn (erc_like n R)) (erc_new p mk n c rs) (erc_new p mk' n c rs)) /\
  (forall m, both (drawn (erm_like n R)) (erm_new p mk n m rs) (erm_new p mk' n m rs)) /\
  (forall v, both (drawn (cm_like (length v) R)) (cm_from_vec_unchecked p mk v rs) (cm_from_vec_unchecked p mk' v rs)) /\
  (forall v, both (opt_like (drawn (cm_like (length v) R))) (cm_from_vec p mk v rs) (cm_from_vec p mk' v rs)) /\
  (forall k, both (opt_like (drawn (cm_like n R))) (cm_from_const p mk k n rs) (cm_from_const p mk' k n rs)) /\
  (forall q, both (drawn (sw_like n R)) (sw_new p mk n q rs) (sw_new p mk' n q rs)) /\
  (forall k q, both (res_like (drawn (sw_like n R))) (sw_new_with_distance p mk n k q rs) (sw_new_with_distance p mk' n k q rs)) /\
  (forall k q, both (res_like (drawn (ws_like n R))) (ws_new p mk n k q rs) (ws_new p mk' n k q rs)) /\
  (forall m k, both (drawn (ba_like n R k R)) (ba_new p mk n m k rs) (ba_new p mk' n m k rs)) /\
  (forall m k g g', graph_like k (fun i => nc_like (R i)) g g' ->
     both (drawn (ba_like n R k R)) (ba_new_from_graph p mk n m g rs) (ba_new_from_graph p mk' n m g' rs)) /\
  (forall accept, both (drawn (sp_like n R)) (sp_new mk n accept rs) (sp_new mk' n accept rs)) /\
  (forall accept tau lambda, both (drawn (dog_like n R)) (dog_new p mk n accept tau lambda rs) (dog_new p mk' n accept tau lambda rs)).
Proof.
  intros R p mk mk' n rs H. splits; intros.
  - apply both_erc_new; auto.
  - apply both_erm_new; auto.
  - apply both_cm_new; auto.
  - apply both_cm_from; auto.
  - apply both_cm_const; auto.
  - apply both_sw_new; auto.
  - apply both_sw_distance; auto.
  - apply both_ws_new; auto.
  - apply both_ba_new; auto.
  - apply both_ba_from; auto.
  - apply both_sp_new; auto.
  - apply both_dog_new; auto.
Qed.
Print Assumptions C103_new.

(** At the end of a program vertex [i] holds what the program assigned to it last, and what it
    held at the start if it was assigned nothing: no other call changes the data or moves them
    to another vertex. *)
Theorem C103_data_er_c {T : Type} : forall p d l (e : er_c T) rs e' rs', holds d (erc_graph e) ->
  program (erc_do p) (e, rs) l = Done (e', rs') -> holds (fun i => last_write erc_writes l i (d i)) (erc_graph e').
Proof.
  intros p d l e rs e' rs' H E.
  apply (program_data (call := erc_do p) (writes := erc_writes) (data := fun d e => holds d (erc_graph e))) with (s := (e, rs)) (s' := (e', rs')); auto.
  - intros d1 d2 x. apply holds_ext.
  - intros. eapply erc_data; eauto.
Qed.
Print Assumptions C103_data_er_c.

Theorem C103_data_er_m {T : Type} : forall p d l (e : er_m T) rs e' rs', holds d (erm_graph e) ->
  program (erm_do p) (e, rs) l = Done (e', rs') -> holds (fun i => last_write erm_writes l i (d i)) (erm_graph e').
Proof.
  intros p d l e rs e' rs' H E.
  apply (program_data (call := erm_do p) (writes := erm_writes) (data := fun d e => holds d (erm_graph e))) with (s := (e, rs)) (s' := (e', rs')); auto.
  - intros d1 d2 x. apply holds_ext.
  - intros. eapply erm_data; eauto.
Qed.
Print Assumptions C103_data_er_m.

Theorem C103_data_config {T : Type} : forall p d l (e : config T) rs e' rs', holds d (cm_graph e) ->
  program (cm_do p) (e, rs) l = Done (e', rs') -> holds (fun i => last_write cm_writes l i (d i)) (cm_graph e').
Proof.
  intros p d l e rs e' rs' H E.
  apply (program_data (call := cm_do p) (writes := cm_writes) (data := fun d e => holds d (cm_graph e))) with (s := (e, rs)) (s' := (e', rs')); auto.
  - intros d1 d2 x. apply holds_ext.
  - intros. eapply cm_data; eauto.
Qed.
Print Assumptions C103_data_config.

Theorem C103_data_small_world {T : Type} : forall p d l (e : sw_ensemble T) rs e' rs', holds d (sw_graph e) ->
  program (sw_do p) (e, rs) l = Done (e', rs') -> holds (fun i => last_write sw_writes l i (d i)) (sw_graph e').
Proof.
  intros p d l e rs e' rs' H E.
  apply (program_data (call := sw_do p) (writes := sw_writes) (data := fun d e => holds d (sw_graph e))) with (s := (e, rs)) (s' := (e', rs')); auto.
  - intros d1 d2 x. apply holds_ext.
  - intros. eapply sw_data; eauto.
Qed.
Print Assumptions C103_data_small_world.

Theorem C103_data_watts_strogatz {T : Type} : forall p d l (e : ws_ensemble T) rs e' rs', holds d (ws_graph e) ->
  program (ws_do p) (e, rs) l = Done (e', rs') -> holds (fun i => last_write plain_writes l i (d i)) (ws_graph e').
Proof.
  intros p d l e rs e' rs' H E.
  apply (program_data (call := ws_do p) (writes := plain_writes) (data := fun d e => holds d (ws_graph e))) with (s := (e, rs)) (s' := (e', rs')); auto.
  - intros d1 d2 x. apply holds_ext.
  - intros. eapply ws_data; eauto.
Qed.
Print Assumptions C103_data_watts_strogatz.

Theorem C103_data_spacial {T : Type} : forall p d l (e : spacial T) rs e' rs', holds d (sp_graph e) ->
  program (sp_do p) (e, rs) l = Done (e', rs') -> holds (fun i => last_write sp_writes l i (d i)) (sp_graph e').
Proof.
  intros p d l e rs e' rs' H E.
  apply (program_data (call := sp_do p) (writes := sp_writes) (data := fun d e => holds d (sp_graph e))) with (s := (e, rs)) (s' := (e', rs')); auto.
  - intros d1 d2 x. apply holds_ext.
  - intros. eapply sp_data; eauto.
Qed.
Print Assumptions C103_data_spacial.

(** The source of a [BarabasiAlbert] keeps its data; they are not copied to the graph. *)
Theorem C103_data_barabasi_albert {T : Type} : forall p d ds l (e : ba T) rs e' rs', holds d (ba_graph e) -> holds ds (ba_source e) ->
  program (ba_do p) (e, rs) l = Done (e', rs') ->
  holds (fun i => last_write plain_writes l i (d i)) (ba_graph e') /\ holds ds (ba_source e').
Proof.
  intros p d ds l e rs e' rs' H S E.
  apply (program_data (call := ba_do p) (writes := plain_writes) (data := fun d e => holds d (ba_graph e) /\ holds ds (ba_source e)))
    with (s := (e, rs)) (s' := (e', rs')); auto.
  - intros d1 d2 x X [H1 H2]. split; auto. apply holds_ext with d1; auto.
  - intros. eapply ba_data; eauto.
Qed.
Print Assumptions C103_data_barabasi_albert.

Theorem C103_data_dog {T : Type} : forall p d k (e : dog T) rs e' rs', holds d (dog_graph e) ->
  foldM (fun s _ => dog_randomize p (fst s) (snd s)) (e, rs) (seq 0 k) = Done (e', rs') -> holds d (dog_graph e').
Proof. exact (@dog_data T). Qed.
Print Assumptions C103_data_dog.

(** A new ensemble holds what [mk] makes. *)
Theorem C103_data_new {T : Type} : forall p (mk : nat -> T) n rs rs',
  (forall c e, erc_new p mk n c rs = Done (e, rs') -> holds mk (erc_graph e) /\ length (vertices (erc_graph e)) = n) /\
  (forall m e, erm_new p mk n m rs = Done (e, rs') -> holds mk (erm_graph e) /\ length (vertices (erm_graph e)) = n) /\
  (forall v e, cm_from_vec_unchecked p mk v rs = Done (e, rs') -> holds mk (cm_graph e) /\ length (vertices (cm_graph e)) = length v) /\
  (forall q e, sw_new p mk n q rs = Done (e, rs') -> holds mk (sw_graph e) /\ length (vertices (sw_graph e)) = n) /\
  (forall k q e, sw_new_with_distance p mk n k q rs = Done (Ok (e, rs')) -> holds mk (sw_graph e) /\ length (vertices (sw_graph e)) = n) /\
  (forall k q e, ws_new p mk n k q rs = Done (Ok (e, rs')) -> holds mk (ws_graph e) /\ length (vertices (ws_graph e)) = n) /\
  (forall m k e, ba_new p mk n m k rs = Done (e, rs') -> holds mk (ba_graph e) /\ holds mk (ba_source e) /\ length (vertices (ba_graph e)) = n) /\
  (forall accept e, sp_new mk n accept rs = Done (e, rs') -> holds mk (sp_graph e) /\ length (vertices (sp_graph e)) = n) /\
  (forall accept tau lambda e, dog_new p mk n accept tau lambda rs = Done (e, rs') -> holds mk (dog_graph e) /\ length (vertices (dog_graph e)) = n).
Proof.
  intros p mk n rs rs'. assert (H : forall i, is mk i (mk i) (mk i)) by reflexivity. splits; intros.
  - destruct (both_done (both_erc_new (N := n) p c rs H) H0) as ([e1 r1] & _ & [P1 _]). destruct P1 as [G _]. split; [exact (nc_self_holds G)|apply G].
  - destruct (both_done (both_erm_new (N := n) p m rs H) H0) as ([e1 r1] & _ & [P1 _]). destruct P1 as [G _]. split; [exact (nc_self_holds G)|apply G].
  - destruct (both_done (both_cm_new (N := length v) p rs eq_refl H) H0) as ([e1 r1] & _ & [P1 _]). destruct P1 as [G _]. split; [exact (nc_self_holds G)|apply G].
  - destruct (both_done (both_sw_new (N := n) p q rs H) H0) as ([e1 r1] & _ & [P1 _]). destruct P1 as [G _]. split; [exact (sc_self_holds G)|apply G].
  - destruct (both_done (both_sw_distance n p k q rs H) H0) as ([[e1 r1]|x] & _ & P1); [|contradiction]. destruct P1 as [[G _] _]. split; [exact (sc_self_holds G)|apply G].
  - destruct (both_done (both_ws_new (N := n) p k q rs H) H0) as ([[e1 r1]|x] & _ & P1); [|contradiction]. destruct P1 as [[G _] _]. split; [exact (wc_self_holds G)|apply G].
  - destruct (both_done (both_ba_new (N := n) (M := k) p m rs H) H0) as ([e1 r1] & _ & [P1 _]). destruct P1 as (S & G & _).
    splits; [exact (nc_self_holds G)|exact (nc_self_holds S)|apply G].
  - destruct (both_done (both_sp_new (N := n) accept rs H) H0) as ([e1 r1] & _ & [P1 _]). destruct P1 as [G _]. split; [exact (spc_self_holds G)|apply G].
  - destruct (both_done (both_dog_new (N := n) p accept tau lambda rs H) H0) as ([e1 r1] & _ & [P1 _]). destruct P1 as [G _]. split; [exact (spc_self_holds G)|apply G].
Qed.
Print Assumptions C103_data_new.

(** Assignments to vertices that exist change nothing but the data: a program goes like the same
    program without them. *)
Theorem C103_without_er_c {T : Type} : forall p n l (e e' : er_c T) rs, erc_like n any e e' -> writes_in erc_writes n l ->
  both (drawn (erc_like n any)) (program (erc_do p) (e, rs) l) (program (erc_do p) (e', rs) (without erc_writes l)).
Proof. intros p n l. exact (@erc_without T p n l). Qed.
Print Assumptions C103_without_er_c.

Theorem C103_without_er_m {T : Type} : forall p n l (e e' : er_m T) rs, erm_like n any e e' -> writes_in erm_writes n l ->
  both (drawn (erm_like n any)) (program (erm_do p) (e, rs) l) (program (erm_do p) (e', rs) (without erm_writes l)).
Proof. intros p n l. exact (@erm_without T p n l). Qed.
Print Assumptions C103_without_er_m.

Theorem C103_without_config {T : Type} : forall p n l (e e' : config T) rs, cm_like n any e e' -> writes_in cm_writes n l ->
  both (drawn (cm_like n any)) (program (cm_do p) (e, rs) l) (program (cm_do p) (e', rs) (without cm_writes l)).
Proof. intros p n l. exact (@cm_without T p n l). Qed.
Print Assumptions C103_without_config.

Theorem C103_without_small_world {T : Type} : forall p n l (e e' : sw_ensemble T) rs, sw_like n any e e' -> writes_in sw_writes n l ->
  both (drawn (sw_like n any)) (program (sw_do p) (e, rs) l) (program (sw_do p) (e', rs) (without sw_writes l)).
Proof. intros p n l. exact (@sw_without T p n l). Qed.
Print Assumptions C103_without_small_world.

Theorem C103_without_watts_strogatz {T : Type} : forall p n l (e e' : ws_ensemble T) rs, ws_like n any e e' -> writes_in plain_writes n l ->
  both (drawn (ws_like n any)) (program (ws_do p) (e, rs) l) (program (ws_do p) (e', rs) (without plain_writes l)).
Proof. intros p n l. exact (@ws_without T p n l). Qed.
Print Assumptions C103_without_watts_strogatz.

Theorem C103_without_spacial {T : Type} : forall p n l (e e' : spacial T) rs, sp_like n any e e' -> writes_in sp_writes n l ->
  both (drawn (sp_like n any)) (program (sp_do p) (e, rs) l) (program (sp_do p) (e', rs) (without sp_writes l)).
Proof. intros p n l. exact (@sp_without T p n l). Qed.
Print Assumptions C103_without_spacial.

Theorem C103_without_barabasi_albert {T : Type} : forall p n k l (e e' : ba T) rs, ba_like n any k any e e' -> writes_in plain_writes n l ->
  both (drawn (ba_like n any k any)) (program (ba_do p) (e, rs) l) (program (ba_do p) (e', rs) (without plain_writes l)).
Proof. intros p n k l. exact (@ba_without T p n k l). Qed.
Print Assumptions C103_without_barabasi_albert.

(** A Barabasi-Albert ensemble of data made by doubling the number of the vertex; assignments to vertices 1
    and 5, the latter twice; and one whose data are nothing. *)
Definition c103_program : list (plain_call nat) := [Pc_write 1 70; Pc_randomize; Pc_write 5 80; Pc_sort; Pc_write 5 90].

Example C103_case :
  exists e rs1 e1 rs2 e2 rs3, ba_new Debug (fun i => 2 * i) 6 1 3 [1; 0; 3; 5; 2; 7; 4; 1; 0; 2; 9; 4; 4; 4; 4] = Done (e, rs1) /\
  program (ba_do Debug) (e, rs1) c103_program = Done (e1, rs2) /\
  map (@nc_node _) (vertices (ba_graph e1)) = [0; 70; 4; 6; 8; 90] /\
  map (@nc_node _) (vertices (ba_source e1)) = [0; 2; 4] /\
  writes_in plain_writes 6 c103_program /\
  without plain_writes c103_program = [Pc_randomize; Pc_sort] /\
  (do s <- ba_new Debug (fun _ => tt) 6 1 3 [1; 0; 3; 5; 2; 7; 4; 1; 0; 2; 9; 4; 4; 4; 4]; program (ba_do Debug) s [Pc_randomize; Pc_sort]) = Done (e2, rs3) /\
  map (@nc_adj _) (vertices (ba_graph e1)) = map (@nc_adj _) (vertices (ba_graph e2)) /\ rs2 = rs3 /\
  map (@nc_adj _) (vertices (ba_graph e1)) <> map (@nc_adj _) (vertices (ba_graph e)).
Proof.
  do 6 eexists. split; [vm_compute; reflexivity|]. split; [vm_compute; reflexivity|].
  split; [vm_compute; reflexivity|]. split; [vm_compute; reflexivity|]. split; [repeat constructor|].
  split; [reflexivity|]. split; [vm_compute; reflexivity|]. split; [vm_compute; reflexivity|]. split; [vm_compute; reflexivity|].
  vm_compute. discriminate.
Qed.
