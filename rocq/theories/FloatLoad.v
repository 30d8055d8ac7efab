(** [vertex_load] in exact and in floating point arithmetic, side by side. *)
From Verif Require Import Base BaseFacts Containers ContainerSpec Graph GraphSpec GraphFacts GraphOps Search
  TraversalSpec TraversalFacts Load LoadSpec LoadFacts LoadSums
  BetweenSpec BetweenFacts FloatSpec Rounding Float FloatFacts.
From Coq Require Import ZArith QArith Qabs Lqa SpecFloat Permutation.
Set Implicit Arguments.
Unset Strict Implicit.
Local Open Scope nat_scope.

Section Sim.
Variable n : nat.
Variable incl_ends : bool.

(** How a number of the floating point run stands for a number of the exact run: in [bk]
    after [j] vertices, in [fraction], and in [b] after [k] sources. *)
Variables R Fr B : nat -> spec_float -> Q -> Prop.
Variable ok : nat -> Prop.

Hypothesis HF : forall j f x l, j < n -> R j f x -> (x <= qnat n)%Q -> ok l -> 0 < l <= n ->
  Fr j (f64_div f (f64_of_nat l)) (x / qnat l)%Q.
Hypothesis HR : forall j f x fr y, j < n -> R j f x -> Fr j fr y -> (x + y <= qnat n)%Q ->
  R (S j) (f64_add f fr) (x + y)%Q.
Hypothesis HW : forall j f x, R j f x -> R (S j) f x.
Hypothesis H1 : forall j f x, R j f x -> (1 <= x)%Q.
Hypothesis HB : forall k j f x f' x', k < n -> j <= n -> B k f x -> R j f' x' -> (x' <= qnat n)%Q ->
  B (S k) (if incl_ends then f64_add f f' else f64_sub (f64_add f f') (f64_of_nat 1))
          (if incl_ends then x + x' else x + x' - 1)%Q.
Hypothesis HBW : forall k f x, k < n -> B k f x -> B (S k) f x.
Hypothesis H0R : R 0 (f64_of_nat 1) 1%Q.
Hypothesis H0B : B 0 (f64_of_nat 0) 0%Q.

Definition fnth v (l : list spec_float) := nth v l S754_nan.
Definition qnth v (l : list Q) := nth v l 0%Q.

Definition add_fraction_f64 (fraction : spec_float) (l : list spec_float) (p : nat) :=
  do x <- vget l p; vset l p (f64_add x fraction).

Lemma adds_sim j ffr fr ps : j < n -> Fr j ffr fr -> forall bk fk, NoDup ps -> Forall (fun p => p < n) ps ->
  length bk = n -> length fk = n ->
  (forall v, v < n -> R (if memb v ps then j else S j) (fnth v fk) (qnth v bk)) ->
  (forall p, In p ps -> (qnth p bk + fr <= qnat n)%Q) ->
  exists bk' fk', foldM (add_fraction fr) bk ps = Done bk' /\ foldM (add_fraction_f64 ffr) fk ps = Done fk' /\
    length bk' = n /\ length fk' = n /\ (forall v, v < n -> R (S j) (fnth v fk') (qnth v bk')).
Proof.
  intros Hj HFr. induction ps as [|p ps IH]; intros bk fk N F Lb Lf HRv Hp.
  - exists bk, fk. splits; auto.
  - apply NoDup_cons_iff in N as [Np N]. inversion F as [|? ? Hpn F']; subst x l.
    cbn [foldM]. unfold add_fraction at 1, add_fraction_f64 at 1.
    rewrite (vget_nth 0%Q) by lia. rewrite (vget_nth S754_nan (l := fk)) by lia. cbn [bind].
    rewrite !vset_done by lia. cbn [bind].
    apply (IH _ _ N F'); rewrite ?upd_length; auto.
    + intros v Hv. unfold fnth, qnth. rewrite !nth_upd, Lb, Lf. specialize (HRv v Hv).
      cbn [memb existsb] in HRv. fold (memb v ps) in HRv. destruct (Nat.eqb_spec p v) as [->|Nv].
      * rewrite (proj2 (Nat.ltb_lt _ _) Hpn). cbn [andb]. rewrite (proj2 (memb_not v ps) Np).
        rewrite Nat.eqb_refl in HRv. apply HR; auto. apply Hp. simpl; auto.
      * cbn [andb]. destruct (Nat.eqb_spec v p); [congruence|]. exact HRv.
    + intros q Hq. unfold qnth. rewrite nth_upd. destruct (Nat.eqb_spec p q) as [->|Nv]; [contradiction|].
      apply Hp. simpl; auto.
Qed.

Lemma qsum_member (f : nat -> Q) l v : (forall x, In x l -> (0 <= f x)%Q) -> In v l -> (f v <= qsum f l)%Q.
Proof.
  induction l as [|a l IH]; intros Hf Hv; [destruct Hv|]. rewrite qsum_cons.
  assert (P : (0 <= qsum f l)%Q).
  { clear - Hf. induction l as [|b l IHl]; [apply Qle_refl|]. rewrite qsum_cons.
    assert (K := Hf b ltac:(simpl; auto)). assert (0 <= qsum f l)%Q; [|lra]. apply IHl.
    intros x [->|Hx]; apply Hf; simpl; auto. }
  destruct Hv as [->|Hv]; [lra|]. assert (K := Hf a ltac:(simpl; auto)).
  assert (f v <= qsum f l)%Q; [|lra]. apply IH; auto. intros; apply Hf; simpl; auto.
Qed.

Lemma qsum_memb fr ps l : NoDup ps -> NoDup l -> incl ps l ->
  (qsum (fun v => if memb v ps then fr else 0) l == qnat (length ps) * fr)%Q.
Proof.
  intros N Nl I.
  assert (E : (qsum (fun v => if memb v ps then fr else 0) l == qsum (fun _ => fr) (filter (fun v => memb v ps) l))%Q).
  { symmetry. apply qsum_filter. }
  rewrite E. assert (P : Permutation (filter (fun v => memb v ps) l) ps).
  { apply NoDup_Permutation; auto; [apply NoDup_filter; auto|]. intros x. rewrite filter_In, memb_In.
    split; [tauto|]. intros K. split; auto. }
  rewrite (qsum_perm _ P). clear. induction ps as [|p ps IH]; [reflexivity|].
  rewrite qsum_cons, IH. cbn [length]. rewrite qnat_S. ring.
Qed.

Lemma accumulate_sim pred k ord : forall j b fb bk fk,
  k < n -> j + length ord <= n ->
  length b = n -> length fb = n -> length bk = n -> length fk = n -> length pred = n ->
  Forall (fun v => v < n) ord -> NoDup ord -> later (fun w => nth w pred []) ord ->
  (forall w, In w (removelast ord) -> nth w pred [] <> [] /\ ok (length (nth w pred []))) ->
  (qsum (fun v => qnth v bk) ord <= qnat n)%Q ->
  (forall v, v < n -> R j (fnth v fk) (qnth v bk)) ->
  (forall v, v < n -> B (if memb v ord then k else S k) (fnth v fb) (qnth v b)) ->
  exists b' bk' fb' fk', load_accumulate incl_ends pred ord b bk = Done ([], b', bk') /\
    load_accumulate_f64 incl_ends pred ord fb fk = Done ([], fb', fk') /\
    length b' = n /\ length fb' = n /\ length bk' = n /\ length fk' = n /\
    (forall v, v < n -> B (S k) (fnth v fb') (qnth v b')).
Proof.
  induction ord as [|w ord IH]; intros j b fb bk fk Hk Hj Lb Lfb Lbk Lfk Lp F N H Hok Hq HRv HBv.
  - exists b, bk, fb, fk. splits; auto.
  - destruct ord as [|w' r].
    + exists b, bk, fb, fk. splits; auto. intros v Hv. specialize (HBv v Hv).
      destruct (memb v [w]); auto.
    + set (ord := w' :: r) in *.
      assert (E1 : load_accumulate incl_ends pred (w :: ord) b bk =
        do bi <- vget b w; do bki <- vget bk w; do b1 <- vset b w (bi + bki)%Q;
        do b2 <- (if incl_ends then Done b1 else do x <- vget b1 w; vset b1 w (x - 1)%Q);
        do pi <- vget pred w;
        do bk' <- foldM (add_fraction (bki / qnat (length pi))%Q) bk pi;
        load_accumulate incl_ends pred ord b2 bk') by reflexivity.
      assert (E2 : load_accumulate_f64 incl_ends pred (w :: ord) fb fk =
        do bi <- vget fb w; do bki <- vget fk w; do b1 <- vset fb w (f64_add bi bki);
        do b2 <- (if incl_ends then Done b1 else do x <- vget b1 w; vset b1 w (f64_sub x (f64_of_nat 1)));
        do pi <- vget pred w;
        do bk' <- foldM (add_fraction_f64 (f64_div bki (f64_of_nat (length pi)))) fk pi;
        load_accumulate_f64 incl_ends pred ord b2 bk') by reflexivity.
      rewrite E1, E2. clear E1 E2. apply NoDup_cons_iff in N as [Nw N].
      inversion F as [|? ? Hw F']; subst x l. destruct H as (Np & Hi & H).
      rewrite (vget_nth 0%Q (l := b)), (vget_nth 0%Q (l := bk)), (vget_nth S754_nan (l := fb)),
        (vget_nth S754_nan (l := fk)) by lia. cbn [bind].
      rewrite !vset_done by lia. cbn [bind].
      assert (Eb : exists b2, (if incl_ends then Done (upd b w (nth w b 0 + nth w bk 0)%Q)
          else do x <- vget (upd b w (nth w b 0 + nth w bk 0)%Q) w;
               vset (upd b w (nth w b 0 + nth w bk 0)%Q) w (x - 1)%Q) = Done b2 /\
          b2 = upd b w (if incl_ends then nth w b 0 + nth w bk 0 else nth w b 0 + nth w bk 0 - 1)%Q).
      { destruct incl_ends; [eauto|]. rewrite (vget_nth 0%Q) by (rewrite upd_length; lia). cbn [bind].
        rewrite vset_done by (rewrite upd_length; lia). rewrite upd_upd. eexists. split; [reflexivity|].
        rewrite nth_upd, Nat.eqb_refl. destruct (Nat.ltb_spec w (length b)); [|lia]. reflexivity. }
      assert (Ef : exists b2, (if incl_ends then Done (upd fb w (f64_add (nth w fb S754_nan) (nth w fk S754_nan)))
          else do x <- vget (upd fb w (f64_add (nth w fb S754_nan) (nth w fk S754_nan))) w;
               vset (upd fb w (f64_add (nth w fb S754_nan) (nth w fk S754_nan))) w (f64_sub x (f64_of_nat 1))) = Done b2 /\
          b2 = upd fb w (if incl_ends then f64_add (fnth w fb) (fnth w fk)
                          else f64_sub (f64_add (fnth w fb) (fnth w fk)) (f64_of_nat 1))).
      { destruct incl_ends; [eauto|]. rewrite (vget_nth S754_nan) by (rewrite upd_length; lia). cbn [bind].
        rewrite vset_done by (rewrite upd_length; lia). rewrite upd_upd. eexists. split; [reflexivity|].
        rewrite nth_upd, Nat.eqb_refl. destruct (Nat.ltb_spec w (length fb)); [|lia]. reflexivity. }
      destruct Eb as (b2 & -> & Eb). destruct Ef as (f2 & -> & Ef). cbn [bind].
      rewrite (vget_nth []) by lia. cbn [bind].
      set (P := nth w pred []) in *.
      destruct (Hok w) as [Pne Pok]; [unfold ord; simpl; auto|]. fold P in Pne, Pok.
      assert (Lo : length P <= n).
      { etransitivity; [apply (NoDup_incl_length Np Hi)|]. cbn [length] in Hj. lia. }
      assert (Lo' : 0 < length P) by (destruct P; [congruence|cbn; lia]).
      assert (Pos : forall v, v < n -> (1 <= qnth v bk)%Q) by (intros v Hv; apply (H1 (HRv v Hv))).
      assert (InO : forall v, In v ord -> v < n) by (apply (proj1 (Forall_forall _ _) F')).
      assert (Pos' : forall v, In v (w :: ord) -> (0 <= qnth v bk)%Q).
      { intros v Hv. assert (v < n) by (destruct Hv as [<-|]; auto). specialize (Pos v ltac:(auto)). lra. }
      assert (Bw : (qnth w bk <= qnat n)%Q).
      { eapply Qle_trans; [|apply Hq]. apply (@qsum_member (fun v => qnth v bk)); auto. simpl; auto. }
      set (fr := (nth w bk 0 / qnat (length P))%Q).
      assert (Pl : (0 < qnat (length P))%Q) by (apply qnat_pos; auto).
      assert (Pfr : (0 <= fr)%Q).
      { unfold fr. apply Qle_shift_div_l; auto. specialize (Pos w Hw). unfold qnth in Pos. lra. }
      assert (HFr : Fr j (f64_div (nth w fk S754_nan) (f64_of_nat (length P))) fr).
      { apply HF; auto; cbn [length] in Hj; try lia. apply (HRv w Hw). }
      assert (FP : Forall (fun p => p < n) P) by (apply Forall_forall; auto).
      assert (FP' : Forall (fun p => p < length bk) P) by (rewrite Lbk; auto).
      destruct (@add_fractions fr P bk Np FP') as (bk1 & Ek1 & Lk1 & Hk1).
      assert (Sq : (qsum (fun v => qnth v bk1) ord <= qnat n)%Q).
      { eapply Qle_trans; [|apply Hq]. rewrite qsum_cons.
        rewrite (qsum_ext (h := fun v => qnth v bk + (if memb v P then fr else 0))%Q) by (intros v _; apply Hk1).
        rewrite qsum_plus, (qsum_memb fr Np N Hi). unfold fr, qnth.
        apply Qle_lteq. right. field. lra. }
      assert (Pos1 : forall v, In v ord -> (0 <= qnth v bk1)%Q).
      { intros v Hv. unfold qnth. rewrite Hk1. specialize (Pos v (InO v Hv)). unfold qnth in Pos.
        destruct (memb v P); lra. }
      destruct (@adds_sim j _ fr P ltac:(cbn [length] in Hj; lia) HFr bk fk Np FP Lbk Lfk) as (bk1' & fk1 & Ek1' & Ef1 & Lb1 & Lf1 & HR1).
      { intros v Hv. destruct (memb v P); auto. }
      { intros p Hp. assert (K : (qnth p bk1 <= qnat n)%Q).
        { eapply Qle_trans; [|apply Sq]. apply (@qsum_member (fun v => qnth v bk1)); auto. }
        unfold qnth in K. rewrite Hk1, (proj2 (memb_In p P) Hp) in K. exact K. }
      assert (bk1' = bk1) by congruence. subst bk1'. rewrite Ek1, Ef1. cbn [bind].
      apply (IH (S j) b2 f2 bk1 fk1); auto; subst b2 f2; rewrite ?upd_length; auto; try lia.
      * cbn [length] in Hj |- *. lia.
      * intros v Hv. apply Hok. change (removelast (w :: ord)) with (w :: removelast ord). simpl. auto.
      * intros v Hv. unfold fnth, qnth. rewrite !nth_upd, Lb, Lfb. specialize (HBv v Hv).
        cbn [memb existsb] in HBv. fold (memb v ord) in HBv. destruct (Nat.eqb_spec w v) as [<-|Nv].
        -- rewrite (proj2 (Nat.ltb_lt _ _) Hw). cbn [andb]. rewrite (proj2 (memb_not w ord) Nw).
           rewrite Nat.eqb_refl in HBv. cbn [orb] in HBv. apply (@HB k j _ _ _ (qnth w bk)); auto; try exact HBv; try apply (HRv w Hw); cbn [length] in Hj; lia.
        -- cbn [andb]. destruct (Nat.eqb_spec v w); [congruence|]. exact HBv.
Qed.

Section Graph.
Context {T A : Type} {C : AdjContainer T A} {L : AdjLaws C}.
Variable g : graph A.
Hypothesis W : simple_graph g.
Hypothesis Hn : vertex_count g = n.
Hypothesis Hok : forall s w, s < n -> hops g s w <> None -> s <> w -> ok (length (inward g (hops g) s w)).

Definition sim_state k (st : load_state) (sf : load_floats) : Prop :=
  ld_q0 st = [] /\ ld_q1 st = [] /\ ld_ord st = [] /\
  lf_q0 sf = [] /\ lf_q1 sf = [] /\ lf_ord sf = [] /\
  length (ld_b st) = n /\ length (lf_b sf) = n /\ length (ld_bk st) = n /\ length (lf_bk sf) = n /\
  length (ld_dist st) = n /\ length (ld_pred st) = n /\
  ld_dist st = lf_dist sf /\ ld_pred st = lf_pred sf /\
  (k = 0 -> ld_bk st = repeat 1%Q n /\ lf_bk sf = repeat (f64_of_nat 1) n /\
            ld_dist st = repeat None n /\ ld_pred st = repeat [] n) /\
  (forall v, v < n -> B k (fnth v (lf_b sf)) (qnth v (ld_b st))).

Lemma source_sim k st sf : k < n -> sim_state k st sf ->
  exists st' sf', load_source g incl_ends st k = Done st' /\ load_source_f64 g incl_ends sf k = Done sf' /\
    sim_state (S k) st' sf'.
Proof.
  intros Hk (Q0 & Q1 & Qo & G0 & G1 & Go & Lb & Lfb & Lbk & Lfk & Ld & Lp & Edist & Epred & Fresh & HBv).
  unfold load_source, load_source_f64. rewrite Q0, Q1, Qo, G0, G1, Go, <- Edist, <- Epred. cbn [app].
  set (bk := if 0 <? k then map (fun _ => 1%Q) (ld_bk st) else ld_bk st).
  set (fk := if 0 <? k then map (fun _ => f64_of_nat 1) (lf_bk sf) else lf_bk sf).
  set (dist := if 0 <? k then map (fun _ => None) (ld_dist st) else ld_dist st).
  set (pred := if 0 <? k then map (fun _ => []) (ld_pred st) else ld_pred st).
  assert (K : forall {X Y} (x : X) (l : list Y) (m : list X), length l = n -> (k = 0 -> m = repeat x n) ->
     (if 0 <? k then map (fun _ => x) l else m) = repeat x n).
  { intros X Y x l m Hl Hm. destruct (Nat.ltb_spec 0 k); [|apply Hm; lia].
    rewrite <- Hl. clear. induction l; simpl; congruence. }
  assert (Eb : bk = repeat 1%Q n) by (apply K; auto; apply Fresh).
  assert (Ef : fk = repeat (f64_of_nat 1) n) by (apply K; auto; apply Fresh).
  assert (Ed : dist = repeat None n) by (apply K; auto; apply Fresh).
  assert (Ep : pred = repeat [] n) by (apply K; auto; apply Fresh).
  rewrite Ed. rewrite vset_done by (rewrite repeat_length; auto). cbn [bind]. rewrite Ep.
  destruct (@load_bfs_spec _ _ _ _ g k W (S (S n)) [k] [k] [] []
    (upd (repeat None n) k (Some 0)) (repeat [] n) 0) as (seen' & ord & dist' & pred' & d' & EB & I).
  { constructor; simpl; auto.
    - apply binv_start. auto.
    - constructor; auto. constructor.
    - intros v [<-|[]]. rewrite Hn. auto.
    - rewrite upd_length, repeat_length; auto.
    - rewrite repeat_length; auto.
    - intros w. rewrite nth_upd, repeat_length. destruct (Nat.eqb_spec k w) as [->|Nw].
      + destruct (Nat.ltb_spec w n); [|lia]. simpl. split; [auto|discriminate].
      + simpl. rewrite nth_repeat. split; [congruence|]. intros [?|[]]. congruence.
    - intros w e. rewrite nth_upd, repeat_length. destruct (Nat.eqb_spec k w) as [->|Nw].
      + destruct (Nat.ltb_spec w n); [|lia]. simpl. intros [= <-]. apply is_dist_self.
      + simpl. rewrite nth_repeat. discriminate.
    - intros w. apply nth_repeat.
    - constructor.
    - tauto. }
  { discriminate. }
  { simpl. lia. }
  rewrite Hn, EB. cbn [bind].
  assert (Ro : Forall (fun v => v < n) ord).
  { apply Forall_forall. intros v Hv. rewrite <- Hn. apply (li_rg I). apply in_app_iff; auto. }
  assert (Lo : length ord <= n).
  { rewrite <- (seq_length n 0). apply NoDup_incl_length; [apply (fin_nodup I)|].
    intros v Hv. apply in_seq. apply (proj1 (Forall_forall _ _) Ro) in Hv. lia. }
  assert (Dh : forall v, nth v dist' None = hops g k v).
  { intros v. pose proof (fin_dist I v) as FD.
    assert (Hs : k < vertex_count g) by lia.
    destruct (nth v dist' None) as [d|] eqn:E1.
    - symmetry. apply (hops_distances W v d Hs). apply FD. auto.
    - destruct (hops g k v) as [d|] eqn:E2; auto. apply (hops_distances W v d Hs) in E2. apply FD in E2. congruence. }
  destruct (@accumulate_sim pred' k ord 0 (ld_b st) (lf_b sf) bk fk) as (b' & bk' & fb' & fk' & -> & -> & L1 & L2 & L3 & L4 & HB').
  { auto. }
  { auto. }
  { auto. }
  { auto. }
  { rewrite Eb, repeat_length. auto. }
  { rewrite Ef, repeat_length. auto. }
  { rewrite <- Hn. apply (li_lp I). }
  { auto. }
  { apply (fin_nodup I). }
  { apply (fin_later I). }
  { intros w Hw. destruct (fin_last I) as (pre & E & Np). rewrite E, removelast_last in Hw.
    assert (Nw : k <> w) by (intros <-; auto).
    assert (Dw : hops g k w <> None).
    { rewrite <- Dh. apply (fin_ord I). rewrite E. apply in_app_iff. auto. }
    pose proof (fin_inward W I w) as Pm.
    assert (Ei : inward g (fun _ v => nth v dist' None) k w = inward g (hops g) k w).
    { unfold inward. apply filter_ext. intros u. unfold nearer. rewrite !Dh. auto. }
    rewrite Ei in Pm. rewrite (Permutation_length Pm). split; [|apply Hok; auto].
    intros E0. rewrite E0 in Pm. apply Permutation_nil in Pm.
    apply (D_pred W (hops_distances W) (s := k)) in Pm; auto. lia. }
  { rewrite Eb. rewrite (qsum_ext (h := fun _ => 1%Q)).
    - rewrite qsum_one. apply qnat_le. auto.
    - intros v Hv. unfold qnth. rewrite (nth_indep _ 0%Q 1%Q).
      + rewrite nth_repeat. reflexivity.
      + rewrite repeat_length. apply (proj1 (Forall_forall _ _) Ro). auto. }
  { intros v Hv. unfold fnth, qnth. rewrite Eb, Ef. rewrite (nth_indep _ 0%Q 1%Q) by (rewrite repeat_length; auto).
    rewrite (nth_indep _ S754_nan (f64_of_nat 1)) by (rewrite repeat_length; auto). rewrite !nth_repeat. apply H0R. }
  { intros v Hv. specialize (HBv v Hv). destruct (memb v ord); auto. }
  cbn [bind]. do 2 eexists. split; [reflexivity|]. split; [reflexivity|].
  unfold sim_state. cbn [ld_q0 ld_q1 ld_ord ld_b ld_bk ld_dist ld_pred lf_q0 lf_q1 lf_ord lf_b lf_bk lf_dist lf_pred].
  splits; auto; try discriminate.
  - rewrite <- Hn. apply (li_ld I).
  - rewrite <- Hn. apply (li_lp I).
Qed.

Lemma sources_sim m : forall k st sf, k + m = n -> sim_state k st sf ->
  exists st' sf', foldM (load_source g incl_ends) st (seq k m) = Done st' /\
    foldM (load_source_f64 g incl_ends) sf (seq k m) = Done sf' /\ sim_state n st' sf'.
Proof.
  induction m as [|m IH]; intros k st sf Hk S.
  - exists st, sf. cbn [seq foldM]. replace n with k by lia. auto.
  - destruct (@source_sim k st sf) as (st1 & sf1 & E1 & E2 & S1); auto; [lia|].
    cbn [seq foldM]. rewrite E1, E2. cbn [bind]. apply IH; auto. lia.
Qed.

Lemma vertex_load_sim : exists l lf, vertex_load g incl_ends = Done l /\ vertex_load_f64 g incl_ends = Done lf /\
  length l = n /\ length lf = n /\ forall v, v < n -> B n (fnth v lf) (qnth v l).
Proof.
  unfold vertex_load, vertex_load_f64. rewrite Hn.
  destruct (@sources_sim n 0 (mk_load [] [] [] (repeat 0%Q n) (repeat 1%Q n) (repeat None n) (repeat [] n))
    (mk_loadf [] [] [] (repeat (f64_of_nat 0) n) (repeat (f64_of_nat 1) n) (repeat None n) (repeat [] n)))
    as (st & sf & E1 & E2 & S); auto.
  - unfold sim_state. cbn [ld_q0 ld_q1 ld_ord ld_b ld_bk ld_dist ld_pred lf_q0 lf_q1 lf_ord lf_b lf_bk lf_dist lf_pred].
    splits; auto; try (apply repeat_length). intros v Hv. unfold fnth, qnth. rewrite nth_repeat.
    rewrite (nth_indep _ S754_nan (f64_of_nat 0)) by (rewrite repeat_length; auto). rewrite nth_repeat. apply H0B.
  - rewrite E1, E2. cbn [bind]. exists (ld_b st), (lf_b sf). unfold sim_state in S. splits; tauto.
Qed.
End Graph.
End Sim.

Local Open Scope Q_scope.

Lemma hp : (1 < 53)%Z. Proof. reflexivity. Qed.
Lemma he : (53 < 1024)%Z. Proof. reflexivity. Qed.
Lemma he2 : (53 + 2 < 1024)%Z. Proof. reflexivity. Qed.
Lemma hs : (67 < 1024)%Z. Proof. reflexivity. Qed.
#[local] Hint Resolve hp he he2 hs : core.

Notation rep := (representable 53 1024).

Lemma rep_eq x y : x == y -> rep x -> rep y.
Proof. intros E (m & e & H & K). exists m, e. split; auto. rewrite <- E. auto. Qed.

Lemma rep_nat m : (Z.of_nat m <= 2 ^ 53)%Z -> rep (qnat m).
Proof. intros H. apply (whole_representable hp he). rewrite Z.abs_eq; lia. Qed.

Lemma nat_small m : (Z.of_nat m <= 2 ^ 53)%Z -> qnat m < p2 1023.
Proof.
  intros H. apply (Qle_lt_trans _ (p2 53)).
  - rewrite p2_Z by lia. unfold qnat. rewrite <- Zle_Qle. auto.
  - reflexivity.
Qed.

(** *** Whole numbers *)

Definition is_whole (f : spec_float) (m : nat) : Prop := exists q, fval f = Some q /\ q == qnat m.

Lemma whole_of_nat m : (Z.of_nat m <= 2 ^ 53)%Z -> is_whole (f64_of_nat m) m.
Proof. intros H. apply (@of_nat_exact 53 1024); auto. lia. Qed.

Lemma whole_add a b m k : (Z.of_nat (m + k) <= 2 ^ 53)%Z -> is_whole a m -> is_whole b k -> is_whole (f64_add a b) (m + k).
Proof.
  intros H (qa & Fa & Ea) (qb & Fb & Eb). unfold is_whole.
  apply (@nearest_exact 53 1024 (qnat (m + k)) (f64_add a b)); [apply rep_nat; auto|].
  assert (S : qa + qb == qnat (m + k)) by (rewrite qnat_plus, Ea, Eb; reflexivity).
  apply (nearest_eq S). apply (add_spec hp he _ _ Fa Fb).
  - apply (rep_eq (x := qnat m)); [symmetry; auto|]. apply rep_nat. lia.
  - apply (rep_eq (x := qnat k)); [symmetry; auto|]. apply rep_nat. lia.
  - rewrite Ea. apply (@qnat_nonneg m).
  - rewrite Eb. apply (@qnat_nonneg k).
  - rewrite S. apply nat_small. auto.
Qed.

Lemma whole_sub a b m k : (Z.of_nat m <= 2 ^ 53)%Z -> (k <= m)%nat -> is_whole a m -> is_whole b k ->
  is_whole (f64_sub a b) (m - k).
Proof.
  intros H L (qa & Fa & Ea) (qb & Fb & Eb). unfold is_whole.
  apply (@nearest_exact 53 1024 (qnat (m - k)) (f64_sub a b)); [apply rep_nat; lia|].
  assert (S : qa - qb == qnat (m - k)).
  { assert (E : qnat m == qnat (m - k) + qnat k) by (rewrite <- qnat_plus; replace (m - k + k)%nat with m by lia; reflexivity).
    rewrite Ea, Eb, E. ring. }
  apply (nearest_eq S). apply (sub_spec hp he _ _ Fa Fb).
  - apply (rep_eq (x := qnat m)); [symmetry; auto|]. apply rep_nat. lia.
  - rewrite Eb. apply (@qnat_nonneg k).
  - rewrite Ea, Eb. apply qnat_le. auto.
  - rewrite Ea. apply nat_small. auto.
Qed.

Lemma whole_div_one a m : (Z.of_nat m <= 2 ^ 53)%Z -> is_whole a m -> is_whole (f64_div a (f64_of_nat 1)) m.
Proof.
  intros H (qa & Fa & Ea). unfold is_whole.
  apply (@nearest_exact 53 1024 (qnat m)); [apply rep_nat; auto|].
  destruct (whole_of_nat (m := 1)) as (qb & Fb & Eb); [lia|]. change (qnat 1) with 1 in Eb.
  assert (S : qa / qb == qnat m) by (rewrite Ea, Eb; field).
  apply (nearest_eq S). apply (div_spec hp he _ _ Fa Fb).
  - rewrite Ea. apply (@qnat_nonneg m).
  - rewrite Eb. reflexivity.
  - rewrite S. apply nat_small. auto.
Qed.

Section Exact.
Variables (n : nat) (incl_ends : bool).
Hypothesis Hn : (Z.of_nat n * Z.of_nat n <= 2 ^ 53)%Z.

Definition R_whole (j : nat) (f : spec_float) (x : Q) : Prop :=
  exists m, (1 <= m <= n)%nat /\ x == qnat m /\ is_whole f m.
Definition B_whole (k : nat) (f : spec_float) (x : Q) : Prop :=
  exists m, (m <= k * n)%nat /\ x == qnat m /\ is_whole f m.

Lemma qnat_inj_le m k : qnat m <= qnat k -> (m <= k)%nat.
Proof. unfold qnat. rewrite <- Zle_Qle. lia. Qed.

Lemma below_53 m k : (k <= n)%nat -> (m <= k * n)%nat -> (Z.of_nat m <= 2 ^ 53)%Z.
Proof. intros H K. nia. Qed.

Context {T A : Type} {C : AdjContainer T A} {L : AdjLaws C}.
Variable g : graph A.

Lemma load_whole : simple_graph g -> vertex_count g = n -> one_shortest_path g -> (0 < n)%nat ->
  exists l lf, vertex_load g incl_ends = Done l /\ vertex_load_f64 g incl_ends = Done lf /\
    length l = n /\ length lf = n /\ forall v, (v < n)%nat -> B_whole n (fnth v lf) (qnth v l).
Proof.
  intros W En One Pn.
  apply (@vertex_load_sim n incl_ends R_whole R_whole B_whole (fun l => l = 1%nat)) with (C := C) (L := L); auto.
  - intros j f x l Hj (m & Hm & Ex & Hf) _ -> _. exists m. splits; try lia.
    + rewrite Ex. change (qnat 1) with 1. field.
    + apply whole_div_one; auto. nia.
  - intros j f x fr y Hj (m & Hm & Ex & Hf) (k & Hk & Ey & Hfr) Le. exists (m + k)%nat.
    assert (E : x + y == qnat (m + k)) by (rewrite qnat_plus, Ex, Ey; reflexivity).
    rewrite E in Le. apply qnat_inj_le in Le. splits; auto; try lia. apply whole_add; auto. nia.
  - intros j f x (m & Hm & Ex & Hf). rewrite Ex. apply (@qnat_le 1). lia.
  - intros k j f x f' x' Hk _ (m & Hm & Ex & Hf) (m' & Hm' & Ex' & Hf') _.
    assert (E : x + x' == qnat (m + m')) by (rewrite qnat_plus, Ex, Ex'; reflexivity).
    assert (S : is_whole (f64_add f f') (m + m')) by (apply whole_add; auto; nia).
    destruct incl_ends.
    + exists (m + m')%nat. splits; auto. nia.
    + exists (m + m' - 1)%nat. splits; [nia| |].
      * rewrite E. assert (E1 : qnat (m + m') == qnat (m + m' - 1) + 1).
        { change 1 with (qnat 1). rewrite <- qnat_plus. replace (m + m' - 1 + 1)%nat with (m + m')%nat by lia. reflexivity. }
        rewrite E1. ring.
      * apply whole_sub; auto; try nia. apply whole_of_nat. lia.
  - intros k f x _ (m & Hm & Ex & Hf). exists m. splits; auto. nia.
  - exists 1%nat. splits; try lia; [reflexivity|]. apply whole_of_nat. lia.
  - exists 0%nat. splits; try lia; [reflexivity|]. apply whole_of_nat. lia.
  - intros s w Hs Hw Nw. apply (inward_one W (hops_distances W)); auto; [|lia].
    intros s' t d Hs' E. apply One; auto. apply (D_lt W (hops_distances W) Hs' E).
Qed.
End Exact.

(** *** Rounding errors *)

Definition u : Q := p2 (-52).

Lemma u_pos : 0 < u. Proof. reflexivity. Qed.
Lemma u_half : p2 (-53) == (1 # 2) * u. Proof. reflexivity. Qed.
Lemma u_small : p2 (-100) <= (1 # 8) * u. Proof. discriminate. Qed.

Lemma scale a b c : 0 <= c -> a <= b -> a * c <= b * c.
Proof. intros. apply Qmult_le_compat_r; auto. Qed.

Lemma scale_u a b : a <= b -> u * a <= u * b.
Proof. intros H. apply (proj2 (Qmult_le_l a b u u_pos)). auto. Qed.

Definition close (d q x w : Q) : Prop := q - x <= d * w /\ x - q <= d * w.

Lemma round_close z r q : nearest 53 1024 z r -> fval r = Some q -> p2 (-100) <= z -> close ((1 # 2) * u) q z z.
Proof.
  intros N F H. assert (E := @nearest_error 53 1024 hp z r q N F). pose proof u_half as Uh.
  assert (K : Qabs (q - z) <= p2 (-53) * z).
  { apply E. eapply Qle_trans; [|apply H]. apply p2_le. cbn. lia. }
  rewrite Uh in K. apply Qabs_Qle_condition in K. unfold close. lra.
Qed.

Lemma round_near z r q : nearest 53 1024 z r -> fval r = Some q -> 0 <= z ->
  q - z <= (1 # 2) * u * z + (1 # 8) * u /\ z - q <= (1 # 2) * u * z + (1 # 8) * u.
Proof.
  intros N F Z. pose proof u_small as Us. pose proof u_pos as Up. destruct (Qlt_le_dec z (p2 (-100))) as [K|K].
  - destruct N as (q' & F' & _ & N). assert (q' = q) by congruence. subst q'.
    specialize (N 0 (zero_representable 1024 hp)). rewrite (Qabs_neg (0 - z)) in N by lra.
    apply Qabs_Qle_condition in N. assert (Uz := @Qmult_le_0_compat u z ltac:(lra) Z). lra.
  - destruct (round_close N F K) as [H1 H2]. lra.
Qed.

Section Error.
Variables (n : nat) (incl_ends : bool).
Hypothesis Hn : (Z.of_nat n <= 2 ^ 47)%Z.
Let N := qnat n.

Definition R_close (j : nat) (f : spec_float) (x : Q) : Prop :=
  1 <= x /\ exists q, fval f = Some q /\ rep q /\ 1 <= q /\ close (2 * qnat j * u) q x x.
Definition F_close (j : nat) (f : spec_float) (x : Q) : Prop :=
  0 < x /\ exists q, fval f = Some q /\ rep q /\ 0 <= q /\ close ((2 * qnat j + 1) * u) q x x.
Definition B_close (k : nat) (f : spec_float) (x : Q) : Prop :=
  0 <= x /\ x <= qnat k * N /\
  exists q, fval f = Some q /\ rep q /\ 0 <= q /\
    close ((2 * N + 2 * qnat k) * u) q x (x + (if incl_ends then 0 else qnat k)).

Lemma N_u : N * u <= (1 # 32).
Proof.
  assert (N <= p2 47). { rewrite p2_Z by lia. unfold N, qnat. rewrite <- Zle_Qle. auto. }
  assert (E : p2 47 * u == (1 # 32)) by reflexivity. rewrite <- E. pose proof u_pos. nra.
Qed.

Lemma N_big : N <= p2 47.
Proof. rewrite p2_Z by lia. unfold N, qnat. rewrite <- Zle_Qle. auto. Qed.

Lemma level_u j : (j <= n)%nat -> 0 <= qnat j * u /\ qnat j * u <= (1 # 32).
Proof.
  intros H. pose proof u_pos. pose proof N_u. assert (P := @qnat_nonneg j). assert (Q := @qnat_le j n H). fold N in Q. nra.
Qed.

Lemma one_rep : rep 1.
Proof. apply (@rep_nat 1). lia. Qed.

Lemma close_R0 : R_close 0 (f64_of_nat 1) 1.
Proof.
  destruct (whole_of_nat (m := 1)) as (q & F & E); [lia|]. change (qnat 1) with 1 in E.
  split; [apply Qle_refl|]. exists q. split; auto. split; [apply (rep_eq (x := 1)); [symmetry; auto|apply one_rep]|].
  split; [rewrite E; apply Qle_refl|]. unfold close. change (qnat 0) with 0. lra.
Qed.

Lemma close_F j f x l : (j < n)%nat -> R_close j f x -> x <= N -> (0 < l <= n)%nat ->
  F_close j (f64_div f (f64_of_nat l)) (x / qnat l).
Proof.
  intros Hj (X1 & q & F & Rq & Q1 & C1 & C2) Xn Hl. destruct (@level_u j) as [U0 U1]; [lia|].
  destruct (@of_nat_exact 53 1024 hp he2 hs l) as (ql & Fl & El); [lia|lia|].
  assert (Pl : 1 <= qnat l) by (apply (@qnat_le 1); lia).
  assert (Ln : qnat l <= N) by (apply qnat_le; lia). pose proof N_big as Nb.
  set (i := / qnat l). assert (Pi : 0 < i) by (apply Qinv_lt_0_compat; lra).
  assert (Ei : i * qnat l == 1) by (unfold i; field; lra).
  assert (I1 : i <= 1) by nra.
  assert (I0 : p2 (-60) <= i).
  { assert (p2 (-60) * qnat l <= 1); [|nra]. assert (p2 (-60) * qnat l <= p2 (-60) * p2 47); [|eapply Qle_trans; [eassumption|]; discriminate].
    assert (0 < p2 (-60)) by reflexivity. nra. }
  assert (Eq : q / ql == q * i) by (rewrite El; reflexivity).
  assert (Q2 : q <= 2 * x) by nra.
  assert (Nr : nearest 53 1024 (q * i) (f64_div f (f64_of_nat l))).
  { apply (nearest_eq Eq). apply (div_spec hp he _ _ F Fl); [lra|rewrite El; lra|]. rewrite Eq.
    apply (Qle_lt_trans _ (2 * p2 47)); [nra|]. reflexivity. }
  destruct Nr as (r & Fr' & Rr & Mr).
  assert (Nr : nearest 53 1024 (q * i) (f64_div f (f64_of_nat l))) by (exists r; auto).
  assert (Qi : p2 (-100) <= q * i).
  { apply (Qle_trans _ (p2 (-60))); [discriminate|]. assert (0 < p2 (-60)) by reflexivity. nra. }
  destruct (round_close Nr Fr' Qi) as [K1 K2].
  assert (Ex : x / qnat l == x * i) by reflexivity.
  assert (Xi : 0 < x * i) by nra.
  split; [rewrite Ex; auto|]. exists r. split; auto. split; auto. split.
  { apply (nearest_ge Nr (zero_representable 1024 hp)); auto. nra. }
  assert (M1 : (q - x) * i <= 2 * qnat j * u * x * i) by (apply Qmult_le_compat_r; lra).
  assert (M2 : (x - q) * i <= 2 * qnat j * u * x * i) by (apply Qmult_le_compat_r; lra).
  assert (M3 : q * i <= 2 * (x * i)) by nra.
  pose proof u_pos as Up. assert (M4 : (1 # 2) * u * (q * i) <= u * (x * i)) by nra.
  unfold close. rewrite Ex. split; lra.
Qed.

Lemma close_R j f x fr y : (j < n)%nat -> R_close j f x -> F_close j fr y -> x + y <= N ->
  R_close (S j) (f64_add f fr) (x + y).
Proof.
  intros Hj (X1 & q & F & Rq & Q1 & C1 & C2) (Y0 & r & Fr' & Rr & R0 & D1 & D2) Le.
  destruct (@level_u j) as [U0 U1]; [lia|]. pose proof u_pos as Up. pose proof N_big as Nb.
  assert (U2 : u <= (1 # 32)) by discriminate.
  assert (Q2 : q + r <= 2 * (x + y)) by nra.
  assert (Nr : nearest 53 1024 (q + r) (f64_add f fr)).
  { apply (add_spec hp he _ _ F Fr'); auto; [lra|]. apply (Qle_lt_trans _ (2 * p2 47)); [nra|]. reflexivity. }
  destruct Nr as (s & Fs & Rs & Ms).
  assert (Nr : nearest 53 1024 (q + r) (f64_add f fr)) by (exists s; auto).
  assert (Qi : p2 (-100) <= q + r).
  { apply (Qle_trans _ 1); [discriminate|]. lra. }
  destruct (round_close Nr Fs Qi) as [K1 K2].
  split; [lra|]. exists s. split; auto. split; auto. split.
  { apply (nearest_ge Nr one_rep); auto. lra. }
  assert (M4 : (1 # 2) * u * (q + r) <= u * (x + y)) by nra.
  assert (M5 : 0 <= u * x) by nra.
  unfold close. rewrite qnat_S. split; lra.
Qed.

Lemma close_weak d d' q x w w' : close d q x w -> d * w <= d' * w' -> close d' q x w'.
Proof. unfold close. lra. Qed.

Lemma close_B k j f x f' x' : (k < n)%nat -> (j <= n)%nat -> B_close k f x -> R_close j f' x' -> x' <= N ->
  B_close (S k) (if incl_ends then f64_add f f' else f64_sub (f64_add f f') (f64_of_nat 1))
                (if incl_ends then x + x' else x + x' - 1).
Proof.
  intros Hk Hj (X0 & Xk & q & F & Rq & Q0 & C1 & C2) (X1 & q' & F' & Rq' & Q1 & D1 & D2) Le.
  destruct (@level_u j Hj) as [U0 U1]. destruct (@level_u k) as [V0 V1]; [lia|]. pose proof u_pos as Up.
  pose proof N_big as Nb. pose proof N_u as Nu. assert (U2 : u <= (1 # 32)) by discriminate.
  assert (Kn : qnat k <= N) by (apply qnat_le; lia). assert (Jn : qnat j <= N) by (apply qnat_le; lia).
  assert (K0 := @qnat_nonneg k). assert (J0 := @qnat_nonneg j).
  set (w := if incl_ends then 0 else qnat k) in *.
  assert (W0 : 0 <= w <= qnat k) by (unfold w; destruct incl_ends; lra).
  set (d := (2 * N + 2 * qnat k) * u) in *.
  destruct (@level_u n (le_n n)) as [Nu0 _]. fold N in Nu0.
  assert (Dd : 0 <= d <= (1 # 8)) by (unfold d; lra).
  assert (Q2 : q + q' <= 2 * (x + x' + w)).
  { assert (d * (x + w) <= 1 * (x + w)) by (apply scale; lra).
    assert (2 * qnat j * u * x' <= 1 * x') by (apply scale; lra). lra. }
  assert (Jd : 2 * qnat j * u * x' <= d * x').
  { apply scale; [lra|]. unfold d. apply scale; lra. }
  assert (Big : 2 * (x + x' + w) <= 2 * (p2 47 * p2 47 + p2 47 + p2 47)).
  { assert (N0 := @qnat_nonneg n). fold N in N0. assert (qnat k * N <= p2 47 * N) by (apply scale; lra).
    assert (N * p2 47 <= p2 47 * p2 47) by (apply scale; lra). lra. }
  assert (Big' : 2 * (p2 47 * p2 47 + p2 47 + p2 47) < p2 1023) by reflexivity.
  assert (Nr : nearest 53 1024 (q + q') (f64_add f f')).
  { apply (add_spec hp he _ _ F F'); auto; [lra|]. change (1024 - 1)%Z with 1023%Z. lra. }
  destruct Nr as (s & Fs & Rs & Ms).
  assert (Nr : nearest 53 1024 (q + q') (f64_add f f')) by (exists s; auto).
  assert (Qi : p2 (-100) <= q + q').
  { apply (Qle_trans _ 1); [discriminate|]. lra. }
  destruct (round_close Nr Fs Qi) as [K1 K2].
  assert (S1 : 1 <= s) by (apply (nearest_ge Nr one_rep); auto; lra).
  assert (M4 : (1 # 2) * u * (q + q') <= u * (x + x' + w)) by (apply scale_u in Q2; lra).
  assert (Sc : s - (x + x') <= (d + u) * (x + x' + w) /\ (x + x') - s <= (d + u) * (x + x' + w)) by (split; lra).
  assert (Ed : (2 * N + 2 * qnat (S k)) * u == d + 2 * u) by (unfold d; rewrite qnat_S; ring).
  assert (KS : qnat (S k) == 1 + qnat k) by apply qnat_S.
  assert (Xs : x + x' <= qnat (S k) * N) by (rewrite KS; lra).
  assert (Uw : u * 0 <= u * (x + x' + w)) by (apply scale_u; lra).
  assert (S3 : (d + u) * (x + x' + w) <= (1 # 4) * (x + x' + w)) by (apply scale; lra).
  unfold B_close, close. destruct incl_ends; subst w.
  - split; [lra|]. split; auto. exists s. split; auto. split; auto. split; [lra|]. rewrite Ed. split; lra.
  - split; [lra|]. split; [lra|].
    destruct (whole_of_nat (m := 1)) as (q1 & F1 & E1); [lia|]. change (qnat 1) with 1 in E1.
    assert (Nt : nearest 53 1024 (s - 1) (f64_sub (f64_add f f') (f64_of_nat 1))).
    { apply (@nearest_eq 53 1024 (s - q1)); [rewrite E1; reflexivity|].
      apply (sub_spec hp he _ _ Fs F1); auto; try lra. change (1024 - 1)%Z with 1023%Z. lra. }
    destruct Nt as (t & Ft & Rt & Mt).
    assert (Nt : nearest 53 1024 (s - 1) (f64_sub (f64_add f f') (f64_of_nat 1))) by (exists t; auto).
    destruct (round_near Nt Ft) as [L1 L2]; [lra|].
    exists t. split; auto. split; auto. split.
    { apply (nearest_ge Nt (zero_representable 1024 hp)); auto. lra. }
    assert (S2 : s <= (5 # 4) * (x + x' + qnat k)) by lra.
    assert (Y1 : 1 <= x + x' + qnat k) by lra.
    assert (Ey : x + x' - 1 + qnat (S k) == x + x' + qnat k) by (rewrite KS; ring).
    set (y := x + x' + qnat k) in *.
    assert (M6 : (1 # 2) * u * (s - 1) + (1 # 8) * u <= u * y).
    { assert (u * 1 <= u * y) by (apply scale_u; auto). apply scale_u in S2. lra. }
    rewrite Ed, Ey. split; lra.
Qed.

Lemma close_BW k f x : (k < n)%nat -> B_close k f x -> B_close (S k) f x.
Proof.
  intros Hk (X0 & Xk & q & F & Rq & Q0 & C1 & C2). pose proof u_pos as Up.
  assert (KS : qnat (S k) == 1 + qnat k) by apply qnat_S. assert (K0 := @qnat_nonneg k). assert (N0 := @qnat_nonneg n). fold N in N0.
  split; auto. split; [rewrite KS; lra|]. exists q. split; auto. split; auto. split; auto.
  apply (@close_weak ((2 * N + 2 * qnat k) * u) _ _ _ (x + (if incl_ends then 0 else qnat k))); [split; auto|].
  assert (D0 : 0 <= (2 * N + 2 * qnat k) * u) by (apply Qmult_le_0_compat; lra).
  assert (E : (2 * N + 2 * qnat (S k)) * u == (2 * N + 2 * qnat k) * u + 2 * u) by (rewrite KS; ring). rewrite E.
  set (d := (2 * N + 2 * qnat k) * u) in *. assert (U2 : u * 0 <= u * x) by (apply scale_u; auto).
  assert (U3 : u * 0 <= u * qnat (S k)) by (apply scale_u; rewrite KS; lra).
  destruct incl_ends; [lra|]. assert (K4 : qnat k * d <= qnat (S k) * d) by (apply scale; [auto|rewrite KS; lra]). lra.
Qed.

Lemma close_B0 : B_close 0 (f64_of_nat 0) 0.
Proof.
  destruct (whole_of_nat (m := 0)) as (q & F & E); [lia|].
  split; [apply Qle_refl|]. change (qnat 0) with 0 in *. split; [lra|]. exists q. split; auto.
  split; [apply (rep_eq (x := 0)); [symmetry; auto|apply (zero_representable 1024 hp)]|].
  split; [rewrite E; apply Qle_refl|]. unfold close. destruct incl_ends; lra.
Qed.

Context {T A : Type} {C : AdjContainer T A} {L : AdjLaws C}.

Lemma load_close g : simple_graph g -> vertex_count g = n ->
  exists l lf, vertex_load g incl_ends = Done l /\ vertex_load_f64 g incl_ends = Done lf /\
    length l = n /\ length lf = n /\ forall v, (v < n)%nat -> B_close n (fnth v lf) (qnth v l).
Proof.
  intros W En.
  apply (@vertex_load_sim n incl_ends R_close F_close B_close (fun _ => True)) with (C := C) (L := L); auto.
  - intros. apply close_F; auto.
  - intros. apply close_R; auto.
  - intros j f x (X & q & F & Rq & Q & Cl). split; auto. exists q. split; auto. split; auto. split; auto.
    apply (close_weak Cl). rewrite qnat_S. pose proof u_pos. nra.
  - intros j f x H. apply H.
  - intros. apply (@close_B k j); auto.
  - intros. apply close_BW; auto.
  - apply close_R0.
  - apply close_B0.
Qed.
End Error.
