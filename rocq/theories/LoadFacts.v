(** Facts about [vertex_load]. *)
From Verif Require Import Base BaseFacts Containers ContainerSpec Graph GraphSpec GraphFacts.
From Verif Require Import GraphOps Search TraversalFacts Load LoadSpec.
From Coq Require Import QArith Qfield Sorted.
Set Implicit Arguments.
Unset Strict Implicit.
Local Open Scope nat_scope.

(** *** Lists read with a default *)

Lemma nth_upd {X} (l : list X) i x d j :
  nth j (upd l i x) d = if (i =? j) && (i <? length l) then x else nth j l d.
Proof.
  rewrite <- !nth_default_eq. unfold nth_default.
  rewrite nth_error_upd. destruct ((i =? j) && (i <? length l)); auto.
Qed.

Lemma vget_nth {X} (l : list X) i d : i < length l -> vget l i = Done (nth i l d).
Proof. intros H. apply vget_done. apply nth_error_nth'. auto. Qed.

(** *** Sums of rationals *)

Lemma qsum_ext {X} (f h : X -> Q) l : (forall x, In x l -> (f x == h x)%Q) -> (qsum f l == qsum h l)%Q.
Proof.
  induction l as [|x l IH]; simpl; intros H; [reflexivity|].
  rewrite (H x (or_introl eq_refl)), IH; [reflexivity|]. auto.
Qed.

Lemma qsum_cons {X} (f : X -> Q) x l : qsum f (x :: l) = (f x + qsum f l)%Q.
Proof. reflexivity. Qed.

Lemma qsum_perm {X} (f : X -> Q) l l' : Permutation l l' -> (qsum f l == qsum f l')%Q.
Proof.
  induction 1; simpl; try reflexivity.
  - rewrite IHPermutation. reflexivity.
  - ring.
  - etransitivity; eauto.
Qed.

Lemma qsum_app {X} (f : X -> Q) l l' : (qsum f (l ++ l') == qsum f l + qsum f l')%Q.
Proof. induction l as [|x l IH]; simpl; [ring|]. rewrite IH. ring. Qed.

Lemma qsum_zero {X} (l : list X) : (qsum (fun _ => 0%Q) l == 0)%Q.
Proof. induction l as [|x l IH]; simpl; [reflexivity|]. rewrite IH. ring. Qed.

Lemma qsum_plus {X} (f h : X -> Q) l : (qsum (fun x => f x + h x)%Q l == qsum f l + qsum h l)%Q.
Proof. induction l as [|x l IH]; simpl; [ring|]. rewrite IH. ring. Qed.

Lemma qsum_minus {X} (f h : X -> Q) l : (qsum (fun x => f x - h x)%Q l == qsum f l - qsum h l)%Q.
Proof. induction l as [|x l IH]; simpl; [ring|]. rewrite IH. ring. Qed.

Lemma qsum_mul {X} (f : X -> Q) c l : (qsum (fun x => c * f x)%Q l == c * qsum f l)%Q.
Proof. induction l as [|x l IH]; simpl; [ring|]. rewrite IH. ring. Qed.

Lemma qsum_exchange {X Y} (f : X -> Y -> Q) l m :
  (qsum (fun x => qsum (f x) m) l == qsum (fun y => qsum (fun x => f x y) l) m)%Q.
Proof.
  induction l as [|x l IH]; simpl.
  - rewrite qsum_zero. reflexivity.
  - rewrite IH, <- qsum_plus. reflexivity.
Qed.

Lemma qsum_filter {X} (f : X -> Q) b l :
  (qsum f (filter b l) == qsum (fun x => if b x then f x else 0) l)%Q.
Proof.
  induction l as [|x l IH]; simpl; [reflexivity|].
  destruct (b x); simpl; rewrite IH; ring.
Qed.

Lemma qnat_S n : (qnat (S n) == 1 + qnat n)%Q.
Proof.
  unfold qnat. rewrite Nat2Z.inj_succ, <- Z.add_1_l, inject_Z_plus. reflexivity.
Qed.

Lemma qnat_plus m n : (qnat (m + n) == qnat m + qnat n)%Q.
Proof. unfold qnat. rewrite Nat2Z.inj_add, inject_Z_plus. reflexivity. Qed.

Lemma qnat_nonzero n : n <> 0 -> ~ (qnat n == 0)%Q.
Proof. intros H E. unfold qnat, Qeq, inject_Z in E. simpl in E. lia. Qed.

Lemma qnat_list_sum l : (qnat (list_sum l) == qsum qnat l)%Q.
Proof. induction l as [|x l IH]; simpl; [reflexivity|]. rewrite qnat_plus, IH. reflexivity. Qed.

Lemma qsum_map {X Y} (f : Y -> Q) (h : X -> Y) l : qsum f (map h l) = qsum (fun x => f (h x)) l.
Proof. induction l as [|x l IH]; simpl; congruence. Qed.

Lemma qsum_one {X} (l : list X) : (qsum (fun _ => 1%Q) l == qnat (length l))%Q.
Proof.
  induction l as [|x l IH]; [reflexivity|]. cbn [length qsum fold_right]. rewrite qnat_S.
  fold (qsum (fun _ : X => 1%Q) l). rewrite IH. reflexivity.
Qed.

(** *** The accumulation *)

Definition memb (v : nat) (l : list nat) : bool := existsb (Nat.eqb v) l.

Lemma memb_In v l : memb v l = true <-> In v l.
Proof.
  unfold memb. rewrite existsb_exists. split.
  - intros (x & H & E). apply Nat.eqb_eq in E as ->. auto.
  - intros H. exists v. rewrite Nat.eqb_refl. auto.
Qed.

Lemma memb_not v l : memb v l = false <-> ~ In v l.
Proof. rewrite <- memb_In. destruct (memb v l); split; congruence. Qed.

Definition add_fraction (fraction : Q) (l : list Q) (p : nat) : outcome (list Q) :=
  do x <- vget l p; vset l p (x + fraction)%Q.

Lemma add_fractions fr ps : forall bk, NoDup ps -> Forall (fun p => p < length bk) ps ->
  exists bk', foldM (add_fraction fr) bk ps = Done bk' /\ length bk' = length bk /\
    forall v, (nth v bk' 0 == nth v bk 0 + (if memb v ps then fr else 0))%Q.
Proof.
  induction ps as [|p ps IH]; intros bk N F; simpl.
  - exists bk. splits; auto. intros v. ring.
  - apply NoDup_cons_iff in N as [Np N]. inversion F as [|? ? Hp F']; subst.
    unfold add_fraction at 1. rewrite (vget_nth 0%Q Hp). cbn [bind].
    rewrite vset_done by auto. cbn [bind].
    destruct (IH (upd bk p (nth p bk 0 + fr)%Q) N) as (bk' & -> & Lb & H).
    { revert F'. apply Forall_impl. intros. rewrite upd_length; auto. }
    rewrite upd_length in Lb. exists bk'. splits; auto. intros v. rewrite H, nth_upd.
    destruct (Nat.eqb_spec p v) as [->|Nv].
    + destruct (Nat.ltb_spec v (length bk)); [|lia]. cbn [andb].
      rewrite (proj2 (memb_not v ps) Np). rewrite Nat.eqb_refl. simpl. ring.
    + simpl. destruct (Nat.eqb_spec v p); [congruence|]. simpl. reflexivity.
Qed.

(** Every entry of [P w] comes after [w]. *)
Fixpoint later (P : nat -> list nat) (ord : list nat) : Prop :=
  match ord with
  | [] => True
  | w :: r => NoDup (P w) /\ incl (P w) r /\ later P r
  end.

Lemma later_incl P ord w : later P ord -> In w ord -> incl (P w) ord.
Proof.
  induction ord as [|x ord IH]; simpl; intros H Hw; [tauto|].
  destruct H as (_ & Hi & H). destruct Hw as [->|Hw].
  - intros v Hv. right. auto.
  - intros v Hv. right. apply (IH H Hw v Hv).
Qed.

Lemma accumulate_spec incl pred ord : forall b bk n, length b = n -> length bk = n ->
  length pred = n -> Forall (fun v => v < n) ord -> NoDup ord ->
  later (fun w => nth w pred []) ord ->
  exists b' bk', load_accumulate incl pred ord b bk = Done ([], b', bk') /\
    length b' = n /\ length bk' = n /\
    (forall v, ~ In v ord -> (nth v bk' 0 == nth v bk 0)%Q) /\
    (forall v, (nth v bk' 0 == nth v bk 0 +
       qsum (fun w => if memb v (nth w pred []) then nth w bk' 0 / qnat (length (nth w pred [])) else 0) ord)%Q) /\
    (forall v, (nth v b' 0 == nth v b 0 +
       (if memb v (removelast ord) then nth v bk' 0 - (if incl then 0 else 1) else 0))%Q).
Proof.
  induction ord as [|w ord IH]; intros b bk n Lb Lk Lp F N H.
  - exists b, bk. splits; auto; intros; simpl; try ring; reflexivity.
  - destruct ord as [|w' r].
    + exists b, bk. simpl in H. destruct H as (_ & Hi & _).
      assert (Ew : nth w pred [] = []).
      { destruct (nth w pred []) as [|y l]; auto. destruct (Hi y). simpl; auto. }
      splits; auto; intros; simpl; try reflexivity; rewrite ?Ew; simpl; ring.
    + set (ord := w' :: r) in *.
      assert (E : load_accumulate incl pred (w :: ord) b bk =
        do bi <- vget b w; do bki <- vget bk w; do b1 <- vset b w (bi + bki)%Q;
        do b2 <- (if incl then Done b1 else do x <- vget b1 w; vset b1 w (x - 1)%Q);
        do pi <- vget pred w;
        do bk' <- foldM (add_fraction (bki / inject_Z (Z.of_nat (length pi)))%Q) bk pi;
        load_accumulate incl pred ord b2 bk') by reflexivity.
      rewrite E. clear E. apply NoDup_cons_iff in N as [Nw N].
      inversion F as [|? ? Hw F']; subst x l. destruct H as (Np & Hi & H).
      rewrite (vget_nth 0%Q) by lia. cbn [bind].
      rewrite (vget_nth 0%Q) by lia. cbn [bind].
      rewrite vset_done by lia. cbn [bind].
      set (e := (if incl then 0 else 1)%Q).
      assert (Eb : exists b2, (if incl then Done (upd b w (nth w b 0 + nth w bk 0)%Q)
          else do x <- vget (upd b w (nth w b 0 + nth w bk 0)%Q) w;
               vset (upd b w (nth w b 0 + nth w bk 0)%Q) w (x - 1)%Q) = Done b2 /\ length b2 = n /\
          forall v, (nth v b2 0 == nth v b 0 + (if v =? w then nth w bk 0 - e else 0))%Q).
      { assert (K : forall v x, (x == nth w b 0 + (nth w bk 0 - e))%Q ->
          (nth v (upd b w x) 0 == nth v b 0 + (if v =? w then nth w bk 0 - e else 0))%Q).
        { intros v x Hx. rewrite nth_upd. rewrite (Nat.eqb_sym v w).
          destruct (Nat.eqb_spec w v) as [<-|].
          - destruct (Nat.ltb_spec w (length b)); [|lia]. cbn [andb]. rewrite Hx. reflexivity.
          - simpl. ring. }
        destruct incl.
        - eexists. split; [reflexivity|]. split; [rewrite upd_length; auto|].
          intros v. apply K. unfold e. ring.
        - rewrite (vget_nth 0%Q) by (rewrite upd_length; lia). cbn [bind].
          rewrite vset_done by (rewrite upd_length; lia). rewrite upd_upd.
          eexists. split; [reflexivity|]. split; [rewrite upd_length; auto|].
          intros v. apply K. rewrite nth_upd, Nat.eqb_refl.
          destruct (Nat.ltb_spec w (length b)); [|lia]. cbn [andb]. unfold e. ring. }
      destruct Eb as (b2 & -> & Lb2 & Hb2). cbn [bind].
      rewrite (vget_nth []) by lia. cbn [bind].
      set (P := nth w pred []) in *.
      assert (FP : Forall (fun p => p < length bk) P).
      { apply Forall_forall. intros p Hp. rewrite Lk.
        apply (proj1 (Forall_forall _ _) F'). apply Hi; auto. }
      destruct (@add_fractions (nth w bk 0 / inject_Z (Z.of_nat (length P)))%Q P bk Np FP)
        as (bk1 & -> & Lk1 & Hk1). cbn [bind].
      destruct (IH b2 bk1 n Lb2 ltac:(lia) Lp F' N H) as (b' & bk' & -> & Lb' & Lk' & Ho & Hs & Hb).
      clear IH. exists b', bk'.
      assert (WP : ~ In w P) by (intros K; apply Nw, Hi, K).
      assert (Ew : (nth w bk' 0 == nth w bk 0)%Q).
      { rewrite (Ho w Nw), Hk1. rewrite (proj2 (memb_not w P) WP). ring. }
      splits; auto.
      * intros v Hv. rewrite (Ho v) by (intros K; apply Hv; simpl; auto). rewrite Hk1.
        rewrite (proj2 (memb_not v P)); [ring|]. intros K. apply Hv. right. apply Hi, K.
      * intros v. rewrite (Hs v), Hk1. rewrite qsum_cons. fold P.
        unfold qnat. destruct (memb v P); [rewrite Ew|]; ring.
      * intros v. rewrite (Hb v), Hb2.
        change (removelast (w :: ord)) with (w :: removelast ord).
        cbn [memb existsb]. fold (memb v (removelast ord)).
        destruct (Nat.eqb_spec v w) as [->|Nv]; cbn [orb].
        -- rewrite (proj2 (memb_not w (removelast ord))).
           { rewrite Ew. fold e. ring. }
           intros K. apply Nw. rewrite (app_removelast_last 0 (l := ord)) by discriminate.
           apply in_app_iff. auto.
        -- fold e. ring.
Qed.

Section Load.
Context {T A : Type} {C : AdjContainer T A} {L : AdjLaws C}.
Implicit Types g : graph A.

(** *** The search from one source *)

Lemma load_neighbors n x d l : forall seen q1 dist pred,
  length dist = n -> length pred = n -> Forall (fun w => w < n) l -> NoDup l ->
  (forall w, In w l -> (nth w dist None <> None <-> In w seen)) ->
  exists dist' pred', foldM (load_neighbor x d) (q1, dist, pred) l =
      Done (q1 ++ scan Nat.eq_dec seen l, dist', pred') /\
    length dist' = n /\ length pred' = n /\
    (forall w, nth w dist' None =
       if memb w (scan Nat.eq_dec seen l) then Some (S d) else nth w dist None) /\
    (forall w, nth w pred' [] = nth w pred [] ++
       (if memb w l && match nth w dist' None with Some e => e =? S d | None => false end
        then [x] else [])).
Proof.
  induction l as [|a l IH]; intros seen q1 dist pred Ld Lp F N H.
  - exists dist, pred. simpl. splits; auto; intros; rewrite ?app_nil_r; auto.
  - inversion F as [|? ? Ha F']; subst x0 l0. apply NoDup_cons_iff in N as [Na N].
    cbn [foldM]. unfold load_neighbor at 1.
    rewrite (vget_nth None) by lia. cbn [bind].
    pose proof (H a (or_introl eq_refl)) as Hs.
    assert (Push : forall dist1 q1' seen1, length dist1 = n ->
      nth a dist1 None = Some (S d) -> In a seen1 ->
      (forall w, In w l -> (nth w dist1 None <> None <-> In w seen1)) ->
      exists dist' pred', (do pn <- vget pred a; do pred' <- vset pred a (pn ++ [x]);
            foldM (load_neighbor x d) (q1', dist1, pred') l) =
          Done (q1' ++ scan Nat.eq_dec seen1 l, dist', pred') /\
        length dist' = n /\ length pred' = n /\
        (forall w, nth w dist' None =
           if memb w (scan Nat.eq_dec seen1 l) then Some (S d) else nth w dist1 None) /\
        (forall w, nth w pred' [] = nth w pred [] ++
           (if memb w (a :: l) && match nth w dist' None with Some e => e =? S d | None => false end
            then [x] else []))).
    { intros dist1 q1' seen1 L1 E1 I1 H1.
      rewrite (vget_nth []) by lia. cbn [bind]. rewrite vset_done by lia. cbn [bind].
      destruct (IH seen1 q1' dist1 (upd pred a (nth a pred [] ++ [x]))) as (dist' & pred' & E & Ld' & Lp' & Hd & Hp); auto.
      { rewrite upd_length; auto. }
      exists dist', pred'. splits; auto. intros w. rewrite Hp, nth_upd.
      cbn [memb existsb]. fold (memb w l). rewrite (Nat.eqb_sym w a).
      destruct (Nat.eqb_spec a w) as [<-|Nw]; cbn [orb andb]; auto.
      destruct (Nat.ltb_spec a (length pred)); [|lia].
      rewrite (proj2 (memb_not a l) Na). cbn [andb].
      rewrite Hd, E1. rewrite (proj2 (memb_not a (scan Nat.eq_dec seen1 l))).
      - rewrite Nat.eqb_refl, app_nil_r. auto.
      - rewrite In_scan. tauto. }
    destruct (nth a dist None) as [e|] eqn:Ea.
    + assert (Ia : In a seen) by (apply Hs; discriminate).
      assert (Sc : scan Nat.eq_dec seen (a :: l) = scan Nat.eq_dec seen l).
      { cbn [scan]. destruct (in_dec Nat.eq_dec a seen); tauto. }
      rewrite Sc. rewrite Nat.add_1_r. destruct (Nat.eqb_spec e (S d)) as [->|Ne].
      * destruct (Push dist q1 seen) as (dist' & pred' & E & K); auto.
        { intros w Hw. apply H. simpl; auto. }
        exists dist', pred'. split; [|auto]. rewrite <- E.
        destruct (vget pred a); cbn [bind]; auto. destruct (vset pred a _); auto.
      * cbn [bind]. destruct (IH seen q1 dist pred) as (dist' & pred' & E & Ld' & Lp' & Hd & Hp); auto.
        { intros w Hw. apply H. simpl; auto. }
        exists dist', pred'. splits; auto. intros w. rewrite Hp. f_equal.
        cbn [memb existsb]. fold (memb w l).
        destruct (Nat.eqb_spec w a) as [->|Nw]; cbn [orb andb]; auto.
        rewrite (proj2 (memb_not a l) Na). cbn [andb].
        rewrite Hd, Ea. rewrite (proj2 (memb_not a (scan Nat.eq_dec seen l))).
        -- destruct (Nat.eqb_spec e (S d)); [congruence|auto].
        -- rewrite In_scan. tauto.
    + assert (Ia : ~ In a seen) by (intros K; apply Hs in K; congruence).
      assert (Sc : scan Nat.eq_dec seen (a :: l) = a :: scan Nat.eq_dec (a :: seen) l).
      { cbn [scan]. destruct (in_dec Nat.eq_dec a seen); tauto. }
      rewrite Sc. rewrite vset_done by lia. cbn [bind]. rewrite Nat.add_1_r.
      destruct (Push (upd dist a (Some (S d))) (q1 ++ [a]) (a :: seen)) as (dist' & pred' & E & Ld' & Lp' & Hd & Hp).
      { rewrite upd_length; auto. }
      { rewrite nth_upd, Nat.eqb_refl. destruct (Nat.ltb_spec a (length dist)); [auto|lia]. }
      { simpl; auto. }
      { intros w Hw. rewrite nth_upd. destruct (Nat.eqb_spec a w) as [->|Nw]; [tauto|].
        cbn [andb]. rewrite (H w) by (simpl; auto). simpl. tauto. }
      exists dist', pred'. splits; auto.
      * rewrite <- app_assoc in E. simpl in E. rewrite <- E.
        destruct (vget pred a); cbn [bind]; auto. destruct (vset pred a _); auto.
      * intros w. rewrite Hd, nth_upd. cbn [memb existsb]. fold (memb w (scan Nat.eq_dec (a :: seen) l)).
        rewrite (Nat.eqb_sym w a). destruct (Nat.eqb_spec a w) as [<-|Nw]; cbn [orb andb]; auto.
        destruct (Nat.ltb_spec a (length dist)); [|lia]. destruct (memb _ _); auto.
Qed.

(** [v] is a predecessor of [w]. *)
Definition before g (dist : list (option nat)) (w v : nat) : bool :=
  adjb g v w && match nth v dist None, nth w dist None with
                | Some a, Some b => S a =? b
                | _, _ => false
                end.

Definition notnearer g s (a b : nat) : Prop :=
  forall x y, is_dist (adj g) s a x -> is_dist (adj g) s b y -> y <= x.

Record linv g s seen q0 q1 ord dist pred d : Prop := {
  li_b : binv (nbrs g) [] s ord (mk_abfs seen q0 q1 d);
  li_nd : NoDup (ord ++ q0 ++ q1);
  li_rg : forall v, In v (ord ++ q0 ++ q1) -> v < vertex_count g;
  li_ld : length dist = vertex_count g;
  li_lp : length pred = vertex_count g;
  li_seen : forall w, nth w dist None <> None <-> In w seen;
  li_dist : forall w e, nth w dist None = Some e -> is_dist (adj g) s w e;
  li_pred : forall w, nth w pred [] = filter (before g dist w) (rev ord);
  li_sorted : StronglySorted (notnearer g s) ord;
  li_le : forall v x, In v ord -> is_dist (adj g) s v x -> x <= d
}.

Lemma dist_avoiding g s v d :
  is_dist (edge_avoiding (nbrs g) []) s v d -> is_dist (adj g) s v d.
Proof. intros H. apply (is_dist_iff s v d (edge_avoiding_nil g)). auto. Qed.

Lemma linv_seen g s seen q0 q1 ord dist pred d v :
  linv g s seen q0 q1 ord dist pred d -> In v seen <-> In v (ord ++ q0 ++ q1).
Proof. intros I. rewrite (bi_seen (li_b I)). simpl. rewrite !in_app_iff. tauto. Qed.

Lemma linv_visit g s seen x q0 q1 ord dist pred d : simple_graph g ->
  linv g s seen (x :: q0) q1 ord dist pred d ->
  exists dist' pred', foldM (load_neighbor x d) (q1, dist, pred) (nbrs g x) =
      Done (q1 ++ scan Nat.eq_dec seen (nbrs g x), dist', pred') /\
    linv g s (scan Nat.eq_dec seen (nbrs g x) ++ seen) q0
      (q1 ++ scan Nat.eq_dec seen (nbrs g x)) (x :: ord) dist' pred' d.
Proof.
  intros W I. set (news := scan Nat.eq_dec seen (nbrs g x)).
  destruct (@load_neighbors (vertex_count g) x d (nbrs g x) seen q1 dist pred) as (dist' & pred' & E & Ld & Lp & Hd & Hp).
  { apply (li_ld I). } { apply (li_lp I). } { apply nbrs_range; auto. } { apply (sg_nodup W x). }
  { intros w _. apply (li_seen I). }
  exists dist', pred'. split; [exact E|]. fold news in Hd.
  pose proof (binv_visit Nat.eq_dec (li_b I)) as B1. fold news in B1.
  assert (Hx : is_dist (adj g) s x d).
  { apply dist_avoiding. apply (bi_q0 (li_b I)). simpl; auto. }
  assert (Sx : In x seen) by (apply (linv_seen _ I); rewrite !in_app_iff; simpl; auto).
  assert (Dx : nth x dist None = Some d).
  { assert (K : nth x dist None <> None) by (apply (li_seen I); auto).
    destruct (nth x dist None) as [e|] eqn:Ee; [|congruence].
    f_equal. apply (is_dist_fun (li_dist I Ee) Hx). }
  assert (Nn : forall w, In w news -> ~ In w seen) by (intros w Hw; apply In_scan in Hw; tauto).
  assert (Old : forall w, In w seen -> nth w dist' None = nth w dist None).
  { intros w Hw. rewrite Hd. rewrite (proj2 (memb_not w news)); auto. intros K. apply (Nn w K Hw). }
  assert (P : Permutation ((x :: ord) ++ q0 ++ q1 ++ news) ((ord ++ (x :: q0) ++ q1) ++ news)).
  { rewrite <- !app_assoc. simpl. rewrite (app_assoc q0). apply Permutation_middle. }
  constructor; auto.
  - apply (Permutation_NoDup (Permutation_sym P)). apply NoDup_app_iff. splits.
    + apply (li_nd I).
    + apply NoDup_scan.
    + intros v Hv Hn. apply (Nn v Hn). apply (linv_seen _ I). auto.
  - intros v Hv. apply (Permutation_in _ P) in Hv. apply in_app_iff in Hv as [Hv|Hv].
    + apply (li_rg I); auto.
    + apply In_scan in Hv as [Hv _]. apply (sg_range W _ _ Hv).
  - intros w. rewrite in_app_iff, Hd. destruct (memb w news) eqn:Ew.
    + apply memb_In in Ew. split; [auto|discriminate].
    + apply memb_not in Ew. rewrite (li_seen I). tauto.
  - intros w e. rewrite Hd. destruct (memb w news) eqn:Ew; [|apply (li_dist I)].
    intros [= <-]. apply dist_avoiding. apply (bi_q1 B1). simpl. apply in_app_iff. right.
    apply memb_In; auto.
  - intros w. rewrite Hp, (li_pred I). simpl. rewrite filter_app. f_equal.
    + apply filter_ext_in. intros v Hv. apply in_rev in Hv.
      unfold before. destruct (adjb g v w) eqn:Ev; auto. apply adjb_adj in Ev.
      pose proof (bi_closed (li_b I) Hv Ev) as Sw. simpl in Sw.
      rewrite (Old w Sw), (Old v); auto. apply (linv_seen _ I), in_app_iff; auto.
    + simpl. unfold before. rewrite (Old x Sx), Dx.
      change (adjb g x w) with (memb w (nbrs g x)).
      destruct (memb w (nbrs g x)); auto. cbn [andb].
      destruct (nth w dist' None); auto. rewrite (Nat.eqb_sym n). auto.
  - constructor; [apply (li_sorted I)|]. apply Forall_forall. intros v Hv a b Ha Hb.
    rewrite (is_dist_fun Ha Hx). apply (li_le I Hv Hb).
  - intros v a [<-|Hv] Ha; [rewrite (is_dist_fun Ha Hx); auto|apply (li_le I Hv Ha)].
Qed.

Lemma linv_swap g s seen q1 ord dist pred d :
  linv g s seen [] q1 ord dist pred d -> linv g s seen q1 [] ord dist pred (S d).
Proof.
  intros I. destruct I as [I1 I2 I3 I4 I5 I6 I7 I8 I9 I10]. constructor; rewrite ?app_nil_r; auto.
  - apply (binv_swap I1). reflexivity.
  - intros v x Hv Hx. specialize (I10 v x Hv Hx). lia.
Qed.

Lemma load_bfs_spec g s : simple_graph g -> forall fuel seen q0 q1 ord dist pred d,
  linv g s seen q0 q1 ord dist pred d -> (q0 = [] -> q1 = []) ->
  vertex_count g < fuel + length ord ->
  exists seen' ord' dist' pred' d', load_bfs g fuel d q0 q1 ord dist pred = Done ([], [], ord', dist', pred') /\
    linv g s seen' [] [] ord' dist' pred' d'.
Proof.
  intros W. induction fuel as [|fu IH]; intros seen q0 q1 ord dist pred d I Hq Hf.
  - exfalso. pose proof (li_nd I) as N. apply NoDup_app_iff in N as (N & _ & _).
    assert (K : length ord <= length (seq 0 (vertex_count g))).
    { apply NoDup_incl_length; auto. intros v Hv. apply in_seq.
      pose proof (@li_rg _ _ _ _ _ _ _ _ _ I v ltac:(apply in_app_iff; auto)). lia. }
    rewrite seq_length in K. simpl in Hf. lia.
  - destruct q0 as [|x q0].
    + rewrite (Hq eq_refl) in *. exists seen, ord, dist, pred, d. split; auto.
    + cbn [load_bfs].
      assert (Hx : x < vertex_count g) by (apply (li_rg I); rewrite !in_app_iff; simpl; auto).
      destruct (container_lt W Hx) as (c & Hc & _ & _ & Hn).
      unfold container. rewrite (vget_done _ _ Hc). cbn [bind]. rewrite Hn.
      destruct (linv_visit W I) as (dist' & pred' & -> & I'). cbn [bind].
      destruct q0 as [|y q0].
      * apply linv_swap in I'. apply (IH _ _ _ _ _ _ _ I'); auto. simpl; lia.
      * apply (IH _ _ _ _ _ _ _ I'); [discriminate|simpl; lia].
Qed.

(** *** One source *)

Definition flow1 g (D : nat -> option nat) (s : nat) (F : nat -> Q) : Prop :=
  forall v, D v <> None ->
    (F v == 1 + qsum (fun w => F w / qnat (length (inward g (fun _ => D) s w)))
                     (outward g (fun _ => D) s v))%Q.

Definition part (e : Q) (D : nat -> option nat) (F : nat -> Q) (s v : nat) : Q :=
  if s =? v then 0%Q else match D v with Some _ => (F v - e)%Q | None => 0%Q end.

Lemma sorted_app {X} (R : X -> X -> Prop) l1 l2 a b :
  StronglySorted R (l1 ++ l2) -> In a l1 -> In b l2 -> R a b.
Proof.
  induction l1 as [|x l1 IH]; simpl; intros S Ha Hb; [tauto|].
  inversion S as [|? ? S' F]; subst. destruct Ha as [->|Ha]; auto.
  apply (proj1 (Forall_forall _ _) F). apply in_app_iff; auto.
Qed.

Section Done.
Context (g : graph A) (W : simple_graph g) (s : nat).
Context (seen ord : list nat) (dist : list (option nat)) (pred : list (list nat)) (d : nat).
Context (I : linv g s seen [] [] ord dist pred d).
Let D v := nth v dist None.
Let P w := nth w pred [].

Lemma fin_ord v : In v ord <-> D v <> None.
Proof. unfold D. rewrite (li_seen I), (linv_seen _ I), app_nil_r. tauto. Qed.

Lemma fin_closed v : joined (adj g) s v -> In v ord.
Proof.
  intros [k Wk]. induction Wk as [|v w k Wk IH Hw].
  - destruct (bi_walk (li_b I) (v := s) (k := 0)) as [H|[]]; auto; [constructor|simpl; lia].
  - pose proof (bi_closed (li_b I) IH Hw) as K. apply (linv_seen _ I) in K.
    simpl in K. rewrite app_nil_r in K. auto.
Qed.

Lemma fin_dist v e : D v = Some e <-> is_dist (adj g) s v e.
Proof.
  split; [apply (li_dist I)|]. intros H.
  assert (K : In v ord) by (apply fin_closed; exists e; apply H).
  apply fin_ord in K. destruct (D v) as [e'|] eqn:E; [|congruence].
  f_equal. apply (is_dist_fun (li_dist I E) H).
Qed.

Lemma fin_nodup : NoDup ord.
Proof. pose proof (li_nd I) as N. simpl in N. rewrite app_nil_r in N. auto. Qed.

Lemma fin_pred v w : In v (P w) <-> adj g v w /\ nearer (fun _ => D) s v w = true.
Proof.
  unfold P. rewrite (li_pred I), filter_In, <- in_rev. unfold before, nearer.
  fold (D v) (D w). rewrite andb_true_iff, adjb_adj. split; [tauto|].
  intros [H1 H2]. splits; auto. apply fin_ord. destruct (D v); congruence.
Qed.

Lemma fin_pred_nodup w : NoDup (P w).
Proof.
  unfold P. rewrite (li_pred I). apply NoDup_filter. apply NoDup_rev. apply fin_nodup.
Qed.

Lemma nearer_dist v w : nearer (fun _ => D) s v w = true ->
  exists a, is_dist (adj g) s v a /\ is_dist (adj g) s w (S a).
Proof.
  unfold nearer. destruct (D v) as [a|] eqn:Ev; [|discriminate].
  destruct (D w) as [b|] eqn:Ew; [|discriminate]. intros E. apply Nat.eqb_eq in E as <-.
  exists a. rewrite <- !fin_dist. auto.
Qed.

Lemma fin_later : later P ord.
Proof.
  assert (K : forall r l1, ord = l1 ++ r -> later P r).
  { induction r as [|w r IH]; intros l1 E; simpl; auto. splits.
    - apply fin_pred_nodup.
    - intros v Hv. apply fin_pred in Hv as [Ha Hn].
      assert (Hv : In v ord) by (apply fin_ord; unfold nearer in Hn; destruct (D v); congruence).
      destruct (nearer_dist Hn) as (a & H1 & H2).
      rewrite E in Hv. apply in_app_iff in Hv as [Hv|[->|Hv]]; auto.
      + pose proof (li_sorted I) as S. rewrite E in S.
        pose proof (sorted_app S Hv (or_introl eq_refl) _ _ H1 H2). lia.
      + pose proof (is_dist_fun H1 H2). lia.
    - apply (IH (l1 ++ [w])). rewrite <- app_assoc. auto. }
  apply (K ord []). auto.
Qed.

Lemma fin_last : exists pre, ord = pre ++ [s] /\ ~ In s pre.
Proof.
  assert (Hin : In s ord) by (apply fin_closed, joined_refl).
  destruct (exists_last (l := ord)) as (pre & z & E); [intros K; rewrite K in Hin; auto|].
  pose proof fin_nodup as N. rewrite E in N. apply NoDup_app_iff in N as (_ & _ & N).
  assert (z = s).
  { rewrite E in Hin. apply in_app_iff in Hin as [Hin|[->|[]]]; auto.
    assert (Hz : In z ord) by (rewrite E; apply in_app_iff; simpl; auto).
    apply fin_ord in Hz. destruct (D z) as [k|] eqn:Ez; [|congruence]. apply fin_dist in Ez.
    pose proof (li_sorted I) as S. rewrite E in S.
    pose proof (sorted_app S Hin (or_introl eq_refl) _ _ (is_dist_self _ s) Ez).
    assert (k = 0) by lia. subst k. symmetry. apply (walk_zero (proj1 Ez)). }
  subst z. exists pre. split; auto. intros K. apply (N s K). simpl; auto.
Qed.

Lemma fin_inward w : Permutation (P w) (inward g (fun _ => D) s w).
Proof.
  apply NoDup_Permutation.
  - apply fin_pred_nodup.
  - apply NoDup_filter. apply (sg_nodup W w).
  - intros v. rewrite fin_pred. unfold inward. rewrite filter_In. split; intros [H1 H2]; split; auto;
      apply (sg_sym W _ _ H1).
Qed.

Lemma fin_outward v : Permutation (filter (fun w => memb v (P w)) ord) (outward g (fun _ => D) s v).
Proof.
  apply NoDup_Permutation.
  - apply NoDup_filter, fin_nodup.
  - apply NoDup_filter. apply (sg_nodup W v).
  - intros w. unfold outward. rewrite !filter_In, memb_In, fin_pred. split; [tauto|].
    intros [H1 H2]. splits; auto. apply fin_ord. unfold nearer in H2.
    destruct (D v); [|congruence]. destruct (D w); congruence.
Qed.

End Done.

Lemma load_source_spec g incl st i : simple_graph g -> i < vertex_count g ->
  ld_q0 st = [] -> ld_q1 st = [] -> ld_ord st = [] ->
  length (ld_b st) = vertex_count g -> length (ld_bk st) = vertex_count g ->
  length (ld_dist st) = vertex_count g -> length (ld_pred st) = vertex_count g ->
  (i = 0 -> ld_bk st = repeat 1%Q (vertex_count g) /\ ld_dist st = repeat None (vertex_count g) /\
            ld_pred st = repeat [] (vertex_count g)) ->
  exists st' D F, load_source g incl st i = Done st' /\
    ld_q0 st' = [] /\ ld_q1 st' = [] /\ ld_ord st' = [] /\
    length (ld_b st') = vertex_count g /\ length (ld_bk st') = vertex_count g /\
    length (ld_dist st') = vertex_count g /\ length (ld_pred st') = vertex_count g /\
    (forall v d, D v = Some d <-> is_dist (adj g) i v d) /\ flow1 g D i F /\
    (forall v, (nth v (ld_b st') 0 == nth v (ld_b st) 0 + part (if incl then 0 else 1) D F i v)%Q).
Proof.
  intros W Hi Q0 Q1 Qo Lb Lk Ld Lp Fr. unfold load_source. rewrite Q0, Q1, Qo. cbn [app].
  set (n := vertex_count g) in *.
  set (bk := if 0 <? i then map (fun _ => 1%Q) (ld_bk st) else ld_bk st).
  set (dist := if 0 <? i then map (fun _ => None) (ld_dist st) else ld_dist st).
  set (pred := if 0 <? i then map (fun _ => []) (ld_pred st) else ld_pred st).
  assert (K : forall {X Y} (x : X) (l : list Y) (m : list X), length l = n -> (i = 0 -> m = repeat x n) ->
     (if 0 <? i then map (fun _ => x) l else m) = repeat x n).
  { intros X Y x l m Hl Hm. destruct (Nat.ltb_spec 0 i); [|apply Hm; lia].
    rewrite <- Hl. clear. induction l; simpl; congruence. }
  assert (Eb : bk = repeat 1%Q n) by (apply K; auto; apply Fr).
  assert (Ed : dist = repeat None n) by (apply K; auto; apply Fr).
  assert (Ep : pred = repeat [] n) by (apply K; auto; apply Fr).
  rewrite Ed. rewrite vset_done by (rewrite repeat_length; auto). cbn [bind]. rewrite Ep.
  destruct (@load_bfs_spec g i W (S (S n)) [i] [i] [] []
    (upd (repeat None n) i (Some 0)) (repeat [] n) 0) as (seen' & ord & dist' & pred' & d' & -> & I).
  { constructor; simpl; auto.
    - apply binv_start. auto.
    - constructor; auto. constructor.
    - intros v [<-|[]]. auto.
    - rewrite upd_length, repeat_length; auto.
    - rewrite repeat_length; auto.
    - intros w. rewrite nth_upd, repeat_length. destruct (Nat.eqb_spec i w) as [->|Nw].
      + destruct (Nat.ltb_spec w n); [|lia]. simpl. split; [auto|discriminate].
      + simpl. rewrite nth_repeat. split; [congruence|]. intros [?|[]]. congruence.
    - intros w e. rewrite nth_upd, repeat_length. destruct (Nat.eqb_spec i w) as [->|Nw].
      + destruct (Nat.ltb_spec w n); [|lia]. simpl. intros [= <-]. apply is_dist_self.
      + simpl. rewrite nth_repeat. discriminate.
    - intros w. apply nth_repeat.
    - constructor.
    - tauto. }
  { discriminate. }
  { simpl. lia. }
  cbn [bind].
  destruct (@accumulate_spec incl pred' ord (ld_b st) bk n) as (b' & bk' & -> & Lb' & Lk' & Ho & Hs & Hb); auto.
  { rewrite Eb, repeat_length. auto. }
  { apply (li_lp I). }
  { apply Forall_forall. intros v Hv. apply (li_rg I). apply in_app_iff; auto. }
  { apply (fin_nodup I). }
  { apply (fin_later I). }
  cbn [bind]. eexists _, (fun v => nth v dist' None), (fun v => nth v bk' 0%Q).
  split; [reflexivity|]. cbn [ld_q0 ld_q1 ld_ord ld_b ld_bk ld_dist ld_pred]. splits; auto.
  - apply (li_ld I).
  - apply (li_lp I).
  - intros v d. apply (fin_dist I).
  - intros v Hv. cbv beta in Hv. rewrite (Hs v). apply Qplus_comp.
    + assert (v < n).
      { apply (li_rg I). apply in_app_iff. left. apply (fin_ord I). auto. }
      rewrite Eb. rewrite (nth_indep _ 0%Q 1%Q) by (rewrite repeat_length; auto).
      rewrite nth_repeat. reflexivity.
    + rewrite <- (qsum_perm _ (fin_outward W I v)). rewrite qsum_filter. apply qsum_ext.
      intros w Hw. rewrite (Permutation_length (fin_inward W I w)). reflexivity.
  - intros v. rewrite (Hb v). apply Qplus_comp; [reflexivity|]. unfold part.
    destruct (fin_last I) as (pre & E & Np). rewrite E, removelast_last.
    assert (Hv : In v pre <-> In v ord /\ v <> i).
    { rewrite E, in_app_iff. simpl. intuition congruence. }
    rewrite (fin_ord I) in Hv. destruct (memb v pre) eqn:Ev.
    + apply memb_In, Hv in Ev as [K1 K2]. destruct (Nat.eqb_spec i v); [congruence|].
      destruct (nth v dist' None); [reflexivity|congruence].
    + apply memb_not in Ev. rewrite Hv in Ev. destruct (Nat.eqb_spec i v); [reflexivity|].
      destruct (nth v dist' None); [|reflexivity]. exfalso. apply Ev. split; congruence.
Qed.

Lemma load_sources g incl : simple_graph g -> forall m k st, k + m = vertex_count g ->
  ld_q0 st = [] -> ld_q1 st = [] -> ld_ord st = [] ->
  length (ld_b st) = vertex_count g -> length (ld_bk st) = vertex_count g ->
  length (ld_dist st) = vertex_count g -> length (ld_pred st) = vertex_count g ->
  (k = 0 -> ld_bk st = repeat 1%Q (vertex_count g) /\ ld_dist st = repeat None (vertex_count g) /\
            ld_pred st = repeat [] (vertex_count g)) ->
  exists st' D F, foldM (load_source g incl) st (seq k m) = Done st' /\
    length (ld_b st') = vertex_count g /\
    (forall i v d, In i (seq k m) -> (D i v = Some d <-> is_dist (adj g) i v d)) /\
    (forall i, In i (seq k m) -> flow1 g (D i) i (F i)) /\
    (forall v, (nth v (ld_b st') 0 == nth v (ld_b st) 0 +
       qsum (fun i => part (if incl then 0 else 1) (D i) (F i) i v) (seq k m))%Q).
Proof.
  intros W. induction m as [|m IH]; intros k st Hk Q0 Q1 Qo Lb Lk Ld Lp Fr.
  - exists st, (fun _ _ => None), (fun _ _ => 0%Q). simpl. splits; auto; try tauto. intros v. ring.
  - destruct (@load_source_spec g incl st k) as (st1 & D & F & E & Q0' & Q1' & Qo' & Lb' & Lk' & Ld' & Lp' & HD & HF & Hb); auto; [lia|].
    cbn [seq foldM]. rewrite E. cbn [bind].
    destruct (IH (S k) st1) as (st' & D2 & F2 & E2 & L2 & HD2 & HF2 & Hb2); auto; [lia|discriminate|].
    exists st', (fun i => if i =? k then D else D2 i), (fun i => if i =? k then F else F2 i).
    assert (Nk : forall i, In i (seq (S k) m) -> i <> k) by (intros i Hi; apply in_seq in Hi; lia).
    splits; auto.
    + intros i v d [<-|Hi]; [rewrite Nat.eqb_refl; auto|].
      destruct (Nat.eqb_spec i k); [exfalso; apply (Nk i); auto|auto].
    + intros i [<-|Hi]; [rewrite Nat.eqb_refl; auto|].
      destruct (Nat.eqb_spec i k); [exfalso; apply (Nk i); auto|auto].
    + intros v. rewrite (Hb2 v), (Hb v), qsum_cons, Nat.eqb_refl.
      rewrite <- Qplus_assoc. apply Qplus_comp; [reflexivity|]. apply Qplus_comp; [reflexivity|].
      apply qsum_ext. intros i Hi. destruct (Nat.eqb_spec i k); [exfalso; apply (Nk i); auto|reflexivity].
Qed.

Lemma vertex_load_parts g incl : simple_graph g ->
  exists D F l, distances g D /\ flow g D F /\ vertex_load g incl = Done l /\
    length l = vertex_count g /\
    forall v, (nth v l 0 == qsum (fun i => part (if incl then 0 else 1) (D i) (F i) i v) (seq 0 (vertex_count g)))%Q.
Proof.
  intros W. unfold vertex_load.
  destruct (@load_sources g incl W (vertex_count g) 0
     (mk_load [] [] [] (repeat 0%Q (vertex_count g)) (repeat 1%Q (vertex_count g))
              (repeat None (vertex_count g)) (repeat [] (vertex_count g))))
    as (st & D & F & -> & Lb & HD & HF & Hb); simpl; auto; try (rewrite repeat_length; auto).
  exists D, F, (ld_b st). splits; auto.
  - intros s v d Hs. apply HD. apply in_seq. lia.
  - intros s v Hs. apply (HF s). apply in_seq. lia.
  - intros v. rewrite (Hb v). simpl. rewrite nth_repeat. ring.
Qed.

End Load.
