(** * Prop_Bg: DKtree_background (C30, C31, C60-C63) and the only DKtree_background_wait of a process (C64, C65).

    [exec false T K n s]: a graph on n vertices is built, then the actions [s] are taken, in that order, by the calling thread (ACall: a call
    begins; AMain: it takes one step) and the merging thread (ABack).  Every schedule is a list of actions.  The log lists the
    completed calls, newest first; BgSpec.v says what they should report.  [act_in n]: every call is an insertion, a contains or a
    list_neighbour on vertices below n. *)
From Verif Require Import Base Spec Thresholds Table K2 C0 DK DKProof DKHist Delay BgSpec Bg BgProof BgTime BgLife.

Section Main.
Context (wt : bool) (T : thresholds) (K : k2impl) (L : k2laws K) (HT : th_top T).

(** ** C30: nothing is invented, nothing is lost, under every schedule *)
Theorem C30_background : forall n s, (2 <= n)%N -> Forall (act_in n) s ->
  exists g, exec wt T K n s = Ok g /\ b_b g <> BDead /\
    (forall h2 h1 e b busy, b_log g = h2 ++ EHas e b busy :: h1 ->
       (b = true -> In e (inserted h1)) /\ (busy = false -> In e (inserted h1) -> b = true)) /\
    (forall h2 h1 x l busy, b_log g = h2 ++ ENbr x l busy :: h1 ->
       (forall y, In y l -> In (x, y) (inserted h1)) /\ (busy = false -> forall y, In (x, y) (inserted h1) -> In y l) /\
       (NoDup (inserted h1) -> NoDup l)).
Proof using L HT.
  intros n s Hn F. destruct (exec_ok wt T K L n Hn HT s F) as (g & E & V). exists g. split; [auto|]. split.
  { pose proof (st_b _ _ _ _ _ _ _ _ _ _ _ (bi_st _ _ _ _ _ V)) as B. unfold bfact in B. intros X. rewrite X in B. destruct (b_nw g); [auto|discriminate]. }
  pose proof (bi_log _ _ _ _ _ V) as LO. split.
  - intros h2 h1 e b busy EL. rewrite EL in LO. pose proof (log_ok_at _ _ _ LO) as EO. pose proof (log_ok_tail (h2 ++ [EHas e b busy]) h1) as LT.
    rewrite <- app_assoc in LT. specialize (LT LO). cbn [event_ok] in EO. split.
    + intros Hb. apply stored_inserted. apply EO in Hb. destruct busy; cbn [seen] in Hb; [apply visible_stored|]; auto.
    + intros -> I. apply EO. cbn [seen]. apply inserted_stored; auto.
  - intros h2 h1 x l busy EL. rewrite EL in LO. pose proof (log_ok_at _ _ _ LO) as EO. pose proof (log_ok_tail (h2 ++ [ENbr x l busy]) h1) as LT.
    rewrite <- app_assoc in LT. specialize (LT LO). cbn [event_ok] in EO. destruct EO as [EO ND]. split; [|split].
    + intros y I. apply stored_inserted. apply EO in I. destruct busy; cbn [seen] in I; [apply visible_stored|]; auto.
    + intros -> y I. apply EO. cbn [seen]. apply inserted_stored; auto.
    + intros N1. apply ND. rewrite stored_exact; auto.
Qed.

(** Nothing is lost: from every state between two calls, let the merging thread run, then ask. *)
Theorem C30_nothing_lost : forall n s g e, (2 <= n)%N -> Forall (act_in n) s -> exec wt T K n s = Ok g -> b_m g = MIdle -> in_range n e ->
  exists g', run wt T K (repeat ABack 15 ++ ACall (CHas e) :: repeat AMain 24) g = Ok g' /\
    b_log g' = EHas e (emem e (inserted (b_log g))) false :: b_log g.
Proof using L HT.
  intros n s g e Hn F E Em R. destruct (exec_ok wt T K L n Hn HT s F) as (g0 & E0 & V). rewrite E in E0. injection E0 as <-.
  destruct (backs_idle wt T K L n Hn HT 15 g V (btime_15 T K L n Hn g V) Em) as (g1 & R1 & V1 & W1 & M1 & L1).
  destruct (ask_idle wt T K L n Hn g1 e V1 R W1 M1) as (g2 & b & R2 & V2 & _ & L2).
  exists g2. rewrite run_app, R1. cbn [obind]. split; [exact R2|]. rewrite L2, L1. f_equal. f_equal.
  pose proof (bi_log _ _ _ _ _ V2) as LO. rewrite L2, L1 in LO. destruct LO as [EO LO]. cbn [event_ok seen] in EO.
  apply eq_true_iff_eq. rewrite EO, emem_In. split; [apply stored_inserted|apply inserted_stored; auto].
Qed.

(** ** C31: what a query misses while a merge is going on *)
(** Exactly: the answer is exact for every edge except those that were in the buffer when the last flush began. *)
Theorem C31_visible_partial : forall n s g, (2 <= n)%N -> Forall (act_in n) s -> exec wt T K n s = Ok g ->
  (forall h2 h1 e b, b_log g = h2 ++ EHas e b true :: h1 -> (b = true <-> In e (visible h1))) /\
  (forall h2 h1 x l, b_log g = h2 ++ ENbr x l true :: h1 -> forall y, In y l <-> In (x, y) (visible h1)).
Proof using L HT.
  intros n s g Hn F E. destruct (exec_ok wt T K L n Hn HT s F) as (g0 & E0 & V). rewrite E in E0. injection E0 as <-.
  pose proof (bi_log _ _ _ _ _ V) as LO. split.
  - intros h2 h1 e b EL. rewrite EL in LO. apply (log_ok_at _ _ _ LO).
  - intros h2 h1 x l EL. rewrite EL in LO. apply (log_ok_at _ _ _ LO).
Qed.
(** A missed edge was handed to the merging thread with the last flush, by an insertion other than the one that flushed, and was
    not inserted again since. *)
Theorem C31_missed_partial : forall n s g h2 h1 e busy, (2 <= n)%N -> Forall (act_in n) s -> exec wt T K n s = Ok g ->
  b_log g = h2 ++ EHas e false busy :: h1 -> In e (inserted h1) ->
  busy = true /\ exists f r, last_flush h1 = Some (f, r) /\ In e (recent r) /\ e <> f /\ ~ In e (recent h1).
Proof using L HT.
  intros n s g h2 h1 e busy Hn F E EL I.
  destruct (C30_background n s Hn F) as (g0 & E0 & _ & P & _). rewrite E in E0. injection E0 as <-.
  destruct (P h2 h1 e false busy EL) as [_ P2].
  assert (busy = true) by (destruct busy; [auto|specialize (P2 eq_refl I); discriminate]). subst busy. split; [auto|].
  destruct (exec_ok wt T K L n Hn HT s F) as (g0 & E0 & V). rewrite E in E0. injection E0 as <-. pose proof (bi_log _ _ _ _ _ V) as LO. rewrite EL in LO.
  pose proof (log_ok_at _ _ _ LO) as EO. pose proof (log_ok_tail (h2 ++ [EHas e false true]) h1) as LT. rewrite <- app_assoc in LT. specialize (LT LO).
  apply inserted_stored in I; auto. cbn [event_ok seen] in EO. assert (NV : ~ In e (visible h1)) by (intros X; apply EO in X; discriminate).
  apply stored_split in I. unfold visible in NV. rewrite in_app_iff in NV. unfold older in I. destruct (last_flush h1) as [[f r]|]; [|destruct I; [tauto|contradiction]].
  exists f, r. split; [auto|]. cbn [In] in *. destruct I as [I|[->|I]]; [tauto|tauto|]. apply stored_split in I. split; [tauto|]. split; [|tauto]. intros ->. tauto.
Qed.
(** The edge count: at least the number of distinct edges, at most the number of insertions, exact if no edge is inserted twice. *)
Theorem C31_count_partial : forall n s g, (2 <= n)%N -> Forall (act_in n) s -> exec wt T K n s = Ok g -> b_m g = MIdle ->
  (forall D, NoDup D -> incl D (inserted (b_log g)) -> (N.of_nat (length D) <= bg_edges K g)%N) /\
  (bg_edges K g <= N.of_nat (length (inserted (b_log g))))%N /\
  (NoDup (inserted (b_log g)) -> bg_edges K g = N.of_nat (length (inserted (b_log g)))).
Proof using L HT.
  intros n s g Hn F E _. destruct (exec_ok wt T K L n Hn HT s F) as (g0 & E0 & V). rewrite E in E0. injection E0 as <-.
  unfold bg_edges. rewrite (bi_nt _ _ _ _ _ V). pose proof (bi_log _ _ _ _ _ V) as LO. split; [|split].
  - intros D ND IN. assert (length D <= length (stored (b_log g))); [|lia]. apply NoDup_incl_length; auto.
    intros e I. apply inserted_stored; auto.
  - pose proof (stored_le (b_log g)). lia.
  - intros ND. rewrite stored_exact; auto.
Qed.

(** ** C60: data races *)
(** Whatever the calls (deletions included): a race needs list_neighbour. *)
Theorem C60_no_race_partial : forall n s g, exec wt T K n s = Ok g ->
  (forall x, ~ In (ACall (CNbr x)) s) -> ~ race g.
Proof.
  intros n s g E F R. unfold exec, bg_new in E. destruct (c0_new T n) as [c|]; [|discriminate]. cbn [obind] in E.
  set (g0 := mkbg _ _ _ _ _ _ _ _ _ _ _ _ _ _ _) in E.
  assert (P0 : pinv K g0) by (split; cbn; tauto).
  destruct (pinv_run wt T K s g0 g P0 E) as [P Q]. destruct (pinv_race K g P R) as (x & acc & l & t & Em & _).
  assert (X : no_nbr (b_m g)).
  { apply Q; [|exact I]. apply Forall_forall. intros [[]| |] J; cbn; auto. apply (F x0), J. }
  rewrite Em in X. exact X.
Qed.
(** ... and then it is always the same one: list_neighbour reads max_r, during a merge, while the merging thread writes it. *)
Theorem C60_the_race : forall n s g, exec wt T K n s = Ok g -> race g ->
  exists x acc l t, b_m g = MNb x acc true l /\ b_b g = BLevel t.
Proof.
  intros n s g E R. unfold exec, bg_new in E. destruct (c0_new T n) as [c|]; [|discriminate]. cbn [obind] in E.
  set (g0 := mkbg _ _ _ _ _ _ _ _ _ _ _ _ _ _ _) in E.
  assert (P0 : pinv K g0) by (split; cbn; tauto).
  destruct (pinv_run wt T K s g0 g P0 E) as [P _]. apply pinv_race; auto.
Qed.

(** ** C61: progress *)
(** A call (not del_edge) returns within 24 steps of its own thread, whatever the merging thread does meanwhile. *)
Theorem C61_calls_return : forall n s1 s2 g, wt = false -> (2 <= n)%N -> Forall (act_in n) s1 -> Forall (act_in n) s2 -> exec wt T K n s1 = Ok g ->
  24 <= mains s2 -> exists p q g', s2 = p ++ q /\ run wt T K p g = Ok g' /\ b_m g' = MIdle.
Proof using L HT.
  intros n s1 s2 g Hw Hn F1 F2 E Le. destruct (exec_ok wt T K L n Hn HT s1 F1) as (g0 & E0 & V). rewrite E in E0. injection E0 as <-.
  apply (call_ends wt T K L n Hn HT); auto; [left; auto|]. pose proof (mtime_24 n Hn (b_m g)). lia.
Qed.
(** In DKtree_background_wait: within 24 steps of its own thread after 15 steps of the merging thread, wherever both are. *)
Theorem C65_calls_return : forall n s1 s2 s3 g, (2 <= n)%N -> Forall (act_in n) s1 -> Forall (act_in n) (s2 ++ s3) -> exec wt T K n s1 = Ok g ->
  15 <= backs s2 -> 24 <= mains s3 -> exists p q g', s2 ++ s3 = p ++ q /\ run wt T K p g = Ok g' /\ b_m g' = MIdle.
Proof using L HT.
  intros n s1 s2 s3 g Hn F1 F2 E Le1 Le2. destruct (exec_ok wt T K L n Hn HT s1 F1) as (g0 & E0 & V). rewrite E in E0. injection E0 as <-.
  apply Forall_app in F2. destruct F2 as [F2 F3]. pose proof (btime_15 T K L n Hn g V) as B15.
  destruct (wait_ends wt T K L n Hn HT s2 g V F2 ltac:(lia)) as [(p & q & g' & -> & R & M)|(g' & R & V' & FR)].
  - exists p, (q ++ s3), g'. rewrite app_assoc. auto.
  - pose proof (mtime_24 n Hn (b_m g')). destruct (call_ends wt T K L n Hn HT s3 g' V' F3 FR ltac:(lia)) as (p & q & g2 & -> & R2 & M2).
    exists (s2 ++ p), q, g2. rewrite app_assoc, run_app, R. auto.
Qed.
(** A merge ends within 15 steps of the merging thread, whatever the caller does meanwhile. *)
Theorem C61_merges_end : forall n s1 s2 g, (2 <= n)%N -> Forall (act_in n) s1 -> Forall (act_in n) s2 -> exec wt T K n s1 = Ok g ->
  15 <= backs s2 -> exists p q g', s2 = p ++ q /\ run wt T K p g = Ok g' /\ b_nw g' = false.
Proof using L HT.
  intros n s1 s2 g Hn F1 F2 E Le. destruct (exec_ok wt T K L n Hn HT s1 F1) as (g0 & E0 & V). rewrite E in E0. injection E0 as <-.
  apply (merge_ends wt T K L n Hn HT); auto. pose proof (btime_15 T K L n Hn g V). lia.
Qed.
End Main.

(** ** Counterexamples, for every k2-tree and the real thresholds *)
(** insert (0,1), insert (0,2): the second is a flush *)
Definition w30 : list act := ACall (CIns (0, 1)%N) :: repeat AMain 10 ++ ACall (CIns (0, 2)%N) :: repeat AMain 24.
Definition ask (e : edge) : list act := ACall (CHas e) :: repeat AMain 24.

(** contains((0,1)) is false although (0,1) was inserted *)
Theorem C31_refuted : forall T K (L : k2laws K), th_real T -> Forall (act_in 8) (w30 ++ ask (0, 1)%N) /\
  exists g h, exec false T K 8 (w30 ++ ask (0, 1)%N) = Ok g /\ b_log g = EHas (0, 1)%N false true :: h /\ In (0, 1)%N (inserted h).
Proof.
  intros T K L HT. split; [repeat constructor|]. rewrite <- (tabled_eq T HT). do 2 eexists. split; [vm_compute; reflexivity|].
  split; [reflexivity|]. vm_compute. auto.
Qed.
(** inserting (0,1) again counts it again *)
Theorem C31_count_refuted : forall T K (L : k2laws K), th_real T -> let s := w30 ++ ACall (CIns (0, 1)%N) :: repeat AMain 24 in Forall (act_in 8) s /\
  exists g, exec false T K 8 s = Ok g /\ b_m g = MIdle /\ bg_edges K g = 3%N /\ inserted (b_log g) = [(0, 1); (0, 2); (0, 1)]%N.
Proof.
  intros T K L HT s. unfold s. split; [repeat constructor|]. rewrite <- (tabled_eq T HT). eexists. split; [vm_compute; reflexivity|].
  vm_compute. auto.
Qed.
(** list_neighbour races with the merge *)
Theorem C60_refuted : forall T K (L : k2laws K), th_real T -> let s := w30 ++ [ABack; ABack; ABack; ACall (CNbr 0%N); AMain] in Forall (act_in 8) s /\
  exists g, exec false T K 8 s = Ok g /\ race g.
Proof.
  intros T K L HT s. unfold s. split; [repeat constructor|]. rewrite <- (tabled_eq T HT). eexists. split; [vm_compute; reflexivity|].
  exists LMaxR, false, true. vm_compute. tauto.
Qed.
(** ** C62: after del_edge the edge can still be there: (0,1) was stored twice, del_edge removes the copy in the buffer *)
Definition w62 : list act :=
  w30 ++ ACall (CIns (0, 1)%N) :: repeat AMain 24 ++ repeat ABack 15 ++ ACall (CDel (0, 1)%N) :: repeat AMain 9.
Lemma w62_state T K : exists g h, exec false (tabled T) K 8 (w62 ++ [ACall (CHas (0, 1)%N); AMain; AMain]) = Ok g /\
  b_m g = MScan false (0, 1)%N 1 /\ (1 <=? b_maxr g) = true /\
  nth_error (b_ks g) 1 = Some (Some (kt_build K [(0, 1); (0, 2)]%N 8)) /\ b_log g = EDel (0, 1)%N :: h.
Proof. do 2 eexists. split; [vm_compute; reflexivity|]. repeat split; reflexivity. Qed.
Lemma exec_app T K n s1 s2 : exec false T K n (s1 ++ s2) = let* g := exec false T K n s1 in run false T K s2 g.
Proof. unfold exec. destruct (bg_new false T K n); [|reflexivity]. cbn [obind]. apply run_app. Qed.
Lemma scan_hit T K (g : bg K) e i t k : b_m g = MScan false e i -> (i <=? b_maxr g) = true -> nth_error (b_ks g) i = Some (Some t) ->
  kt_adj K t (fst e) (snd e) = true -> run false T K (AMain :: repeat AMain k) g = Ok (done g (EHas e true false)).
Proof.
  intros Em Er Ek A. cbn [run step]. unfold main_step at 1. rewrite Em, Er, Ek, A. cbn [has_end obind].
  induction k as [|k IH]; [reflexivity|]. cbn [repeat run step]. unfold main_step at 1. cbn [b_m done obind]. exact IH.
Qed.
Theorem C62_refuted : forall T K (L : k2laws K), th_real T ->
  exists g h, exec false T K 8 (w62 ++ ask (0, 1)%N) = Ok g /\ b_log g = EHas (0, 1)%N true false :: EDel (0, 1)%N :: h.
Proof.
  intros T K L HT.
  assert (A : kt_adj K (kt_build K [(0, 1); (0, 2)]%N 8) 0 1 = true).
  { destruct (law_build L 8 [(0, 1); (0, 2)]%N) as [W [_ B]]; [lia|discriminate| |repeat constructor|].
    - constructor; [cbn; intuition congruence|]. repeat constructor. auto.
    - apply (law_adj L 8); [exact W|lia|lia|]. apply B. left; auto. }
  destruct (w62_state T K) as (g & h & E & Em & Er & Ek & El). rewrite (tabled_eq T HT) in E.
  exists (done g (EHas (0, 1)%N true false)), h. split; [|cbn [b_log done]; rewrite El; reflexivity].
  assert (X : w62 ++ ask (0, 1)%N = (w62 ++ [ACall (CHas (0, 1)%N); AMain; AMain]) ++ AMain :: repeat AMain 21) by (rewrite <- app_assoc; reflexivity).
  rewrite X, exec_app, E. cbn [obind]. eapply scan_hit; eauto.
Qed.

(** ** C63: the destructor does not wait for the thread *)
(** Wherever the thread is when the destructor is entered, there is a schedule in which it uses the object after its
    destruction; it is safe exactly in the schedules in which the thread leaves its loop between the destructor's last
    statement and its end. *)
Theorem C63_refuted : forall nw t, life_ok nw t -> exists s, l_bad (life_run s (life_start nw t)) = true.
Proof.
  intros nw t [O1 O2]. destruct nw, t; try congruence; try (specialize (O2 eq_refl); discriminate).
  - exists [LThr; LThr; LThr; LDes; LDes; LDes; LThr]. reflexivity.
  - exists [LThr; LThr; LDes; LDes; LDes; LThr]. reflexivity.
  - exists [LThr; LDes; LDes; LDes; LThr]. reflexivity.
  - exists [LDes; LDes; LDes; LThr]. reflexivity.
  - exists [LDes; LDes; LDes; LThr]. reflexivity.
Qed.
Theorem C63_safe_partial : forall nw t s, life_ok nw t -> let l := life_run s (life_start nw t) in l_d l = DGone ->
  (l_bad l = false /\ l_t l = TEnd <-> forall s', l_bad (life_run s' l) = false).
Proof.
  intros nw t s O l G. split.
  - intros [B E] s'. assert (X : life_run s' l = l); [|rewrite X; auto]. clear - E G.
    induction s' as [|a s' IH]; [reflexivity|]. unfold life_run in *. cbn [fold_left].
    assert (Y : life_step a l = l) by (destruct a; cbn [life_step]; rewrite ?E, ?G; reflexivity). rewrite Y. exact IH.
  - intros A. pose proof (A []) as B. cbn in B. split; [auto|]. specialize (A [LThr]). cbn in A. rewrite G in A.
    destruct (l_t l); cbn in A; auto; discriminate.
Qed.
(** The destructor does wait for the merge: when it ends no merge is running. *)
Theorem C63_waits : forall nw t s, life_ok nw t -> let l := life_run s (life_start nw t) in l_d l <> DWait -> l_t l <> TWork /\ l_nw l = false.
Proof. intros nw t s O l D. destruct (life_inv s nw t O) as (_ & _ & _ & I & _). fold l in I. specialize (I D). tauto. Qed.

(** If the thread takes two steps between the destructor's last statement and its end, it has left its loop, and nothing that
    happens afterwards accesses the object. *)
Theorem C63_grace_partial : forall nw t s s', life_ok nw t -> l_d (life_run s (life_start nw t)) = DClose ->
  let l := life_run (s ++ [LThr; LThr]) (life_start nw t) in
  l_t l = TEnd /\ l_bad (life_run s' l) = false.
Proof.
  intros nw t s s' O D l. assert (X : l_t l = TEnd /\ l_bad l = false).
  { subst l. rewrite life_app. destruct (life_inv s nw t O) as (I1 & I2 & I3 & I4 & I5 & I6).
    destruct (life_run s (life_start nw t)) as [r w d p b]. cbn in *. subst d.
    destruct (I4 ltac:(discriminate)) as [-> Hp]. rewrite (I6 (or_introl eq_refl)). destruct b; [specialize (I1 eq_refl); discriminate|].
    destruct p; cbn; try congruence; split; reflexivity. }
  destruct X as [E B]. split; [exact E|]. clear - E B. revert E B. generalize l. clear. induction s' as [|a s' IH]; intros l E B; [exact B|].
  unfold life_run in *. cbn [fold_left]. apply IH; destruct a; cbn [life_step]; destruct (l_d l) eqn:Q; try destruct (l_nw l) eqn:Q2; rewrite ?E; cbn; rewrite ?E, ?B; auto.
Qed.
(** The destructor ends: in every schedule with three steps of the thread and then three of the destructor. *)
Theorem C63_ends : forall nw t s, life_ok nw t -> l_d (life_run (s ++ [LThr; LThr; LThr; LDes; LDes; LDes]) (life_start nw t)) = DGone.
Proof.
  intros nw t s O. rewrite life_app. destruct (life_inv s nw t O) as (I1 & I2 & I3 & I4 & I5 & I6).
  destruct (life_run s (life_start nw t)) as [r w d p b]. cbn [l_bad l_d l_t l_run l_nw] in I1, I2, I3, I4, I5, I6.
  assert (X : w = true -> d = DWait) by (intros ->; destruct d; auto; destruct (I4 ltac:(discriminate)); discriminate).
  destruct d, w; try (specialize (X eq_refl); discriminate); destruct p, r; try reflexivity; exfalso;
    try (specialize (I3 (or_introl eq_refl)); discriminate); try (specialize (I5 eq_refl); discriminate);
    specialize (I2 eq_refl); intuition discriminate.
Qed.

(** ** The hypotheses are met *)
Example C30_example : Forall (act_in 8) (w30 ++ [ABack; ABack] ++ ask (0, 2)%N) /\ exists g, exec false th_exact K2Ref 8 (w30 ++ [ABack; ABack] ++ ask (0, 2)%N) = Ok g /\
  b_log g = [EHas (0, 2)%N true true; EIns (0, 2)%N Flushed; EIns (0, 1)%N Buffered] /\ b_m g = MIdle /\ b_nw g = true.
Proof. split; [repeat constructor|]. rewrite <- (tabled_eq th_exact th_real_inhabited). eexists. split; [vm_compute; reflexivity|]. vm_compute. auto. Qed.
Example C63_example : life_ok true TWork /\ l_d (life_run [LThr; LDes; LDes; LThr; LDes] (life_start true TWork)) = DGone /\
  l_bad (life_run [LThr; LDes; LDes; LThr; LDes] (life_start true TWork)) = false.
Proof. vm_compute. repeat split; auto; discriminate. Qed.
