(** * Prop_BgDel: the background graphs with deletions (C62, C68-C72).

    Executions and logs as in Prop_Bg; [act_rng n]: every call (del_edge included) is on vertices below n.  BgDelSpec.v: [live h] are
    the edges of the graph after the calls h, [ins_of h] the edges ever inserted, [fresh_for e h]: no call of h inserted e while it was in
    the graph, [fresh h]: this holds of every edge. *)
From Verif Require Import Base Spec Thresholds Table K2 C0 DK DKProof Delay BgSpec BgDelSpec Bg BgProof BgTime BgDel BgDelTime Prop_Bg Prop_DK.

Section Main.
Context (wt : bool) (T : thresholds) (K : k2impl) (L : k2laws K).

Lemma all_answers : forall n s g h2 v h1, (2 <= n)%N -> Forall (act_rng n) s -> exec wt T K n s = Ok g -> b_b g <> BDead ->
  b_log g = h2 ++ v :: h1 -> answer_ok h1 v.
Proof using L.
  intros n s g h2 v h1 Hn F E D El. destruct (exec_J wt T K L n Hn s g F E D) as [A _]. rewrite El in A. apply (answers_at _ _ _ A).
Qed.

(** ** C71: nothing is lost.  Any calls, any schedule: a query that does not run during a merge reports every edge that was inserted and
    not deleted since. *)
Theorem C71_nothing_lost : forall n s g, (2 <= n)%N -> Forall (act_rng n) s -> exec wt T K n s = Ok g -> b_b g <> BDead ->
  (forall h2 h1 e b, b_log g = h2 ++ EHas e b false :: h1 -> In e (live h1) -> b = true) /\
  (forall h2 h1 x l y, b_log g = h2 ++ ENbr x l false :: h1 -> In (x, y) (live h1) -> In y l).
Proof using L.
  intros n s g Hn F E D. split; intros; pose proof (all_answers n s g _ _ _ Hn F E D H) as A; cbn [answer_ok] in A; apply A; auto.
Qed.
(** ** C72: nothing is invented.  Any calls, any schedule, also during a merge: what is reported was inserted at some time. *)
Theorem C72_nothing_invented : forall n s g, (2 <= n)%N -> Forall (act_rng n) s -> exec wt T K n s = Ok g -> b_b g <> BDead ->
  (forall h2 h1 e busy, b_log g = h2 ++ EHas e true busy :: h1 -> In e (ins_of h1)) /\
  (forall h2 h1 x l busy y, b_log g = h2 ++ ENbr x l busy :: h1 -> In y l -> In (x, y) (ins_of h1)).
Proof using L.
  intros n s g Hn F E D. split; intros; pose proof (all_answers n s g _ _ _ Hn F E D H) as A; cbn [answer_ok] in A; apply A; auto.
Qed.

(** ** C62, for an edge that was never inserted while it was in the graph (whatever was done to the others): under every schedule it is
    reported only if it is in the graph (in particular it is gone when it was deleted), and listed once *)
Theorem C62_answers_partial : forall n s g, (2 <= n)%N -> Forall (act_rng n) s -> exec wt T K n s = Ok g -> b_b g <> BDead ->
  (forall h2 h1 e busy, b_log g = h2 ++ EHas e true busy :: h1 -> fresh_for e h1 -> In e (live h1)) /\
  (forall h2 h1 x l busy y, b_log g = h2 ++ ENbr x l busy :: h1 -> fresh_for (x, y) h1 -> In y l -> In (x, y) (live h1)) /\
  (forall h2 h1 x l y, b_log g = h2 ++ ENbr x l false :: h1 -> fresh_for (x, y) h1 -> count_occ N.eq_dec l y <= 1).
Proof using L.
  intros n s g Hn F E D. split; [|split]; intros; pose proof (all_answers n s g _ _ _ Hn F E D H) as A; cbn [answer_ok] in A; apply A; auto.
Qed.
(** The property itself, under that restriction: del_edge(e) has returned, e was not inserted since, contains(e) is false, whatever the merging
    thread is doing. *)
Theorem C62_deleted_partial : forall n s g h2 h1 h0 e b busy, (2 <= n)%N -> Forall (act_rng n) s -> exec wt T K n s = Ok g -> b_b g <> BDead ->
  b_log g = h2 ++ EHas e b busy :: h1 ++ EDel e :: h0 -> (forall w, ~ In (EIns e w) h1) -> fresh_for e h0 -> b = false.
Proof using L.
  intros n s g h2 h1 h0 e b busy Hn F E D El NI Fr. destruct b; [|reflexivity]. exfalso.
  destruct (C62_answers_partial n s g Hn F E D) as [A _]. specialize (A _ _ _ _ El).
  assert (X : fresh_for e (h1 ++ EDel e :: h0) /\ ~ In e (live (h1 ++ EDel e :: h0))).
  { clear A El. induction h1 as [|v h1 IH]; cbn [app].
    - split; [exact Fr|]. cbn [live]. intros A. apply filter_In in A. destruct A as [_ A]. rewrite eeqb_refl in A. discriminate.
    - assert (NI1 : forall w, ~ In (EIns e w) h1) by (intros w I; apply (NI w); right; auto). destruct (IH NI1) as [I1 I2].
      destruct v as [f w|f b1 z1|x1 l1 z1|f]; cbn [live fresh_for]; auto.
      + split; [auto|]. intros [->|I]; [apply (NI w); left; auto|auto].
      + split; [auto|]. intros I. apply filter_In in I. tauto. }
  destruct X as [X1 X2]. auto.
Qed.
(** ... and if this holds of every edge, the edge count between two calls is the number of edges. *)
Theorem C62_count_partial : forall n s g, (2 <= n)%N -> Forall (act_rng n) s -> exec wt T K n s = Ok g -> b_b g <> BDead -> b_m g = MIdle ->
  fresh (b_log g) -> bg_edges K g = N.of_nat (length (live (b_log g))) /\ NoDup (live (b_log g)).
Proof using L.
  intros n s g Hn F E D M Fr. destruct (exec_J wt T K L n Hn s g F E D) as [_ [B V]]. split; [|apply live_nodup, Fr]. unfold bg_edges.
  assert (P : plain (b_m g)) by (rewrite M; exact I). assert (Ec : mcur (b_m g) = None) by (rewrite M; reflexivity).
  pose proof (st_nt (co_st _ _ _ _ _ _ _ _ _ _ _ _ _ _ _ _ (J_qcore _ _ _ _ _ V P Ec)) Fr) as C. cbn [length] in C. lia.
Qed.

(** ** C70: every call returns, del_edge with its rebuild included *)
(** [rs]: rounds; in each the merging thread takes 15 steps and then the caller one (other steps may come between).  [g] is any reachable
    state in which no call is in progress, c any call.  Unless something undefined happens or the merging thread throws, c returns within
    26 (edges + 1) rounds, where edges is what get_number_edges() reports before the call. *)
Theorem C70_calls_return : forall n s g c g1 rs g', (2 <= n)%N -> Forall (act_rng n) (s ++ [ACall c]) -> exec wt T K n s = Ok g -> b_m g = MIdle ->
  call_step K c g = Ok g1 -> Forall fair rs -> run wt T K (sched rs) g1 = Ok g' -> b_b g' <> BDead -> 26 * (N.to_nat (bg_edges K g) + 1) <= length rs ->
  exists p q g2, sched rs = p ++ q /\ run wt T K p g1 = Ok g2 /\ b_m g2 = MIdle.
Proof using L.
  intros n s g c g1 rs g' Hn F E M C Fa R ND Le. pose proof (alive_run wt T K _ _ _ R ND) as ND1. apply Forall_app in F. destruct F as [F F1]. inversion F1 as [|? ? Fc _]; subst.
  assert (NDg : b_b g <> BDead) by (destruct (grows_step wt T K (ACall c) g g1) as [X _]; [discriminate|exact C|congruence]).
  destruct (exec_J wt T K L n Hn s g F E NDg) as [An [B V]]. destruct (call_J K L n Hn g B c g1 V Fc An C) as [An1 [B1 V1]].
  pose proof (mt_call K L n Hn g B c g1 V M C) as X. eapply (rounds wt T K L n Hn); eauto; [split; eauto|]. unfold bg_edges in Le. lia.
Qed.
End Main.

(** ** C68: deleting buffered edges and inserting again ends in undefined behaviour: slots of deleted edges are not reused before
    the next flush, and the flush is decided by the number of live edges *)
Definition ins (e : edge) : list act := ACall (CIns e) :: repeat AMain 24.
Definition del (e : edge) : list act := ACall (CDel e) :: repeat AMain 24.
Definition w68 : list act := ins (0, 1)%N ++ del (0, 1)%N ++ ins (0, 2)%N ++ del (0, 2)%N ++ ins (0, 3)%N.
Theorem C68_refuted : forall wt T K, th_real T -> Forall (act_rng 8) w68 /\ exec wt T K 8 w68 = UB.
Proof. intros wt T K HT. split; [repeat constructor|]. rewrite <- (tabled_eq T HT). destruct wt; vm_compute; reflexivity. Qed.

(** ** C69: the merging thread throws std::logic_error, which nothing catches: the process ends.  Without deletions it never does. *)
Theorem C69_insertions_partial : forall wt T K, k2laws K -> th_top T -> forall n s, (2 <= n)%N -> Forall (act_in n) s ->
  exists g, exec wt T K n s = Ok g /\ b_b g <> BDead.
Proof. intros wt T K L HT n s Hn F. destruct (C30_background wt T K L HT n s Hn F) as (g & E & D & _). eauto. Qed.
(** the operations of [w16] (Prop_DK), each run to its end, with the merging thread idle again in between: add_edge and del_edge on a
    graph of 3 vertices, never more than 5 edges *)
Definition quiet (o : op) : list act :=
  (match o with Add e => ins e | Del e => ACall (CDel e) :: repeat AMain 120 end) ++ repeat ABack 16.
Definition w69 : list act := flat_map quiet w16.
Theorem C69_refuted : forall wt T, th_real T -> Forall (act_rng 3) w69 /\ exists g, exec wt T K2Ref 3 w69 = Ok g /\ b_b g = BDead.
Proof.
  intros wt T HT. split; [vm_compute; repeat constructor|]. rewrite <- (tabled_eq T HT).
  assert (X : match exec wt (tabled T) K2Ref 3 w69 with Ok g => match b_b g with BDead => True | _ => False end | _ => False end) by (destruct wt; vm_compute; exact Logic.I).
  destruct (exec wt (tabled T) K2Ref 3 w69) as [g|]; [|destruct X]. exists g. split; [reflexivity|]. destruct (b_b g); tauto.
Qed.

(** ** The hypotheses are met: insert three edges (two flushes), delete one that is in a tree, ask *)
Definition w62p : list act := w30 ++ repeat ABack 15 ++ ins (0, 3)%N ++ del (0, 2)%N ++ ask (0, 2)%N ++ ask (0, 1)%N.
Example C62_example : Forall (act_rng 8) w62p /\ exists g, exec false th_exact K2Ref 8 w62p = Ok g /\ b_m g = MIdle /\ b_b g = BPoll /\
  fresh (b_log g) /\ bg_edges _ g = 2%N /\
  b_log g = [EHas (0, 1)%N true false; EHas (0, 2)%N false false; EDel (0, 2)%N; EIns (0, 3)%N Buffered; EIns (0, 2)%N Flushed; EIns (0, 1)%N Buffered].
Proof.
  split; [repeat constructor|]. rewrite <- (tabled_eq th_exact th_real_inhabited). eexists. split; [vm_compute; reflexivity|].
  split; [reflexivity|]. split; [reflexivity|]. split; [|split; reflexivity]. vm_compute. intuition congruence.
Qed.
(** an edge that was inserted twice (the second time while it was being merged), and another that was not: the second is exact *)
Definition w71 : list act :=
  w30 ++ ins (0, 1)%N ++ repeat ABack 15 ++ del (0, 1)%N ++ ins (0, 3)%N ++ ask (0, 1)%N ++ ask (0, 2)%N ++ ask (0, 3)%N.
Example C71_example : Forall (act_rng 8) w71 /\ exists g, exec false th_exact K2Ref 8 w71 = Ok g /\ b_b g <> BDead /\
  b_log g = [EHas (0, 3)%N true false; EHas (0, 2)%N true false; EHas (0, 1)%N true false] ++
    [EIns (0, 3)%N Buffered; EDel (0, 1)%N; EIns (0, 1)%N Buffered; EIns (0, 2)%N Flushed; EIns (0, 1)%N Buffered] /\
  ~ In (0, 1)%N (live (b_log g)) /\ ~ fresh_for (0, 1)%N (b_log g) /\ fresh_for (0, 2)%N (b_log g).
Proof.
  split; [repeat constructor|]. rewrite <- (tabled_eq th_exact th_real_inhabited). eexists. split; [vm_compute; reflexivity|].
  split; [discriminate|]. split; [reflexivity|]. split; [vm_compute; intuition congruence|]. split; vm_compute; intuition congruence.
Qed.
(** a del_edge that rebuilds; it returns in a fair schedule *)
Definition w70 : list act := w30 ++ repeat ABack 15.
Definition rs70 : list (list act * list act) := repeat (repeat ABack 15, [AMain]) 78.
Example C70_example : Forall (act_rng 8) (w70 ++ [ACall (CDel (0, 1)%N)]) /\ Forall fair rs70 /\ exists g g1 g', exec false th_exact K2Ref 8 w70 = Ok g /\
  b_m g = MIdle /\ call_step K2Ref (CDel (0, 1)%N) g = Ok g1 /\ b_m g1 = MWait (0, 1)%N /\ 26 * (N.to_nat (bg_edges K2Ref g) + 1) <= length rs70 /\
  run false th_exact K2Ref (sched rs70) g1 = Ok g' /\ b_b g' <> BDead /\ b_log g' = [EDel (0, 1)%N; EIns (0, 2)%N Flushed; EIns (0, 1)%N Buffered].
Proof.
  split; [repeat constructor|]. split; [apply Forall_forall; intros r I; apply repeat_spec in I; subst; vm_compute; lia|].
  rewrite <- (tabled_eq th_exact th_real_inhabited). do 3 eexists. split; [vm_compute; reflexivity|].
  split; [reflexivity|]. split; [vm_compute; reflexivity|]. split; [reflexivity|]. split; [vm_compute; lia|].
  split; [vm_compute; reflexivity|]. split; [discriminate|reflexivity].
Qed.
