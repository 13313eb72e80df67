(** * Prop_Proc: processes with DKtree_background_wait graphs (C32, C64-C67).

    [prun T K s proc0]: the actions [s] (Proc.v) are taken by the calling thread and the merging threads of a process, in that order. *)
From Verif Require Import Base Spec Thresholds Table K2 C0 DK DKProof DKHist Delay BgSpec Bg BgProof BgTime Proc ProcProof Cv Prop_Bg.

Section One.
Context (T : thresholds) (K : k2impl) (L : k2laws K) (HT : th_top T).

(** ** C64: the only graph of a process *)
(** Whatever the schedule, also when the graph is destroyed: nothing undefined happens, nothing is invented, answers given while no
    merge is going on are complete. *)
Theorem C64_only_graph : forall n s, (2 <= n)%N -> Forall (one n) s ->
  exists p, prun T K (PNew n :: s) proc0 = Ok p /\
    (forall h2 h1 e b busy, plog p 0 = h2 ++ EHas e b busy :: h1 ->
       (b = true -> In e (inserted h1)) /\ (busy = false -> In e (inserted h1) -> b = true)) /\
    (forall h2 h1 x l busy, plog p 0 = h2 ++ ENbr x l busy :: h1 ->
       (forall y, In y l -> In (x, y) (inserted h1)) /\ (busy = false -> forall y, In (x, y) (inserted h1) -> In y l) /\
       (NoDup (inserted h1) -> NoDup l)).
Proof using L HT.
  intros n s Hn F. destruct (pok_start T K L n Hn HT s F) as (p & g & l & t & E & P). exists p. split; [exact E|].
  assert (X : plog p 0 = b_log g) by (unfold plog; rewrite (po_gs _ _ _ _ _ _ _ P); reflexivity). rewrite X.
  destruct (po_re _ _ _ _ _ _ _ P) as (s' & F' & E'). destruct (C30_background true T K L HT n s' Hn F') as (g' & E2 & _ & A & B).
  rewrite E' in E2. injection E2 as <-. split; [exact A|exact B].
Qed.
(** ** C65: calls and destructors return *)
(** After 17 steps of the merging thread, any 24 steps of the calling thread complete the call, or the destructor, in progress. *)
Theorem C65_returns : forall n s1 s2 s3 p, (2 <= n)%N -> Forall (one n) (s1 ++ s2 ++ s3) -> prun T K (PNew n :: s1) proc0 = Ok p ->
  17 <= thrs s2 -> 24 <= pmains s3 -> exists a b p', s2 ++ s3 = a ++ b /\ prun T K a p = Ok p' /\ p_main p' = PIdle.
Proof using L HT.
  intros n s1 s2 s3 p Hn F E Le1 Le2. rewrite !Forall_app in F. destruct F as [F1 [F2 F3]].
  destruct (pok_start T K L n Hn HT s1 F1) as (p0 & g & l & t & E0 & P). rewrite E in E0. injection E0 as <-.
  pose proof (ttime_17 T K L n Hn HT _ _ _ _ P).
  destruct (pwait_ends T K L n Hn HT s2 _ _ _ _ P F2 ltac:(lia)) as [(a & b & p' & -> & R & M)|(p' & g' & l' & t' & R & P' & FR)].
  - exists a, (b ++ s3), p'. rewrite app_assoc. auto.
  - pose proof (pmtime_24 K n Hn p' g'). destruct (pcall_ends T K L n Hn HT s3 _ _ _ _ P' F3 FR ltac:(lia)) as (a & b & p2 & -> & R2 & M2).
    exists (s2 ++ a), b, p2. rewrite app_assoc, prun_app, R. auto.
Qed.
(** ** C66: destroying the only graph of a process is safe *)
(** Nothing undefined happens (C64); once the object is destroyed its thread ends within three of its steps, and never enters
    the part of its loop that accesses the object. *)
Theorem C66_destroyed : forall n s1 s2 p g t, (2 <= n)%N -> Forall (one n) (s1 ++ s2) -> prun T K (PNew n :: s1) proc0 = Ok p ->
  p_gs p = [mkslot g false t] ->
  t <> TIn /\ exists p' g' t', prun T K s2 p = Ok p' /\ p_gs p' = [mkslot g' false t'] /\ t' <> TIn /\ (3 <= thrs s2 -> t' = TEnd).
Proof using L HT.
  intros n s1 s2 p g t Hn F E G. apply Forall_app in F. destruct F as [F1 F2].
  destruct (pok_start T K L n Hn HT s1 F1) as (p0 & g0 & l0 & t0 & E0 & P). rewrite E in E0. injection E0 as <-.
  pose proof (po_gs _ _ _ _ _ _ _ P) as G0. rewrite G in G0. injection G0 as <- <- <-.
  assert (ND : forall p g t, pok T K n p g false t -> t <> TIn).
  { clear - Hn HT L. intros p g t P ->. pose proof (po_in _ _ _ _ _ _ _ P eq_refl) as NP.
    pose proof (work_nw T K L n g (reach_inv T K L n Hn HT _ (po_re _ _ _ _ _ _ _ P)) NP) as W. rewrite (po_nw _ _ _ _ _ _ _ P) in W.
    destruct (p_run p) eqn:R; [destruct (po_run _ _ _ _ _ _ _ P R) as [_ [_ [X _]]]; discriminate|].
    destruct (po_off _ _ _ _ _ _ _ P R); congruence. }
  split; [eapply ND; eauto|].
  destruct (pok_run T K L n Hn HT s2 _ _ _ _ P F2) as (p' & g' & l' & t' & E' & P').
  assert (DL : forall s p g t p' g' l' t', pok T K n p g false t -> Forall (one n) s -> prun T K s p = Ok p' -> pok T K n p' g' l' t' -> l' = false).
  { clear - Hn HT L. induction s as [|a s IH]; intros p g t p' g' l' t' P F E P'; cbn [prun] in E.
    - injection E as <-. destruct (pok_fun _ _ _ _ _ _ _ _ _ _ P P') as [_ [X _]]. auto.
    - inversion F as [|? ? Fa Fs]; subst. destruct (pok_step T K L n Hn HT p g false t a P Fa) as (p1 & g1 & l1 & t1 & E1 & P1). rewrite E1 in E. cbn [obind] in E.
      assert (l1 = false); [|subst; eapply IH; eauto].
      assert (RF : p_run p = false) by (destruct (p_run p) eqn:X; auto; destruct (po_run _ _ _ _ _ _ _ P X) as [_ [_ [Y _]]]; congruence).
      destruct (po_off _ _ _ _ _ _ _ P RF) as [[[_ X]|[PI _]] WF]; [discriminate|].
      pose proof (po_gs _ _ _ _ _ _ _ P) as Gs. pose proof (po_gs _ _ _ _ _ _ _ P1) as Gs1.
      assert (SM : p1 = p -> l1 = false) by (intros ->; destruct (pok_fun _ _ _ _ _ _ _ _ _ _ P P1) as [_ [-> _]]; auto).
      destruct a as [m|i c|i| |i]; cbn [one] in Fa.
      + destruct Fa.
      + cbn [pstep] in E1. rewrite PI, Gs in E1. destruct i as [|[|]]; cbn in E1; injection E1 as <-; auto.
      + cbn [pstep] in E1. rewrite PI, Gs in E1. destruct i as [|[|]]; cbn in E1; injection E1 as <-; auto.
      + cbn [pstep] in E1. rewrite PI in E1. injection E1 as <-; auto.
      + destruct i as [|i]; [|rewrite (thr_other T K n _ _ _ _ _ P) in E1 by discriminate; injection E1 as <-; auto].
        cbn [pstep] in E1. rewrite Gs, RF in E1. cbn [nth_error] in E1. rewrite orb_true_r in E1.
        destruct t; try (injection E1 as <-; cbn in Gs1; injection Gs1 as <- <- <-; auto; fail); [discriminate|injection E1 as <-; auto]. }
  assert (l' = false) by (eapply DL; eauto). subst l'.
  exists p', g', t'. split; [auto|]. split; [apply (po_gs _ _ _ _ _ _ _ P')|]. split; [eapply ND; eauto|].
  intros Le. destruct (dead_end T K L n Hn HT s2 p g t P F2 Le) as (p2 & g2 & E2 & P2). rewrite E' in E2. injection E2 as <-.
  destruct (pok_fun _ _ _ _ _ _ _ _ _ _ P' P2) as [_ [_ X]]. auto.
Qed.
End One.

(** ** C67: no wake-up is lost *)
(** In every execution, with any number of graphs: a thread sleeps only while the condition it waits for is false, except
    between an assignment and the notify_all that follows it under the same lock. *)
Theorem C67_no_lost_wakeup : forall s, let v := cv_run s in
  (forall o, v_main v = CSleep o -> v_nw v = true \/ exists i, nth_error (v_thr v) i = Some VNotify) /\
  (forall i, nth_error (v_thr v) i = Some VSleep -> v_nw v = false /\ v_run v = true \/ exists o, v_main v = CNotify o).
Proof. intros s v. pose proof (cok_run s) as C. split; [apply (co_ms _ C)|apply (co_ts _ C)]. Qed.
(** The mutex excludes, and its holder is never blocked: it releases it within two of its steps. *)
Theorem C67_mutex : forall s, let v := cv_run s in
  (forall o, v_main v = CTest o \/ v_main v = CSet o \/ v_main v = CNotify o -> v_own v = Some WMain) /\
  (forall i t, nth_error (v_thr v) i = Some t -> t = VTest \/ t = VSet \/ t = VNotify -> v_own v = Some (WThr i)) /\
  (v_own v = Some WMain -> v_own (cmain v) = None \/ v_own (cmain (cmain v)) = None) /\
  (forall i, v_own v = Some (WThr i) -> v_own (cthr i v) = None \/ v_own (cthr i (cthr i v)) = None).
Proof.
  intros s v. pose proof (cok_run s) as C. fold v in C. destruct C as [M Th _ _]. split; [|split; [|split]].
  - intros o X. apply M. destruct X as [->|[->| ->]]; exact I.
  - intros i t E X. apply Th. exists t. split; [auto|]. destruct X as [->|[->| ->]]; exact I.
  - intros O. apply M in O. unfold cmain at 1 3. destruct (v_main v) as [| |o| | | |o|o]; try (destruct O; fail).
    + left. destruct (v_nw v); reflexivity.
    + right. destruct o; reflexivity.
    + left. reflexivity.
  - intros i O. apply Th in O. destruct O as (t & E & O). unfold cthr at 1 3. rewrite E. destruct t; try (destruct O; fail).
    + left. destruct (negb (v_nw v) && v_run v); reflexivity.
    + right. unfold cthr. cbn [v_thr]. rewrite (nth_upd _ _ _ _ E), Nat.eqb_refl. reflexivity.
    + left. reflexivity.
Qed.

(** ** C32: two graphs are not independent *)
Definition ins (i : nat) (e : edge) : list pact := PCall i (CIns e) :: repeat PMain 24.
(** (a) Destroying one graph blocks another for ever: two graphs, the first is destroyed, the threads end; the fourth insertion into
    the second never returns, whatever happens. *)
Definition w32a : list pact :=
  [PNew 8; PNew 8; PDel 0] ++ repeat PMain 3 ++ [PThr 0; PThr 1] ++
  ins 1 (0, 1)%N ++ ins 1 (0, 2)%N ++ ins 1 (1, 2)%N ++ ins 1 (1, 3)%N.
Definition hung {K} (p : proc K) : Prop :=
  p_nw p = true /\ (exists i g t e, p_main p = PIn i /\ nth_error (p_gs p) i = Some (mkslot g true t) /\ b_m g = MBusy e) /\
  forall s, In s (p_gs p) -> s_t s = TEnd.
Lemma hung_step T K a (p : proc K) : hung p -> exists p', pstep T K a p = Ok p' /\ hung p' /\ p_main p' = p_main p.
Proof.
  intros (W & (i & g & t & e & M & G & B) & A). assert (HU : hung p) by (split; [auto|split; [exists i, g, t, e; auto|auto]]).
  destruct a as [n|j c|j| |j]; cbn [pstep]; rewrite ?M; eauto.
  - rewrite G. unfold main_step. cbn [set_nw b_m b_nw]. rewrite B, W. cbn [obind]. fold (set_nw g true). eexists. split; [reflexivity|].
    assert (Hm : main_of K i (set_nw g true) = PIn i) by (unfold main_of; cbn [b_m set_nw]; rewrite B; auto).
    cbn [b_nw set_nw]. split; [|cbn [p_main]; congruence]. assert (Li : i < length (p_gs p)) by (apply nth_error_Some; congruence). split; [auto|]. split.
    + exists i, (set_nw g true), t, e. cbn [p_main p_gs]. split; [auto|]. split; [apply nth_error_upd_eq; auto|exact B].
    + cbn [p_gs]. intros s I. apply In_nth_error in I. destruct I as [k I]. rewrite nth_error_upd in I. destruct (i =? k).
      * destruct (i <? length (p_gs p)); [|discriminate]. injection I as <-. cbn [s_t]. apply (A (mkslot g true t)). eapply nth_error_In; eauto.
      * apply A. eapply nth_error_In; eauto.
  - destruct (nth_error (p_gs p) j) as [[g' l' t']|] eqn:Ej; [|eauto].
    assert (X : t' = TEnd) by (apply (A (mkslot g' l' t')); eapply nth_error_In; eauto). subst t'. eauto.
Qed.
Lemma hung_ever T K s : forall p : proc K, hung p -> exists p', prun T K s p = Ok p' /\ p_main p' = p_main p.
Proof.
  induction s as [|a s IH]; intros p HU; cbn [prun]; [eauto|]. destruct (hung_step T K a p HU) as (p1 & E1 & H1 & M1). rewrite E1. cbn [obind].
  destruct (IH p1 H1) as (p' & E & M). exists p'. split; [auto|congruence].
Qed.
Theorem C32_refuted_blocked : forall T K (L : k2laws K), th_real T ->
  exists p, prun T K w32a proc0 = Ok p /\ p_main p = PIn 1 /\ forall s, exists p', prun T K s p = Ok p' /\ p_main p' = PIn 1.
Proof.
  intros T K L HT.
  assert (X : exists p, prun (tabled T) K w32a proc0 = Ok p /\ p_main p = PIn 1 /\ hung p).
  { eexists. split; [vm_compute; reflexivity|]. split; [reflexivity|]. split; [reflexivity|]. split.
    - do 4 eexists. split; [reflexivity|]. split; reflexivity.
    - intros s [<-|[<-|[]]]; reflexivity. }
  destruct X as (p & E & M & HU). rewrite (tabled_eq T HT) in E. exists p. split; [auto|]. split; [auto|].
  intros s. destruct (hung_ever T K s p HU) as (p' & E' & M'). exists p'. split; [auto|congruence].
Qed.
(** (b) Constructing one graph discards the merge another has asked for: an inserted edge is not found although no merge is
    going on. *)
Definition w32b : list pact :=
  [PNew 8; PThr 0] ++ ins 0 (0, 1)%N ++ ins 0 (0, 2)%N ++ [PNew 8] ++ PCall 0 (CHas (0, 1)%N) :: repeat PMain 24.
Theorem C32_refuted_dropped : forall T K (L : k2laws K), th_real T ->
  exists p h, prun T K w32b proc0 = Ok p /\ p_nw p = false /\ plog p 0 = EHas (0, 1)%N false false :: h /\ In (0, 1)%N (inserted h).
Proof.
  intros T K L HT. rewrite <- (tabled_eq T HT). do 2 eexists. split; [vm_compute; reflexivity|]. split; [reflexivity|]. split; [reflexivity|]. vm_compute. auto.
Qed.
(** (c) The thread of one graph takes the work of another: here it works on a graph that has no batch and reads a size that was never
    assigned. *)
Definition w32c : list pact := [PNew 8; PNew 8; PThr 1] ++ ins 0 (0, 1)%N ++ ins 0 (0, 2)%N ++ repeat (PThr 1) 5.
Theorem C32_refuted_stolen : forall T K (L : k2laws K), th_real T -> prun T K w32c proc0 = UB.
Proof. intros T K L HT. rewrite <- (tabled_eq T HT). vm_compute. reflexivity. Qed.
(** (d) Not even one after the other: the thread of a graph that was destroyed serves the next graph, and uses the destroyed object. *)
Definition w32d : list pact :=
  [PNew 8; PThr 0; PDel 0] ++ repeat PMain 3 ++ [PNew 8] ++ ins 1 (0, 1)%N ++ ins 1 (0, 2)%N ++ repeat (PThr 0) 3.
Theorem C32_refuted_afterwards : forall T K (L : k2laws K), th_real T -> prun T K w32d proc0 = UB.
Proof. intros T K L HT. rewrite <- (tabled_eq T HT). vm_compute. reflexivity. Qed.

(** ** The hypotheses are met *)
Definition w64 : list pact := ins 0 (0, 1)%N ++ ins 0 (0, 2)%N ++ repeat (PThr 0) 5 ++ PCall 0 (CHas (0, 2)%N) :: repeat PMain 24.
Example C64_example : Forall (one 8) w64 /\ exists p, prun th_exact K2Ref (PNew 8 :: w64) proc0 = Ok p /\
  plog p 0 = [EHas (0, 2)%N true true; EIns (0, 2)%N Flushed; EIns (0, 1)%N Buffered] /\ p_nw p = true.
Proof. split; [repeat constructor|]. rewrite <- (tabled_eq th_exact th_real_inhabited). eexists. split; [vm_compute; reflexivity|]. vm_compute. auto. Qed.
Example C66_example : exists p g, prun th_exact K2Ref (PNew 8 :: [PThr 0; PDel 0] ++ repeat PMain 3) proc0 = Ok p /\ p_gs p = [mkslot g false TWait].
Proof. rewrite <- (tabled_eq th_exact th_real_inhabited). do 2 eexists. split; [vm_compute; reflexivity|]. reflexivity. Qed.
Example C67_example : exists s, v_main (cv_run s) = CSleep OFlush /\ nth_error (v_thr (cv_run s)) 0 = Some VTest.
Proof.
  exists ([CNew; CThr 0; CBegin OFlush] ++ repeat CMain 6 ++ [CBegin OFlush; CMain; CMain; CThr 0]). vm_compute. auto.
Qed.
