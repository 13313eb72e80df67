(** * ProcProof: a process with a single DKtree_background_wait graph. *)
From Verif Require Import Base Spec Thresholds K2 C0 C0Proof DK DKProof DKHist Delay MunroProof BgSpec Bg BgProof BgTime Proc.

Section One.
Context (T : thresholds) (K : k2impl) (L : k2laws K) (n : N) (Hn : (2 <= n)%N) (HT : th_top T).
Local Notation bg := (bg K).
Local Notation proc := (proc K).
Local Notation inv := (inv T K L n).

(** no second graph is constructed; the calls are insertions, contains and list_neighbour on vertices below n *)
Definition one (a : pact) : Prop :=
  match a with PNew _ => False | PCall _ c => call_in n c | _ => True end.

Definition reach (g : bg) : Prop := exists s, Forall (act_in n) s /\ exec true T K n s = Ok g.
Definition idle (g : bg) : Prop := b_m g = MIdle.

Record pok (p : proc) (g : bg) (live : bool) (t : tpc) : Prop := {
  po_gs : p_gs p = [mkslot g live t];
  po_re : reach g;
  po_nw : b_nw g = p_nw p;
  po_main : match p_main p with
            | PIdle => idle g
            | PIn i => i = 0 /\ live = true /\ ~ idle g
            | PWait i | PStop i | PClose i => i = 0 /\ idle g /\ live = true
            end;
  po_in : t = TIn -> b_b g <> BPoll;
  po_out : t <> TIn -> b_b g = BPoll;
  po_run : p_run p = true -> t <> TEnd /\ (t = TCheck -> p_nw p = true) /\ live = true /\ forall i, p_main p <> PClose i;
  po_off : p_run p = false -> (p_main p = PClose 0 /\ live = true \/ p_main p = PIdle /\ live = false) /\ p_nw p = false;
  po_stop : forall i, p_main p = PStop i -> p_nw p = false
}.

Lemma reach_inv g : reach g -> inv g.
Proof. intros (s & F & E). destruct (exec_ok true T K L n Hn HT s F) as (g' & E' & V). rewrite E in E'. injection E' as <-. exact V. Qed.
Lemma reach_step g a g' : reach g -> act_in n a -> step true T K a g = Ok g' -> reach g'.
Proof.
  intros (s & F & E) A S. exists (s ++ [a]). split; [apply Forall_app; auto|].
  unfold exec in *. destruct (bg_new true T K n); [|discriminate]. cbn [obind] in *. rewrite run_app, E. cbn [obind run]. rewrite S. reflexivity.
Qed.
Lemma set_nw_id (g : bg) w : b_nw g = w -> set_nw g w = g.
Proof. intros <-. destruct g; reflexivity. Qed.
Lemma nw_poll g : inv g -> b_nw g = false -> b_b g = BPoll.
Proof. intros V W. pose proof (st_b _ _ _ _ _ _ _ _ _ _ _ (bi_st _ _ _ _ _ V)) as B. unfold bfact in B. rewrite W in B. auto. Qed.
Lemma work_nw g : inv g -> b_b g <> BPoll -> b_nw g = true.
Proof. intros V W. destruct (b_nw g) eqn:E; auto. destruct W. apply nw_poll; auto. Qed.
Lemma main_of_idle (g : bg) i : match main_of K i g with PIdle => idle g | PIn j => j = i /\ ~ idle g | _ => False end.
Proof. unfold main_of, idle. destruct (b_m g); auto; (split; [auto|discriminate]). Qed.
Lemma back_m g g' : back_step T K g = Ok g' -> b_m g' = b_m g.
Proof.
  unfold back_step. destruct (b_b g); try (intros E; injection E as <-; reflexivity).
  - destruct (b_nw g); intros E; injection E as <-; reflexivity.
  - unfold maxsz. destruct (b_msz g =? 1)%N; [discriminate|]. cbn [obind]. destruct (find_level _ _ _ _ _ _); intros E; injection E as <-; reflexivity.
  - destruct (j <=? i); [|intros E; injection E as <-; reflexivity]. destruct (nth_error _ _) as [[|]|]; [| |discriminate]; intros E; injection E as <-; reflexivity.
  - destruct (i <? _); [|discriminate]. intros E; injection E as <-; reflexivity.
Qed.
Lemma back_poll g g' : back_step T K g = Ok g' -> b_b g <> BPoll -> (b_b g = BDone -> b_b g' = BPoll /\ b_nw g' = false) /\ (b_b g <> BDone -> b_b g' <> BPoll /\ b_nw g' = b_nw g).
Proof.
  unfold back_step. intros E NP. destruct (b_b g) eqn:EB; try congruence.
  - injection E as <-. split; [discriminate|]. intros _. split; [discriminate|reflexivity].
  - injection E as <-. split; [discriminate|]. intros _. split; [discriminate|reflexivity].
  - split; [discriminate|]. intros _. revert E. unfold maxsz. destruct (b_msz g =? 1)%N; [discriminate|]. cbn [obind].
    destruct (find_level _ _ _ _ _ _); intros E; injection E as <-; (split; [discriminate|reflexivity]).
  - split; [discriminate|]. intros _. revert E. destruct (j <=? i); [|intros E; injection E as <-; split; [discriminate|reflexivity]].
    destruct (nth_error _ _) as [[|]|]; [| |discriminate]; intros E; injection E as <-; (split; [discriminate|reflexivity]).
  - split; [discriminate|]. intros _. revert E. destruct (i <? _); [|discriminate]. intros E; injection E as <-. split; [discriminate|reflexivity].
  - injection E as <-. split; [auto|congruence].
  - injection E as <-. split; [discriminate|]. intros _. rewrite EB. split; [discriminate|reflexivity].
Qed.

Lemma pok_new : exists p g, prun T K [PNew n] proc0 = Ok p /\ pok p g true THead /\ p_run p = true.
Proof.
  cbn [prun pstep proc0 p_main]. destruct (bg_new_ok true T K L n Hn) as (g & E & V). rewrite E. cbn [obind]. eexists. exists g.
  split; [reflexivity|]. split; [|reflexivity].
  assert (Eg : b_nw g = false /\ b_m g = MIdle /\ b_b g = BPoll).
  { unfold bg_new in E. destruct (c0_new T n); [|discriminate]. cbn [obind] in E. injection E as <-. auto. }
  destruct Eg as [E1 [E2 E3]]. constructor; cbn; auto; try congruence.
  - exists []. split; [constructor|]. unfold exec. rewrite E. reflexivity.
  - intros _. repeat split; try discriminate.
Qed.

(** One step. *)
Lemma pok_step p g live t a : pok p g live t -> one a -> exists p' g' live' t', pstep T K a p = Ok p' /\ pok p' g' live' t'.
Proof.
  intros P A. pose proof (reach_inv _ (po_re _ _ _ _ P)) as V. pose proof (po_gs _ _ _ _ P) as G. pose proof (po_nw _ _ _ _ P) as W.
  pose proof (po_main _ _ _ _ P) as M. pose proof (po_run _ _ _ _ P) as R. pose proof (po_off _ _ _ _ P) as O.
  assert (SAME : exists p' g' live' t', Ok p = Ok p' /\ pok p' g' live' t') by (exists p, g, live, t; auto).
  destruct a as [m|i c|i| |i]; cbn [one] in A.
  - destruct A.
  - (* a call *) cbn [pstep]. destruct (p_main p) eqn:EM; try exact SAME. rewrite G. destruct i as [|i]; cbn [nth_error]; [|destruct i; exact SAME].
    destruct live; [|exact SAME]. rewrite set_nw_id by auto.
    destruct (call_ok T K L n g c V A) as (g1 & E1 & V1). rewrite E1. cbn [obind].
    destruct (call_time T K L n g g1 c V A E1) as [B1 [W1 _]].
    exists (mkproc (p_nw p) (p_run p) [mkslot g1 true t] (main_of K 0 g1)), g1, true, t. split; [reflexivity|].
    pose proof (main_of_idle g1 0) as MO. constructor; cbn [p_gs p_nw p_run p_main]; rewrite ?B1, ?W1; try apply P.
    + reflexivity.
    + apply (reach_step g (ACall c)); [apply P|exact A|exact E1].
    + destruct (main_of K 0 g1); [exact MO|destruct MO; auto|destruct MO..].
    + intros X. destruct (R X) as [R1 [R2 [R3 R4]]]. repeat split; auto. intros i. destruct (main_of K 0 g1); congruence.
    + intros X. destruct (O X) as [[[O1 _]|[_ O1]] _]; congruence.
    + intros i X. rewrite X in MO. destruct MO.
  - (* the destructor is entered *) cbn [pstep]. destruct (p_main p) eqn:EM; try exact SAME. rewrite G. destruct i as [|i]; cbn [nth_error]; [|destruct i; exact SAME].
    destruct live; [|exact SAME].
    exists (mkproc (p_nw p) (p_run p) [mkslot g true t] (PWait 0)), g, true, t. split; [reflexivity|].
    constructor; cbn [p_gs p_nw p_run p_main]; try apply P; auto; try congruence.
    + intros X. destruct (R X) as [R1 [R2 [R3 R4]]]. repeat split; auto. discriminate.
    + intros X. destruct (O X) as [[[O1 _]|[_ O1]] _]; congruence.
  - (* the calling thread *) cbn [pstep]. destruct (p_main p) eqn:EM; try exact SAME; rewrite ?G.
    + destruct M as [-> [-> MN]]. cbn [nth_error]. rewrite set_nw_id by auto.
      destruct (main_ok true T K L n Hn g V) as (g1 & E1 & V1). rewrite E1. cbn [obind].
      destruct (main_frame true T K L n Hn g g1 V E1) as [B1 W1].
      exists (mkproc (b_nw g1) (p_run p) [mkslot g1 true t] (main_of K 0 g1)), g1, true, t. split; [reflexivity|].
      pose proof (main_of_idle g1 0) as MO. constructor; cbn [p_gs p_nw p_run p_main]; rewrite ?B1; try apply P.
      * reflexivity.
      * apply (reach_step g AMain); [apply P|exact I|exact E1].
      * reflexivity.
      * destruct (main_of K 0 g1); [exact MO|destruct MO; auto|destruct MO..].
      * intros X. destruct (R X) as [R1 [R2 [R3 R4]]]. repeat split; auto; [intros Y; apply W1; rewrite W; auto|]. intros i. destruct (main_of K 0 g1); congruence.
      * intros X. destruct (O X) as [[[O1 _]|[_ O1]] _]; congruence.
      * intros i X. rewrite X in MO. destruct MO.
    + destruct M as [-> [MI ->]]. destruct (p_nw p) eqn:WP; [exact SAME|].
      exists (mkproc false (p_run p) (p_gs p) (PStop 0)), g, true, t. split; [rewrite G; reflexivity|].
      constructor; cbn [p_gs p_nw p_run p_main]; try apply P; auto.
      * intros X. destruct (R X) as [R1 [R2 [R3 R4]]]. repeat split; auto. discriminate.
      * intros X. destruct (O X) as [[[O1 _]|[_ O1]] _]; congruence.
    + destruct M as [-> [MI ->]]. pose proof (po_stop _ _ _ _ P 0 EM) as WF.
      exists (mkproc (p_nw p) false (p_gs p) (PClose 0)), g, true, t. split; [rewrite G; reflexivity|].
      constructor; cbn [p_gs p_nw p_run p_main]; try apply P; auto; discriminate.
    + destruct M as [-> [MI ->]]. cbn [nth_error]. exists (mkproc (p_nw p) (p_run p) [mkslot g false t] PIdle), g, false, t. split; [reflexivity|].
      constructor; cbn [p_gs p_nw p_run p_main]; try apply P; auto; try discriminate.
      * intros X. destruct (R X) as [_ [_ [_ R4]]]. exfalso. apply (R4 0). auto.
      * intros X. destruct (O X) as [_ O2]. auto.
  - (* the merging thread *) cbn [pstep]. rewrite G. destruct i as [|i]; cbn [nth_error]; [|destruct i; exact SAME].
    assert (GO : forall t', t <> TIn -> t' <> TIn -> (p_run p = true -> t' <> TEnd /\ (t' = TCheck -> p_nw p = true)) ->
       pok (mkproc (p_nw p) (p_run p) [mkslot g live t'] (p_main p)) g live t').
    { intros t' N1 N2 N3. constructor; cbn [p_gs p_nw p_run p_main]; auto.
      - apply (po_re _ _ _ _ P).
      - intros _. apply (po_out _ _ _ _ P), N1.
      - intros X. destruct (R X) as [R1 [R2 [R3 R4]]]. destruct (N3 X) as [? ?]. repeat split; auto.
      - apply (po_stop _ _ _ _ P). }
    destruct t.
    + exists (mkproc (p_nw p) (p_run p) [mkslot g live (if p_run p then TWait else TEnd)] (p_main p)), g, live, (if p_run p then TWait else TEnd).
      split; [reflexivity|]. apply GO; [discriminate|destruct (p_run p); discriminate|]. intros X. rewrite X. split; discriminate.
    + destruct (p_nw p || negb (p_run p)) eqn:C; [|exact SAME].
      exists (mkproc (p_nw p) (p_run p) [mkslot g live TCheck] (p_main p)), g, live, TCheck. split; [reflexivity|].
      apply GO; try discriminate. intros X. split; [discriminate|]. intros _. rewrite X in C. cbn in C. rewrite orb_false_r in C. auto.
    + destruct (p_run p) eqn:PR.
      * destruct (R eq_refl) as [R1 [R2 [R3 R4]]]. specialize (R2 eq_refl). subst live.
        exists (mkproc (p_nw p) true [mkslot (set_b g BBuild) true TIn] (p_main p)), (set_b g BBuild), true, TIn. split; [reflexivity|].
        constructor; cbn [p_gs p_nw p_run p_main]; auto.
        -- apply (reach_step g ABack); [apply P|exact I|]. cbn [step]. unfold back_step. rewrite (po_out _ _ _ _ P) by discriminate. rewrite W, R2. reflexivity.
        -- intros _ X. discriminate.
        -- congruence.
        -- intros _. repeat split; auto; discriminate.
        -- apply P.
      * exists (mkproc (p_nw p) false [mkslot g live TEnd] (p_main p)), g, live, TEnd. split; [reflexivity|]. apply GO; discriminate.
    + pose proof (po_in _ _ _ _ P eq_refl) as NP. pose proof (work_nw g V NP) as WT.
      assert (PR : p_run p = true).
      { destruct (p_run p) eqn:E; auto. destruct (O eq_refl) as [_ X]. congruence. }
      destruct (R PR) as [_ [_ [-> R4]]]. rewrite set_nw_id by auto.
      destruct (back_ok T K L n Hn HT g V) as (g1 & E1 & V1). rewrite E1. cbn [obind].
      pose proof (back_m _ _ E1) as M1. destruct (back_poll _ _ E1 NP) as [BP1 BP2].
      assert (GI : b_b g <> BDone -> pok (mkproc (b_nw g1) (p_run p) [mkslot g1 true TIn] (p_main p)) g1 true TIn).
      { intros ND. destruct (BP2 ND) as [X1 X2]. constructor; cbn [p_gs p_nw p_run p_main]; auto.
        - apply (reach_step g ABack); [apply P|exact I|exact E1].
        - unfold idle in *. rewrite M1. exact M.
        - congruence.
        - intros _. repeat split; auto; discriminate.
        - congruence.
        - intros i X. rewrite X2, W. eapply (po_stop _ _ _ _ P); eauto. }
      assert (MS : forall t, b_b g = BLevel t -> (b_msz g =? 0)%N = false).
      { intros s EB. pose proof (st_b _ _ _ _ _ _ _ _ _ _ _ (bi_st _ _ _ _ _ V)) as B. unfold bfact in B. rewrite EB, WT in B.
        destruct B as [_ [[B _] _]]. apply N.eqb_neq. lia. }
      destruct (b_b g) eqn:EB; try congruence.
      all: try (exists (mkproc (b_nw g1) (p_run p) [mkslot g1 true TIn] (p_main p)), g1, true, TIn; split; [rewrite ?(MS _ eq_refl); reflexivity|apply GI; discriminate]).
      exists (mkproc (b_nw g1) (p_run p) [mkslot g1 true THead] (p_main p)), g1, true, THead. split; [reflexivity|].
      destruct (BP1 eq_refl) as [X1 X2]. constructor; cbn [p_gs p_nw p_run p_main]; auto; try congruence.
      * apply (reach_step g ABack); [apply P|exact I|exact E1].
      * unfold idle in *. rewrite M1. exact M.
      * intros _. repeat split; auto; try discriminate.
    + exact SAME.
Qed.

Lemma pok_run s : forall p g live t, pok p g live t -> Forall one s -> exists p' g' live' t', prun T K s p = Ok p' /\ pok p' g' live' t'.
Proof.
  induction s as [|a s IH]; intros p g live t P F; cbn [prun]; [exists p, g, live, t; auto|]. inversion F; subst.
  destruct (pok_step p g live t a P) as (p1 & g1 & l1 & t1 & E & P1); auto. rewrite E. cbn [obind]. eapply IH; eauto.
Qed.
Lemma prun_app s1 : forall s2 p, prun T K (s1 ++ s2) p = let* p' := prun T K s1 p in prun T K s2 p'.
Proof. induction s1 as [|a s1 IH]; intros s2 p; cbn [app prun]; [reflexivity|]. destruct (pstep T K a p); cbn [obind]; auto. Qed.
Lemma pok_start s : Forall one s -> exists p g live t, prun T K (PNew n :: s) proc0 = Ok p /\ pok p g live t.
Proof.
  intros F. destruct pok_new as (p0 & g0 & E0 & P0 & _). destruct (pok_run s p0 _ _ _ P0 F) as (p & g & l & t & E & P). exists p, g, l, t. split; [|auto].
  change (PNew n :: s) with ([PNew n] ++ s). rewrite prun_app, E0. exact E.
Qed.

(** ** Progress *)
Fixpoint thrs (s : list pact) : nat := match s with [] => 0 | PThr 0 :: s => S (thrs s) | _ :: s => thrs s end.
Fixpoint pmains (s : list pact) : nat := match s with [] => 0 | PMain :: s => S (pmains s) | _ :: s => pmains s end.
Definition ttime (t : tpc) (g : bg) : nat :=
  match t with THead => 17 | TWait => 16 | TCheck => 15 | TIn => btime K (b_b g) | TEnd => 0 end.
Definition pmtime (p : proc) (g : bg) : nat :=
  match p_main p with PIdle => 0 | PIn _ => mtime (b_m g) | PWait _ => 3 | PStop _ => 2 | PClose _ => 1 end.
Definition pfree (p : proc) (g : bg) : Prop := p_nw p = false \/ pmtime p g <= 1.

Lemma pok_fun p g l t g' l' t' : pok p g l t -> pok p g' l' t' -> g' = g /\ l' = l /\ t' = t.
Proof. intros P Q. pose proof (po_gs _ _ _ _ P) as A. pose proof (po_gs _ _ _ _ Q) as B. rewrite A in B. injection B. auto. Qed.
Lemma ttime_17 p g l t : pok p g l t -> ttime t g <= 17.
Proof.
  intros P. pose proof (btime_15 T K L n Hn g (reach_inv _ (po_re _ _ _ _ P))). destruct t; cbn [ttime]; lia.
Qed.
Lemma pmtime_24 p g : pmtime p g <= 24.
Proof. unfold pmtime. pose proof (mtime_24 n Hn (b_m g)). destruct (p_main p); lia. Qed.

(** a step of the merging thread *)
Lemma thr_adv p g l t p' g' l' t' : pok p g l t -> pok p' g' l' t' -> pstep T K (PThr 0) p = Ok p' ->
  p_main p' = p_main p /\ b_m g' = b_m g /\ (p_nw p = false -> p_nw p' = false) /\
  (p_nw p = true -> p_nw p' = false \/ p_nw p' = true /\ ttime t' g' < ttime t g).
Proof.
  intros P Q. pose proof (reach_inv _ (po_re _ _ _ _ P)) as V. pose proof (po_gs _ _ _ _ P) as G. pose proof (po_nw _ _ _ _ P) as W.
  pose proof (po_run _ _ _ _ P) as R. pose proof (po_off _ _ _ _ P) as O. pose proof (po_gs _ _ _ _ Q) as G'.
  cbn [pstep]. rewrite G. cbn [nth_error].
  assert (PR : p_nw p = true -> p_run p = true).
  { intros X. destruct (p_run p); auto. destruct (O eq_refl) as [_ Y]. congruence. }
  destruct t.
  - intros E; injection E as <-. cbn in G' |- *. injection G' as <- <- <-. repeat split; auto. intros X. rewrite (PR X). right. split; [auto|cbn; lia].
  - destruct (p_nw p || negb (p_run p)) eqn:C.
    + intros E; injection E as <-. cbn in G' |- *. injection G' as <- <- <-. repeat split; auto.
    + apply orb_false_iff in C. intros E; injection E as <-. destruct (pok_fun _ _ _ _ _ _ _ P Q) as [-> [-> ->]]. repeat split; auto. destruct C; congruence.
  - destruct (p_run p) eqn:ER.
    + intros E; injection E as <-. cbn in G' |- *. injection G' as <- <- <-. repeat split; auto.
    + intros E; injection E as <-. cbn in G' |- *. injection G' as <- <- <-. repeat split; auto. intros X. specialize (PR X). discriminate.
  - pose proof (po_in _ _ _ _ P eq_refl) as NP. pose proof (work_nw g V NP) as WT.
    assert (PRT : p_run p = true) by (apply PR; congruence). destruct (R PRT) as [_ [_ [-> _]]]. rewrite set_nw_id by auto.
    destruct (back_ok T K L n Hn HT g V) as (g1 & E1 & V1). rewrite E1. cbn [obind]. pose proof (back_m _ _ E1) as M1.
    destruct (back_poll _ _ E1 NP) as [BP1 BP2].
    assert (BT : b_b g <> BDone -> b_nw g1 = true /\ btime K (b_b g1) < btime K (b_b g)).
    { intros ND. destruct (BP2 ND) as [_ X]. destruct (back_time T K L n Hn HT g g1 V WT E1) as [_ [Y|Y]]; [congruence|exact Y]. }
    assert (FIN : forall p1, b_b g <> BDone -> Ok (mkproc (b_nw g1) (p_run p) [mkslot g1 true TIn] (p_main p)) = Ok p1 -> p1 = p' ->
       p_main p' = p_main p /\ b_m g' = b_m g /\ (p_nw p = false -> p_nw p' = false) /\ (p_nw p = true -> p_nw p' = false \/ p_nw p' = true /\ ttime t' g' < ttime TIn g)).
    { intros p1 ND E Ep. injection E as <-. rewrite <- Ep in *. cbn in G' |- *. injection G' as <- <- <-. destruct (BT ND). repeat split; auto; congruence. }
    assert (DN : b_b g = BDone \/ b_b g <> BDone) by (destruct (b_b g); auto; right; discriminate).
    destruct DN as [DN|DN].
    + rewrite DN. intros E; injection E as <-. cbn in G' |- *. injection G' as <- <- <-. destruct (BP1 DN) as [X Y]. repeat split; auto.
    + destruct (b_b g) eqn:EB; try congruence; cbn [upd]; try (intros E; apply (FIN p'); [exact DN|exact E|reflexivity]).
      destruct (b_msz g =? 0)%N; [discriminate|]. intros E; apply (FIN p'); [exact DN|exact E|reflexivity].
  - intros E; injection E as <-. destruct (pok_fun _ _ _ _ _ _ _ P Q) as [-> [-> ->]]. repeat split; auto.
    intros X. destruct (R (PR X)) as [Y _]. congruence.
Qed.

(** a step of the calling thread *)
Lemma main_adv p g l t p' g' l' t' : pok p g l t -> pok p' g' l' t' -> pstep T K PMain p = Ok p' -> p_main p <> PIdle ->
  ttime t' g' = ttime t g /\ (p_nw p = true -> p_nw p' = true) /\ (pfree p g -> pfree p' g' /\ pmtime p' g' < pmtime p g).
Proof.
  intros P Q. pose proof (reach_inv _ (po_re _ _ _ _ P)) as V. pose proof (po_gs _ _ _ _ P) as G. pose proof (po_nw _ _ _ _ P) as W.
  pose proof (po_main _ _ _ _ P) as M. pose proof (po_gs _ _ _ _ Q) as G'.
  cbn [pstep]. rewrite G. destruct (p_main p) eqn:EM; try congruence.
  - destruct M as [-> [-> NE]]. cbn [nth_error]. rewrite set_nw_id by auto.
    destruct (main_step true T K g) as [g1|] eqn:E1; cbn [obind]; try discriminate. intros E _; injection E as <-. cbn in G' |- *. injection G' as <- <- <-.
    destruct (main_frame true T K L n Hn g g1 V E1) as [B1 W1]. split; [destruct t; cbn [ttime]; congruence|]. split; [intros; apply W1; congruence|].
    unfold pfree, pmtime. cbn [p_nw p_main]. rewrite EM. intros FR.
    assert (PM : forall m, m = main_of K 0 g1 -> match m with PIdle => 0 | PIn _ => mtime (b_m g1) | PWait _ => 3 | PStop _ => 2 | PClose _ => 1 end = mtime (b_m g1)).
    { intros m ->. pose proof (main_of_idle g1 0) as MO. destruct (main_of K 0 g1); try (destruct MO; fail); auto. unfold idle in MO. rewrite MO. reflexivity. }
    rewrite (PM _ eq_refl).
    destruct (main_time true T K L n Hn g g1 V NE E1) as [[_ [X ->]]|[X1 [_ [X2 X3]]]].
    + exfalso. destruct FR as [FR|FR]; [congruence|].
      destruct (call_ends true T K L n Hn HT (repeat AMain 1) g V) as (pp & q & g2 & E2 & E3 & E4).
      { repeat constructor. } { right; right; auto. } { cbn; lia. }
      destruct pp as [|a pp]; [cbn in E3; injection E3 as <-; congruence|]. cbn in E2. injection E2 as <- E2. destruct pp; [|discriminate].
      cbn [run step] in E3. rewrite E1 in E3. cbn in E3. injection E3 as <-. congruence.
    + split; [|exact X1]. destruct FR as [FR|FR]; [apply X3; congruence|right; lia].
  - destruct (p_nw p) eqn:WP; intros E _; injection E as <-.
    + destruct (pok_fun _ _ _ _ _ _ _ P Q) as [-> [-> ->]]. split; [auto|]. split; [auto|]. unfold pfree, pmtime. rewrite EM, WP. intros [X|X]; [discriminate|lia].
    + cbn in G' |- *. injection G' as <- <- <-. split; [auto|]. split; [auto|]. unfold pfree, pmtime. cbn [p_nw p_main]. rewrite EM. split; [auto|lia].
  - intros E _; injection E as <-. cbn in G' |- *. injection G' as <- <- <-. split; [auto|]. split; [auto|]. unfold pfree, pmtime. cbn [p_nw p_main]. rewrite EM.
    split; [|lia]. left. eapply (po_stop _ _ _ _ P); eauto.
  - destruct M as [-> _]. cbn [nth_error]. intros E _; injection E as <-. cbn in G' |- *. injection G' as <- <- <-. split; [auto|]. split; [auto|].
    unfold pfree, pmtime. cbn [p_nw p_main]. rewrite EM. split; [|lia]. right. lia.
Qed.
(** other actions do nothing while a call is in progress *)
Lemma other_adv p a : p_main p <> PIdle -> match a with PMain | PThr _ => True | _ => pstep T K a p = Ok p end.
Proof. intros NI. destruct a; cbn [pstep]; auto; destruct (p_main p); auto; congruence. Qed.
Lemma thr_other p g l t i : pok p g l t -> i <> 0 -> pstep T K (PThr i) p = Ok p.
Proof. intros P Ni. cbn [pstep]. rewrite (po_gs _ _ _ _ P). destruct i as [|[|]]; [congruence| |]; reflexivity. Qed.

Lemma pcall_ends s : forall p g l t, pok p g l t -> Forall one s -> pfree p g -> pmtime p g <= pmains s ->
  exists s1 s2 p', s = s1 ++ s2 /\ prun T K s1 p = Ok p' /\ p_main p' = PIdle.
Proof.
  induction s as [|a s IH]; intros p g l t P F FR Le.
  - exists [], [], p. split; [auto|]. split; [auto|]. cbn in Le. pose proof (po_main _ _ _ _ P) as M. unfold pmtime in Le.
    destruct (p_main p); auto; try lia. exfalso. destruct M as [_ [_ M]]. apply M. unfold idle.
    pose proof (bi_m _ _ _ _ _ (reach_inv _ (po_re _ _ _ _ P))) as MF. unfold mfact in MF. destruct (b_m g); cbn in *; try lia; auto; destruct MF.
  - assert (D : p_main p = PIdle \/ p_main p <> PIdle) by (destruct (p_main p); auto; right; discriminate).
    destruct D as [D|D]; [exists [], (a :: s), p; auto|].
    inversion F as [|? ? Fa Fs]; subst. destruct (pok_step p g l t a P Fa) as (p1 & g1 & l1 & t1 & E1 & P1).
    assert (X : pmtime p1 g1 <= pmains s /\ pfree p1 g1).
    { pose proof (other_adv p a D) as OA. destruct a as [m|i c|i| |i]; cbn [pmains] in *; try (rewrite OA in E1; injection E1 as <-; destruct (pok_fun _ _ _ _ _ _ _ P P1) as [-> [-> ->]]; auto; fail).
      - destruct (main_adv _ _ _ _ _ _ _ _ P P1 E1 D) as [_ [_ X]]. destruct (X FR). split; [lia|auto].
      - destruct i as [|i].
        + destruct (thr_adv _ _ _ _ _ _ _ _ P P1 E1) as [X1 [X2 [X3 _]]]. unfold pfree, pmtime in *. rewrite X1, X2. split; [auto|]. tauto.
        + rewrite (thr_other _ _ _ _ _ P) in E1 by discriminate. injection E1 as <-. destruct (pok_fun _ _ _ _ _ _ _ P P1) as [-> [-> ->]]. auto. }
    destruct X as [X FR1]. destruct (IH p1 _ _ _ P1 Fs FR1 X) as (s1 & s2 & p' & -> & Er & Ew). exists (a :: s1), s2, p'. cbn [prun app]. rewrite E1. auto.
Qed.
Lemma pwait_ends s : forall p g l t, pok p g l t -> Forall one s -> ttime t g <= thrs s ->
  (exists s1 s2 p', s = s1 ++ s2 /\ prun T K s1 p = Ok p' /\ p_main p' = PIdle) \/
  (exists p' g' l' t', prun T K s p = Ok p' /\ pok p' g' l' t' /\ pfree p' g').
Proof.
  assert (ST : forall s p g l t, pok p g l t -> Forall one s -> pfree p g \/ p_nw p = true /\ ttime t g <= thrs s ->
     (exists s1 s2 p', s = s1 ++ s2 /\ prun T K s1 p = Ok p' /\ p_main p' = PIdle) \/ (exists p' g' l' t', prun T K s p = Ok p' /\ pok p' g' l' t' /\ pfree p' g')).
  { clear s. induction s as [|a s IH]; intros p g l t P F C.
    - right. exists p, g, l, t. split; [auto|]. split; [auto|]. destruct C as [C|[C1 C2]]; [auto|]. exfalso. cbn in C2.
      pose proof (reach_inv _ (po_re _ _ _ _ P)) as V.
      assert (RT : p_run p = true) by (destruct (p_run p) eqn:X; auto; destruct (po_off _ _ _ _ P X); congruence).
      destruct (po_run _ _ _ _ P RT) as [N1 _]. destruct t; cbn [ttime] in C2; try lia; [|congruence].
      pose proof (st_b _ _ _ _ _ _ _ _ _ _ _ (bi_st _ _ _ _ _ V)) as B. unfold bfact in B. rewrite (po_nw _ _ _ _ P), C1 in B.
      destruct (b_b g); cbn [btime] in C2; try lia; exact B.
    - assert (D : p_main p = PIdle \/ p_main p <> PIdle) by (destruct (p_main p); auto; right; discriminate).
      destruct D as [D|D]; [left; exists [], (a :: s), p; auto|].
      inversion F as [|? ? Fa Fs]; subst. destruct (pok_step p g l t a P Fa) as (p1 & g1 & l1 & t1 & E1 & P1).
      assert (C1 : pfree p1 g1 \/ p_nw p1 = true /\ ttime t1 g1 <= thrs s).
      { pose proof (other_adv p a D) as OA. destruct a as [m|i c|i| |i]; cbn [thrs] in *; try (rewrite OA in E1; injection E1 as <-; destruct (pok_fun _ _ _ _ _ _ _ P P1) as [-> [-> ->]]; auto; fail).
        - destruct (main_adv _ _ _ _ _ _ _ _ P P1 E1 D) as [X1 [X2 X3]]. destruct C as [C|[C1 C2]]; [left; apply X3, C|right; split; [auto|lia]].
        - destruct i as [|i].
          + destruct (thr_adv _ _ _ _ _ _ _ _ P P1 E1) as [X1 [X2 [X3 X4]]]. destruct C as [C|[C1 C2]].
            * left. unfold pfree, pmtime in *. rewrite X1, X2. tauto.
            * destruct (X4 C1) as [X|[X Y]]; [left; left; auto|right; split; [auto|lia]].
          + rewrite (thr_other _ _ _ _ _ P) in E1 by discriminate. injection E1 as <-. destruct (pok_fun _ _ _ _ _ _ _ P P1) as [-> [-> ->]]. auto. }
      destruct (IH p1 _ _ _ P1 Fs C1) as [(s1 & s2 & p' & -> & Er & Ew)|(p' & g' & l' & t' & Er & Q & FR)].
      + left. exists (a :: s1), s2, p'. cbn [prun app]. rewrite E1. auto.
      + right. exists p', g', l', t'. cbn [prun]. rewrite E1. auto. }
  intros p g l t P F Le. apply (ST s p g l t P F). destruct (p_nw p) eqn:W; [right; auto|left; left; auto].
Qed.

(** ** After the destructor *)
Lemma dead_end s : forall p g t, pok p g false t -> Forall one s -> 3 <= thrs s ->
  exists p' g', prun T K s p = Ok p' /\ pok p' g' false TEnd.
Proof.
  set (r t := match t with THead => 1 | TWait => 2 | TCheck => 1 | _ => 0 end).
  assert (G : forall s p g t, pok p g false t -> Forall one s -> r t <= thrs s -> exists p' g', prun T K s p = Ok p' /\ pok p' g' false TEnd).
  { clear s. induction s as [|a s IH]; intros p g t P F Le.
    - cbn in Le. exists p, g. split; [auto|].
      assert (RF : p_run p = false) by (destruct (p_run p) eqn:X; auto; destruct (po_run _ _ _ _ P X) as [_ [_ [Y _]]]; congruence).
      destruct (po_off _ _ _ _ P RF) as [_ WF].
      destruct t; cbn [r] in Le; try lia; auto. exfalso.
      pose proof (po_in _ _ _ _ P eq_refl) as NP. pose proof (work_nw g (reach_inv _ (po_re _ _ _ _ P)) NP). rewrite (po_nw _ _ _ _ P) in *. congruence.
    - inversion F as [|? ? Fa Fs]; subst. destruct (pok_step p g false t a P Fa) as (p1 & g1 & l1 & t1 & E1 & P1).
      assert (RF : p_run p = false) by (destruct (p_run p) eqn:X; auto; destruct (po_run _ _ _ _ P X) as [_ [_ [Y _]]]; congruence).
      destruct (po_off _ _ _ _ P RF) as [[[_ X]|[PI _]] WF]; [discriminate|].
      assert (C : l1 = false /\ r t1 <= thrs s).
      { assert (SM : p1 = p -> r t <= thrs s -> l1 = false /\ r t1 <= thrs s) by (intros -> Le'; destruct (pok_fun _ _ _ _ _ _ _ P P1) as [-> [-> ->]]; auto).
        pose proof (po_gs _ _ _ _ P) as Gs. pose proof (po_gs _ _ _ _ P1) as Gs1. destruct a as [m|i c|i| |i]; cbn [thrs one] in *.
        - destruct Fa.
        - cbn [pstep] in E1. rewrite PI, Gs in E1. destruct i as [|[|]]; cbn in E1; injection E1 as <-; auto.
        - cbn [pstep] in E1. rewrite PI, Gs in E1. destruct i as [|[|]]; cbn in E1; injection E1 as <-; auto.
        - cbn [pstep] in E1. rewrite PI in E1. injection E1 as <-; auto.
        - destruct i as [|i].
          + cbn [pstep] in E1. rewrite Gs, RF in E1. cbn [nth_error] in E1. rewrite orb_true_r in E1.
            destruct t; try (injection E1 as <-; cbn in Gs1; injection Gs1 as <- <- <-; cbn [r] in *; split; [auto|lia]; fail); [discriminate|].
            injection E1 as <-. apply SM; auto. cbn [r]. lia.
          + rewrite (thr_other _ _ _ _ _ P) in E1 by discriminate. injection E1 as <-. auto. }
      destruct C as [-> C]. destruct (IH p1 g1 t1 P1 Fs C) as (p' & g' & Er & Q). exists p', g'. cbn [prun]. rewrite E1. auto. }
  intros p g t P F Le. apply (G s p g t P F). destruct t; cbn [r]; lia.
Qed.
End One.
