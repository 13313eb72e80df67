(** * BgTime: progress of the two threads, and data races. *)
From Verif Require Import Base Spec Thresholds K2 C0 C0Proof DK DKProof DKHist Delay MunroProof BgSpec Bg BgProof.

Section Time.
Context (wt : bool) (T : thresholds) (K : k2impl) (L : k2laws K) (n : N) (Hn : (2 <= n)%N) (HT : th_top T).
Local Notation bg := (bg K).
Local Notation inv := (inv T K L n).
Local Notation act_in := (act_in n).

(** ** The merging thread *)
Definition btime (b : bpc K) : nat :=
  match b with
  | BPoll => 15 | BBuild => 14 | BClear _ => 13 | BLevel _ => 12
  | BMerge _ i j => 3 + (S i - j) | BStore _ _ => 2 | BDone => 1 | BDead => 0
  end.
Lemma btime_15 g : inv g -> btime (b_b g) <= 15.
Proof.
  intros V. pose proof (bi_st _ _ _ _ _ V) as S. pose proof (st_b _ _ _ _ _ _ _ _ _ _ _ S) as F. pose proof (st_maxr _ _ _ _ _ _ _ _ _ _ _ S) as R.
  unfold bfact in F. destruct (b_b g); cbn [btime]; try lia. destruct (b_nw g); [|discriminate]. unfold RS in R. lia.
Qed.
Lemma back_time g g' : inv g -> b_nw g = true -> back_step T K g = Ok g' -> b_m g' = b_m g /\ (b_nw g' = false \/ b_nw g' = true /\ btime (b_b g') < btime (b_b g)).
Proof.
  intros V W. pose proof (bi_st _ _ _ _ _ V) as S. pose proof (st_b _ _ _ _ _ _ _ _ _ _ _ S) as F. pose proof (st_maxr _ _ _ _ _ _ _ _ _ _ _ S) as R.
  pose proof (st_ok _ _ _ _ _ _ _ _ _ _ _ S) as [KL _].
  unfold bfact in F. rewrite W in F. unfold back_step. rewrite W. unfold RS in *. destruct (b_b g) eqn:EB.
  - intros E. injection E as <-. gcbn. rewrite W. split; [auto|]. right. split; [auto|]. cbn [btime]; lia.
  - intros E. injection E as <-. gcbn. rewrite W. split; [auto|]. right. split; [auto|]. cbn [btime]; lia.
  - intros E. injection E as <-. gcbn. rewrite W. split; [auto|]. right. split; [auto|]. cbn [btime]; lia.
  - unfold maxsz. destruct (b_msz g =? 1)%N; [discriminate|]. cbn [obind]. destruct (find_level T K (b_msz g) (b_ks g) 0 _) as [i|] eqn:Ef.
    + intros E. injection E as <-. gcbn. rewrite W. split; [auto|]. right. split; [auto|]. cbn [btime].
      apply (find_level_range T K n Hn) in Ef. lia.
    + exfalso. destruct (back_ok T K L n Hn HT g V) as (g'' & E & V'). unfold back_step in E. rewrite EB in E. unfold maxsz in E.
      pose proof (st_b _ _ _ _ _ _ _ _ _ _ _ (bi_st _ _ _ _ _ V')) as F'. destruct (N.eqb_spec (b_msz g) 1) as [E1|]; [cbn in E; discriminate|]. cbn [obind] in E.
      rewrite Ef in E. injection E as <-. gcbn. rewrite W in F'. exact F'.
  - destruct F as [_ [_ [F3 [F4 _]]]]. destruct (Nat.leb_spec j i) as [Lj|Lj].
    + destruct (nth_error (b_ks g) j) as [[s|]|]; [| |discriminate]; intros E; injection E as <-; gcbn; rewrite W; (split; [auto|]); right; (split; [auto|]); cbn [btime]; lia.
    + intros E. injection E as <-. gcbn. rewrite W. split; [auto|]. right. split; [auto|]. cbn [btime]; lia.
  - destruct (i <? length (b_ks g)); [|discriminate]. intros E. injection E as <-. gcbn. rewrite W. split; [auto|]. right. split; [auto|]. cbn [btime]; lia.
  - intros E. injection E as <-. gcbn. auto.
  - destruct F.
Qed.

(** ** The caller's thread *)
Definition mtime (m : mpc) : nat :=
  match m with
  | MIdle => 0
  | MClean _ => 1 | MFlag _ => 2 | MCopy _ j => 3 + (8 - j) | MPush _ => 12 | MBusy _ => 13 | MIns _ => 14
  | MScan _ _ i => 15 + (8 - i) | MHas _ _ => 24
  | MNb _ _ _ l => 1 + (8 - l) | MNbr _ _ => 10
  | MWait _ | MErase _ => 0
  end.
Lemma mtime_24 m : mtime m <= 24.
Proof. destruct m; cbn [mtime]; lia. Qed.
Lemma has_end_time (g g' : bg) k e b busy : b_todo g = None -> has_end K g k e b busy = Ok g' ->
  b_nw g' = b_nw g /\ b_b g' = b_b g /\ mtime (b_m g') <= 14.
Proof.
  intros E. unfold has_end. destruct k; [destruct b|].
  - rewrite ins_end_ok by auto. intros X. injection X as <-. cbn. auto with arith.
  - intros X. injection X as <-. cbn. auto.
  - intros X. injection X as <-. cbn. auto with arith.
Qed.
Lemma main_time g g' : inv g -> b_m g <> MIdle -> main_step wt T K g = Ok g' ->
  (wt = true /\ b_nw g = true /\ g' = g) \/ mtime (b_m g') < mtime (b_m g) /\ b_b g' = b_b g /\ (b_nw g = true -> b_nw g' = true) /\
    (b_nw g = false -> b_nw g' = false \/ mtime (b_m g') <= 1).
Proof.
  intros V NI. pose proof (bi_m _ _ _ _ _ V) as M. unfold mfact in M. unfold main_step.
  pose proof (bi_st _ _ _ _ _ V) as S. pose proof (st_maxr _ _ _ _ _ _ _ _ _ _ _ S) as R.
  pose proof (st_ok _ _ _ _ _ _ _ _ _ _ _ S) as [KL _]. pose proof (bi_todo _ _ _ _ _ V) as TD. unfold RS in *.
  assert (HE : forall k e b busy g', has_end K g k e b busy = Ok g' -> 15 <= mtime (b_m g) ->
     mtime (b_m g') < mtime (b_m g) /\ b_b g' = b_b g /\ (b_nw g = true -> b_nw g' = true) /\ (b_nw g = false -> b_nw g' = false \/ mtime (b_m g') <= 1)).
  { intros k e b busy g1 X Le. apply has_end_time in X; auto. destruct X as [X1 [X2 X3]]. split; [lia|]. split; [auto|]. split; [congruence|left; congruence]. }
  assert (D : (wt = true /\ b_nw g = true /\ exists e, b_m g = MBusy e) \/ (forall e, b_m g = MBusy e -> b_nw g = true -> wt = false)).
  { destruct wt, (b_nw g); auto; try (right; intros; congruence). destruct (b_m g); try (right; intros; congruence). left. eauto. }
  destruct D as [[D1 [D2 [e D3]]]|D].
  { rewrite D3, D2, D1. intros X. injection X as <-. auto. }
  intros X; right; revert X. destruct (b_m g) eqn:Em; cbn [mtime] in *; try congruence;
    try (intros X; injection X as <-; gcbn; cbn [mtime]; split; [lia|]; auto; fail).
  - destruct (b_nw g) eqn:W.
    + destruct (eeqb (b_tmp g) e); [intros X; apply HE in X; [auto|lia]|]. destruct (b_mrb g <? length (b_copy g)); [|discriminate].
      intros X; apply HE in X; [auto|lia].
    + intros X. injection X as <-. gcbn. cbn [mtime]. split; [lia|]. split; [auto|]. split; [congruence|auto].
  - destruct (Nat.leb_spec i (b_maxr g)).
    + destruct (nth_error (b_ks g) i) as [[t|]|]; [|intros X; injection X as <-; gcbn; cbn [mtime]; split; [lia|]; auto|discriminate].
      destruct (kt_adj K t (fst e) (snd e)); [intros X; apply HE in X; [auto|lia]|].
      intros X; injection X as <-; gcbn; cbn [mtime]; split; [lia|]; auto.
    + intros X; apply HE in X; [auto|lia].
  - unfold maxsz. destruct (N.max (b_n g) (b_nt g) =? 1)%N; [discriminate|]. cbn [obind].
    destruct (N.of_nat (c0_size (b_c0 g)) <? _)%N.
    + destruct (c0_insert T (b_c0 g) e (b_nt g)); [|discriminate]. cbn [obind]. rewrite ins_end_ok by auto. intros X; injection X as <-; gcbn; cbn [mtime]; split; [lia|]; auto.
    + intros X; injection X as <-; gcbn; cbn [mtime]; split; [lia|]; auto.
  - destruct (b_nw g) eqn:W.
    + rewrite (D e eq_refl eq_refl). destruct (c0_insert T _ e (b_nt g)); [|discriminate]. cbn [obind]. rewrite ins_end_ok by auto.
      intros X; injection X as <-; gcbn; cbn [mtime]; split; [lia|]. split; [auto|]. split; [auto|congruence].
    + intros X; injection X as <-; gcbn; cbn [mtime]; split; [lia|]; split; [auto|]. split; [congruence|auto].
  - destruct (c0_converted (b_c0 g)); [|discriminate]. cbn [obind]. intros X; injection X as <-; gcbn; cbn [mtime]; split; [lia|]; auto.
  - destruct (nth_error (b_ks g) j) eqn:Ej.
    + assert (j < 8) by (rewrite <- KL; apply nth_error_Some; congruence). intros X; injection X as <-; gcbn; cbn [mtime]; split; [lia|]; auto.
    + intros X; injection X as <-; gcbn; cbn [mtime]; split; [lia|]; auto.
  - destruct (c0_clean (b_c0 g)); [|discriminate]. cbn [obind]. rewrite ins_end_ok by auto. intros X; injection X as <-; gcbn; cbn [mtime]; split; [lia|]; auto.
  - destruct (b_nw g) eqn:W; intros X; injection X as <-; gcbn; cbn [mtime]; rewrite ?W; (split; [lia|]); (split; [auto|]); (split; [congruence|auto]).
  - destruct M as [_ [M2 _]]. destruct (Nat.leb_spec l (b_maxr g)).
    + destruct (nth_error (if busy then b_copy g else b_ks g) l) as [[t|]|]; [| |discriminate]; intros X; injection X as <-; gcbn; cbn [mtime]; (split; [lia|]); auto.
    + intros X; injection X as <-; gcbn; cbn [mtime]; split; [lia|]; auto.
  - destruct M.
  - destruct M.
Qed.
Lemma call_time (g g' : bg) c : inv g -> call_in n c -> call_step K c g = Ok g' -> b_b g' = b_b g /\ b_nw g' = b_nw g /\ (b_m g <> MIdle -> g' = g).
Proof.
  intros V R. pose proof (bi_todo _ _ _ _ _ V) as TD. unfold call_step.
  destruct (b_m g); try (intros X; injection X as <-; auto; fail). destruct c as [e|e|x|e].
  - unfold start, fuel_of. rewrite TD. cbn [ins_start]. destruct (c0_contains (b_c0 g) e) as [[]|]; cbn [obind]; [| |discriminate].
    + unfold ins_done. rewrite TD. intros X; injection X as <-. gcbn. repeat split; auto; congruence.
    + intros X; injection X as <-. gcbn. repeat split; auto; congruence.
  - destruct (c0_contains (b_c0 g) e) as [[]|]; cbn [obind]; [| |discriminate]; intros X; injection X as <-; gcbn; repeat split; auto; congruence.
  - destruct (c0_neigh (b_c0 g) x); cbn [obind]; [|discriminate]. intros X; injection X as <-. gcbn. repeat split; auto; congruence.
  - destruct R.
Qed.

(** ** Progress, whatever the other thread does *)
Fixpoint backs (s : list act) : nat := match s with [] => 0 | ABack :: s => S (backs s) | _ :: s => backs s end.
Fixpoint mains (s : list act) : nat := match s with [] => 0 | AMain :: s => S (mains s) | _ :: s => mains s end.

Lemma main_frame g g' : inv g -> main_step wt T K g = Ok g' -> b_b g' = b_b g /\ (b_nw g = true -> b_nw g' = true).
Proof.
  intros V E. destruct (b_m g) eqn:Em; try (apply main_time in E; [|auto|congruence]; destruct E as [[_ [_ ->]]|E]; [auto|tauto]).
  unfold main_step in E. rewrite Em in E. injection E as <-. auto.
Qed.
Lemma merge_ends s : forall g, inv g -> Forall act_in s -> btime (b_b g) <= backs s ->
  exists p q g', s = p ++ q /\ run wt T K p g = Ok g' /\ b_nw g' = false.
Proof.
  induction s as [|a s IH]; intros g V F Le; destruct (b_nw g) eqn:W.
  - exfalso. cbn in Le. pose proof (st_b _ _ _ _ _ _ _ _ _ _ _ (bi_st _ _ _ _ _ V)) as B. unfold bfact in B. rewrite W in B.
    destruct (b_b g); cbn in *; try lia; exact B.
  - exists [], [], g. auto.
  - inversion F as [|? ? Fa Fs]; subst. destruct (step_ok wt T K L n Hn HT g a V Fa) as (g1 & E1 & V1).
    assert (X : b_nw g1 = false \/ btime (b_b g1) <= backs s).
    { destruct a as [c| |]; cbn [step backs] in *.
      - apply call_time in E1; auto. destruct E1 as [-> _]. auto.
      - apply main_frame in E1; auto. destruct E1 as [-> _]. auto.
      - apply back_time in E1; auto. destruct E1 as [_ [?|[_ ?]]]; [auto|right; lia]. }
    destruct X as [X|X].
    + exists [a], s, g1. cbn [run]. rewrite E1. auto.
    + destruct (IH g1 V1 Fs X) as (p & q & g' & -> & Er & Ew). exists (a :: p), q, g'. cbn [run app]. rewrite E1. auto.
  - exists [], (a :: s), g. auto.
Qed.

(** the call does not wait: it is not in DKtree_background_wait, or no merge is going on, or it just started one *)
Definition free (g : bg) : Prop := wt = false \/ b_nw g = false \/ mtime (b_m g) <= 1.
Lemma back_frame g g' : inv g -> back_step T K g = Ok g' -> b_m g' = b_m g /\ (b_nw g = false -> b_nw g' = false).
Proof.
  intros V E. destruct (b_nw g) eqn:W.
  - apply back_time in E; auto. destruct E as [-> _]. split; [auto|discriminate].
  - pose proof (st_b _ _ _ _ _ _ _ _ _ _ _ (bi_st _ _ _ _ _ V)) as B. unfold bfact in B. rewrite W in B.
    unfold back_step in E. rewrite B, W in E. injection E as <-. auto.
Qed.
Lemma call_ends s : forall g, inv g -> Forall act_in s -> free g -> mtime (b_m g) <= mains s ->
  exists p q g', s = p ++ q /\ run wt T K p g = Ok g' /\ b_m g' = MIdle.
Proof.
  induction s as [|a s IH]; intros g V F FR Le.
  - exists [], [], g. split; [auto|]. split; [auto|]. cbn in Le. pose proof (bi_m _ _ _ _ _ V) as M. unfold mfact in M.
    destruct (b_m g); cbn in *; try lia; auto; destruct M.
  - assert (D : b_m g = MIdle \/ b_m g <> MIdle) by (destruct (b_m g); auto; right; discriminate).
    destruct D as [D|D]; [exists [], (a :: s), g; auto|].
    inversion F as [|? ? Fa Fs]; subst. destruct (step_ok wt T K L n Hn HT g a V Fa) as (g1 & E1 & V1).
    assert (X : mtime (b_m g1) <= mains s /\ free g1).
    { destruct a as [c| |]; cbn [step mains] in *.
      - apply call_time in E1; auto. destruct E1 as [_ [_ E1]]. rewrite E1; auto.
      - unfold free in *. pose proof E1 as E1'. apply main_time in E1; auto. destruct E1 as [[X1 [X2 ->]]|E1].
        + destruct FR as [FR|[FR|FR]]; [congruence|congruence|]. exfalso. unfold main_step in E1'.
          pose proof (bi_m _ _ _ _ _ V) as M. unfold mfact in M. pose proof (st_maxr _ _ _ _ _ _ _ _ _ _ _ (bi_st _ _ _ _ _ V)) as R. unfold RS in R.
          destruct (b_m g) eqn:Em; cbn [mtime] in FR; try lia; try congruence; try (destruct M; fail).
          * destruct (c0_clean (b_c0 g)); cbn [obind] in E1'; [|discriminate]. rewrite ins_end_ok in E1' by apply (bi_todo _ _ _ _ _ V).
            injection E1' as E1'. apply (f_equal b_m) in E1'. rewrite Em in E1'. discriminate.
          * destruct (Nat.leb_spec l (b_maxr g)); [lia|]. injection E1' as E1'. apply (f_equal b_m) in E1'. rewrite Em in E1'. discriminate.
        + destruct E1 as [E1 [_ [_ E2]]]. split; [lia|]. destruct FR as [FR|[FR|FR]]; [auto|right; auto|right; right; lia].
      - apply back_frame in E1; auto. destruct E1 as [X1 X2]. unfold free in *. rewrite X1. split; [auto|]. tauto. }
    destruct X as [X FR1].
    destruct (IH g1 V1 Fs FR1 X) as (p & q & g' & -> & Er & Ew). exists (a :: p), q, g'. cbn [run app]. rewrite E1. auto.
Qed.
(** In DKtree_background_wait: once the merging thread has had 15 steps, no call waits. *)
Lemma wait_ends s : forall g, inv g -> Forall act_in s -> btime (b_b g) <= backs s ->
  (exists p q g', s = p ++ q /\ run wt T K p g = Ok g' /\ b_m g' = MIdle) \/
  (exists g', run wt T K s g = Ok g' /\ inv g' /\ free g').
Proof.
  assert (FR : forall s g, inv g -> Forall act_in s -> free g ->
     (exists p q g', s = p ++ q /\ run wt T K p g = Ok g' /\ b_m g' = MIdle) \/ (exists g', run wt T K s g = Ok g' /\ inv g' /\ free g')).
  { clear s. induction s as [|a s IH]; intros g V F FR; [right; exists g; auto|].
    assert (D : b_m g = MIdle \/ b_m g <> MIdle) by (destruct (b_m g); auto; right; discriminate).
    destruct D as [D|D]; [left; exists [], (a :: s), g; auto|].
    inversion F as [|? ? Fa Fs]; subst. destruct (step_ok wt T K L n Hn HT g a V Fa) as (g1 & E1 & V1).
    assert (FR1 : free g1).
    { destruct a as [c| |]; cbn [step] in *.
      - apply call_time in E1; auto. destruct E1 as [_ [_ E1]]. rewrite E1; auto.
      - unfold free in *. apply main_time in E1; auto. destruct E1 as [[X1 [X2 ->]]|E1]; [auto|].
        destruct E1 as [E1 [_ [_ E2]]]. destruct FR as [FR|[FR|FR]]; [auto|right; auto|right; right; lia].
      - apply back_frame in E1; auto. destruct E1 as [X1 X2]. unfold free in *. rewrite X1. tauto. }
    destruct (IH g1 V1 Fs FR1) as [(p & q & g' & -> & Er & Ew)|(g' & Er & Ew)].
    - left. exists (a :: p), q, g'. cbn [run app]. rewrite E1. auto.
    - right. exists g'. cbn [run]. rewrite E1. auto. }
  intros g V F Le. destruct (merge_ends s g V F Le) as (p & q & g' & -> & Er & Ew). apply Forall_app in F. destruct F as [F1 F2].
  destruct (run_ok wt T K L n Hn HT p g V F1) as (g0 & E0 & V0). rewrite Er in E0. injection E0 as <-.
  destruct (FR q g' V0 F2) as [(p' & q' & g1 & -> & E1 & M1)|(g1 & E1 & X)].
  - right; left; auto.
  - left. exists (p ++ p'), q', g1. rewrite app_assoc. split; [auto|]. rewrite run_app, Er. auto.
  - right. exists g1. rewrite run_app, Er. auto.
Qed.

(** ** Asking when nothing else runs *)
Lemma backs_idle k : forall g, inv g -> btime (b_b g) <= k -> b_m g = MIdle ->
  exists g', run wt T K (repeat ABack k) g = Ok g' /\ inv g' /\ b_nw g' = false /\ b_m g' = MIdle /\ b_log g' = b_log g.
Proof.
  assert (LG : forall g g', back_step T K g = Ok g' -> b_log g' = b_log g).
  { intros g g'. unfold back_step. destruct (b_b g); try (intros E; injection E as <-; reflexivity).
    - destruct (b_nw g); intros E; injection E as <-; reflexivity.
    - unfold maxsz. destruct (b_msz g =? 1)%N; [discriminate|]. cbn [obind]. destruct (find_level _ _ _ _ _ _); intros E; injection E as <-; reflexivity.
    - destruct (j <=? i); [|intros E; injection E as <-; reflexivity]. destruct (nth_error _ _) as [[|]|]; [| |discriminate]; intros E; injection E as <-; reflexivity.
    - destruct (i <? _); [|discriminate]. intros E; injection E as <-; reflexivity. }
  assert (ID : forall k g, inv g -> b_nw g = false -> run wt T K (repeat ABack k) g = Ok g).
  { clear k. induction k as [|k IHk]; intros g V W; [reflexivity|]. cbn [repeat run step].
    pose proof (st_b _ _ _ _ _ _ _ _ _ _ _ (bi_st _ _ _ _ _ V)) as B. unfold bfact in B. rewrite W in B.
    unfold back_step. rewrite B, W. cbn [obind]. apply IHk; auto. }
  induction k as [|k IH]; intros g V Le Em.
  - exists g. destruct (b_nw g) eqn:W; [|auto]. exfalso.
    pose proof (st_b _ _ _ _ _ _ _ _ _ _ _ (bi_st _ _ _ _ _ V)) as B. unfold bfact in B. rewrite W in B.
    destruct (b_b g); cbn in *; try lia; exact B.
  - destruct (b_nw g) eqn:W; [|exists g; rewrite ID; auto].
    destruct (back_ok T K L n Hn HT g V) as (g1 & E1 & V1). cbn [repeat run step]. rewrite E1. cbn [obind].
    pose proof (LG _ _ E1) as El. destruct (back_time g g1 V W E1) as [E2 [E3|[_ E3]]].
    + exists g1. rewrite ID by auto. split; [auto|]. split; [auto|]. split; [auto|]. split; congruence.
    + destruct (IH g1 V1 ltac:(lia) ltac:(congruence)) as (g' & R1 & R2 & R3 & R4 & R5). exists g'. split; [auto|]. split; [auto|]. split; [auto|]. split; congruence.
Qed.

Definition quiet_ask (e : edge) : list act := repeat ABack 15 ++ [ACall (CHas e)] ++ repeat AMain 24.
Lemma ask_idle (g : bg) e : inv g -> in_range n e -> b_nw g = false -> b_m g = MIdle ->
  exists g' b, run wt T K (ACall (CHas e) :: repeat AMain 24) g = Ok g' /\ inv g' /\ b_m g' = MIdle /\ b_log g' = EHas e b false :: b_log g.
Proof.
  intros V R W Em.
  assert (ST : forall k g1, inv g1 -> b_m g1 = MIdle -> run wt T K (repeat AMain k) g1 = Ok g1).
  { induction k as [|k IHk]; intros g1 V1 M1; [reflexivity|]. cbn [repeat run step]. unfold main_step. rewrite M1. cbn [obind]. auto. }
  assert (SC : forall k g1 i, inv g1 -> b_m g1 = MScan false e i -> b_log g1 = b_log g -> 9 - i <= k ->
     exists g' b, run wt T K (repeat AMain k) g1 = Ok g' /\ inv g' /\ b_m g' = MIdle /\ b_log g' = EHas e b false :: b_log g).
  { induction k as [|k IHk]; intros g1 i V1 M1 L1 Le.
    - exfalso. pose proof (bi_m _ _ _ _ _ V1) as M. unfold mfact in M. rewrite M1 in M. destruct M as (_ & _ & _ & M & _). unfold RS in M. lia.
    - destruct (main_ok wt T K L n Hn g1 V1) as (g2 & E2 & V2). cbn [repeat run step]. rewrite E2. cbn [obind].
      assert (D : (exists b, b_m g2 = MIdle /\ b_log g2 = EHas e b false :: b_log g) \/ (b_m g2 = MScan false e (S i) /\ b_log g2 = b_log g /\ i <= 7)).
      { pose proof (st_maxr _ _ _ _ _ _ _ _ _ _ _ (bi_st _ _ _ _ _ V1)) as R1. unfold RS in R1.
        unfold main_step in E2. rewrite M1 in E2. unfold has_end in E2. destruct (Nat.leb_spec i (b_maxr g1)).
        - destruct (nth_error (b_ks g1) i) as [[t|]|]; [|injection E2 as <-; gcbn; right; split; [auto|]; split; [auto|lia]|discriminate].
          destruct (kt_adj K t (fst e) (snd e)); injection E2 as <-; gcbn; [left; eexists; split; [auto|]; rewrite L1; auto|right; split; [auto|]; split; [auto|lia]].
        - injection E2 as <-. gcbn. left. eexists. split; [auto|]. rewrite L1; auto. }
      destruct D as [[b [D1 D2]]|[D1 [D2 D3]]].
      + exists g2, b. rewrite ST by auto. auto.
      + eapply IHk; eauto. lia. }
  destruct (call_ok T K L n g (CHas e) V R) as (g1 & E1 & V1). cbn [run]. cbn [step]. rewrite E1. cbn [obind].
  unfold call_step in E1. rewrite Em in E1. destruct (c0_contains (b_c0 g) e) as [[]|]; cbn [obind] in E1; [| |discriminate].
  - injection E1 as <-. exists (done g (EHas e true false)), true. rewrite ST by auto. auto.
  - destruct (main_ok wt T K L n Hn g1 V1) as (g2 & E2 & V2). change (repeat AMain 24) with (AMain :: repeat AMain 23). cbn [run step]. rewrite E2. cbn [obind].
    apply (SC 23 g2 0); auto; [| |lia]; unfold main_step in E2; injection E1 as <-; gcbn; rewrite W in E2; injection E2 as <-; reflexivity.
Qed.

(** ** Data races, for every list of calls *)
Definition quiet_pc (m : mpc) : Prop :=
  match m with MScan _ _ _ | MPush _ | MCopy _ _ | MFlag _ | MErase _ | MNb _ _ false _ => True | _ => False end.
Definition no_nbr (m : mpc) : Prop := match m with MNbr _ _ | MNb _ _ _ _ => False | _ => True end.
Record pinv (g : bg) : Prop := {
  pi_idle : b_nw g = false -> b_b g = BPoll;
  pi_quiet : quiet_pc (b_m g) -> b_nw g = false
}.
Lemma ins_start_pc f : forall (g : bg) e g', ins_start K f g e = Ok g' ->
  b_nw g' = b_nw g /\ b_b g' = b_b g /\ ~ quiet_pc (b_m g') /\ no_nbr (b_m g').
Proof.
  induction f as [|f IH]; intros g e g'; cbn [ins_start]; destruct (c0_contains (b_c0 g) e) as [[]|]; cbn [obind]; try discriminate;
    try (intros E; injection E as <-; cbn; tauto).
  - unfold ins_done. destruct (b_todo g) as [[d [|f1 r]]|]; try discriminate; intros E; injection E as <-; cbn; tauto.
  - unfold ins_done. destruct (b_todo g) as [[d [|f1 r]]|]; try (intros E; injection E as <-; cbn; tauto).
    intros E. apply IH in E. cbn in E. tauto.
Qed.
Lemma ins_end_pc (g : bg) e h g' : ins_end K g e h = Ok g' ->
  b_nw g' = b_nw g /\ b_b g' = b_b g /\ ~ quiet_pc (b_m g') /\ no_nbr (b_m g').
Proof.
  unfold ins_end, ins_done. destruct (b_todo g) as [[d [|f1 r]]|]; try (intros E; injection E as <-; cbn; tauto).
  intros E. apply ins_start_pc in E. cbn in E. tauto.
Qed.
Lemma has_end_pc (g : bg) k e b busy g' : has_end K g k e b busy = Ok g' ->
  b_nw g' = b_nw g /\ b_b g' = b_b g /\ ~ quiet_pc (b_m g') /\ no_nbr (b_m g').
Proof.
  unfold has_end. destruct k; [destruct b|]; [apply ins_end_pc| |]; intros E; injection E as <-; cbn; tauto.
Qed.
Definition no_call_nbr (a : act) : Prop := match a with ACall (CNbr _) => False | _ => True end.
Lemma pinv_step g a g' : pinv g -> step wt T K a g = Ok g' -> pinv g' /\ (no_call_nbr a -> no_nbr (b_m g) -> no_nbr (b_m g')).
Proof.
  intros [P1 P2].
  assert (F : forall g1 : bg, b_nw g1 = b_nw g -> b_b g1 = b_b g -> ~ quiet_pc (b_m g1) -> pinv g1).
  { intros g1 A B C. split; [rewrite A, B; auto|tauto]. }
  assert (F' : forall g1 : bg, b_nw g1 = b_nw g /\ b_b g1 = b_b g /\ ~ quiet_pc (b_m g1) /\ no_nbr (b_m g1) ->
     pinv g1 /\ (no_call_nbr a -> no_nbr (b_m g) -> no_nbr (b_m g1))).
  { intros g1 (A & B & C & D). split; auto. }
  assert (Q : forall g1 : bg, b_nw g1 = b_nw g -> b_b g1 = b_b g -> b_nw g = false -> pinv g1).
  { intros g1 A B C. split; [rewrite A, B; auto|]. rewrite A. auto. }
  destruct a as [c| |]; cbn [step].
  - unfold call_step. destruct (b_m g) eqn:Em; try (intros E; injection E as <-; split; [split; auto; rewrite Em; auto|rewrite Em; auto]; fail).
    destruct c as [e|e|x|e].
    + unfold start. intros E. apply ins_start_pc in E. auto.
    + destruct (c0_contains (b_c0 g) e) as [[]|]; cbn [obind]; [| |discriminate]; intros E; injection E as <-; apply F'; cbn; tauto.
    + destruct (c0_neigh (b_c0 g) x); cbn [obind]; [|discriminate]. intros E; injection E as <-. split; [apply F; cbn; tauto|intros []].
    + destruct (c0_erase (b_c0 g) e) as [[[] c]|]; cbn [obind fst snd]; [| |discriminate]; intros E; injection E as <-; apply F'; cbn; tauto.
  - unfold main_step. destruct (b_m g) eqn:Em.
    + intros E; injection E as <-. split; [split; auto; rewrite Em; auto|rewrite Em; auto].
    + destruct (b_nw g) eqn:W.
      * destruct (eeqb (b_tmp g) e); [|destruct (b_mrb g <? length (b_copy g)); [|discriminate]]; intros E; apply has_end_pc in E; apply F'; rewrite <- W; auto.
      * intros E; injection E as <-. split; [apply Q; cbn; auto|cbn; auto].
    + destruct (i <=? b_maxr g).
      * destruct (nth_error (b_ks g) i) as [[t|]|]; [| |discriminate].
        -- destruct (kt_adj K t (fst e) (snd e)); [intros E; apply has_end_pc in E; auto|]. intros E; injection E as <-. split; [apply Q; cbn; auto; apply P2; exact Logic.I|cbn; auto].
        -- intros E; injection E as <-. split; [apply Q; cbn; auto; apply P2; exact Logic.I|cbn; auto].
      * intros E; apply has_end_pc in E; auto.
    + unfold maxsz. destruct (N.max (b_n g) (b_nt g) =? 1)%N; [discriminate|]. cbn [obind]. destruct (_ <? _)%N.
      * destruct (c0_insert T (b_c0 g) e (b_nt g)); [|discriminate]. cbn [obind]. intros E; apply ins_end_pc in E; auto.
      * intros E; injection E as <-. apply F'; cbn; tauto.
    + destruct (b_nw g) eqn:W.
      * destruct wt; [intros E; injection E as <-; split; [split; [congruence|rewrite Em; cbn; tauto]|rewrite Em; auto]|].
        destruct (c0_insert T _ e (b_nt g)); [|discriminate]. cbn [obind]. intros E; apply ins_end_pc in E. apply F'. rewrite <- W. auto.
      * intros E; injection E as <-. split; [apply Q; cbn; auto|cbn; auto].
    + destruct (c0_converted (b_c0 g)); [|discriminate]. cbn [obind]. intros E; injection E as <-. split; [apply Q; cbn; auto; apply P2; exact Logic.I|cbn; auto].
    + destruct (nth_error (b_ks g) j); intros E; injection E as <-; (split; [apply Q; cbn; auto; apply P2; exact Logic.I|cbn; auto]).
    + intros E; injection E as <-. split; [split; cbn; [discriminate|tauto]|cbn; auto].
    + destruct (c0_clean (b_c0 g)); [|discriminate]. cbn [obind]. intros E; apply ins_end_pc in E; auto.
    + destruct (b_nw g) eqn:W; intros E; injection E as <-; (split; [|cbn; auto]); [apply F; cbn; auto|apply Q; cbn; auto].
    + assert (D : pinv (set_m g (MNb x acc busy (S l))) /\ forall acc', pinv (set_m g (MNb x acc' busy (S l)))).
      { assert (G : forall acc', pinv (set_m g (MNb x acc' busy (S l)))); [|auto]. intros acc'. destruct busy; [apply F; cbn; tauto|apply Q; cbn; auto; apply P2; exact Logic.I]. }
      destruct (l <=? b_maxr g).
      * destruct (nth_error (if busy then b_copy g else b_ks g) l) as [[t|]|]; [| |discriminate]; intros E; injection E as <-; (split; [apply D|cbn; auto]).
      * intros E; injection E as <-. apply F'; cbn; tauto.
    + destruct (b_nw g) eqn:W; intros E; injection E as <-.
      * split; [split; [congruence|rewrite Em; cbn; tauto]|rewrite Em; auto].
      * split; [apply Q; cbn; auto|cbn; auto].
    + destruct (dl_erase K (b_ks g) (fst e) (snd e)) as [[eb mk] l]. cbv zeta.
      destruct (th_trig _ _ _).
      * destruct (flat_map _ _) as [|f r]; [intros E; injection E as <-; apply F'; cbn; tauto|].
        intros E. unfold start in E. apply ins_start_pc in E. cbn in E. auto.
      * intros E; injection E as <-; apply F'; cbn; tauto.
  - unfold back_step.
    assert (BN : forall g1 : bg, b_b g <> BPoll -> b_nw g1 = b_nw g -> b_m g1 = b_m g -> pinv g1 /\ (True -> no_nbr (b_m g) -> no_nbr (b_m g1))).
    { intros g1 NB A B. split; [|rewrite B; auto]. split; rewrite ?A, ?B; auto. intros W. apply P1 in W. congruence. }
    destruct (b_b g) eqn:EB.
    + destruct (b_nw g) eqn:W; intros E; injection E as <-; (split; [|cbn; auto]); split; cbn; rewrite ?W; auto; try discriminate.
    + intros E; injection E as <-; apply BN; cbn; auto; discriminate.
    + intros E; injection E as <-; apply BN; cbn; auto; discriminate.
    + unfold maxsz. destruct (b_msz g =? 1)%N; [discriminate|]. cbn [obind]. destruct (find_level _ _ _ _ _ _); intros E; injection E as <-; apply BN; cbn; auto; discriminate.
    + destruct (j <=? i); [|intros E; injection E as <-; apply BN; cbn; auto; discriminate].
      destruct (nth_error _ _) as [[|]|]; [| |discriminate]; intros E; injection E as <-; apply BN; cbn; auto; discriminate.
    + destruct (i <? _); [|discriminate]. intros E; injection E as <-; apply BN; cbn; auto; discriminate.
    + intros E; injection E as <-. split; [|cbn; auto]. split; cbn; auto.
    + intros E; injection E as <-. apply BN; auto. discriminate.
Qed.
Lemma pinv_run s : forall g g', pinv g -> run wt T K s g = Ok g' -> pinv g' /\ (Forall no_call_nbr s -> no_nbr (b_m g) -> no_nbr (b_m g')).
Proof.
  induction s as [|a s IH]; intros g g' P E; cbn [run] in E; [injection E as <-; auto|].
  destruct (step wt T K a g) as [g1|] eqn:E1; [|discriminate]. cbn [obind] in E. destruct (pinv_step g a g1 P E1) as [P1 Q1].
  destruct (IH g1 g' P1 E) as [P2 Q2]. split; auto. intros F. inversion F; subst. auto.
Qed.
Lemma pinv_race g : pinv g -> race g -> exists x acc l t, b_m g = MNb x acc true l /\ b_b g = BLevel t.
Proof.
  intros [P1 P2] (l & w1 & w2 & I1 & I2 & _).
  assert (NP : b_b g <> BPoll) by (intros X; rewrite X in I2; destruct I2).
  assert (NQ : ~ quiet_pc (b_m g)) by (intros X; apply NP, P1, P2, X).
  destruct (b_m g) as [| | | | | | | | | |x acc [] k| |]; cbn in I1, NQ; try tauto.
  destruct I1 as [I1|[]]. injection I1 as <- <-. destruct (b_b g); cbn in I2; repeat (destruct I2 as [I2|I2]; try discriminate); try destruct I2.
  exists x, acc, k, tmp. auto.
Qed.
End Time.
