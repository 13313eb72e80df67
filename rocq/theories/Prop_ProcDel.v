(** * Prop_ProcDel: a process with a single DKtree_background_wait graph, deletions included (C94).

    Prop_Proc has the same without deletions (C64-C66). *)
From Verif Require Import Base Spec Thresholds Table K2 C0 C0Proof DK DKProof DKHist Delay BgSpec BgDelSpec Bg BgProof BgTime BgDel BgDelTime Proc ProcProof
  Prop_Bg Prop_DK Prop_BgDel Prop_BgUB Prop_BgFew Prop_Proc.

(** no second graph is constructed; the calls, del_edge included, are on vertices below n *)
Definition lone (n : N) (a : pact) : Prop :=
  match a with PNew _ => False | PCall _ c => act_rng n (ACall c) | _ => True end.
(** how many times del_edge was called *)
Definition pdels (s : list pact) : N := N.of_nat (length (filter (fun a => match a with PCall _ (CDel _) => true | _ => false end) s)).

Section One.
Context (T : thresholds) (K : k2impl) (L : k2laws K) (n : N) (Hn : (2 <= n)%N).
Local Notation bg := (bg K).
Local Notation proc := (proc K).

(** ** What a step leaves alone *)
Definition fq (g g' : bg) : Prop :=
  b_b g' = b_b g /\ b_nw g' = b_nw g /\ b_msz g' = b_msz g /\ b_n g' = b_n g /\ out_pc (b_m g').
Lemma ins_start_fq fuel : forall (g : bg) e g', ins_start K fuel g e = Ok g' -> fq g g'.
Proof.
  induction fuel as [|f IH]; intros g e g' E; cbn [ins_start] in E; (destruct (c0_contains (b_c0 g) e) as [[|]|]; [| |discriminate]); cbn [obind] in E.
  2, 4: injection E as <-; repeat split.
  - unfold ins_done in E. destruct (b_todo g) as [[d [|f1 r]]|]; [|discriminate|]; injection E as <-; repeat split.
  - unfold ins_done in E. destruct (b_todo g) as [[d [|f1 r]]|]; [injection E as <-; repeat split| |injection E as <-; repeat split].
    apply IH in E. exact E.
Qed.
Lemma ins_end_fq (g : bg) e h g' : ins_end K g e h = Ok g' -> fq g g'.
Proof.
  unfold ins_end, ins_done. destruct (b_todo g) as [[d [|f1 r]]|]; intros E; [injection E as <-; repeat split| |injection E as <-; repeat split].
  apply ins_start_fq in E. exact E.
Qed.
Lemma has_end_fq (g : bg) k e b z g' : has_end K g k e b z = Ok g' -> fq g g'.
Proof.
  unfold has_end. destruct k; [destruct b|]; intros E; [apply (ins_end_fq _ _ _ _ E)| |]; injection E as <-; repeat split.
Qed.

(** the flag is set while the merging thread works; max_size_background has been assigned when it is set *)
Definition pre_flag (m : mpc) : Prop := match m with MCopy _ _ | MFlag _ => True | _ => False end.
Record nwi (g : bg) : Prop := {
  q_b : b_b g <> BPoll -> b_nw g = true;
  q_msz : b_nw g = true \/ pre_flag (b_m g) -> b_msz g <> 0%N;
  q_n : b_n g = n
}.
Lemma fq_nwi g g' : fq g g' -> nwi g -> nwi g'.
Proof.
  intros (E1 & E2 & E3 & E4 & P) [Q1 Q2 Q3]. constructor; [rewrite E1, E2; auto| |congruence]. rewrite E2, E3. intros [X|X]; [auto|].
  destruct (b_m g'); cbn in *; tauto.
Qed.
(** also when the caller's thread goes on inside its call *)
Lemma same_nwi (g g' : bg) : b_b g' = b_b g -> b_nw g' = b_nw g -> b_msz g' = b_msz g -> b_n g' = b_n g ->
  (pre_flag (b_m g') -> pre_flag (b_m g)) -> nwi g -> nwi g'.
Proof.
  intros E1 E2 E3 E4 P [Q1 Q2 Q3]. constructor; [rewrite E1, E2; auto| |congruence]. rewrite E2, E3. intros [X|X]; auto.
Qed.
Lemma call_q g c g' : call_step K c g = Ok g' -> nwi g -> nwi g' /\ b_b g' = b_b g /\ b_nw g' = b_nw g.
Proof.
  intros E Q. assert (F : fq g g' -> nwi g' /\ b_b g' = b_b g /\ b_nw g' = b_nw g).
  { intros F. split; [apply (fq_nwi _ _ F Q)|]. destruct F as (? & ? & _). auto. }
  unfold call_step in E. destruct (b_m g) eqn:M; try (injection E as <-; auto). destruct c as [e|e|x|e].
  - apply F, (ins_start_fq _ _ _ _ E).
  - destruct (c0_contains (b_c0 g) e) as [[|]|]; [| |discriminate]; injection E as <-; apply F; repeat split.
  - destruct (c0_neigh (b_c0 g) x); [|discriminate]. injection E as <-. split; [|auto]. apply (same_nwi g); auto. intros [].
  - destruct (c0_erase (b_c0 g) e) as [[b c']|]; [|discriminate]. cbn [obind fst snd] in E. destruct b; injection E as <-; (split; [|auto]);
      apply (same_nwi g); auto; intros [].
Qed.
Lemma main_q g g' : main_step true T K g = Ok g' -> nwi g -> nwi g' /\ b_b g' = b_b g /\ (b_nw g = true -> b_nw g' = true).
Proof using Hn.
  intros E Q. assert (F : fq g g' -> nwi g' /\ b_b g' = b_b g /\ (b_nw g = true -> b_nw g' = true)).
  { intros F. split; [apply (fq_nwi _ _ F Q)|]. destruct F as (? & -> & _). auto. }
  assert (S : forall g', b_b g' = b_b g -> b_nw g' = b_nw g -> b_msz g' = b_msz g -> b_n g' = b_n g -> (pre_flag (b_m g') -> pre_flag (b_m g)) ->
    nwi g' /\ b_b g' = b_b g /\ (b_nw g = true -> b_nw g' = true)).
  { intros h E1 E2 E3 E4 P. split; [apply (same_nwi g); auto|]. split; [auto|congruence]. }
  unfold main_step in E. destruct (b_m g) as [|e0 e|e0 e i|e|e|e|e j|e|e|x acc|x acc busy l|e|e] eqn:M.
  - injection E as <-. apply S; auto. rewrite M. auto.
  - destruct (b_nw g) eqn:W; [|injection E as <-; apply S; auto].
    destruct (eeqb (b_tmp g) e); [apply F, (has_end_fq _ _ _ _ _ _ E)|].
    destruct (b_mrb g <? length (b_copy g)); [apply F, (has_end_fq _ _ _ _ _ _ E)|discriminate].
  - destruct (i <=? b_maxr g); [|apply F, (has_end_fq _ _ _ _ _ _ E)].
    destruct (nth_error (b_ks g) i) as [[t|]|]; [|injection E as <-; apply S; auto|discriminate].
    destruct (kt_adj K t (fst e) (snd e)); [apply F, (has_end_fq _ _ _ _ _ _ E)|injection E as <-; apply S; auto].
  - destruct (maxsz T (N.max (b_n g) (b_nt g)) 0); [|discriminate]. cbn [obind] in E. destruct (_ <? _)%N; [|injection E as <-; apply S; auto].
    destruct (c0_insert T (b_c0 g) e (b_nt g)); [|discriminate]. cbn [obind] in E. apply ins_end_fq in E. apply F, E.
  - destruct (b_nw g) eqn:W; [|injection E as <-; apply S; auto]. injection E as <-. apply S; auto. rewrite M. auto.
  - destruct (c0_converted (b_c0 g)); [|discriminate]. injection E as <-. destruct Q as [Q1 Q2 Q3]. split; [|split; [reflexivity|auto]].
    constructor; gcbn; auto. intros _. lia.
  - destruct (nth_error (b_ks g) j); injection E as <-; apply S; auto; exact (fun _ => I).
  - injection E as <-. destruct Q as [Q1 Q2 Q3]. split; [|split; [reflexivity|auto]]. constructor; gcbn; auto. intros _. apply Q2. right. rewrite M. exact I.
  - destruct (c0_clean (b_c0 g)); [|discriminate]. cbn [obind] in E. apply ins_end_fq in E. apply F, E.
  - destruct (b_nw g) eqn:W; injection E as <-; apply S; auto.
  - destruct (l <=? b_maxr g); [|injection E as <-; apply S; auto].
    destruct (nth_error (if busy then b_copy g else b_ks g) l) as [[t|]|]; [| |discriminate]; injection E as <-; apply S; auto.
  - destruct (b_nw g) eqn:W; injection E as <-; apply S; auto. rewrite M. auto.
  - cbv zeta in E. destruct (dl_erase K (b_ks g) (fst e) (snd e)) as [[eb mk] l]. destruct (th_trig T mk _); [|injection E as <-; apply S; auto; intros []].
    destruct (flat_map _ _) as [|f r]; [injection E as <-; apply S; auto; intros []|]. apply ins_start_fq in E. apply F. exact E.
Qed.
Lemma back_q g g' : back_step T K g = Ok g' -> nwi g -> nwi g'.
Proof.
  intros E [Q1 Q2 Q3]. unfold back_step in E. destruct (b_b g) eqn:EB.
  - destruct (b_nw g) eqn:W; injection E as <-; constructor; gcbn; auto; rewrite ?W; auto; congruence.
  - injection E as <-. constructor; gcbn; auto. intros _. apply Q1. discriminate.
  - injection E as <-. constructor; gcbn; auto. intros _. apply Q1. discriminate.
  - unfold maxsz in E. destruct (b_msz g =? 1)%N; [discriminate|]. cbn [obind] in E.
    destruct (find_level _ _ _ _ _ _); injection E as <-; constructor; gcbn; auto; intros _; apply Q1; discriminate.
  - destruct (j <=? i); [|injection E as <-; constructor; gcbn; auto; intros _; apply Q1; discriminate].
    destruct (nth_error _ _) as [[|]|]; [| |discriminate]; injection E as <-; constructor; gcbn; auto; intros _; apply Q1; discriminate.
  - destruct (i <? _); [|discriminate]. injection E as <-. constructor; gcbn; auto. intros _. apply Q1. discriminate.
  - injection E as <-. constructor; gcbn; auto; try congruence. intros [X|X]; [discriminate|auto].
  - injection E as <-. constructor; auto. rewrite EB. auto.
Qed.
Lemma new_q g : bg_new true T K n = Ok g -> nwi g /\ b_nw g = false /\ b_m g = MIdle /\ b_b g = BPoll.
Proof.
  intros E. unfold bg_new in E. destruct (c0_new T n) as [c|]; [|discriminate]. cbn [obind] in E. injection E as <-. split; [|auto].
  constructor; gcbn; auto; try congruence. intros [X|[]]. discriminate.
Qed.

(** ** The process follows an execution of its graph *)
(** [g] is reached by an execution of the graph with k deletions *)
Definition reached (g : bg) (k : N) : Prop := exists s, Forall (act_rng n) s /\ exec true T K n s = Ok g /\ del_calls s = k.
Definition dels_of (a : act) : N := match a with ACall (CDel _) => 1 | _ => 0 end.
Lemma del_calls_snoc s a : del_calls (s ++ [a]) = (del_calls s + dels_of a)%N.
Proof. unfold del_calls. rewrite filter_app, app_length. cbn [filter]. destruct a as [[]| |]; cbn; lia. Qed.
Lemma reached_step g k a g' : reached g k -> act_rng n a -> step true T K a g = Ok g' -> reached g' (k + dels_of a).
Proof.
  intros (s & F & E & D) A S. exists (s ++ [a]). split; [apply Forall_app; auto|]. rewrite exec_snoc, E. split; [exact S|]. rewrite del_calls_snoc. lia.
Qed.

Record pok (p : proc) (g : bg) (live : bool) (t : tpc) (k : N) : Prop := {
  po_gs : p_gs p = [mkslot g live t];
  po_re : exists k', reached g k' /\ (k' <= k)%N;
  po_q : nwi g;
  po_nw : b_nw g = p_nw p;
  po_main : match p_main p with
            | PIdle => idle K g
            | PIn i => i = 0 /\ live = true /\ ~ idle K g
            | PWait i | PStop i | PClose i => i = 0 /\ idle K g /\ live = true
            end;
  po_in : t = TIn -> b_b g <> BPoll;
  po_out : t <> TIn -> b_b g = BPoll;
  po_run : p_run p = true -> t <> TEnd /\ (t = TCheck -> p_nw p = true) /\ live = true /\ forall i, p_main p <> PClose i;
  po_off : p_run p = false -> (p_main p = PClose 0 /\ live = true \/ p_main p = PIdle /\ live = false) /\ p_nw p = false;
  po_stop : forall i, p_main p = PStop i -> p_nw p = false
}.
Lemma pok_more p g l t k k' : pok p g l t k -> (k <= k')%N -> pok p g l t k'.
Proof. intros [] Le. constructor; auto. destruct po_re0 as (k0 & R & Le0). exists k0. split; [auto|lia]. Qed.

Lemma pok_new : exists p g, prun T K [PNew n] proc0 = Ok p /\ pok p g true THead 0.
Proof using L Hn.
  cbn [prun pstep proc0 p_main]. destruct (bg_new_ok true T K L n Hn) as (g & E & V). rewrite E. cbn [obind]. eexists. exists g.
  split; [reflexivity|]. destruct (new_q g E) as (Q & E1 & E2 & E3). constructor; cbn; auto; try congruence.
  - exists 0%N. split; [|lia]. exists []. split; [constructor|]. split; [unfold exec; rewrite E; reflexivity|reflexivity].
  - intros _. repeat split; try discriminate.
Qed.

(** which step of the graph a step of the process is *)
Definition acts (a : pact) : act := match a with PCall _ c => ACall c | PThr _ => ABack | _ => AMain end.
Definition pdel (a : pact) : N := match a with PCall _ (CDel _) => 1 | _ => 0 end.
Lemma pok_step p g live t k a : pok p g live t k -> lone n a ->
  match pstep T K a p with
  | Ok p' => exists g' live' t', pok p' g' live' t' (k + pdel a)
  | UB => step true T K (acts a) g = UB
  end.
Proof using Hn.
  intros P A. pose proof (po_q _ _ _ _ _ P) as Q. pose proof (po_gs _ _ _ _ _ P) as G. pose proof (po_nw _ _ _ _ _ P) as W.
  pose proof (po_main _ _ _ _ _ P) as M. pose proof (po_run _ _ _ _ _ P) as R. pose proof (po_off _ _ _ _ _ P) as O.
  destruct (po_re _ _ _ _ _ P) as (k0 & RE & Lk).
  assert (SAME : exists g' live' t', pok p g' live' t' (k + pdel a)) by (exists g, live, t; apply (pok_more _ _ _ _ _ _ P); lia).
  destruct a as [m|i c|i| |i]; cbn [lone] in A; cbn [acts] in *.
  - destruct A.
  - (* a call *) cbn [pstep]. destruct (p_main p) eqn:EM; try exact SAME. rewrite G. destruct i as [|i]; cbn [nth_error]; [|destruct i; exact SAME].
    destruct live; [|exact SAME]. rewrite set_nw_id by auto. cbn [step].
    destruct (call_step K c g) as [g1|] eqn:E1; cbn [obind]; [|reflexivity].
    destruct (call_q g c g1 E1 Q) as (Q1 & B1 & W1).
    exists g1, true, t. pose proof (main_of_idle K g1 0) as MO. constructor; cbn [p_gs p_nw p_run p_main upd]; rewrite ?B1, ?W1; try apply P.
    + reflexivity.
    + exists (k0 + dels_of (ACall c))%N. split; [apply (reached_step g); [exact RE|exact A|exact E1]|]. destruct c; cbn; lia.
    + exact Q1.
    + destruct (main_of K 0 g1); [exact MO|destruct MO; auto|destruct MO..].
    + intros X. destruct (R X) as [R1 [R2 [R3 R4]]]. repeat split; auto. intros i. destruct (main_of K 0 g1); congruence.
    + intros X. destruct (O X) as [[[O1 _]|[_ O1]] _]; congruence.
    + intros i X. rewrite X in MO. destruct MO.
  - (* the destructor is entered *) cbn [pstep]. destruct (p_main p) eqn:EM; try exact SAME. rewrite G. destruct i as [|i]; cbn [nth_error]; [|destruct i; exact SAME].
    destruct live; [|exact SAME]. exists g, true, t.
    constructor; cbn [p_gs p_nw p_run p_main]; try apply P; auto; try congruence.
    + exists k0. split; [auto|cbn; lia].
    + intros X. destruct (R X) as [R1 [R2 [R3 R4]]]. repeat split; auto. discriminate.
    + intros X. destruct (O X) as [[[O1 _]|[_ O1]] _]; congruence.
  - (* the calling thread *) cbn [pstep]. destruct (p_main p) eqn:EM; try exact SAME; rewrite ?G.
    + destruct M as [-> [-> MN]]. cbn [nth_error step]. rewrite set_nw_id by auto.
      destruct (main_step true T K g) as [g1|] eqn:E1; cbn [obind]; [|reflexivity].
      destruct (main_q g g1 E1 Q) as (Q1 & B1 & W1). exists g1, true, t.
      pose proof (main_of_idle K g1 0) as MO. constructor; cbn [p_gs p_nw p_run p_main upd]; rewrite ?B1; try apply P.
      * reflexivity.
      * exists (k0 + dels_of AMain)%N. split; [apply (reached_step g); [exact RE|exact I|exact E1]|]. cbn. lia.
      * exact Q1.
      * reflexivity.
      * destruct (main_of K 0 g1); [exact MO|destruct MO; auto|destruct MO..].
      * intros X. destruct (R X) as [R1 [R2 [R3 R4]]]. repeat split; auto; [intros Y; apply W1; rewrite W; auto|]. intros i. destruct (main_of K 0 g1); congruence.
      * intros X. destruct (O X) as [[[O1 _]|[_ O1]] _]; congruence.
      * intros i X. rewrite X in MO. destruct MO.
    + destruct M as [-> [MI ->]]. destruct (p_nw p) eqn:WP; [exact SAME|]. exists g, true, t.
      constructor; cbn [p_gs p_nw p_run p_main]; try apply P; auto.
      * exists k0. split; [auto|cbn; lia].
      * intros X. destruct (R X) as [R1 [R2 [R3 R4]]]. repeat split; auto. discriminate.
      * intros X. destruct (O X) as [[[O1 _]|[_ O1]] _]; congruence.
    + destruct M as [-> [MI ->]]. pose proof (po_stop _ _ _ _ _ P 0 EM) as WF. exists g, true, t.
      constructor; cbn [p_gs p_nw p_run p_main]; try apply P; auto; try discriminate. exists k0. split; [auto|cbn; lia].
    + destruct M as [-> [MI ->]]. cbn [nth_error]. exists g, false, t.
      constructor; cbn [p_gs p_nw p_run p_main upd]; try apply P; auto; try discriminate.
      * exists k0. split; [auto|cbn; lia].
      * intros X. destruct (R X) as [_ [_ [_ R4]]]. exfalso. apply (R4 0). auto.
      * intros X. destruct (O X) as [_ O2]. auto.
  - (* the merging thread *) cbn [pstep]. rewrite G. destruct i as [|i]; cbn [nth_error]; [|destruct i; exact SAME].
    assert (GO : forall t', t <> TIn -> t' <> TIn -> (p_run p = true -> t' <> TEnd /\ (t' = TCheck -> p_nw p = true)) ->
       pok (mkproc (p_nw p) (p_run p) [mkslot g live t'] (p_main p)) g live t' (k + pdel (PThr 0))).
    { intros t' N1 N2 N3. constructor; cbn [p_gs p_nw p_run p_main]; auto.
      - exists k0. split; [auto|cbn; lia].
      - intros _. apply (po_out _ _ _ _ _ P), N1.
      - intros X. destruct (R X) as [R1 [R2 [R3 R4]]]. destruct (N3 X) as [? ?]. repeat split; auto.
      - apply (po_stop _ _ _ _ _ P). }
    destruct t; cbn [upd].
    + exists g, live, (if p_run p then TWait else TEnd). apply GO; [discriminate|destruct (p_run p); discriminate|]. intros X. rewrite X. split; discriminate.
    + destruct (p_nw p || negb (p_run p)) eqn:C; [|exact SAME]. exists g, live, TCheck. apply GO; try discriminate.
      intros X. split; [discriminate|]. intros _. rewrite X in C. cbn in C. rewrite orb_false_r in C. auto.
    + destruct (p_run p) eqn:PR.
      * destruct (R eq_refl) as [R1 [R2 [R3 R4]]]. specialize (R2 eq_refl). subst live.
        assert (S : step true T K ABack g = Ok (set_b g BBuild)).
        { cbn [step]. unfold back_step. rewrite (po_out _ _ _ _ _ P) by discriminate. rewrite W, R2. reflexivity. }
        exists (set_b g BBuild), true, TIn.
        constructor; cbn [p_gs p_nw p_run p_main]; auto.
        -- exists (k0 + dels_of ABack)%N. split; [apply (reached_step g); [exact RE|exact I|exact S]|]. cbn. lia.
        -- apply (back_q g); [exact S|exact Q].
        -- intros _ X. discriminate.
        -- congruence.
        -- intros _. repeat split; auto; discriminate.
        -- apply P.
      * exists g, live, TEnd. apply GO; discriminate.
    + pose proof (po_in _ _ _ _ _ P eq_refl) as NP. pose proof (q_b _ Q NP) as WT.
      assert (PR : p_run p = true).
      { destruct (p_run p) eqn:E; auto. destruct (O eq_refl) as [_ X]. congruence. }
      destruct (R PR) as [_ [_ [-> R4]]]. rewrite set_nw_id by auto. pose proof (q_msz _ Q (or_introl WT)) as MZ.
      replace (match b_b g with
        | BLevel _ => if (b_msz g =? 0)%N then UB else
            let* g := back_step T K g in Ok (mkproc (b_nw g) (p_run p) [mkslot g true TIn] (p_main p))
        | BDone => let* g := back_step T K g in Ok (mkproc (b_nw g) (p_run p) [mkslot g true THead] (p_main p))
        | _ => let* g := back_step T K g in Ok (mkproc (b_nw g) (p_run p) [mkslot g true TIn] (p_main p))
        end) with (let* g1 := back_step T K g in Ok (mkproc (b_nw g1) (p_run p) [mkslot g1 true (match b_b g with BDone => THead | _ => TIn end)] (p_main p))).
      2: { apply N.eqb_neq in MZ. rewrite MZ. destruct (b_b g); reflexivity. }
      cbn [step]. destruct (back_step T K g) as [g1|] eqn:E1; cbn [obind]; [|reflexivity].
      pose proof (back_m T K _ _ E1) as M1. destruct (back_poll T K _ _ E1 NP) as [BP1 BP2].
      assert (RE1 : exists k', reached g1 k' /\ (k' <= k + pdel (PThr 0))%N).
      { exists (k0 + dels_of ABack)%N. split; [apply (reached_step g); [exact RE|exact I|exact E1]|]. cbn. lia. }
      assert (DN : b_b g = BDone \/ b_b g <> BDone) by (destruct (b_b g); auto; right; discriminate).
      destruct DN as [DN|DN].
      * rewrite DN. destruct (BP1 DN) as [X1 X2]. exists g1, true, THead. constructor; cbn [p_gs p_nw p_run p_main]; auto; try congruence.
        -- apply (back_q g); auto.
        -- unfold idle in *. rewrite M1. exact M.
        -- intros _. repeat split; auto; try discriminate.
      * destruct (BP2 DN) as [X1 X2]. exists g1, true, TIn. replace (match b_b g with BDone => THead | _ => TIn end) with TIn by (destruct (b_b g); congruence).
        constructor; cbn [p_gs p_nw p_run p_main]; auto.
        -- apply (back_q g); auto.
        -- unfold idle in *. rewrite M1. exact M.
        -- congruence.
        -- intros _. repeat split; auto; discriminate.
        -- congruence.
        -- intros i X. rewrite X2, W. eapply (po_stop _ _ _ _ _ P); eauto.
    + exact SAME.
Qed.
Lemma pok_run s : forall p g live t k p', pok p g live t k -> Forall (lone n) s -> prun T K s p = Ok p' -> exists g' live' t', pok p' g' live' t' (k + pdels s).
Proof using Hn.
  induction s as [|a s IH]; intros p g live t k p' P F E; cbn [prun] in E.
  - injection E as <-. exists g, live, t. apply (pok_more _ _ _ _ _ _ P). lia.
  - inversion F; subst. pose proof (pok_step p g live t k a P) as S. destruct (pstep T K a p) as [p1|]; [|discriminate].
    destruct S as (g1 & l1 & t1 & P1); auto. cbn [obind] in E. destruct (IH _ _ _ _ _ _ P1 ltac:(auto) E) as (g' & l' & t' & P'). exists g', l', t'.
    apply (pok_more _ _ _ _ _ _ P'). unfold pdels. cbn [filter]. destruct a as [|? []| | |]; cbn [pdel length]; lia.
Qed.
Lemma pok_start s p : Forall (lone n) s -> prun T K (PNew n :: s) proc0 = Ok p -> exists g live t, pok p g live t (pdels s).
Proof using L Hn.
  intros F E. destruct pok_new as (p0 & g0 & E0 & P0). change (PNew n :: s) with ([PNew n] ++ s) in E. rewrite prun_app, E0 in E. cbn [obind] in E.
  destruct (pok_run s _ _ _ _ _ _ P0 F E) as (g & l & t & P). exists g, l, t. exact P.
Qed.

(** ** Progress *)
Definition alive (p : proc) : Prop := forall s, In s (p_gs p) -> b_b (s_g s) <> BDead.
Lemma alive_of p g l t k : pok p g l t k -> alive p <-> b_b g <> BDead.
Proof.
  intros P. unfold alive. rewrite (po_gs _ _ _ _ _ P). split; [intros A; apply (A (mkslot g l t)); left; reflexivity|]. intros A s [<-|[]]. exact A.
Qed.
Lemma pok_J p g l t k : pok p g l t k -> alive p -> answers_ok (b_log g) /\ exists B, J K L n g B.
Proof using L Hn.
  intros P A. destruct (po_re _ _ _ _ _ P) as (k' & (s & F & E & _) & _). apply (exec_J true T K L n Hn s g F E). apply (alive_of _ _ _ _ _ P), A.
Qed.
Lemma pok_fun p g l t k g' l' t' k' : pok p g l t k -> pok p g' l' t' k' -> g' = g /\ l' = l /\ t' = t.
Proof. intros P Q. pose proof (po_gs _ _ _ _ _ P) as A. pose proof (po_gs _ _ _ _ _ Q) as B. rewrite A in B. injection B. auto. Qed.
(** a merging thread that threw stays where it is *)
Lemma dead_step p g l t k a p' g' l' t' k' : pok p g l t k -> lone n a -> pstep T K a p = Ok p' -> pok p' g' l' t' k' -> b_b g = BDead -> b_b g' = BDead.
Proof using Hn.
  intros P A E P' D. pose proof (po_gs _ _ _ _ _ P) as G. pose proof (po_nw _ _ _ _ _ P) as W. pose proof (po_gs _ _ _ _ _ P') as G'.
  assert (TI : t = TIn) by (destruct t; auto; rewrite (po_out _ _ _ _ _ P) in D by discriminate; discriminate). subst t.
  assert (SM : p' = p -> b_b g' = BDead) by (intros ->; destruct (pok_fun _ _ _ _ _ _ _ _ _ P P') as [-> _]; auto).
  destruct a as [m|i c|i| |i]; cbn [lone] in A; cbn [pstep] in E.
  - destruct A.
  - destruct (p_main p); try (injection E as <-; auto). rewrite G in E. destruct i as [|[|]]; cbn [nth_error] in E; [|injection E as <-; auto..].
    destruct l; [|injection E as <-; auto]. rewrite set_nw_id in E by auto. destruct (call_step K c g) as [g1|] eqn:E1; [|discriminate]. cbn [obind upd] in E. injection E as <-.
    cbn [p_gs] in G'. injection G' as <- _ _. destruct (call_q g c g1 E1 (po_q _ _ _ _ _ P)) as (_ & -> & _). auto.
  - destruct (p_main p); try (injection E as <-; auto). rewrite G in E. destruct i as [|[|]]; cbn [nth_error] in E; [|injection E as <-; auto..].
    destruct l; injection E as <-; auto. cbn [p_gs] in G'. injection G' as <- _ _. auto.
  - pose proof (po_main _ _ _ _ _ P) as M. destruct (p_main p) as [|i|i|i|i].
    + injection E as <-; auto.
    + destruct M as [-> [-> _]]. rewrite G in E. cbn [nth_error] in E. rewrite set_nw_id in E by auto. destruct (main_step true T K g) as [g1|] eqn:E1; [|discriminate].
      cbn [obind upd] in E. injection E as <-. cbn [p_gs] in G'. injection G' as <- _ _. destruct (main_q g g1 E1 (po_q _ _ _ _ _ P)) as (_ & -> & _). auto.
    + destruct (p_nw p); injection E as <-; auto. cbn [p_gs] in G'. rewrite G in G'. injection G' as <- _ _. auto.
    + injection E as <-. cbn [p_gs] in G'. rewrite G in G'. injection G' as <- _ _. auto.
    + destruct M as [-> _]. rewrite G in E. cbn [nth_error upd] in E. injection E as <-. cbn [p_gs] in G'. injection G' as <- _ _. auto.
  - rewrite G in E. destruct i as [|i]; cbn [nth_error] in E; [|destruct i; injection E as <-; auto].
    destruct l; [|discriminate]. rewrite D in E. rewrite set_nw_id in E by auto. unfold back_step in E. rewrite D in E. cbn [obind upd] in E. injection E as <-.
    cbn [p_gs] in G'. injection G' as <- _ _. auto.
Qed.
Lemma alive_step p g l t k a p' g' l' t' k' : pok p g l t k -> lone n a -> pstep T K a p = Ok p' -> pok p' g' l' t' k' -> alive p' -> alive p.
Proof using Hn.
  intros P A E P' X. apply (alive_of _ _ _ _ _ P'), proj1 in X || apply (proj1 (alive_of _ _ _ _ _ P')) in X. apply (alive_of _ _ _ _ _ P). intros D. apply X.
  eapply (dead_step p g l t k a p'); eauto.
Qed.
Lemma alive_prun s : forall p g l t k p', pok p g l t k -> Forall (lone n) s -> prun T K s p = Ok p' -> alive p' -> alive p.
Proof using Hn.
  induction s as [|a s IH]; intros p g l t k p' P F E A; cbn [prun] in E; [injection E as <-; auto|]. inversion F; subst.
  pose proof (pok_step p g l t k a P ltac:(auto)) as S. destruct (pstep T K a p) as [p1|] eqn:E1; [|discriminate]. destruct S as (g1 & l1 & t1 & P1). cbn [obind] in E.
  eapply alive_step; eauto.
Qed.

Definition pm (p : proc) (g : bg) : nat :=
  match p_main p with PIdle => 0 | PIn _ => mt K g | PWait _ => 3 | PStop _ => 2 | PClose _ => 1 end.
(** the calling thread waits for the merge *)
Definition pwaiting (p : proc) (g : bg) : Prop :=
  p_nw p = true /\ match p_main p with PIn _ => waiting true K g | PWait _ => True | _ => False end.
Lemma pwaiting_dec p g : {pwaiting p g} + {~ pwaiting p g}.
Proof using K.
  unfold pwaiting. destruct (p_nw p); [|right; intros [X _]; discriminate X]. destruct (p_main p); try (right; tauto); [|left; auto].
  destruct (waiting_dec true K g); [left; auto|right; tauto].
Defined.

(** a step of the merging thread *)
Lemma thr_advd p g l t k p' g' l' t' k' : pok p g l t k -> pok p' g' l' t' k' -> alive p' -> alive p -> pstep T K (PThr 0) p = Ok p' ->
  p_main p' = p_main p /\ b_m g' = b_m g /\ mt K g' = mt K g /\ (p_nw p = false -> p_nw p' = false) /\
  (p_nw p = true -> p_nw p' = false \/ p_nw p' = true /\ ttime K t' g' < ttime K t g).
Proof using L Hn.
  intros P P' A' A. destruct (pok_J _ _ _ _ _ P A) as [_ [B V]]. pose proof (po_gs _ _ _ _ _ P) as G. pose proof (po_nw _ _ _ _ _ P) as W.
  pose proof (po_run _ _ _ _ _ P) as R. pose proof (po_off _ _ _ _ _ P) as O. pose proof (po_gs _ _ _ _ _ P') as G'.
  cbn [pstep]. rewrite G. cbn [nth_error].
  assert (PR : p_nw p = true -> p_run p = true).
  { intros X. destruct (p_run p); auto. destruct (O eq_refl) as [_ Y]. congruence. }
  destruct t; cbn [upd].
  - intros E; injection E as <-. cbn in G' |- *. injection G' as <- <- <-. repeat split; auto. intros X. rewrite (PR X). right. split; [auto|cbn; lia].
  - destruct (p_nw p || negb (p_run p)) eqn:C.
    + intros E; injection E as <-. cbn in G' |- *. injection G' as <- <- <-. repeat split; auto.
    + apply orb_false_iff in C. intros E; injection E as <-. destruct (pok_fun _ _ _ _ _ _ _ _ _ P P') as [-> [-> ->]]. repeat split; auto. destruct C; congruence.
  - destruct (p_run p) eqn:ER.
    + intros E; injection E as <-. cbn in G' |- *. injection G' as <- <- <-. repeat split; auto.
    + intros E; injection E as <-. cbn in G' |- *. injection G' as <- <- <-. repeat split; auto. intros X. specialize (PR X). discriminate.
  - pose proof (po_in _ _ _ _ _ P eq_refl) as NP. pose proof (q_b _ (po_q _ _ _ _ _ P) NP) as WT.
    assert (PRT : p_run p = true) by (apply PR; congruence). destruct (R PRT) as [_ [_ [-> _]]]. rewrite set_nw_id by auto.
    assert (E2 : forall q, match b_b g with
        | BLevel _ => if (b_msz g =? 0)%N then UB else
            let* g := back_step T K g in Ok (mkproc (b_nw g) (p_run p) [mkslot g true TIn] (p_main p))
        | BDone => let* g := back_step T K g in Ok (mkproc (b_nw g) (p_run p) [mkslot g true THead] (p_main p))
        | _ => let* g := back_step T K g in Ok (mkproc (b_nw g) (p_run p) [mkslot g true TIn] (p_main p))
        end = Ok q -> exists g1, back_step T K g = Ok g1 /\ q = mkproc (b_nw g1) (p_run p) [mkslot g1 true (match b_b g with BDone => THead | _ => TIn end)] (p_main p)).
    { intros q E. assert (MZ : (b_msz g =? 0)%N = false) by (apply N.eqb_neq, (q_msz _ (po_q _ _ _ _ _ P)); auto). rewrite MZ in E.
      destruct (b_b g); (destruct (back_step T K g) as [g1|]; [|discriminate]); cbn [obind] in E; injection E as <-; exists g1; auto. }
    intros E. destruct (E2 _ E) as (g1 & E1 & ->). cbn in G'. injection G' as <- <- <-. cbn [p_main p_nw].
    destruct (back_mt T K _ _ E1) as [M1 M2]. split; [auto|]. split; [auto|]. split; [auto|]. split; [congruence|]. intros _.
    assert (D1 : b_b g1 <> BDead) by (apply (A' (mkslot g1 true (match b_b g with BDone => THead | _ => TIn end))); left; reflexivity).
    destruct (back_dec T K L n Hn g B g1 V WT E1 D1) as [X|[X Y]]; [auto|]. right. split; [auto|].
    destruct (back_poll T K _ _ E1 NP) as [BP1 BP2]. destruct (b_b g) eqn:EB; try congruence; cbn [ttime]; rewrite ?EB; auto.
    destruct (BP1 eq_refl). congruence.
  - intros E; injection E as <-. destruct (pok_fun _ _ _ _ _ _ _ _ _ P P') as [-> [-> ->]]. repeat split; auto.
    intros X. destruct (R (PR X)) as [Y _]. congruence.
Qed.
(** a step of the calling thread *)
Lemma main_advd p g l t k p' g' l' t' k' : pok p g l t k -> pok p' g' l' t' k' -> alive p -> pstep T K PMain p = Ok p' -> p_main p <> PIdle ->
  (pwaiting p g -> p' = p) /\ (~ pwaiting p g -> pm p' g' < pm p g).
Proof using L Hn.
  intros P P' A E NI. destruct (pok_J _ _ _ _ _ P A) as [_ [B V]]. pose proof (po_gs _ _ _ _ _ P) as G. pose proof (po_nw _ _ _ _ _ P) as W.
  pose proof (po_main _ _ _ _ _ P) as M. pose proof (po_gs _ _ _ _ _ P') as G'. unfold pwaiting, pm. cbn [pstep] in E.
  destruct (p_main p) as [|i|i|i|i] eqn:EM; try congruence.
  - destruct M as [-> [-> NE]]. rewrite G in E. cbn [nth_error] in E. rewrite set_nw_id in E by auto.
    destruct (main_step true T K g) as [g1|] eqn:E1; [|discriminate]. cbn [obind upd] in E. injection E as <-. cbn in G'. injection G' as <- <- <-. split.
    + intros [X Y]. rewrite (wait_noop true T K g Y) in E1. injection E1 as <-. rewrite W.
      pose proof (main_of_idle K g 0) as MO. destruct (main_of K 0 g) eqn:EMO; [destruct NE; exact MO| |destruct MO..]. destruct MO as [-> _].
      destruct p as [pnw prn pgs pmn]. cbn in *. subst. reflexivity.
    + intros X. assert (X' : ~ waiting true K g) by (intros Y; apply X; split; [rewrite <- W; apply Y|exact Y]).
      pose proof (main_dec true T K L n Hn g B g1 V E1 NE X') as D. cbn [p_main]. destruct (main_of K 0 g1) eqn:EMO; try lia.
      all: pose proof (main_of_idle K g1 0) as MO; rewrite EMO in MO; destruct MO.
  - destruct (p_nw p) eqn:WP; injection E as <-.
    + split; [auto|]. intros X. destruct X. auto.
    + split; [intros [X _]; discriminate|]. intros _. cbn. lia.
  - injection E as <-. split; [intros [_ []]|]. intros _. cbn. lia.
  - destruct M as [-> _]. rewrite G in E. cbn [nth_error] in E. injection E as <-. split; [intros [_ []]|]. intros _. cbn. lia.
Qed.
Lemma thr_none p g l t k i : pok p g l t k -> i <> 0 -> pstep T K (PThr i) p = Ok p.
Proof. intros P X. cbn [pstep]. rewrite (po_gs _ _ _ _ _ P). destruct i as [|[|]]; [congruence|reflexivity..]. Qed.

(** [idles s p]: the call, or the destructor, in progress is over after some of the steps s *)
Definition idles (s : list pact) (p : proc) : Prop := exists a b p', s = a ++ b /\ prun T K a p = Ok p' /\ p_main p' = PIdle.
Lemma pidles_now s p : p_main p = PIdle -> idles s p.
Proof. intros E. exists [], s, p. auto. Qed.
Lemma pidles_cons a s p p1 : pstep T K a p = Ok p1 -> idles s p1 -> idles (a :: s) p.
Proof. intros E (x & y & p' & -> & R & M). exists (a :: x), y, p'. split; [auto|]. split; [|auto]. cbn [prun]. rewrite E. exact R. Qed.
Lemma pidles_app x s p p1 : prun T K x p = Ok p1 -> idles s p1 -> idles (x ++ s) p.
Proof.
  intros R (y & z & p' & -> & R2 & M). exists (x ++ y), z, p'. rewrite app_assoc. split; [auto|]. split; [|auto]. rewrite prun_app, R. exact R2.
Qed.
Lemma pidles_more s t p : idles s p -> idles (s ++ t) p.
Proof. intros (x & y & p' & -> & R & M). exists x, (y ++ t), p'. rewrite app_assoc. auto. Qed.
Lemma pidle_dec (p : proc) : {p_main p = PIdle} + {p_main p <> PIdle}.
Proof. destruct (p_main p); [left; auto|right; discriminate..]. Qed.

(** what a step that is not the calling thread's nor thread 0's does while a call is in progress *)
Lemma other_noop p g l t k a : pok p g l t k -> lone n a -> p_main p <> PIdle -> a <> PMain -> a <> PThr 0 -> pstep T K a p = Ok p.
Proof.
  intros P A NI N1 N2. destruct a as [m|i c|i| |i]; cbn [lone] in A; try congruence; try tauto.
  - cbn [pstep]. destruct (p_main p); congruence.
  - cbn [pstep]. destruct (p_main p); congruence.
  - apply (thr_none _ _ _ _ _ _ P). congruence.
Qed.
Lemma which (a : pact) : {a = PMain} + {a = PThr 0} + {a <> PMain /\ a <> PThr 0 /\ forall s, pmains (a :: s) = pmains s /\ thrs (a :: s) = thrs s}.
Proof.
  destruct a as [| | | |[|i]]; [right|right|right|left; left; reflexivity|left; right; reflexivity|right];
  (split; [discriminate|split; [congruence|auto]]).
Defined.
Lemma mono s : forall p g l t k p', pok p g l t k -> Forall (lone n) s -> prun T K s p = Ok p' -> alive p' ->
  idles s p \/ exists g' l' t' k', pok p' g' l' t' k' /\ pm p' g' <= pm p g /\ (~ pwaiting p g -> 1 <= pmains s -> pm p' g' < pm p g).
Proof using L Hn.
  induction s as [|a s IH]; intros p g l t k p' P F R AL.
  - cbn [prun] in R. injection R as <-. right. exists g, l, t, k. cbn [pmains]. split; [auto|]. split; lia.
  - destruct (pidle_dec p) as [|NI]; [left; apply pidles_now; auto|]. pose proof (alive_prun _ _ _ _ _ _ _ P F R AL) as AP. inversion F as [|? ? Fa Fs]; subst. cbn [prun] in R.
    pose proof (pok_step p g l t k a P Fa) as S. destruct (pstep T K a p) as [p1|] eqn:E; [|discriminate]. destruct S as (g1 & l1 & t1 & P1). cbn [obind] in R.
    pose proof (alive_prun _ _ _ _ _ _ _ P1 Fs R AL) as AP1. destruct (IH p1 g1 l1 t1 _ p' P1 Fs R AL) as [I|(g' & l' & t' & k' & I0 & I1 & I2)]; [left; eapply pidles_cons; eauto|].
    right. exists g', l', t', k'. split; [exact I0|]. destruct (which a) as [[->| ->]|(N1 & N2 & N3)].
    + destruct (main_advd _ _ _ _ _ _ _ _ _ _ P P1 AP E NI) as [X1 X2]. destruct (pwaiting_dec p g) as [Wp|Wp].
      * rewrite (X1 Wp) in *. destruct (pok_fun _ _ _ _ _ _ _ _ _ P P1) as [-> _]. split; [auto|]. tauto.
      * specialize (X2 Wp). split; [lia|]. lia.
    + destruct (thr_advd _ _ _ _ _ _ _ _ _ _ P P1 AP1 AP E) as (Y1 & Y2 & Y3 & Y4 & Y5).
      assert (PE : pm p1 g1 = pm p g) by (unfold pm; rewrite Y1, Y3; reflexivity). rewrite PE in *. split; [auto|]. intros Wp Le. apply I2; [|exact Le].
      intros [W1 W2]. apply Wp. split.
      * destruct (p_nw p) eqn:X; auto. rewrite (Y4 eq_refl) in W1. discriminate.
      * rewrite Y1 in W2. destruct (p_main p); auto. unfold waiting in *. rewrite Y2 in W2. split; [|tauto]. rewrite (po_nw _ _ _ _ _ P).
        destruct (p_nw p) eqn:X; auto. rewrite (Y4 eq_refl) in W1. discriminate.
    + rewrite (other_noop _ _ _ _ _ a P Fa NI N1 N2) in E. injection E as <-. destruct (pok_fun _ _ _ _ _ _ _ _ _ P P1) as [-> _]. split; [auto|].
      destruct (N3 s) as [-> _]. auto.
Qed.
Lemma unwait s : forall p g l t k p', pok p g l t k -> Forall (lone n) s -> pwaiting p g -> prun T K s p = Ok p' -> alive p' -> ttime K t g <= thrs s ->
  exists x y p1 g1 l1 t1 k1, s = x ++ y /\ prun T K x p = Ok p1 /\ pok p1 g1 l1 t1 k1 /\ pm p1 g1 = pm p g /\ ~ pwaiting p1 g1.
Proof using L Hn.
  induction s as [|a s IH]; intros p g l t k p' P F Wp R AL Le.
  - exfalso. cbn [prun] in R. injection R as <-. cbn [thrs] in Le. destruct Wp as [W _]. destruct (pok_J _ _ _ _ _ P AL) as [_ [B V]].
    pose proof (co_b _ _ _ _ _ _ _ _ _ _ _ _ _ _ _ _ (j_core _ _ _ _ _ V)) as Fb. unfold bfactd in Fb. rewrite (po_nw _ _ _ _ _ P), W in Fb.
    assert (PR : p_run p = true) by (destruct (p_run p) eqn:X; auto; destruct (po_off _ _ _ _ _ P X); congruence).
    destruct (po_run _ _ _ _ _ P PR) as [N _]. destruct t; cbn [ttime] in Le; try lia; [|congruence]. destruct (b_b g); cbn [btime] in Le; try lia; destruct Fb.
  - assert (NI : p_main p <> PIdle) by (destruct Wp as [_ X]; intros Y; rewrite Y in X; exact X).
    pose proof (alive_prun _ _ _ _ _ _ _ P F R AL) as AP. inversion F as [|? ? Fa Fs]; subst. cbn [prun] in R.
    pose proof (pok_step p g l t k a P Fa) as S. destruct (pstep T K a p) as [p1|] eqn:E; [|discriminate]. destruct S as (g1 & l1 & t1 & P1). cbn [obind] in R.
    pose proof (alive_prun _ _ _ _ _ _ _ P1 Fs R AL) as AP1.
    assert (ST : a <> PThr 0 -> p1 = p /\ thrs (a :: s) = thrs s).
    { intros N. destruct (which a) as [[->| ->]|(N1 & N2 & N3)]; [|congruence|].
      - split; [|reflexivity]. apply (main_advd _ _ _ _ _ _ _ _ _ _ P P1 AP E NI), Wp.
      - rewrite (other_noop _ _ _ _ _ a P Fa NI N1 N2) in E. injection E as <-. split; [auto|apply N3]. }
    destruct (which a) as [[Ea| ->]|(N1 & N2 & _)].
    2: { destruct (thr_advd _ _ _ _ _ _ _ _ _ _ P P1 AP1 AP E) as (Y1 & Y2 & Y3 & Y4 & Y5). cbn [thrs] in Le.
      assert (PE : pm p1 g1 = pm p g) by (unfold pm; rewrite Y1, Y3; reflexivity). destruct Wp as [W1 W2]. destruct (Y5 W1) as [Z|[Z1 Z2]].
      - exists [PThr 0], s, p1, g1, l1, t1, (k + pdel (PThr 0))%N. split; [reflexivity|]. split; [cbn [prun]; rewrite E; reflexivity|]. split; [exact P1|]. split; [exact PE|].
        intros [X _]. congruence.
      - destruct (IH p1 g1 l1 t1 _ p' P1 Fs) as (x & y & p2 & g2 & l2 & t2 & k2 & -> & R2 & P2 & E2 & N2); auto; [|lia|].
        + split; [auto|]. rewrite Y1. destruct (p_main p); auto. unfold waiting in *. rewrite Y2, (po_nw _ _ _ _ _ P1). tauto.
        + exists (PThr 0 :: x), y, p2, g2, l2, t2, k2. split; [reflexivity|]. split; [cbn [prun]; rewrite E; exact R2|]. split; [auto|]. split; [congruence|auto]. }
    all: destruct ST as [-> TE]; [congruence|]; rewrite TE in Le;
      destruct (IH p g l t k p' P Fs Wp R AL Le) as (x & y & p2 & g2 & l2 & t2 & k2 & -> & R2 & P2);
      exists (a :: x), y, p2, g2, l2, t2, k2; (split; [reflexivity|]); (split; [cbn [prun]; rewrite E; exact R2|exact P2]).
Qed.
Lemma pmains_app s t : pmains (s ++ t) = pmains s + pmains t.
Proof. induction s as [|[| | | |] s IH]; cbn [app pmains]; rewrite ?IH; auto. Qed.
Lemma ttime_17d p g l t k : pok p g l t k -> alive p -> ttime K t g <= 17.
Proof using L Hn. intros P A. destruct (pok_J _ _ _ _ _ P A) as [_ [B V]]. pose proof (btime_15d K L n Hn g B V). destruct t; cbn [ttime]; lia. Qed.
(** one round: 17 steps of the merging thread, then one of the calling thread *)
Lemma pround s2 s3 p g l t k p' : pok p g l t k -> Forall (lone n) (s2 ++ s3) -> prun T K (s2 ++ s3) p = Ok p' -> alive p' -> 17 <= thrs s2 -> 1 <= pmains s3 ->
  idles (s2 ++ s3) p \/ exists g' l' t' k', pok p' g' l' t' k' /\ pm p' g' < pm p g.
Proof using L Hn.
  intros P F R AL L1 L2. destruct (pwaiting_dec p g) as [W|W].
  - pose proof R as R0. rewrite prun_app in R. destruct (prun T K s2 p) as [p2|] eqn:R2; [|discriminate]. cbn [obind] in R. apply Forall_app in F. destruct F as [F2 F3].
    destruct (pok_run _ _ _ _ _ _ _ P F2 R2) as (g2 & l2 & t2 & P2). pose proof (alive_prun _ _ _ _ _ _ _ P2 F3 R AL) as AL2.
    pose proof (ttime_17d _ _ _ _ _ P (alive_prun _ _ _ _ _ _ _ P F2 R2 AL2)) as T17.
    destruct (unwait s2 p g l t k p2 P F2 W R2 AL2 ltac:(lia)) as (x & y & p1 & g1 & l1 & t1 & k1 & -> & R1 & P1 & E1 & W1).
    rewrite <- app_assoc, prun_app, R1 in R0. cbn [obind] in R0. apply Forall_app in F2. destruct F2 as [_ F2].
    destruct (mono (y ++ s3) p1 g1 l1 t1 k1 p' P1 ltac:(apply Forall_app; auto) R0 AL) as [I|(g' & l' & t' & k' & I1 & I2 & I3)].
    + left. rewrite <- app_assoc. eapply pidles_app; eauto.
    + right. exists g', l', t', k'. split; [auto|]. rewrite <- E1. apply I3; auto. rewrite pmains_app. lia.
  - destruct (mono (s2 ++ s3) p g l t k p' P F R AL) as [I|(g' & l' & t' & k' & I1 & I2 & I3)]; [left; auto|right]. exists g', l', t', k'. split; [auto|].
    apply I3; auto. rewrite pmains_app. lia.
Qed.
Definition pfair (r : list pact * list pact) : Prop := 17 <= thrs (fst r) /\ 1 <= pmains (snd r).
Definition psched (rs : list (list pact * list pact)) : list pact := flat_map (fun r => fst r ++ snd r) rs.
Lemma prounds rs : forall p g l t k p', pok p g l t k -> Forall (lone n) (psched rs) -> Forall pfair rs -> prun T K (psched rs) p = Ok p' -> alive p' -> pm p g < length rs ->
  idles (psched rs) p.
Proof using L Hn.
  induction rs as [|[s2 s3] rs IH]; intros p g l t k p' P Fl F R AL Le; cbn [length] in Le; [lia|].
  inversion F as [|? ? [F1 F2] F3]; subst. cbn [fst snd] in *. cbn [psched flat_map fst snd] in *. fold (psched rs) in *. apply Forall_app in Fl. destruct Fl as [Fl1 Fl2].
  rewrite prun_app in R. destruct (prun T K (s2 ++ s3) p) as [p1|] eqn:R1; [|discriminate]. cbn [obind] in R.
  destruct (pok_run _ _ _ _ _ _ _ P Fl1 R1) as (g0 & l0 & t0 & P0).
  destruct (pround s2 s3 p g l t k p1 P Fl1 R1 (alive_prun _ _ _ _ _ _ _ P0 Fl2 R AL) F1 F2) as [I|(g1 & l1 & t1 & k1 & P1 & D)]; [apply pidles_more; auto|].
  eapply pidles_app; eauto. eapply IH; eauto. lia.
Qed.
End One.

(** ** After the destructor *)
Section Gone.
Context (T : thresholds) (K : k2impl).
Definition gone (p : proc K) (g : bg K) (t : tpc) : Prop := p_gs p = [mkslot g false t] /\ p_run p = false /\ p_main p = PIdle /\ t <> TIn.
Definition left (t : tpc) : nat := match t with THead => 1 | TWait => 2 | TCheck => 1 | _ => 0 end.
Lemma gone_step n p g t a : gone p g t -> lone n a -> exists p' t', pstep T K a p = Ok p' /\ gone p' g t' /\ left t' <= left t - (thrs [a]).
Proof.
  intros (G & R & M & N) A. assert (SM : left t <= left t - thrs [a] -> exists p' t', Ok p = Ok p' /\ gone p' g t' /\ left t' <= left t - thrs [a]).
  { intros X. exists p, t. repeat split; auto. }
  destruct a as [m|i c|i| |i]; cbn [lone thrs] in *; cbn [pstep].
  - destruct A.
  - rewrite M, G. destruct i as [|[|]]; cbn [nth_error]; apply SM; lia.
  - rewrite M, G. destruct i as [|[|]]; cbn [nth_error]; apply SM; lia.
  - rewrite M. apply SM. lia.
  - rewrite G. destruct i as [|[|]]; cbn [nth_error thrs] in *; try (apply SM; lia). rewrite R, orb_true_r. destruct t; try congruence.
    + do 2 eexists. split; [reflexivity|]. split; [repeat split; cbn; auto; discriminate|]. cbn. lia.
    + do 2 eexists. split; [reflexivity|]. split; [repeat split; cbn; auto; discriminate|]. cbn. lia.
    + do 2 eexists. split; [reflexivity|]. split; [repeat split; cbn; auto; discriminate|]. cbn. lia.
    + apply SM. cbn. lia.
Qed.
Lemma gone_run n s : forall p g t, gone p g t -> Forall (lone n) s -> exists p' t', prun T K s p = Ok p' /\ gone p' g t' /\ left t' <= left t - thrs s.
Proof.
  induction s as [|a s IH]; intros p g t P F; cbn [prun].
  - exists p, t. split; [auto|]. split; [auto|cbn; lia].
  - inversion F as [|? ? Fa Fs]; subst. destruct (gone_step n p g t a P Fa) as (p1 & t1 & E1 & P1 & L1). rewrite E1. cbn [obind].
    destruct (IH _ _ _ P1 Fs) as (p' & t' & E & P' & L'). exists p', t'. split; [auto|]. split; [auto|].
    assert (X : thrs (a :: s) = thrs [a] + thrs s) by (destruct a as [| | | |[|]]; reflexivity). lia.
Qed.
End Gone.

Section Main.
Context (T : thresholds) (K : k2impl) (L : k2laws K).

(** ** The process adds nothing to the graph: its state, and the answers it has given, are those of an execution of the graph on its own
    (Prop_BgDel, Prop_BgUB, Prop_BgFew) with no more deletions. *)
Theorem C94_follows : forall n s p, (2 <= n)%N -> Forall (lone n) s -> prun T K (PNew n :: s) proc0 = Ok p ->
  exists g live t s', p_gs p = [mkslot g live t] /\ Forall (act_rng n) s' /\ exec true T K n s' = Ok g /\ (del_calls s' <= pdels s)%N /\ plog p 0 = b_log g.
Proof using L.
  intros n s p Hn F E. destruct (pok_start T K L n Hn s p F E) as (g & l & t & P). destruct (po_re _ _ _ _ _ _ _ _ P) as (k & (s' & F' & E' & D) & Le).
  exists g, l, t, s'. split; [apply (po_gs _ _ _ _ _ _ _ _ P)|]. split; [auto|]. split; [auto|]. split; [lia|]. unfold plog. rewrite (po_gs _ _ _ _ _ _ _ _ P). reflexivity.
Qed.
Lemma follows_alive : forall n s p, (2 <= n)%N -> Forall (lone n) s -> prun T K (PNew n :: s) proc0 = Ok p -> alive K p ->
  exists g live t s', p_gs p = [mkslot g live t] /\ Forall (act_rng n) s' /\ exec true T K n s' = Ok g /\ b_b g <> BDead /\ plog p 0 = b_log g.
Proof using L.
  intros n s p Hn F E A. destruct (C94_follows n s p Hn F E) as (g & l & t & s' & G & F' & E' & _ & P). exists g, l, t, s'. repeat split; auto.
  apply (A (mkslot g l t)). rewrite G. left. reflexivity.
Qed.
(** ** C94: the answers.  While the merging thread lives ([alive]: it has not thrown), for every schedule, the destructor included: a query
    that does not run during a merge reports every edge that is in the graph; nothing is reported that was never inserted; an edge that was
    never inserted while it was in the graph is reported only if it is in the graph. *)
Theorem C94_answers : forall n s p, (2 <= n)%N -> Forall (lone n) s -> prun T K (PNew n :: s) proc0 = Ok p -> alive K p ->
  (forall h2 h1 e b busy, plog p 0 = h2 ++ EHas e b busy :: h1 ->
     (busy = false -> In e (live h1) -> b = true) /\ (b = true -> In e (ins_of h1)) /\ (b = true -> fresh_for e h1 -> In e (live h1))) /\
  (forall h2 h1 x l busy y, plog p 0 = h2 ++ ENbr x l busy :: h1 ->
     (busy = false -> In (x, y) (live h1) -> In y l) /\ (In y l -> In (x, y) (ins_of h1)) /\ (In y l -> fresh_for (x, y) h1 -> In (x, y) (live h1)) /\
     (busy = false -> fresh_for (x, y) h1 -> count_occ N.eq_dec l y <= 1)).
Proof using L.
  intros n s p Hn F E A. destruct (follows_alive n s p Hn F E A) as (g & l & t & s' & _ & F' & E' & D & ->).
  destruct (C71_nothing_lost true T K L n s' g Hn F' E' D) as [A1 A2]. destruct (C72_nothing_invented true T K L n s' g Hn F' E' D) as [B1 B2].
  destruct (C62_answers_partial true T K L n s' g Hn F' E' D) as (C1 & C2 & C3). split.
  - intros h2 h1 e b busy El. split; [|split].
    + intros -> I. eapply A1; eauto.
    + intros ->. eapply B1; eauto.
    + intros -> Fr. eapply C1; eauto.
  - intros h2 h1 x l0 busy y El. split; [|split; [|split]].
    + intros -> I. eapply A2; eauto.
    + intros I. eapply B2; eauto.
    + intros I Fr. eapply C2; eauto.
    + intros -> Fr. eapply C3; eauto.
Qed.
(** Between two calls the edge count is the number of edges, if no edge was ever inserted while it was in the graph. *)
Theorem C94_count : forall n s p g t, (2 <= n)%N -> Forall (lone n) s -> prun T K (PNew n :: s) proc0 = Ok p -> alive K p ->
  p_gs p = [mkslot g true t] -> p_main p = PIdle -> fresh (b_log g) -> bg_edges K g = N.of_nat (length (live (b_log g))) /\ NoDup (live (b_log g)).
Proof using L.
  intros n s p g t Hn F E A G M Fr. destruct (pok_start T K L n Hn s p F E) as (g0 & l0 & t0 & P). pose proof (po_gs _ _ _ _ _ _ _ _ P) as G0.
  rewrite G in G0. injection G0 as <- <- <-. destruct (po_re _ _ _ _ _ _ _ _ P) as (k & (s' & F' & E' & _) & _).
  pose proof (po_main _ _ _ _ _ _ _ _ P) as PM. rewrite M in PM. apply (C62_count_partial true T K L n s' g Hn F' E'); auto.
  apply (A (mkslot g true t)). rewrite G. left. reflexivity.
Qed.
(** ** The merging thread does not throw before n-1 deletions *)
Theorem C94_few_deletions : th_top T -> forall n s p, (2 <= n)%N -> Forall (lone n) s -> (pdels s + 1 < n)%N -> prun T K (PNew n :: s) proc0 = Ok p -> alive K p.
Proof using L.
  intros HT n s p Hn F Few E. destruct (C94_follows n s p Hn F E) as (g & l & t & s' & G & F' & E' & D & _). intros x I. rewrite G in I. destruct I as [<-|[]].
  apply (C69_few_deletions_partial true T K L HT n s' g Hn F'); [lia|exact E'].
Qed.
(** ** Exactly when a step of the process is undefined: never in a destructor or in a merging thread *)
Theorem C94_only_way : forall n s p a, (2 <= n)%N -> Forall (lone n) (s ++ [a]) -> prun T K (PNew n :: s) proc0 = Ok p -> alive K p ->
  (pstep T K a p = UB <-> a = PMain /\ exists g t e, p_gs p = [mkslot g true t] /\ buffering true T K g e /\ worn_out T K g).
Proof using L.
  intros n s p a Hn F E A. apply Forall_app in F. destruct F as [F Fa]. inversion Fa as [|? ? Fa1 _]; subst.
  destruct (pok_start T K L n Hn s p F E) as (g & l & t & P). destruct (po_re _ _ _ _ _ _ _ _ P) as (k & (s' & F' & E' & _) & _).
  pose proof (po_gs _ _ _ _ _ _ _ _ P) as G. assert (D : b_b g <> BDead) by (apply (A (mkslot g l t)); rewrite G; left; reflexivity).
  pose proof (po_main _ _ _ _ _ _ _ _ P) as M. split.
  - intros U. pose proof (pok_step T K n Hn p g l t _ a P Fa1) as S. rewrite U in S. apply (C91_only_way true T K L n s' g (acts a) Hn F' E' D) in S.
    destruct S as (Ea & e & B & W). assert (NI : b_m g <> MIdle) by (destruct B as [[X _]|[X _]]; congruence).
    assert (EM : exists i, p_main p = PIn i) by (destruct (p_main p); eauto; unfold idle in M; tauto). destruct EM as [i EM]. rewrite EM in M. destruct M as [-> [-> _]].
    split; [|exists g, t, e; auto]. destruct a as [m|i c|i| |i]; cbn [acts lone] in *; try discriminate; [tauto| |auto].
    cbn [pstep] in U. rewrite EM in U. discriminate.
  - intros [-> (g1 & t1 & e & G1 & B & W)]. rewrite G in G1. injection G1 as <- -> <-.
    assert (NI : b_m g <> MIdle) by (destruct B as [[X _]|[X _]]; congruence).
    assert (EM : exists i, p_main p = PIn i) by (destruct (p_main p); eauto; unfold idle in M; tauto). destruct EM as [i EM]. rewrite EM in M. destruct M as [-> _].
    cbn [pstep]. rewrite EM, G. cbn [nth_error]. rewrite set_nw_id by apply (po_nw _ _ _ _ _ _ _ _ P).
    assert (U : step true T K AMain g = UB) by (apply (C91_only_way true T K L n s' g AMain Hn F' E' D); eauto). cbn [step] in U. rewrite U. reflexivity.
Qed.
(** ** Calls and the destructor return.  [rs]: rounds; in each the merging thread takes 17 steps and then the calling thread one (other steps
    may come between).  A call, or the destructor, that begins in p is over within 26 (edges + 1) rounds, unless something undefined happens
    or the merging thread throws. *)
Theorem C94_returns : forall n s p g t a p1 rs p', (2 <= n)%N -> Forall (lone n) (s ++ a :: psched rs) -> prun T K (PNew n :: s) proc0 = Ok p ->
  p_gs p = [mkslot g true t] -> p_main p = PIdle -> (exists c, a = PCall 0 c) \/ a = PDel 0 -> pstep T K a p = Ok p1 ->
  Forall pfair rs -> prun T K (psched rs) p1 = Ok p' -> alive K p' -> 26 * (N.to_nat (bg_edges K g) + 1) <= length rs ->
  exists x y p2, psched rs = x ++ y /\ prun T K x p1 = Ok p2 /\ p_main p2 = PIdle.
Proof using L.
  intros n s p g t a p1 rs p' Hn F E G M Ca S Fa R A Le. apply Forall_app in F. destruct F as [F F1]. inversion F1 as [|? ? Fc Fs]; subst.
  destruct (pok_start T K L n Hn s p F E) as (g0 & l0 & t0 & P). pose proof (po_gs _ _ _ _ _ _ _ _ P) as G0. rewrite G in G0. injection G0 as <- <- <-.
  pose proof (pok_step T K n Hn _ _ _ _ _ a P Fc) as S1. rewrite S in S1. destruct S1 as (g1 & l1 & t1 & P1).
  pose proof (alive_prun T K n Hn _ _ _ _ _ _ _ P1 Fs R A) as A1. pose proof (alive_step T K n Hn _ _ _ _ _ _ _ _ _ _ _ P Fc S P1 A1) as A0.
  eapply (prounds T K L n Hn); eauto. unfold bg_edges in Le. destruct Ca as [[c ->]| ->]; cbn [pstep] in S; rewrite M, G in S; cbn [nth_error] in S.
  - rewrite set_nw_id in S by apply (po_nw _ _ _ _ _ _ _ _ P). destruct (call_step K c g) as [g2|] eqn:C; [|discriminate]. cbn [obind upd] in S. injection S as <-.
    pose proof (po_gs _ _ _ _ _ _ _ _ P1) as G1. cbn in G1. injection G1 as <- <- <-.
    destruct (pok_J T K L n Hn _ _ _ _ _ P A0) as [_ [B V]]. pose proof (po_main _ _ _ _ _ _ _ _ P) as PM. rewrite M in PM.
    pose proof (mt_call K L n Hn g B c g2 V PM C) as X. unfold pm. cbn [p_main]. destruct (main_of K 0 g2) eqn:EMO; try lia.
    all: pose proof (main_of_idle K g2 0) as MO; rewrite EMO in MO; destruct MO.
  - injection S as <-. unfold pm. cbn [p_main]. lia.
Qed.
(** ** Once the destructor has returned nothing undefined happens any more, the merging thread never touches the object, and it ends within two
    steps. *)
Theorem C94_destroyed : forall n s p g t s2, (2 <= n)%N -> Forall (lone n) (s ++ s2) -> prun T K (PNew n :: s) proc0 = Ok p -> p_gs p = [mkslot g false t] ->
  t <> TIn /\ exists p' t', prun T K s2 p = Ok p' /\ p_gs p' = [mkslot g false t'] /\ t' <> TIn /\ (2 <= thrs s2 -> t' = TEnd).
Proof using L.
  intros n s p g t s2 Hn F E G. apply Forall_app in F. destruct F as [F F2].
  destruct (pok_start T K L n Hn s p F E) as (g0 & l0 & t0 & P). pose proof (po_gs _ _ _ _ _ _ _ _ P) as G0. rewrite G in G0. injection G0 as <- <- <-.
  assert (RF : p_run p = false) by (destruct (p_run p) eqn:X; auto; destruct (po_run _ _ _ _ _ _ _ _ P X) as [_ [_ [Y _]]]; congruence).
  destruct (po_off _ _ _ _ _ _ _ _ P RF) as [[[_ X]|[PI _]] WF]; [discriminate|].
  assert (NT : t <> TIn).
  { intros ->. pose proof (po_in _ _ _ _ _ _ _ _ P eq_refl) as NP. pose proof (q_b _ _ _ (po_q _ _ _ _ _ _ _ _ P) NP) as W. rewrite (po_nw _ _ _ _ _ _ _ _ P) in W. congruence. }
  split; [auto|]. destruct (gone_run T K n s2 p g t) as (p' & t' & E' & (G' & _ & _ & N') & Lt); [repeat split; auto|auto|].
  exists p', t'. repeat split; auto. intros L2. assert (A2 : left t <= 2) by (destruct t; cbn; lia). assert (A0 : left t' = 0) by lia. clear Lt A2.
  destruct t'; try reflexivity; try discriminate A0; congruence.
Qed.
End Main.

(** ** The hypotheses are met: two flushes, a merge, an edge deleted from a tree, a question, the destructor, the end of the thread *)
Definition pins (e : edge) : list pact := PCall 0 (CIns e) :: repeat PMain 24.
Definition pask (e : edge) : list pact := PCall 0 (CHas e) :: repeat PMain 24.
Definition w94 : list pact :=
  pins (0, 1)%N ++ pins (0, 2)%N ++ repeat (PThr 0) 18 ++ pins (0, 3)%N ++ PCall 0 (CDel (0, 2)%N) :: repeat PMain 2 ++ pask (0, 2)%N ++ pask (0, 1)%N.
Example C94_example : Forall (lone 8) w94 /\ pdels w94 = 1%N /\ exists p g t, prun th_exact K2Ref (PNew 8 :: w94) proc0 = Ok p /\ alive _ p /\
  p_gs p = [mkslot g true t] /\ p_main p = PIdle /\ fresh (b_log g) /\ bg_edges _ g = 2%N /\
  plog p 0 = [EHas (0, 1)%N true false; EHas (0, 2)%N false false; EDel (0, 2)%N; EIns (0, 3)%N Buffered; EIns (0, 2)%N Flushed; EIns (0, 1)%N Buffered].
Proof.
  split; [repeat constructor|]. split; [reflexivity|]. rewrite <- (tabled_eq th_exact th_real_inhabited). do 3 eexists. split; [vm_compute; reflexivity|].
  split; [intros s [<-|[]]; discriminate|]. split; [reflexivity|]. split; [reflexivity|]. split; [vm_compute; intuition congruence|]. split; reflexivity.
Qed.
(** the destructor, entered after a deletion while the merge is going on *)
Definition w94d : list pact := w94 ++ pins (0, 4)%N ++ repeat (PThr 0) 4.
Definition rs94 : list (list pact * list pact) := repeat (repeat (PThr 0) 17, [PMain]) 104.
Example C94_returns_example : Forall (lone 8) (w94d ++ PDel 0 :: psched rs94) /\ Forall pfair rs94 /\ exists p g t p1 p', prun th_exact K2Ref (PNew 8 :: w94d) proc0 = Ok p /\
  p_gs p = [mkslot g true t] /\ p_main p = PIdle /\ p_nw p = true /\ pstep th_exact K2Ref (PDel 0) p = Ok p1 /\ prun th_exact K2Ref (psched rs94) p1 = Ok p' /\ alive _ p' /\
  26 * (N.to_nat (bg_edges _ g) + 1) <= length rs94 /\ exists g', p_gs p' = [mkslot g' false TEnd].
Proof.
  split; [apply Forall_app; split; [repeat constructor|constructor; [exact I|]]; apply Forall_forall; intros a Ia; unfold psched, rs94 in Ia; apply in_flat_map in Ia;
    destruct Ia as (r & Ir & Ia); apply repeat_spec in Ir; subst r; cbn [fst snd] in Ia; apply in_app_or in Ia; destruct Ia as [Ia|[<-|[]]]; [apply repeat_spec in Ia; subst|]; exact I|].
  split; [apply Forall_forall; intros r Ir; apply repeat_spec in Ir; subst; vm_compute; lia|].
  rewrite <- (tabled_eq th_exact th_real_inhabited). do 5 eexists. split; [vm_compute; reflexivity|].
  split; [reflexivity|]. split; [reflexivity|]. split; [reflexivity|]. split; [vm_compute; reflexivity|]. split; [vm_compute; reflexivity|].
  split; [intros s [<-|[]]; discriminate|]. split; [vm_compute; lia|]. eexists. reflexivity.
Qed.
