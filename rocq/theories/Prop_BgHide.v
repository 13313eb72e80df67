(** * Prop_BgHide: how many edges a merge hides (C90).

    C31: while a merge is going on, queries miss the edges that were in the buffer when the merge began.  How many edges can that be?
    In DKtree_background_wait at most MAXSZ(m, 0), where m is the number of vertices, or of edges if that is larger, at some moment before the
    merge.  In DKtree_background there is no bound: while a merge is going on, insertions go to the buffer, which grows. *)
From Coq Require Import Reals Lra.
From Verif Require Import Base Spec Thresholds Table K2 C0 C0Proof DK DKProof DKHist Delay MunroProof BgSpec Bg BgProof BgTime Prop_Bg.
Open Scope nat_scope.

(** ** When an insertion empties the buffer.
    [full n h]: after the calls h, the buffer holds at least MAXSZ(max(n, edges), 0) edges. *)
Definition full (T : thresholds) (n : N) (h : list event) : Prop :=
  (th_max T (N.max n (N.of_nat (length (stored h)))) 0 <= N.of_nat (length (recent h)))%N.
Fixpoint sizes_ok (wt : bool) (T : thresholds) (n : N) (h : list event) : Prop :=
  match h with
  | [] => True
  | EIns _ Flushed :: h => full T n h /\ sizes_ok wt T n h
  | EIns _ Buffered :: h => (wt = true -> ~ full T n h) /\ sizes_ok wt T n h
  | _ :: h => sizes_ok wt T n h
  end.

Section Sizes.
Context (wt : bool) (T : thresholds) (K : k2impl) (L : k2laws K) (n : N) (Hn : (2 <= n)%N) (HT : th_top T).
Local Notation bg := (bg K).
Local Notation inv := (inv T K L n).
Local Notation full := (full T n).
Local Notation sizes_ok := (sizes_ok wt T n).

Definition J (g : bg) : Prop := (match b_m g with MClean _ => full (b_log g) | _ => True end) /\ sizes_ok (b_log g).

Lemma full_at g : inv g -> full (b_log g) <-> (th_max T (N.max n (b_nt g)) 0 <= N.of_nat (length (recent (b_log g))))%N.
Proof. intros V. unfold full. rewrite (bi_nt _ _ _ _ _ V). reflexivity. Qed.
Lemma size_at g : inv g -> length (recent (b_log g)) = c0_size (b_c0 g).
Proof. intros V. rewrite (inv_size _ _ (bi_c0 _ _ _ _ _ V)), live_lv, rev_length. reflexivity. Qed.

Lemma has_end_J (g g' : bg) k e b busy : b_todo g = None -> sizes_ok (b_log g) -> has_end K g k e b busy = Ok g' -> J g'.
Proof.
  intros TD S. unfold has_end. destruct k; [destruct b|].
  - rewrite ins_end_ok by auto. intros X; injection X as <-. split; [exact Logic.I|exact S].
  - intros X; injection X as <-. split; [exact Logic.I|exact S].
  - intros X; injection X as <-. split; [exact Logic.I|exact S].
Qed.
Lemma main_J g g' : inv g -> J g -> main_step wt T K g = Ok g' -> J g'.
Proof.
  intros V [JC JS]. pose proof (bi_todo _ _ _ _ _ V) as TD. pose proof (size_at _ V) as SZ. pose proof (full_at _ V) as FU.
  pose proof (bi_m _ _ _ _ _ V) as M. unfold mfact in M. unfold main_step.
  assert (PL : forall m, match m with MClean _ => False | _ => True end -> J (set_m g m)).
  { intros m. split; [destruct m; cbn; tauto|exact JS]. }
  destruct (b_m g) eqn:Em.
  - intros X; injection X as <-. split; [rewrite Em; exact Logic.I|exact JS].
  - destruct (b_nw g).
    + destruct (eeqb (b_tmp g) e); [apply has_end_J; auto|]. destruct (b_mrb g <? length (b_copy g)); [apply has_end_J; auto|discriminate].
    + intros X; injection X as <-. apply PL. exact Logic.I.
  - destruct (i <=? b_maxr g); [|apply has_end_J; auto]. destruct (nth_error (b_ks g) i) as [[t|]|]; [| |discriminate].
    + destruct (kt_adj K t (fst e) (snd e)); [apply has_end_J; auto|]. intros X; injection X as <-. apply PL. exact Logic.I.
    + intros X; injection X as <-. apply PL. exact Logic.I.
  - unfold maxsz. destruct (N.max (b_n g) (b_nt g) =? 1)%N; [discriminate|]. cbn [obind].
    destruct (N.ltb_spec (N.of_nat (c0_size (b_c0 g))) (th_max T (N.max (b_n g) (b_nt g)) 0)) as [Lt|Ge].
    + destruct (c0_insert T (b_c0 g) e (b_nt g)); [|discriminate]. cbn [obind]. rewrite ins_end_ok by auto. intros X; injection X as <-.
      split; [exact Logic.I|]. gcbn. cbn [Prop_BgHide.sizes_ok]. split; [|exact JS]. intros _ X. apply FU in X. rewrite (bi_nn _ _ _ _ _ V) in Lt. lia.
    + intros X; injection X as <-. apply PL. exact Logic.I.
  - destruct (b_nw g).
    + destruct (Bool.bool_dec wt true) as [Ew|Ew]; [rewrite Ew; intros X; injection X as <-; split; [rewrite Em; exact Logic.I|exact JS]|].
      apply Bool.not_true_is_false in Ew. rewrite Ew.
      destruct (c0_insert T _ e (b_nt g)); [|discriminate]. cbn [obind]. rewrite ins_end_ok by auto. intros X; injection X as <-.
      split; [exact Logic.I|]. gcbn. cbn [Prop_BgHide.sizes_ok]. split; [congruence|exact JS].
    + intros X; injection X as <-. apply PL. exact Logic.I.
  - destruct (c0_converted (b_c0 g)); [|discriminate]. cbn [obind]. intros X; injection X as <-. split; [exact Logic.I|exact JS].
  - destruct (nth_error (b_ks g) j); intros X; injection X as <-; split; try exact Logic.I; exact JS.
  - intros X; injection X as <-. split; [|exact JS]. gcbn. apply FU. apply M.
  - destruct (c0_clean (b_c0 g)); [|discriminate]. cbn [obind]. rewrite ins_end_ok by auto. intros X; injection X as <-.
    split; [exact Logic.I|]. gcbn. cbn [Prop_BgHide.sizes_ok]. auto.
  - destruct (b_nw g); intros X; injection X as <-; apply PL; exact Logic.I.
  - destruct (l <=? b_maxr g); [|intros X; injection X as <-; split; [exact Logic.I|exact JS]].
    destruct (nth_error _ l) as [[t|]|]; [| |discriminate]; intros X; injection X as <-; apply PL; exact Logic.I.
  - destruct M.
  - destruct M.
Qed.
Lemma call_J g g' c : inv g -> J g -> call_in n c -> call_step K c g = Ok g' -> J g'.
Proof.
  intros V [JC JS] R. pose proof (bi_todo _ _ _ _ _ V) as TD. unfold call_step.
  destruct (b_m g) eqn:Em; try (intros X; injection X as <-; split; [rewrite Em; exact JC|exact JS]).
  destruct c as [e|e|x|e].
  - unfold start, fuel_of. rewrite TD. cbn [ins_start]. destruct (c0_contains (b_c0 g) e) as [[]|]; cbn [obind]; [| |discriminate].
    + unfold ins_done. rewrite TD. intros X; injection X as <-. split; [exact Logic.I|exact JS].
    + intros X; injection X as <-. split; [exact Logic.I|exact JS].
  - destruct (c0_contains (b_c0 g) e) as [[]|]; cbn [obind]; [| |discriminate]; intros X; injection X as <-; split; try exact Logic.I; exact JS.
  - destruct (c0_neigh (b_c0 g) x); cbn [obind]; [|discriminate]. intros X; injection X as <-. split; [exact Logic.I|exact JS].
  - destruct R.
Qed.
Lemma back_log (g g' : bg) : back_step T K g = Ok g' -> b_log g' = b_log g /\ b_m g' = b_m g.
Proof.
  unfold back_step. destruct (b_b g); try (intros E; injection E as <-; auto; fail).
  - destruct (b_nw g); intros E; injection E as <-; auto.
  - unfold maxsz. destruct (b_msz g =? 1)%N; [discriminate|]. cbn [obind]. destruct (find_level _ _ _ _ _ _); intros E; injection E as <-; auto.
  - destruct (j <=? i); [|intros E; injection E as <-; auto]. destruct (nth_error _ _) as [[|]|]; [| |discriminate]; intros E; injection E as <-; auto.
  - destruct (i <? _); [|discriminate]. intros E; injection E as <-; auto.
Qed.
Lemma run_J s : forall g g', inv g -> J g -> Forall (act_in n) s -> run wt T K s g = Ok g' -> J g'.
Proof using L Hn HT.
  induction s as [|a s IH]; intros g g' V JJ F; cbn [run]; [intros X; injection X as <-; auto|]. inversion F as [|? ? FA FS]; subst.
  destruct (step_ok wt T K L n Hn HT g a V) as (g1 & E1 & V1); auto. rewrite E1. cbn [obind]. intros R. eapply IH; eauto.
  destruct a as [c| |]; cbn [step] in E1.
  - exact (call_J g g1 c V JJ FA E1).
  - exact (main_J g g1 V JJ E1).
  - apply back_log in E1. destruct E1 as [A B]. destruct JJ. split; rewrite ?A, ?B; auto.
Qed.
End Sizes.

(** C90, when insertions begin a merge: only when the buffer holds MAXSZ edges; with DKtree_background_wait exactly then (an insertion that does
    not find its edge begins a merge if the buffer is full, and goes to the buffer otherwise). *)
Theorem C90_when : forall wt T K (L : k2laws K) n s g, th_top T -> (2 <= n)%N -> Forall (act_in n) s -> exec wt T K n s = Ok g ->
  forall h2 h1 e w, b_log g = h2 ++ EIns e w :: h1 ->
    (w = Flushed -> full T n h1) /\ (wt = true -> w = Buffered -> ~ full T n h1).
Proof.
  intros wt T K L n s g HT Hn F E h2 h1 e w EL. unfold exec in E. destruct (bg_new_ok wt T K L n Hn) as (g0 & E0 & V0). rewrite E0 in E. cbn [obind] in E.
  assert (J0 : J wt T K n g0).
  { unfold bg_new in E0. destruct (c0_new T n); [|discriminate]. cbn [obind] in E0. injection E0 as <-. split; exact Logic.I. }
  pose proof (run_J wt T K L n Hn HT s g0 g V0 J0 F E) as [_ S]. rewrite EL in S. revert S. clear.
  induction h2 as [|v h2 IH]; cbn [app sizes_ok].
  - destruct w; intros S; (split; [|intros Hw]); try discriminate; intros _; tauto.
  - destruct v as [f [| |]| | |]; tauto.
Qed.

(** ** DKtree_background_wait: a bound *)
Lemma recent_bound T n h : sizes_ok true T n h -> recent h = [] \/ exists m, (m <= N.of_nat (length (stored h)))%N /\ (N.of_nat (length (recent h)) <= th_max T (N.max n m) 0)%N.
Proof.
  induction h as [|v h IH]; [auto|]. destruct v as [f [| |]| | |]; cbn [sizes_ok recent stored]; try exact IH.
  - intros [A S]. right. specialize (A eq_refl). unfold full in A. exists (N.of_nat (length (stored h))). cbn [length]. lia.
  - intros _. auto.
Qed.
(** C90, DKtree_background_wait (the only graph of its process), insertions only, every schedule: if all the edges of D were inserted and a contains asked now
    about any of them answers false, D has at most MAXSZ(max(n, m), 0) elements, for some m up to the number of insertions. *)
Theorem C90_wait_partial : forall T K (L : k2laws K) n s g D, th_top T -> (2 <= n)%N -> Forall (act_in n) s -> exec true T K n s = Ok g -> b_m g = MIdle ->
  NoDup D -> incl D (inserted (b_log g)) ->
  (forall e, In e D -> exists s' g' busy, Forall (act_in n) s' /\ run true T K (ACall (CHas e) :: s') g = Ok g' /\ b_log g' = EHas e false busy :: b_log g) ->
  exists m, (m <= N.of_nat (length (inserted (b_log g))))%N /\ (N.of_nat (length D) <= th_max T (N.max n m) 0)%N.
Proof.
  intros T K L n s g D HT Hn F E Em ND IN HD.
  destruct (exec_ok true T K L n Hn HT s F) as (g0 & E0 & V). rewrite E in E0. injection E0 as <-.
  pose proof (bi_log _ _ _ _ _ V) as LO.
  assert (SZ : sizes_ok true T n (b_log g)).
  { unfold exec in E. destruct (bg_new_ok true T K L n Hn) as (g0 & E0 & V0). rewrite E0 in E. cbn [obind] in E.
    assert (J0 : J true T K n g0).
    { unfold bg_new in E0. destruct (c0_new T n); [|discriminate]. cbn [obind] in E0. injection E0 as <-. split; exact Logic.I. }
    apply (run_J true T K L n Hn HT s g0 g V0 J0 F E). }
  assert (NV : forall e, In e D -> ~ In e (visible (b_log g))).
  { intros e I. destruct (HD e I) as (s' & g' & busy & F' & R & EL).
    assert (IR : in_range n e).
    { pose proof (bi_rng _ _ _ _ _ V) as RG. rewrite Em in RG. cbn [vlog] in RG. rewrite Forall_forall in RG. apply RG. apply inserted_stored; auto. }
    assert (F2 : Forall (act_in n) (ACall (CHas e) :: s')) by (constructor; auto).
    destruct (run_ok true T K L n Hn HT _ g V F2) as (g2 & R2 & V2). rewrite R in R2. injection R2 as <-.
    pose proof (bi_log _ _ _ _ _ V2) as LO2. rewrite EL in LO2. destruct LO2 as [EO _]. cbn [event_ok] in EO.
    intros X. assert (Y : In e (seen busy (b_log g))) by (destruct busy; cbn [seen]; [auto|apply visible_stored; auto]). apply EO in Y. discriminate. }
  destruct (last_flush (b_log g)) as [[f r]|] eqn:LF.
  - assert (ID : incl D (recent r)).
    { intros e I. pose proof (inserted_stored _ e LO (IN e I)) as S. apply stored_split in S. specialize (NV e I). unfold visible in NV. rewrite LF, in_app_iff in NV.
      unfold older in S. rewrite LF in S. cbn [In] in *. destruct S as [S|[->|S]]; [tauto|tauto|]. apply stored_split in S. tauto. }
    assert (TL : exists p, b_log g = p ++ EIns f Flushed :: r).
    { clear - LF. revert LF. induction (b_log g) as [|v h IH]; [discriminate|]. destruct v as [x [| |]| | |]; cbn [last_flush];
        try (intros Q; destruct (IH Q) as [p ->]; eexists (_ :: p); reflexivity). intros Q; injection Q as -> ->. exists []. reflexivity. }
    destruct TL as [p TL].
    assert (SR : sizes_ok true T n r).
    { rewrite TL in SZ. revert SZ. clear. induction p as [|v p IH]; cbn [app sizes_ok]; [tauto|]. destruct v as [x [| |]| | |]; tauto. }
    pose proof (NoDup_incl_length ND ID) as LE. destruct (recent_bound T n r SR) as [Z|(m & M1 & M2)].
    + rewrite Z in LE. exists 0%N. cbn in LE. split; [lia|]. lia.
    + exists m. split; [|lia]. assert (length (stored r) <= length (inserted (b_log g))); [|lia].
      rewrite TL. pose proof (stored_le r). clear - H. induction p as [|v p IH]; cbn [app inserted]; [cbn [length]; lia|]. destruct v; cbn [inserted length]; lia.
  - assert (DN : D = []).
    { destruct D as [|e D]; [auto|]. exfalso. apply (NV e (or_introl eq_refl)). unfold visible. rewrite LF, app_nil_r.
      pose proof (inserted_stored _ e LO (IN e (or_introl eq_refl))) as S. apply stored_split in S. unfold older in S. rewrite LF in S. destruct S as [S|[]]. auto. }
    exists 0%N. rewrite DN. cbn [length]. lia.
Qed.

(** ** DKtree_background: no bound *)
Definition ins (e : edge) : list act := ACall (CIns e) :: repeat AMain 24.

Section One.
Context (T : thresholds) (K : k2impl) (L : k2laws K) (n : N) (Hn : (2 <= n)%N) (HT : th_top T).
Local Notation bg := (bg K).
Local Notation inv := (inv T K L n).
Local Notation full := (full T n).

Lemma idle_stays k : forall g : bg, b_m g = MIdle -> run false T K (repeat AMain k) g = Ok g.
Proof. induction k as [|k IH]; intros g M; [reflexivity|]. cbn [repeat run step]. unfold main_step. rewrite M. cbn [obind]. auto. Qed.

(** an insertion of e into g is under way, or has ended *)
Definition ended (g : bg) (e : edge) (g1 : bg) : Prop :=
  b_m g1 = MIdle /\ exists w, b_log g1 = EIns e w :: b_log g /\
    (w = Flushed /\ full (b_log g) /\ b_nw g = false /\ b_nw g1 = true \/
     w = Buffered /\ b_nw g1 = b_nw g /\ (b_nw g = false -> ~ full (b_log g))).
Definition going (g : bg) (e : edge) (g1 : bg) : Prop :=
  b_log g1 = b_log g /\
  match b_m g1 with
  | MHas true e' | MScan true e' _ | MIns e' => e' = e /\ b_nw g1 = b_nw g
  | MBusy e' => e' = e /\ b_nw g1 = b_nw g /\ full (b_log g)
  | MPush e' | MCopy e' _ | MFlag e' => e' = e /\ b_nw g = false /\ b_nw g1 = false /\ full (b_log g)
  | MClean e' => e' = e /\ b_nw g = false /\ b_nw g1 = true /\ full (b_log g)
  | _ => False
  end.

Lemma has_end_going g e g1 g2 b busy : inv g1 -> inv g2 -> ~ In e (inserted (b_log g)) -> b_log g1 = b_log g -> b_nw g1 = b_nw g ->
  has_end K g1 true e b busy = Ok g2 -> going g e g2.
Proof.
  intros V1 V2 NI EL EW. unfold has_end. destruct b.
  - rewrite ins_end_ok by apply (bi_todo _ _ _ _ _ V1). intros X; injection X as <-. exfalso. apply NI.
    pose proof (bi_log _ _ _ _ _ V2) as LO. gcbn. destruct LO as [EO _]. cbn [event_ok] in EO. rewrite EL in EO. apply stored_inserted, EO.
  - intros X; injection X as <-. split; [exact EL|]. gcbn. auto.
Qed.
Lemma going_step g e g1 g2 : inv g1 -> inv g2 -> ~ In e (inserted (b_log g)) -> going g e g1 -> main_step false T K g1 = Ok g2 ->
  going g e g2 \/ ended g e g2.
Proof.
  intros V1 V2 NI [EL G]. pose proof (bi_todo _ _ _ _ _ V1) as TD. pose proof (size_at T K L n _ V1) as SZ. pose proof (full_at T K L n _ V1) as FU. rewrite EL in SZ, FU.
  unfold main_step. destruct (b_m g1) eqn:Em; try contradiction.
  - destruct k; [|contradiction]. destruct G as [-> GW]. destruct (b_nw g1) eqn:W.
    + destruct (eeqb (b_tmp g1) e); [intros X; left; apply (has_end_going g e g1 g2 _ _ V1 V2 NI EL) in X; [exact X|congruence]|].
      destruct (b_mrb g1 <? length (b_copy g1)); [|discriminate]. intros X; left; apply (has_end_going g e g1 g2 _ _ V1 V2 NI EL) in X; [exact X|congruence].
    + intros X; injection X as <-. left. split; [exact EL|]. gcbn. split; congruence.
  - destruct k; [|contradiction]. destruct G as [-> GW]. destruct (i <=? b_maxr g1); [|intros X; left; apply (has_end_going g e g1 g2 _ _ V1 V2 NI EL) in X; [exact X|congruence]].
    destruct (nth_error (b_ks g1) i) as [[t|]|]; [| |discriminate].
    + destruct (kt_adj K t (fst e) (snd e)); [intros X; left; apply (has_end_going g e g1 g2 _ _ V1 V2 NI EL) in X; [exact X|congruence]|]. intros X; injection X as <-. left. split; [exact EL|]. gcbn. auto.
    + intros X; injection X as <-. left. split; [exact EL|]. gcbn. auto.
  - destruct G as [-> GW]. unfold maxsz. destruct (N.max (b_n g1) (b_nt g1) =? 1)%N; [discriminate|]. cbn [obind]. rewrite (bi_nn _ _ _ _ _ V1).
    destruct (N.ltb_spec (N.of_nat (c0_size (b_c0 g1))) (th_max T (N.max n (b_nt g1)) 0)) as [Lt|Ge].
    + destruct (c0_insert T (b_c0 g1) e (b_nt g1)); [|discriminate]. cbn [obind]. rewrite ins_end_ok by auto. intros X; injection X as <-. right.
      split; [reflexivity|]. exists Buffered. split; [gcbn; rewrite EL; reflexivity|]. right. split; [reflexivity|]. split; [exact GW|]. intros _ X. apply FU in X. lia.
    + intros X; injection X as <-. left. split; [exact EL|]. gcbn. split; [auto|]. split; [auto|]. apply FU. lia.
  - destruct G as [-> [GW GF]]. destruct (b_nw g1) eqn:W.
    + destruct (c0_insert T _ e (b_nt g1)); [|discriminate]. cbn [obind]. rewrite ins_end_ok by auto. intros X; injection X as <-. right.
      split; [reflexivity|]. exists Buffered. split; [gcbn; rewrite EL; reflexivity|]. right. split; [reflexivity|]. split; [gcbn; congruence|]. intros Y. congruence.
    + intros X; injection X as <-. left. split; [exact EL|]. gcbn. repeat split; auto; congruence.
  - destruct G as [-> [GW [GW1 GF]]]. destruct (c0_converted (b_c0 g1)); [|discriminate]. cbn [obind]. intros X; injection X as <-. left. split; [exact EL|]. gcbn. auto.
  - destruct G as [-> [GW [GW1 GF]]]. destruct (nth_error (b_ks g1) j); intros X; injection X as <-; left; (split; [exact EL|]); gcbn; auto.
  - destruct G as [-> [GW [GW1 GF]]]. intros X; injection X as <-. left. split; [exact EL|]. gcbn. auto.
  - destruct G as [-> [GW [GW1 GF]]]. destruct (c0_clean (b_c0 g1)); [|discriminate]. cbn [obind]. rewrite ins_end_ok by auto. intros X; injection X as <-. right.
    split; [reflexivity|]. exists Flushed. split; [gcbn; rewrite EL; reflexivity|]. left. auto.
Qed.
Lemma going_ends k : forall g e g1, inv g1 -> ~ In e (inserted (b_log g)) -> going g e g1 -> mtime (b_m g1) <= k ->
  exists g2, run false T K (repeat AMain k) g1 = Ok g2 /\ inv g2 /\ ended g e g2.
Proof using L Hn HT.
  induction k as [|k IH]; intros g e g1 V1 NI G Le.
  - exfalso. destruct G as [_ G]. destruct (b_m g1); try contradiction; cbn [mtime] in Le; lia.
  - destruct (main_ok false T K L n Hn g1 V1) as (g2 & E2 & V2). cbn [repeat run step]. rewrite E2. cbn [obind].
    assert (NM : b_m g1 <> MIdle) by (destruct G as [_ G]; intros X; rewrite X in G; exact G).
    destruct (main_time false T K L n Hn g1 g2 V1 NM E2) as [[? _]|[MT _]]; [discriminate|].
    destruct (going_step g e g1 g2 V1 V2 NI G E2) as [G2|D2].
    + apply (IH g e g2); auto. lia.
    + exists g2. rewrite idle_stays by apply D2. auto.
Qed.
Lemma ins_one g e : inv g -> b_m g = MIdle -> in_range n e -> ~ In e (inserted (b_log g)) ->
  exists g', run false T K (ins e) g = Ok g' /\ inv g' /\ ended g e g'.
Proof using L Hn HT.
  intros V M R NI. destruct (call_ok T K L n g (CIns e) V R) as (g1 & E1 & V1). unfold ins. cbn [run step]. rewrite E1. cbn [obind].
  apply going_ends; auto; [|apply (mtime_24 n Hn)].
  unfold call_step in E1. rewrite M in E1. unfold start, fuel_of in E1. rewrite (bi_todo _ _ _ _ _ V) in E1. cbn [ins_start] in E1.
  rewrite (has_c0 T K L n g e V) in E1. cbn [obind] in E1. destruct (emem e (rev (recent (b_log g)))) eqn:Ec.
  - exfalso. apply NI. apply In_buf in Ec. apply stored_inserted. apply stored_split. auto.
  - injection E1 as <-. split; [reflexivity|]. gcbn. auto.
Qed.
Lemma ask_hidden g e : inv g -> b_m g = MIdle -> b_nw g = true -> in_range n e -> ~ In e (visible (b_log g)) ->
  exists g', run false T K (ask e) g = Ok g' /\ b_log g' = EHas e false true :: b_log g.
Proof using L Hn HT.
  intros V M W R NV. destruct (call_ok T K L n g (CHas e) V R) as (g1 & E1 & V1). unfold ask. cbn [run step]. rewrite E1. cbn [obind].
  unfold call_step in E1. rewrite M in E1. rewrite (has_c0 T K L n g e V) in E1. cbn [obind] in E1. destruct (emem e (rev (recent (b_log g)))) eqn:Ec.
  { exfalso. apply NV. apply recent_visible. apply In_buf. exact Ec. }
  injection E1 as <-. destruct (main_ok false T K L n Hn _ V1) as (g2 & E2 & V2). change (repeat AMain 24) with (AMain :: repeat AMain 23). cbn [run step]. rewrite E2. cbn [obind].
  unfold main_step in E2. gcbn. rewrite W in E2.
  assert (X : exists b, g2 = done (set_m g (MHas false e)) (EHas e b true)).
  { destruct (eeqb (b_tmp g) e); [injection E2 as <-; eexists; reflexivity|]. destruct (b_mrb g <? length (b_copy g)); [|discriminate]. injection E2 as <-. eexists; reflexivity. }
  destruct X as [b ->]. exists (done (set_m g (MHas false e)) (EHas e b true)). split; [apply idle_stays; reflexivity|].
  pose proof (bi_log _ _ _ _ _ V2) as [EO _]. cbn [event_ok seen] in EO. destruct b; [|reflexivity]. exfalso. apply NV. apply EO. reflexivity.
Qed.
Definition fresh (h : list event) (es : list edge) : Prop := NoDup es /\ Forall (in_range n) es /\ forall e, In e es -> ~ In e (inserted h).
Lemma fresh_cons h e es w : fresh h (e :: es) -> in_range n e /\ ~ In e (inserted h) /\ fresh (EIns e w :: h) es.
Proof.
  intros (ND & F & D). inversion ND as [|? ? N1 N2]; subst. inversion F as [|? ? F1 F2]; subst. split; [auto|]. split; [apply D; left; auto|].
  split; [auto|]. split; [auto|]. intros x I. cbn [inserted In]. intros [->|X]; [auto|]. apply (D x); [right; auto|auto].
Qed.
Definition buf (es : list edge) : list event := rev (map (fun e => EIns e Buffered) es).
Lemma buf_cons e es h : buf (e :: es) ++ h = buf es ++ EIns e Buffered :: h.
Proof. unfold buf. cbn [map rev]. rewrite <- app_assoc. reflexivity. Qed.
Lemma many_busy es : forall g, inv g -> b_m g = MIdle -> b_nw g = true -> fresh (b_log g) es ->
  exists g', run false T K (flat_map ins es) g = Ok g' /\ inv g' /\ b_m g' = MIdle /\ b_nw g' = true /\ b_log g' = buf es ++ b_log g.
Proof using L Hn HT.
  induction es as [|e es IH]; intros g V M W Fr; [exists g; auto|]. cbn [flat_map].
  destruct (fresh_cons _ _ _ Buffered Fr) as (R & NI & Fr'). destruct (ins_one g e V M R NI) as (g1 & R1 & V1 & M1 & w & E1 & D).
  destruct D as [(_ & _ & X & _)|(-> & W1 & _)]; [congruence|].
  destruct (IH g1 V1 M1 ltac:(congruence) ltac:(rewrite E1; exact Fr')) as (g' & R2 & V2 & M2 & W2 & E2).
  exists g'. rewrite run_app, R1. cbn [obind]. rewrite buf_cons, <- E1. auto.
Qed.
(** at rest, the first flush comes before n edges are buffered *)
Lemma many_first (HH : forall m, (4 <= m)%N -> (2 * th_max T m 0 <= m)%N) (Hn4 : (4 <= n)%N) es : forall g, inv g -> b_m g = MIdle ->
  b_nw g = true \/ last_flush (b_log g) = None /\ NoDup (inserted (b_log g)) -> fresh (b_log g) es ->
  exists g', run false T K (flat_map ins es) g = Ok g' /\ inv g' /\ b_m g' = MIdle /\ inserted (b_log g') = rev es ++ inserted (b_log g) /\
    (b_nw g' = true \/ es = [] \/ (2 * N.of_nat (length es - 1 + length (inserted (b_log g))) < n)%N).
Proof using L Hn HT.
  induction es as [|e es IH]; intros g V M W Fr; [exists g; split; [reflexivity|]; split; [auto|]; split; [auto|]; split; [reflexivity|auto]|]. cbn [flat_map].
  destruct (fresh_cons _ _ _ Buffered Fr) as (R & NI & Fr'). destruct (ins_one g e V M R NI) as (g1 & R1 & V1 & M1 & w & E1 & D).
  assert (I1 : inserted (b_log g1) = e :: inserted (b_log g)) by (rewrite E1; reflexivity).
  assert (Fr1 : fresh (b_log g1) es) by (destruct Fr' as (A1 & A2 & A3); split; [auto|]; split; [auto|]; intros x Hx; rewrite I1; apply (A3 x Hx)).
  assert (C : b_nw g1 = true \/ (last_flush (b_log g1) = None /\ NoDup (inserted (b_log g1))) /\ (2 * N.of_nat (length (inserted (b_log g))) < n)%N).
  { destruct D as [(_ & _ & _ & X)|(-> & W1 & X)]; [auto|]. destruct W as [W|[LF ND]]; [left; congruence|]. destruct (b_nw g) eqn:Wg; [auto|]. right.
    split; [rewrite I1, E1; split; [exact LF|constructor; auto]|]. specialize (X eq_refl). unfold Prop_BgHide.full in X.
    pose proof (stored_len (b_log g)) as SL. unfold older in SL. rewrite LF in SL. cbn [length] in SL.
    rewrite (stored_exact _ (bi_log _ _ _ _ _ V) ND) in *. pose proof (HH (N.max n (N.of_nat (length (inserted (b_log g))))) ltac:(lia)). lia. }
  destruct (IH g1 V1 M1 ltac:(tauto) Fr1) as (g' & R2 & V2 & M2 & I2 & D2). exists g'. rewrite run_app, R1. cbn [obind]. split; [auto|]. split; [auto|]. split; [auto|].
  rewrite I1 in *. split; [rewrite I2; cbn [rev]; rewrite <- app_assoc; reflexivity|]. cbn [length] in *.
  destruct D2 as [D2|[D2|D2]]; [auto| |right; right].
  - subst es. cbn [flat_map run] in R2. injection R2 as <-. destruct C as [C|[_ C]]; [auto|]. right; right. cbn [length]. exact C.
  - destruct es as [|e2 es]; cbn [length] in *; [|lia]. lia.
Qed.
End One.

Lemma th_max0_half T m : th_real T -> (4 <= m)%N -> (2 * th_max T m 0 <= m)%N.
Proof.
  Open Scope R_scope.
  intros [HM _] Hm. pose proof (HM m 0%nat ltac:(lia) ltac:(lia)) as [A1 _].
  assert (L2 : 0 < ln 2) by (rewrite <- ln_1; apply ln_increasing; lra).
  assert (Hm' : 4 <= RN m) by (apply RN_le in Hm; replace (RN 4) with 4 in Hm by (unfold RN; cbn; lra); exact Hm).
  assert (G : 2 <= log2R (RN m)).
  { unfold log2R. apply Rmult_le_reg_r with (ln 2); auto. unfold Rdiv. rewrite Rmult_assoc, Rinv_l, Rmult_1_r by lra.
    replace (2 * ln 2) with (ln (2 * 2)) by (rewrite ln_mult; lra). replace (2 * 2) with 4 by lra.
    destruct (Rle_lt_or_eq_dec _ _ Hm') as [X|X]; [left; apply ln_increasing; lra|rewrite <- X; lra]. }
  unfold maxsz_real in A1. replace (2 - INR 0 / 4) with (INR 2) in A1 by (cbn; lra). rewrite Rpower_pow in A1 by lra. cbn [pow] in A1. rewrite Rmult_1_r in A1.
  apply RN_le. replace (2 * th_max T m 0)%N with (th_max T m 0 + th_max T m 0)%N by lia. rewrite RN_plus.
  set (l := log2R (RN m)) in *. assert (Q : 2 * RN m / (l * l) <= RN m / 2).
  { apply Rmult_le_reg_r with (l * l); [nra|]. unfold Rdiv. rewrite Rmult_assoc, Rinv_l by nra. assert (4 <= l * l) by nra. assert (0 <= RN m * (l * l - 4)) by (apply Rmult_le_pos; lra). lra. }
  lra.
  Close Scope R_scope.
Qed.

Lemma NoDup_app_remove_r {A} (l r : list A) : NoDup (l ++ r) -> NoDup l.
Proof. induction l as [|a l IH]; intros H; [constructor|]. inversion H as [|? ? N1 N2]; subst. constructor; [intros X; apply N1; apply in_app_iff; auto|auto]. Qed.

(** k edges on n vertices *)
Definition cells (n k : nat) : list edge := map (fun i => (N.of_nat (i / n), N.of_nat (i mod n))) (seq 0 k).
Lemma cells_ok n k : n <> 0 -> k <= n * n -> NoDup (cells n k) /\ Forall (in_range (N.of_nat n)) (cells n k) /\ length (cells n k) = k.
Proof.
  intros Hn Hk. unfold cells. split; [|split; [|rewrite map_length; apply seq_length]].
  - apply FinFun.Injective_map_NoDup; [|apply seq_NoDup]. intros i j E. injection E as E1 E2. apply Nat2N.inj in E1, E2.
    rewrite (Nat.div_mod i n Hn), (Nat.div_mod j n Hn), E1, E2. reflexivity.
  - apply Forall_forall. intros e I. apply in_map_iff in I. destruct I as [i [<- I]]. apply in_seq in I. unfold in_range. cbn [fst snd].
    assert (i / n < n) by (apply Nat.div_lt_upper_bound; lia). pose proof (Nat.mod_upper_bound i n Hn). split; lia.
Qed.

(** C90 is false of DKtree_background: for every B there is a run after which B inserted edges are missed at the same time. *)
Theorem C90_refuted : forall T K (L : k2laws K) B, th_real T -> exists n s g D,
  (4 <= n)%N /\ Forall (act_in n) s /\ exec false T K n s = Ok g /\ b_m g = MIdle /\
  B <= length D /\ NoDup D /\ incl D (inserted (b_log g)) /\
  forall e, In e D -> exists g', run false T K (ask e) g = Ok g' /\ b_log g' = EHas e false true :: b_log g.
Proof.
  intros T K L B HR. pose proof (th_real_top T HR) as HT. set (p := B + 4). set (n := N.of_nat p).
  assert (Hn4 : (4 <= n)%N) by (unfold n, p; lia). assert (Hn : (2 <= n)%N) by lia.
  destruct (cells_ok p (p + (p + B) + 1)) as (CN & CF & CL); [unfold p; lia|unfold p; nia|]. set (c := cells p (p + (p + B) + 1)) in *.
  assert (SP : exists es1 es2 f, c = es1 ++ es2 ++ [f] /\ length es1 = p /\ length es2 = p + B).
  { exists (firstn p c), (firstn (p + B) (skipn p c)), (nth 0 (skipn (p + B) (skipn p c)) (0, 0)%N).
    split; [|split; [rewrite firstn_length; lia|rewrite firstn_length, skipn_length; lia]].
    rewrite <- (firstn_skipn p c) at 1. f_equal. rewrite <- (firstn_skipn (p + B) (skipn p c)) at 1. f_equal.
    assert (LS : length (skipn (p + B) (skipn p c)) = 1) by (rewrite !skipn_length; lia). destruct (skipn (p + B) (skipn p c)) as [|x [|y r]]; cbn in LS; try lia. reflexivity. }
  destruct SP as (es1 & es2 & f & Ec & L1 & L2). rewrite Ec in CN, CF. clear Ec CL c.
  apply Forall_app in CF. destruct CF as [F1 CF]. apply Forall_app in CF. destruct CF as [F2 F3]. inversion F3 as [|? ? Ff _]; subst.
  pose proof CN as CN1. apply NoDup_app_remove_r in CN1.
  assert (N2 : NoDup (es2 ++ [f])) by (clear - CN; induction es1; [exact CN|inversion CN; auto]).
  assert (D12 : forall e, In e (es2 ++ [f]) -> ~ In e es1).
  { clear - CN. induction es1 as [|a l IH]; intros e I; [auto|]. inversion CN as [|? ? A1 A2]; subst. intros [->|X]; [apply A1; apply in_app_iff; auto|apply (IH A2 e I X)]. }
  assert (Df : ~ In f es2) by (apply NoDup_remove_2 in N2; rewrite app_nil_r in N2; exact N2).
  pose proof N2 as N2'. apply NoDup_app_remove_r in N2'.
  destruct (bg_new_ok false T K L n Hn) as (g0 & E0 & V0).
  assert (I0 : b_m g0 = MIdle /\ b_log g0 = []).
  { unfold bg_new in E0. destruct (c0_new T n); [|discriminate]. cbn [obind] in E0. injection E0 as <-. auto. }
  destruct I0 as [M0 LG0].
  assert (Fr1 : fresh n (b_log g0) es1) by (rewrite LG0; split; [auto|]; split; [auto|]; intros e _ []).
  destruct (many_first T K L n Hn HT (fun m => th_max0_half T m HR) Hn4 es1 g0 V0 M0) as (g1 & R1 & V1 & M1 & I1 & D1); [right; rewrite LG0; split; [auto|constructor]|auto|].
  rewrite LG0 in I1, D1. cbn [inserted length] in I1, D1. rewrite app_nil_r in I1.
  assert (W1 : b_nw g1 = true) by (destruct D1 as [D1|[->|D1]]; [auto|cbn in L1; unfold p in L1; lia|exfalso; unfold n in D1; lia]). clear D1.
  assert (Fr2 : fresh n (b_log g1) es2).
  { split; [auto|]. split; [auto|]. intros e I. rewrite I1, <- in_rev. apply D12. apply in_app_iff; auto. }
  destruct (many_busy T K L n Hn HT es2 g1 V1 M1 W1 Fr2) as (g2 & R2 & V2 & M2 & W2 & E2).
  destruct (backs_idle false T K L n Hn HT 15 g2 V2 (btime_15 T K L n Hn g2 V2) M2) as (g3 & R3 & V3 & W3 & M3 & E3).
  assert (BI : forall es h, inserted (buf es ++ h) = rev es ++ inserted h).
  { clear. induction es as [|e es IH]; intros h; [reflexivity|]. rewrite buf_cons, IH. cbn [inserted rev]. rewrite <- app_assoc. reflexivity. }
  assert (BR : forall es h, recent (buf es ++ h) = rev es ++ recent h).
  { clear. induction es as [|e es IH]; intros h; [reflexivity|]. rewrite buf_cons, IH. cbn [recent rev]. rewrite <- app_assoc. reflexivity. }
  assert (BL : forall es h, last_flush (buf es ++ h) = last_flush h).
  { clear. induction es as [|e es IH]; intros h; [reflexivity|]. rewrite buf_cons, IH. reflexivity. }
  assert (I3 : inserted (b_log g3) = rev es2 ++ rev es1) by (rewrite E3, E2, BI, I1; reflexivity).
  assert (ND3 : NoDup (inserted (b_log g3))).
  { rewrite I3, <- rev_app_distr. apply NoDup_rev. rewrite app_assoc in CN. apply NoDup_app_remove_r in CN. exact CN. }
  assert (Nf : ~ In f (inserted (b_log g3))).
  { rewrite I3, in_app_iff, <- !in_rev. intros [X|X]; [auto|]. apply (D12 f); [apply in_app_iff; right; left; auto|auto]. }
  destruct (ins_one T K L n Hn HT g3 f V3 M3 Ff Nf) as (g4 & R4 & V4 & M4 & w & E4 & D4).
  destruct D4 as [(-> & FU & _ & W4)|(-> & _ & X)].
  2:{ exfalso. apply (X W3). unfold full. rewrite (stored_exact _ (bi_log _ _ _ _ _ V3) ND3), I3, E3, E2, BR, !app_length, !rev_length, L1, L2.
      pose proof (th_max0_half T (N.max n (N.of_nat (p + B + p))) HR ltac:(lia)). unfold n in *. lia. }
  exists n, (flat_map ins es1 ++ flat_map ins es2 ++ repeat ABack 15 ++ ins f), g4, es2. split; [auto|].
  assert (AI : forall es, Forall (in_range n) es -> Forall (act_in n) (flat_map ins es)).
  { clear. induction 1 as [|e es E F IH]; [constructor|]. cbn [flat_map ins app]. constructor; [exact E|]. apply Forall_app. split; [|exact IH].
    apply Forall_forall. intros a I. apply repeat_spec in I. subst a. exact Logic.I. }
  split; [|split; [|split; [|split; [|split; [|split]]]]].
  - apply Forall_app. split; [auto|]. apply Forall_app. split; [auto|]. apply Forall_app. split.
    + apply Forall_forall. intros a I. apply repeat_spec in I. subst a. exact Logic.I.
    + specialize (AI [f]). cbn [flat_map] in AI. rewrite app_nil_r in AI. apply AI. constructor; auto.
  - unfold exec. rewrite E0. cbn [obind]. rewrite run_app, R1. cbn [obind]. rewrite run_app, R2. cbn [obind]. rewrite run_app, R3. exact R4.
  - exact M4.
  - lia.
  - auto.
  - intros e I. rewrite E4. cbn [inserted]. right. rewrite I3. apply in_app_iff. left. apply -> in_rev. exact I.
  - intros e I. apply (ask_hidden T K L n Hn HT g4 e V4 M4 W4); [rewrite Forall_forall in F2; auto|].
    rewrite E4. unfold visible. cbn [recent last_flush app In]. intros [->|X]; [auto|]. unfold older in X. rewrite E3, E2, BL in X.
    assert (Y : In e (inserted (b_log g1))).
    { apply stored_inserted. apply stored_split. right. exact X. }
    rewrite I1, <- in_rev in Y. apply (D12 e); [apply in_app_iff; auto|auto].
Qed.

(** The hypotheses of C90_wait_partial are met, and its bound is attained: 8 vertices, two insertions, one edge hidden, MAXSZ(8, 0) = 1. *)
Example C90_example : forall T K (L : k2laws K), th_real T -> Forall (act_in 8) w30 /\ th_max T 8 0 = 1%N /\
  match exec true T K 8 w30 with
  | Ok g => b_m g = MIdle /\ b_log g = [EIns (0, 2)%N Flushed; EIns (0, 1)%N Buffered] /\
      match run true T K (ask (0, 1)%N) g with Ok g' => b_log g' = EHas (0, 1)%N false true :: b_log g | UB => False end
  | UB => False
  end.
Proof. intros T K L HT. split; [repeat constructor|]. rewrite <- (tabled_eq T HT). split; [vm_compute; reflexivity|]. vm_compute. auto. Qed.
