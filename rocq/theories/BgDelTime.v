(** * BgDelTime: every call of the background graphs returns, deletions included. *)
From Verif Require Import Base Spec Thresholds K2 C0 C0Proof DK DKProof DKHist Delay MunroProof BgSpec BgDelSpec Bg BgProof BgTime BgDel.

Section Time.
Context (wt : bool) (T : thresholds) (K : k2impl) (L : k2laws K) (n : N) (Hn : (2 <= n)%N).
Local Notation bg := (bg K).
Local Notation J := (J K L n).
Local Notation kse := (ks_edges K).
Local Notation btime := (btime K).

(** steps left: of this insertion or query, 26 for every edge a rebuild has still to insert *)
Definition mt (g : bg) : nat :=
  match b_m g with
  | MIdle => 0
  | MClean _ => 1 | MFlag _ => 2 | MCopy _ j => 3 + (8 - j) | MPush _ => 12 | MBusy _ => 13 | MIns _ => 14
  | MScan _ _ i => 15 + (8 - i) | MHas _ _ => 24
  | MNb _ _ _ l => 1 + (8 - l) | MNbr _ _ => 10
  | MErase _ => 1 + 26 * N.to_nat (b_nt g) | MWait _ => 2 + 26 * N.to_nat (b_nt g)
  end + 26 * length (rest (b_todo g)).
(** the caller waits for the merge *)
Definition waiting (g : bg) : Prop :=
  b_nw g = true /\ match b_m g with MWait _ => True | MBusy _ => wt = true | _ => False end.

Lemma waiting_dec g : {waiting g} + {~ waiting g}.
Proof.
  unfold waiting. destruct (b_nw g); [|right; intros [X _]; discriminate X].
  destruct (b_m g); try (right; tauto); [destruct wt; [left; auto|right; intros [_ X]; discriminate X]|left; auto].
Defined.

Lemma ins_start_dec fuel : forall (g : bg) f g', ins_start K fuel g f = Ok g' -> length (rest (b_todo g)) <= fuel -> mt g' <= 24 + 26 * length (rest (b_todo g)).
Proof.
  induction fuel as [|fuel IH]; intros g f g' E Le; cbn [ins_start] in E; destruct (c0_contains (b_c0 g) f) as [[|]|]; try discriminate; cbn [obind] in E.
  1, 3: unfold ins_done in E; destruct (b_todo g) as [[d [|f2 r]]|] eqn:Et; cbn [rest length] in *; try (injection E as <-; unfold mt; gcbn; cbn [rest length]; lia).
  - discriminate.
  - apply IH in E; gcbn; cbn [rest] in *; lia.
  - injection E as <-. unfold mt. gcbn. lia.
  - injection E as <-. unfold mt. gcbn. lia.
Qed.
Lemma start_dec (g : bg) d f r g' : start K (set_todo g (Some (d, r))) f = Ok g' -> mt g' <= 24 + 26 * length r.
Proof. intros E. apply ins_start_dec in E; gcbn; auto. Qed.
Lemma end_dec (g : bg) e hw g' : ins_end K g e hw = Ok g' -> mt g' <= 26 * length (rest (b_todo g)).
Proof.
  intros E. unfold ins_end, ins_done in E. destruct (b_todo g) as [[d [|f r]]|] eqn:Et; cbn [rest length] in *.
  - injection E as <-. unfold mt. gcbn. cbn [rest length]. lia.
  - apply start_dec in E. lia.
  - injection E as <-. unfold mt. gcbn. cbn [rest length]. lia.
Qed.
Lemma has_dec (g : bg) k e b busy g' : has_end K g k e b busy = Ok g' -> mt g' <= 14 + 26 * length (rest (b_todo g)).
Proof.
  intros G. unfold has_end in G. destruct k; [destruct b; [apply end_dec in G; lia|]|]; injection G as <-; unfold mt; gcbn; cbn [rest length]; lia.
Qed.

Lemma main_dec g B g' : J g B -> main_step wt T K g = Ok g' -> b_m g <> MIdle -> ~ waiting g -> mt g' < mt g.
Proof using Hn.
  intros V E NI NW. pose proof (j_m _ _ _ _ _ V) as M. unfold main_step in E.
  assert (KL : length (b_ks g) = RS) by apply (co_len _ _ _ _ _ _ _ _ _ _ _ _ _ _ _ _ (j_core _ _ _ _ _ V)).
  assert (CL : length (b_copy g) = RS) by apply (co_cplen _ _ _ _ _ _ _ _ _ _ _ _ _ _ _ _ (j_core _ _ _ _ _ V)).
  unfold mt at 2. destruct (b_m g) eqn:Em; cbn [mfactd] in M; try congruence.
  - destruct (b_nw g).
    + destruct (eeqb (b_tmp g) e); [apply has_dec in E; lia|]. destruct (b_mrb g <? length (b_copy g)); [|discriminate]. apply has_dec in E; lia.
    + injection E as <-. unfold mt. gcbn. lia.
  - destruct (i <=? b_maxr g).
    + destruct (nth_error (b_ks g) i) as [o|] eqn:Ei; [|discriminate]. assert (Li : i < RS) by (rewrite <- KL; apply nth_error_Some; congruence).
      unfold RS in Li. destruct o as [t|].
      * destruct (kt_adj K t (fst e) (snd e)); [apply has_dec in E; lia|]. injection E as <-. unfold mt. gcbn. lia.
      * injection E as <-. unfold mt. gcbn. lia.
    + apply has_dec in E. lia.
  - destruct (maxsz T (N.max (b_n g) (b_nt g)) 0) as [ms|]; [|discriminate]. cbn [obind] in E.
    destruct (N.of_nat (c0_size (b_c0 g)) <? ms)%N.
    + destruct (c0_insert T (b_c0 g) e (b_nt g)) as [c'|]; [|discriminate]. cbn [obind] in E. apply end_dec in E. gcbn. lia.
    + injection E as <-. unfold mt. gcbn. lia.
  - destruct (b_nw g) eqn:W.
    + unfold waiting in NW. rewrite Em, W in NW. destruct wt; [exfalso; apply NW; auto|]. cbv zeta in E.
      match type of E with obind ?X _ = _ => destruct X as [c'|]; [|discriminate] end. cbn [obind] in E. apply end_dec in E. gcbn. lia.
    + injection E as <-. unfold mt. gcbn. lia.
  - destruct (c0_converted (b_c0 g)); [|discriminate]. injection E as <-. unfold mt. gcbn. lia.
  - destruct (nth_error (b_ks g) j) as [o|] eqn:Ej; injection E as <-; unfold mt; gcbn; [|lia].
    assert (Lj : j < RS) by (rewrite <- KL; apply nth_error_Some; congruence). unfold RS in Lj. lia.
  - injection E as <-. unfold mt. gcbn. lia.
  - destruct (c0_clean (b_c0 g)) as [c'|]; [|discriminate]. cbn [obind] in E. apply end_dec in E. gcbn. lia.
  - destruct (b_nw g); injection E as <-; unfold mt; gcbn; lia.
  - destruct (l <=? b_maxr g).
    + destruct (nth_error (if busy then b_copy g else b_ks g) l) as [o|] eqn:Eo; [|discriminate].
      assert (Ll : l < RS). { destruct busy; [rewrite <- CL|rewrite <- KL]; apply nth_error_Some; congruence. } unfold RS in Ll.
      destruct o; injection E as <-; unfold mt; gcbn; lia.
    + injection E as <-. unfold mt; gcbn; cbn [rest length]; lia.
  - destruct (b_nw g) eqn:W; [exfalso; apply NW; unfold waiting; rewrite Em, W; auto|]. injection E as <-. unfold mt. gcbn. lia.
  - assert (P : plain (b_m g)) by (rewrite Em; exact Logic.I). assert (Ec : mcur (b_m g) = None) by (rewrite Em; reflexivity).
    rewrite (J_idle _ _ _ _ _ V Ec). cbn [rest length].
    pose proof (J_qcore _ _ _ _ _ V P Ec) as C. destruct M as [M1 [M2 M3]]. destruct e as [x y]. cbn [fst snd] in E.
    destruct C as [C1 C2 C3 C4 C6 C7 C8 C9 C10 C11]. pose proof (st_sz C3) as Z.
    pose proof (dl_erase_cnt K L n Hn x y M1 (b_ks g) C6) as D. destruct (dl_erase K (b_ks g) x y) as [[eb mk] l].
    destruct D as (D1 & D2 & D3 & D4 & D5). pose proof (dl_erase_len K x y _ _ _ D3) as DL. cbv zeta in E.
    assert (AB : none_above K (b_maxr g) l) by (intros i t Ei; destruct (D5 i t Ei) as [s Es]; apply (C8 i s Es)).
    match type of E with (if ?X then _ else _) = _ => destruct X end; [|injection E as <-; unfold mt; gcbn; cbn [rest length]; lia].
    rewrite kse_flat in E. gcbn. rewrite (kse_firstn K n Hn l (b_maxr g)) in E by (auto; lia).
    destruct (kse l) as [|f r] eqn:EL; [injection E as <-; unfold mt; gcbn; cbn [rest length]; lia|].
    apply start_dec in E. cbn [length] in DL. destruct eb; lia.
Qed.

(** ** The merge *)
Lemma btime_15d g B : J g B -> btime (b_b g) <= 15.
Proof using Hn.
  intros V. pose proof (co_b _ _ _ _ _ _ _ _ _ _ _ _ _ _ _ _ (j_core _ _ _ _ _ V)) as F.
  unfold bfactd in F. destruct (b_b g); cbn [BgTime.btime]; try lia. destruct (b_nw g); [|discriminate]. unfold RS in F. lia.
Qed.
Lemma back_dec g B g' : J g B -> b_nw g = true -> back_step T K g = Ok g' -> b_b g' <> BDead ->
  b_nw g' = false \/ b_nw g' = true /\ btime (b_b g') < btime (b_b g).
Proof using Hn.
  intros V W E ND. pose proof (j_core _ _ _ _ _ V) as C. pose proof (co_b _ _ _ _ _ _ _ _ _ _ _ _ _ _ _ _ C) as F.
  pose proof (co_len _ _ _ _ _ _ _ _ _ _ _ _ _ _ _ _ C) as KL.
  unfold bfactd in F. rewrite W in F. unfold back_step in E. rewrite W in E. unfold RS in *. destruct (b_b g) eqn:EB.
  - injection E as <-. gcbn. rewrite W. right. split; [auto|]. cbn [BgTime.btime]; lia.
  - injection E as <-. gcbn. rewrite W. right. split; [auto|]. cbn [BgTime.btime]; lia.
  - injection E as <-. gcbn. rewrite W. right. split; [auto|]. cbn [BgTime.btime]; lia.
  - destruct (maxsz T (b_msz g) 0); [|discriminate]. cbn [obind] in E. destruct (find_level T K (b_msz g) (b_ks g) 0 a) as [i|] eqn:Ef.
    + injection E as <-. gcbn. rewrite W. right. split; [auto|]. cbn [BgTime.btime]. apply (find_level_range T K n Hn) in Ef. lia.
    + injection E as <-. destruct ND. reflexivity.
  - destruct (Nat.leb_spec j i) as [Lj|Lj].
    + destruct (nth_error (b_ks g) j) as [[s|]|]; [| |discriminate]; injection E as <-; gcbn; rewrite W; right; (split; [auto|]); cbn [BgTime.btime]; lia.
    + injection E as <-. gcbn. rewrite W. right. split; [auto|]. cbn [BgTime.btime]; lia.
  - destruct (i <? length (b_ks g)); [|discriminate]. injection E as <-. gcbn. rewrite W. right. split; [auto|]. cbn [BgTime.btime]; lia.
  - injection E as <-. gcbn. auto.
  - destruct F.
Qed.

(** ** Schedules *)
Definition idles (s : list act) (g : bg) : Prop := exists p q g', s = p ++ q /\ run wt T K p g = Ok g' /\ b_m g' = MIdle.
Lemma idles_now s g : b_m g = MIdle -> idles s g.
Proof. intros E. exists [], s, g. auto. Qed.
Lemma idles_cons a s g g1 : step wt T K a g = Ok g1 -> idles s g1 -> idles (a :: s) g.
Proof. intros E (p & q & g' & -> & R & M). exists (a :: p), q, g'. split; [auto|]. split; [|auto]. cbn [run]. rewrite E. exact R. Qed.
Lemma idle_dec (g : bg) : {b_m g = MIdle} + {b_m g <> MIdle}.
Proof. destruct (b_m g); [left; auto|..]; right; discriminate. Qed.
Lemma alive_run s : forall g g', run wt T K s g = Ok g' -> b_b g' <> BDead -> b_b g <> BDead.
Proof.
  induction s as [|a s IH]; intros g g' R ND; cbn [run] in R; [injection R as <-; auto|].
  destruct (step wt T K a g) as [g1|] eqn:E; [|discriminate]. cbn [obind] in R. specialize (IH _ _ R ND). intros X.
  destruct a as [c| |].
  - destruct (grows_step wt T K (ACall c) g g1) as [Y _]; [discriminate|auto|]. congruence.
  - destruct (grows_step wt T K AMain g g1) as [Y _]; [discriminate|auto|]. congruence.
  - cbn [step] in E. unfold back_step in E. rewrite X in E. injection E as <-. auto.
Qed.
Lemma back_mt g g' : back_step T K g = Ok g' -> mt g' = mt g /\ b_m g' = b_m g.
Proof.
  intros E. destruct (back_frame_d T K g g' E) as (E1 & E2 & E3). split; [|auto]. unfold mt. rewrite E1, E2.
  replace (b_nt g') with (b_nt g); [reflexivity|]. unfold back_step in E. destruct (b_b g).
  - destruct (b_nw g); injection E as <-; auto.
  - injection E as <-; auto.
  - injection E as <-; auto.
  - destruct (maxsz T (b_msz g) 0); [|discriminate]. cbn [obind] in E. destruct (find_level T K (b_msz g) (b_ks g) 0 a); injection E as <-; auto.
  - destruct (j <=? i); [|injection E as <-; auto]. destruct (nth_error (b_ks g) j) as [[t|]|]; try discriminate; injection E as <-; auto.
  - destruct (i <? length (b_ks g)); [|discriminate]. injection E as <-; auto.
  - injection E as <-; auto.
  - injection E as <-; auto.
Qed.
Lemma call_noop (g : bg) c : b_m g <> MIdle -> call_step K c g = Ok g.
Proof. unfold call_step. destruct (b_m g); congruence. Qed.
Lemma wait_noop g : waiting g -> main_step wt T K g = Ok g.
Proof. intros [W M]. unfold main_step. destruct (b_m g); try contradiction; rewrite W; [rewrite M|]; reflexivity. Qed.

Definition GJ (g : bg) : Prop := answers_ok (b_log g) /\ exists B, J g B.

(** while a call is in progress the measure never grows, and a step of a caller that does not wait makes it smaller *)
Lemma mono s : forall g g', GJ g -> run wt T K s g = Ok g' -> b_b g' <> BDead ->
  idles s g \/ GJ g' /\ mt g' <= mt g /\ (~ waiting g -> 1 <= mains s -> mt g' < mt g).
Proof using Hn.
  induction s as [|a s IH]; intros g g' V R ND.
  - cbn [run] in R. injection R as <-. right. cbn [mains]. split; [auto|]. split; [auto|lia].
  - destruct (idle_dec g) as [|NI]; [left; apply idles_now; auto|]. cbn [run] in R.
    destruct (step wt T K a g) as [g1|] eqn:E; [|discriminate]. cbn [obind] in R. pose proof (alive_run _ _ _ R ND) as ND1.
    destruct V as [An [B V]]. destruct a as [c| |]; cbn [step mains] in *.
    + rewrite call_noop in E by auto. injection E as <-. destruct (IH g g') as [I|I]; auto; [split; eauto|left; eapply idles_cons; eauto; cbn [step]; apply call_noop; auto].
    + destruct (waiting_dec g) as [W|W].
      * rewrite wait_noop in E by auto. injection E as <-. destruct (IH g g') as [I|(I1 & I2 & I3)]; auto; [split; eauto|left; eapply idles_cons; eauto; cbn [step]; apply wait_noop; auto|].
        right. split; [auto|]. split; [auto|]. tauto.
      * pose proof (main_dec _ _ _ V E NI W) as D. destruct (main_J wt T K L n Hn g B g1 V An E) as (B1 & V1 & An1).
        destruct (IH g1 g') as [I|(I1 & I2 & I3)]; auto; [split; eauto|left; eapply idles_cons; eauto|]. right. split; [auto|]. split; lia.
    + destruct (back_mt _ _ E) as [Em Mm]. pose proof (back_J T K L n Hn g B g1 V E ND1) as V1. destruct (back_frame_d _ _ _ _ E) as (_ & _ & El).
      destruct (IH g1 g') as [I|(I1 & I2 & I3)]; auto; [split; [rewrite El; auto|eauto]|left; eapply idles_cons; eauto|]. right. split; [auto|]. rewrite <- Em. split; [auto|].
      intros W. apply I3. intros [W1 W2]. apply W. split; [|rewrite <- Mm; auto].
      destruct (b_nw g) eqn:Wg; auto. exfalso. pose proof (co_b _ _ _ _ _ _ _ _ _ _ _ _ _ _ _ _ (j_core _ _ _ _ _ V)) as F. rewrite Wg in F. cbn in F.
      unfold back_step in E. rewrite F, Wg in E. injection E as <-. congruence.
Qed.
(** a caller that waits stops waiting when the merging thread has taken enough steps *)
Lemma unwait s : forall g g', GJ g -> waiting g -> run wt T K s g = Ok g' -> b_b g' <> BDead -> btime (b_b g) <= backs s ->
  exists p q g1, s = p ++ q /\ run wt T K p g = Ok g1 /\ GJ g1 /\ mt g1 = mt g /\ ~ waiting g1.
Proof using Hn.
  induction s as [|a s IH]; intros g g' V W R ND Le; cbn [run] in R.
  - cbn [backs] in Le. destruct V as [_ [B V]]. pose proof (co_b _ _ _ _ _ _ _ _ _ _ _ _ _ _ _ _ (j_core _ _ _ _ _ V)) as F. destruct W as [W _]. rewrite W in F.
    destruct (b_b g); cbn [BgTime.btime] in Le; try lia. destruct F.
  - assert (NI : b_m g <> MIdle) by (destruct W as [_ W]; intros X; rewrite X in W; exact W).
    assert (ST : forall g1, step wt T K a g = Ok g1 -> g1 = g \/ a = ABack).
    { intros g1 E. destruct a; cbn [step] in E; [rewrite call_noop in E by auto|rewrite wait_noop in E by auto|auto]; injection E as <-; auto. }
    destruct (step wt T K a g) as [g1|] eqn:E; [|discriminate]. cbn [obind] in R. pose proof (alive_run _ _ _ R ND) as ND1.
    destruct (ST g1 eq_refl) as [->| ->].
    + assert (Le1 : btime (b_b g) <= backs s \/ a = ABack) by (destruct a; cbn [backs] in Le; auto).
      destruct Le1 as [Le1| ->].
      * destruct (IH g g' V W R ND Le1) as (p & q & g2 & -> & R2 & X). exists (a :: p), q, g2. split; [auto|]. split; [|auto]. cbn [run]. rewrite E. exact R2.
      * destruct V as [An [B V]]. destruct W as [W W2]. destruct (back_dec _ _ _ V W E ND1) as [X|[_ X]]; [congruence|lia].
    + cbn [step] in E. cbn [backs] in Le. destruct V as [An [B V]]. destruct (back_mt _ _ E) as [Em Mm].
      pose proof (back_J T K L n Hn g B g1 V E ND1) as V1. destruct (back_frame_d _ _ _ _ E) as (_ & _ & El).
      assert (G1 : GJ g1) by (split; [rewrite El; auto|eauto]). destruct W as [W W2].
      destruct (back_dec _ _ _ V W E ND1) as [X|[X1 X2]].
      * exists [ABack], s, g1. split; [auto|]. split; [cbn [run step]; rewrite E; reflexivity|]. split; [auto|]. split; [auto|]. intros [Y _]. congruence.
      * destruct (IH g1 g' G1) as (p & q & g2 & -> & R2 & I1 & I2 & I3); auto; [split; [auto|rewrite Mm; auto]|lia|].
        exists (ABack :: p), q, g2. split; [auto|]. split; [cbn [run step]; rewrite E; exact R2|]. split; [auto|]. split; [congruence|auto].
Qed.
Lemma idles_app p s g g1 : run wt T K p g = Ok g1 -> idles s g1 -> idles (p ++ s) g.
Proof.
  intros R (p2 & q & g' & -> & R2 & M). exists (p ++ p2), q, g'. rewrite app_assoc. split; [auto|]. split; [|auto]. rewrite run_app, R. exact R2.
Qed.
Lemma idles_more s t g : idles s g -> idles (s ++ t) g.
Proof. intros (p & q & g' & -> & R & M). exists p, (q ++ t), g'. rewrite app_assoc. auto. Qed.

(** one round: enough steps of the merging thread, then one of the caller *)
Lemma round s2 s3 g g' : GJ g -> run wt T K (s2 ++ s3) g = Ok g' -> b_b g' <> BDead -> 15 <= backs s2 -> 1 <= mains s3 ->
  idles (s2 ++ s3) g \/ GJ g' /\ mt g' < mt g.
Proof using Hn.
  intros V R ND Lb Lm. assert (MA : forall s t, mains (s ++ t) = mains s + mains t).
  { induction s as [|[| |] s IH]; intros t; cbn [app mains]; rewrite ?IH; auto. }
  destruct (waiting_dec g) as [W|W].
  - rewrite run_app in R. destruct (run wt T K s2 g) as [g2|] eqn:R2; [|discriminate]. cbn [obind] in R.
    assert (Lt : btime (b_b g) <= backs s2) by (destruct V as [_ [B V]]; pose proof (btime_15d _ _ V); lia).
    destruct (unwait s2 g g2 V W R2 (alive_run _ _ _ R ND) Lt) as (p & q & g1 & -> & R1 & V1 & E1 & W1).
    rewrite run_app, R1 in R2. cbn [obind] in R2.
    assert (R3 : run wt T K (q ++ s3) g1 = Ok g') by (rewrite run_app, R2; exact R).
    destruct (mono (q ++ s3) g1 g' V1 R3 ND) as [I|(I1 & I2 & I3)].
    + left. rewrite <- app_assoc. eapply idles_app; eauto.
    + right. split; [auto|]. rewrite <- E1. apply I3; auto. rewrite MA. lia.
  - destruct (mono (s2 ++ s3) g g' V R ND) as [I|(I1 & I2 & I3)]; [left; auto|right]. split; [auto|]. apply I3; auto. rewrite MA. lia.
Qed.

Definition fair (r : list act * list act) : Prop := 15 <= backs (fst r) /\ 1 <= mains (snd r).
Definition sched (rs : list (list act * list act)) : list act := flat_map (fun r => fst r ++ snd r) rs.
Lemma rounds rs : forall g g', GJ g -> Forall fair rs -> run wt T K (sched rs) g = Ok g' -> b_b g' <> BDead -> mt g < length rs -> idles (sched rs) g.
Proof using Hn.
  induction rs as [|[s2 s3] rs IH]; intros g g' V F R ND Le; cbn [length] in Le; [lia|].
  inversion F as [|? ? [F1 F2] F3]; subst. cbn [fst snd] in *. cbn [sched flat_map fst snd] in *. fold (sched rs) in *.
  rewrite run_app in R. destruct (run wt T K (s2 ++ s3) g) as [g1|] eqn:R1; [|discriminate]. cbn [obind] in R.
  destruct (round s2 s3 g g1 V R1 (alive_run _ _ _ R ND) F1 F2) as [I|[V1 D]]; [apply idles_more; auto|].
  eapply idles_app; eauto. eapply IH; eauto. lia.
Qed.
(** a call has just begun *)
Lemma mt_call g B c g' : J g B -> b_m g = MIdle -> call_step K c g = Ok g' -> mt g' < 26 * (N.to_nat (b_nt g) + 1).
Proof using Hn.
  intros V Em E. assert (Et : b_todo g = None) by (apply (J_idle _ _ _ _ _ V); rewrite Em; reflexivity).
  unfold call_step in E. rewrite Em in E. destruct c.
  - apply ins_start_dec in E; rewrite Et in *; cbn [rest length] in *; [lia|cbn; lia].
  - destruct (c0_contains (b_c0 g) e) as [[|]|]; try discriminate; injection E as <-; unfold mt; gcbn; rewrite ?Et; cbn [rest length]; lia.
  - destruct (c0_neigh (b_c0 g) x); try discriminate; injection E as <-; unfold mt; gcbn; rewrite ?Et; cbn [rest length]; lia.
  - destruct (c0_erase (b_c0 g) e) as [[[|] c]|]; try discriminate; injection E as <-; unfold mt; gcbn; rewrite ?Et; cbn [rest length]; lia.
Qed.
End Time.
