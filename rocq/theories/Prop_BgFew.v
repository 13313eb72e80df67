(** * Prop_BgFew: on the background graphs the merging thread does not throw while fewer than n-1 deletions have been called (C69). *)
From Verif Require Import Base Spec Thresholds Table K2 C0 C0Proof DK DKProof DKHist DKGuard Delay BgSpec BgDelSpec Bg BgProof BgDel Prop_Bg Prop_DK Prop_BgDel.

(** the number of del_edge calls in a schedule *)
Definition del_calls (s : list act) : N := N.of_nat (length (filter (fun a => match a with ACall (CDel _) => true | _ => false end) s)).

Section Few.
Context (wt : bool) (T : thresholds) (HT : th_top T) (K : k2impl) (L : k2laws K) (n : N) (Hn : (2 <= n)%N).
Local Notation ktree := (kt K).
Local Notation bg := (bg K).
Local Notation J := (J K L n).
Local Notation ks_marked := (ks_marked K).
Local Notation kse := (ks_edges K).

(** a deletion that has not reached the trees yet *)
Definition waits (m : mpc) : N := match m with MWait _ | MErase _ => 1 | _ => 0 end.
Definition full_pc (m : mpc) : Prop := match m with MBusy _ | MPush _ => True | _ => False end.
Definition early (g : bg) : Prop :=
  match b_m g with MCopy _ _ | MFlag _ => True | _ => False end \/
  (b_nw g = true /\ match b_b g with BPoll | BBuild | BClear _ | BLevel _ => True | _ => False end).
Record few (g : bg) (k : N) : Prop := {
  w_mk : (ks_marked (b_ks g) + waits (b_m g) <= k)%N;
  w_tmp : match b_b g with BClear t | BLevel t | BMerge t _ _ | BStore t _ => kt_marked K t = 0%N | _ => True end;
  w_full : full_pc (b_m g) -> (th_max T (N.max (b_n g) (b_nt g)) 0 <= N.of_nat (c0_size (b_c0 g)))%N;
  w_room : early g -> (n <= b_msz g /\ N.of_nat (length (kse (b_ks g))) + th_max T (b_msz g) 0 <= b_msz g)%N
}.

(** what a call that returns leaves alone *)
Definition out_pc (m : mpc) : Prop := match m with MIdle | MHas _ _ | MIns _ => True | _ => False end.
Definition fr (g g' : bg) : Prop :=
  b_ks g' = b_ks g /\ b_b g' = b_b g /\ b_nw g' = b_nw g /\ b_msz g' = b_msz g /\ out_pc (b_m g').
Lemma fr_few g g' k k' : fr g g' -> few g k -> (ks_marked (b_ks g) <= k')%N -> few g' k'.
Proof.
  intros (E1 & E2 & E3 & E4 & P) [W1 W2 W3 W4] Hk. constructor.
  - rewrite E1. destruct (b_m g'); cbn in *; try tauto; lia.
  - rewrite E2. exact W2.
  - destruct (b_m g'); cbn in *; tauto.
  - intros G. rewrite E1, E4. apply W4. destruct G as [G|G]; [destruct (b_m g'); cbn in *; tauto|]. right. rewrite E2, E3 in G. exact G.
Qed.
Lemma few_mk g k : few g k -> (ks_marked (b_ks g) <= k)%N.
Proof. intros []. destruct (b_m g); cbn in *; lia. Qed.

Lemma ins_start_fr fuel : forall (g : bg) e g', ins_start K fuel g e = Ok g' -> fr g g'.
Proof.
  induction fuel as [|f IH]; intros g e g' E; cbn [ins_start] in E; (destruct (c0_contains (b_c0 g) e) as [[|]|]; [| |discriminate]); cbn [obind] in E.
  2, 4: injection E as <-; repeat split.
  - unfold ins_done in E. destruct (b_todo g) as [[d [|f1 r]]|]; [|discriminate|]; injection E as <-; repeat split.
  - unfold ins_done in E. destruct (b_todo g) as [[d [|f1 r]]|]; [injection E as <-; repeat split| |injection E as <-; repeat split].
    apply IH in E. exact E.
Qed.
Lemma ins_end_fr (g : bg) e h g' : ins_end K g e h = Ok g' -> fr g g'.
Proof.
  unfold ins_end, ins_done. destruct (b_todo g) as [[d [|f1 r]]|]; intros E; [injection E as <-; repeat split| |injection E as <-; repeat split].
  apply ins_start_fr in E. exact E.
Qed.
Lemma has_end_fr (g : bg) k e b z g' : has_end K g k e b z = Ok g' -> fr g g'.
Proof.
  unfold has_end. destruct k; [destruct b|]; intros E; [apply (ins_end_fr _ _ _ _ E)| |]; injection E as <-; repeat split.
Qed.

Lemma dl_erase_marked l x y : ks_wf K L n l -> in_range n (x, y) ->
  (ks_marked (snd (dl_erase K l x y)) <= ks_marked l + 1)%N.
Proof.
  intros H [Hx Hy]. cbn in Hx, Hy. induction l as [|[t|] l IH]; cbn [dl_erase].
  - cbn. lia.
  - inversion H as [|? ? Ht Hl]; subst. specialize (IH Hl).
    destruct (law_erase L n t x y Ht Hx Hy) as [_ [_ E3]].
    destruct (kt_erase K t x y) as [b t']. cbn [fst snd] in E3. destruct b.
    + destruct (_ =? _)%N; cbn [snd DKGuard.ks_marked]; lia.
    + destruct (dl_erase K l x y) as [[b' k'] l']. cbn [snd DKGuard.ks_marked] in *. lia.
  - inversion H as [|? ? Ht Hl]; subst. specialize (IH Hl). destruct (dl_erase K l x y) as [[b' k'] l']. cbn [snd DKGuard.ks_marked] in *. lia.
Qed.
Lemma marked_upd_none l : forall j s, nth_error l j = Some (Some s) -> (ks_marked (upd l j None) <= ks_marked l)%N.
Proof.
  induction l as [|o l IH]; intros [|j] s E; cbn in *; try discriminate.
  - injection E as ->. lia.
  - specialize (IH _ _ E). destruct o; lia.
Qed.
Lemma marked_upd_zero l : forall j t, kt_marked K t = 0%N -> (ks_marked (upd l j (Some t)) <= ks_marked l)%N.
Proof.
  induction l as [|o l IH]; intros [|j] t E; cbn in *; try lia.
  - destruct o; lia.
  - specialize (IH j t E). destruct o; lia.
Qed.
Lemma marked_reset m (l : list (option ktree)) : (ks_marked (repeat None (Nat.min m (length l)) ++ skipn m l) <= ks_marked l)%N.
Proof.
  revert l. induction m as [|m IH]; intros [|o l]; cbn [Nat.min length repeat app skipn DKGuard.ks_marked]; try lia.
  specialize (IH l). destruct o; lia.
Qed.
Lemma total_marked l : ks_wf K L n l -> ks_total K l = (N.of_nat (length (kse l)) + ks_marked l)%N.
Proof.
  induction l as [|[t|] l IH]; cbn [ks_total DKGuard.ks_marked]; intros H; auto; inversion H as [|? ? Ht Hl]; subst.
  - rewrite ks_edges_cons_some, app_length, IH, (law_total L n t Ht); auto. lia.
  - rewrite IH; auto.
Qed.

Lemma call_few g B c g' k : J g B -> few g k -> call_step K c g = Ok g' ->
  few g' (k + match c with CDel _ => 1 | _ => 0 end).
Proof.
  intros V W E. pose proof (few_mk _ _ W) as Wk. unfold call_step in E. destruct (b_m g) eqn:M.
  2-13: injection E as <-; destruct W; constructor; auto; try lia.
  destruct c as [e|e|x|e]; rewrite ?N.add_0_r.
  - eapply fr_few; [apply (ins_start_fr _ _ _ _ E)|exact W|exact Wk].
  - destruct (c0_contains (b_c0 g) e) as [[|]|]; [| |discriminate]; injection E as <-; (eapply fr_few; [|exact W|exact Wk]; repeat split).
  - destruct (c0_neigh (b_c0 g) x); [|discriminate]. injection E as <-. destruct W as [W1 W2 W3 W4]. constructor; gcbn; auto.
    + cbn [waits]. rewrite M in W1. exact W1.
    + intros [].
    + intros [[]|G]. apply W4. right. exact G.
  - destruct (c0_erase (b_c0 g) e) as [[b c']|] eqn:Ee; [|discriminate]. cbn [obind fst snd] in E. destruct b; injection E as <-.
    + eapply fr_few; [|exact W|]; [repeat split|lia].
    + destruct W as [W1 W2 W3 W4]. constructor; gcbn; auto.
      * cbn [waits]. lia.
      * intros [].
      * intros [[]|G]. apply W4. right. exact G.
Qed.

Lemma main_few g B g' k : J g B -> few g k -> main_step wt T K g = Ok g' -> few g' k.
Proof using Hn.
  intros V W E. pose proof (few_mk _ _ W) as Wk. pose proof (j_core _ _ _ _ _ V) as C. destruct (co_c0 _ _ _ _ _ _ _ _ _ _ _ _ _ _ _ _ C) as (sl & I & EB).
  pose proof (j_n _ _ _ _ _ V) as En. pose proof (j_m _ _ _ _ _ V) as Fm.
  assert (Q : forall m', b_m g = b_m g -> waits m' = waits (b_m g) -> ~ full_pc m' -> match m' with MCopy _ _ | MFlag _ => False | _ => True end -> few (set_m g m') k).
  { intros m' _ Hw Hf Hc. destruct W as [W1 W2 W3 W4]. constructor; gcbn; auto; [rewrite Hw; auto|tauto|].
    intros [G|G]; [gcbn; destruct m'; tauto|]. apply W4. right. exact G. }
  unfold main_step in E. destruct (b_m g) as [|e0 e|e0 e i|e|e|e|e j|e|e|x acc|x acc busy l|e|e] eqn:M; cbn [mfactd] in Fm.
  - injection E as <-. exact W.
  - destruct (b_nw g); [|injection E as <-; apply Q; auto; intros []].
    destruct (eeqb (b_tmp g) e); [eapply fr_few; [apply (has_end_fr _ _ _ _ _ _ E)|exact W|exact Wk]|].
    destruct (b_mrb g <? length (b_copy g)); [eapply fr_few; [apply (has_end_fr _ _ _ _ _ _ E)|exact W|exact Wk]|discriminate].
  - destruct (i <=? b_maxr g); [|eapply fr_few; [apply (has_end_fr _ _ _ _ _ _ E)|exact W|exact Wk]].
    destruct (nth_error (b_ks g) i) as [[t|]|]; [|injection E as <-; apply Q; auto; intros []|discriminate].
    destruct (kt_adj K t (fst e) (snd e)); [eapply fr_few; [apply (has_end_fr _ _ _ _ _ _ E)|exact W|exact Wk]|injection E as <-; apply Q; auto; intros []].
  - unfold maxsz in E. destruct (N.max (b_n g) (b_nt g) =? 1)%N; [discriminate|]. cbn [obind] in E.
    destruct (N.ltb_spec (N.of_nat (c0_size (b_c0 g))) (th_max T (N.max (b_n g) (b_nt g)) 0)) as [Lt|Ge].
    + destruct (c0_insert T (b_c0 g) e (b_nt g)) as [c'|]; [|discriminate]. cbn [obind] in E.
      apply ins_end_fr in E. eapply fr_few with (g := g); [|exact W|exact Wk]. exact E.
    + injection E as <-. destruct W as [W1 W2 W3 W4]. constructor; gcbn; auto; [rewrite M in W1; exact W1|].
      intros [[]|G]. apply W4. right. exact G.
  - destruct (b_nw g) eqn:Nw.
    + destruct wt; [injection E as <-; exact W|]. cbv zeta in E. destruct (c0_insert T _ e (b_nt g)) as [c'|]; [|discriminate]. cbn [obind] in E.
      apply ins_end_fr in E. eapply fr_few with (g := g); [|exact W|exact Wk]. exact E.
    + injection E as <-. destruct W as [W1 W2 W3 W4]. constructor; gcbn; auto; [rewrite M in W1; exact W1|rewrite M in W3; intros _; apply W3; exact Logic.I|].
      intros [[]|G]. apply W4. right. exact G.
  - rewrite (inv_converted _ _ I) in E. cbn [obind] in E. injection E as <-. destruct W as [W1 W2 W3 W4]. constructor; gcbn; auto; [rewrite M in W1; exact W1|intros []|].
    intros _. rewrite M in W3. specialize (W3 Logic.I).
    pose proof (J_core K L n g B V) as Cc. rewrite M in Cc. specialize (Cc Logic.I).
    pose proof (st_sz (co_st _ _ _ _ _ _ _ _ _ _ _ _ _ _ _ _ Cc)) as Sz. rewrite (inv_size _ _ I), EB in W3. rewrite En in *. lia.
  - destruct (nth_error (b_ks g) j); injection E as <-; destruct W as [W1 W2 W3 W4]; constructor; gcbn; auto; try (rewrite M in W1; exact W1); try (intros []; fail);
      try (intros _; apply W4; left; rewrite M; exact Logic.I).
  - injection E as <-. destruct W as [W1 W2 W3 W4]; constructor; gcbn; auto; [rewrite M in W1; exact W1|intros []|].
    intros _; apply W4; left; rewrite M; exact Logic.I.
  - destruct (c0_clean (b_c0 g)) as [c'|]; [|discriminate]. cbn [obind] in E.
    apply ins_end_fr in E. eapply fr_few with (g := g); [|exact W|exact Wk]. exact E.
  - destruct (b_nw g); injection E as <-; apply Q; auto; intros [].
  - destruct (l <=? b_maxr g); [|injection E as <-; eapply fr_few; [|exact W|exact Wk]; repeat split].
    destruct (nth_error (if busy then b_copy g else b_ks g) l) as [[t|]|]; [| |discriminate]; injection E as <-; apply Q; auto; intros [].
  - destruct (b_nw g); injection E as <-; [exact W|]. apply Q; auto; intros [].
  - destruct Fm as (Re & _ & Nw). destruct e as [x y]. cbn [fst snd] in E.
    pose proof (dl_erase_marked (b_ks g) x y (co_wf _ _ _ _ _ _ _ _ _ _ _ _ _ _ _ _ C) Re) as Dm.
    destruct (dl_erase K (b_ks g) x y) as [[eb mk] l]. cbn [snd] in Dm. cbv zeta in E.
    assert (Z : forall g2, (ks_marked (b_ks g2) <= ks_marked (b_ks g) + 1)%N -> b_b g2 = b_b g -> b_nw g2 = false -> out_pc (b_m g2) -> few g2 k).
    { intros g2 G1 G2 G3 G4. destruct W as [W1 W2 W3 W4]. rewrite M in W1. cbn [waits] in W1. constructor.
      - destruct (b_m g2); cbn in *; try tauto; lia.
      - rewrite G2. exact W2.
      - destruct (b_m g2); cbn in *; tauto.
      - intros [G|[G _]]; [destruct (b_m g2); cbn in *; tauto|congruence]. }
    destruct (th_trig T mk _).
    + pose proof (marked_reset (S (b_maxr g)) l) as Mr.
      match type of E with match ?x with _ => _ end = _ => destruct x as [|f r] end.
      * injection E as <-. apply Z; [eapply N.le_trans; [exact Mr|exact Dm]|reflexivity|exact Nw|exact Logic.I].
      * apply ins_start_fr in E. destruct E as (E1 & E2 & E3 & E4 & E5). apply Z; [rewrite E1; eapply N.le_trans; [exact Mr|exact Dm]|rewrite E2; reflexivity|rewrite E3; exact Nw|exact E5].
    + injection E as <-. apply Z; gcbn; auto. exact Logic.I.
Qed.

Lemma back_few g B g' k : J g B -> few g k -> (k + 1 < n)%N -> back_step T K g = Ok g' -> few g' k /\ (b_b g <> BDead -> b_b g' <> BDead).
Proof using Hn HT.
  intros V W Hk E. pose proof (few_mk _ _ W) as Wk. pose proof (j_core _ _ _ _ _ V) as C.
  pose proof (co_b _ _ _ _ _ _ _ _ _ _ _ _ _ _ _ _ C) as F. pose proof (co_len _ _ _ _ _ _ _ _ _ _ _ _ _ _ _ _ C) as Le.
  pose proof (co_wf _ _ _ _ _ _ _ _ _ _ _ _ _ _ _ _ C) as Wf. pose proof (j_m _ _ _ _ _ V) as Fm.
  assert (Nc : b_nw g = true -> match b_m g with MCopy _ _ | MFlag _ => False | _ => True end).
  { intros G. destruct (b_m g); cbn in Fm; auto; destruct Fm as (_ & _ & X & _); congruence. }
  unfold bfactd in F. unfold back_step in E. destruct W as [W1 W2 W3 W4].
  assert (EE : b_nw g = true -> match b_b g with BPoll | BBuild | BClear _ | BLevel _ => True | _ => False end -> early g) by (intros; right; auto).
  destruct (b_b g) as [| |t|t|t i j|t i| |] eqn:Bb.
  - destruct (b_nw g) eqn:Nw; injection E as <-; (split; [constructor; gcbn; auto|rewrite ?Bb; discriminate]); try (rewrite Bb; exact Logic.I).
  - destruct (b_nw g) eqn:Nw; [|discriminate]. injection E as <-. split; [|discriminate]. constructor; gcbn; auto.
    pose proof (j_n _ _ _ _ _ V) as En. rewrite En. destruct F as (F1 & F2 & F3). apply (law_build L n (b_conv g) Hn F1 F2 F3).
  - destruct (b_nw g) eqn:Nw; [|discriminate]. injection E as <-. split; [|discriminate]. constructor; gcbn; auto.
  - destruct (b_nw g) eqn:Nw; [|discriminate]. destruct (W4 (EE eq_refl Logic.I)) as [R1 R2].
    unfold maxsz in E. destruct (N.eqb_spec (b_msz g) 1) as [|N1]; [discriminate|]. cbn [obind] in E.
    destruct (find_level_total T K n Hn (b_msz g) (b_ks g) 0 (th_max T (b_msz g) 0)) as [i Ei].
    + intros G. rewrite G in Le. discriminate.
    + rewrite Le. reflexivity.
    + rewrite HT by auto. rewrite total_marked by auto. lia.
    + rewrite Ei in E. injection E as <-. split; [|discriminate]. constructor; gcbn; auto.
  - destruct (b_nw g) eqn:Nw; [|discriminate]. specialize (Nc eq_refl). destruct F as (F1 & F2 & F3 & F4 & F5).
    assert (No : forall b2 ks2, match b2 with BMerge _ _ _ | BStore _ _ | BDone => True | _ => False end -> forall g2, b_m g2 = b_m g -> b_b g2 = b2 -> b_ks g2 = ks2 -> early g2 -> False).
    { intros b2 ks2 X g2 Y1 Y2 _ [G|[_ G]]; [rewrite Y1 in G; destruct (b_m g); tauto|rewrite Y2 in G; destruct b2; tauto]. }
    destruct (j <=? i).
    + destruct (nth_error (b_ks g) j) as [[s|]|] eqn:Ej; [| |discriminate]; injection E as <-; (split; [|discriminate]); constructor; gcbn; auto.
      * pose proof (marked_upd_none _ _ _ Ej). lia.
      * assert (Os : wf L n s). { unfold ks_wf in Wf. rewrite Forall_forall in Wf. apply (Wf (Some s)). eapply nth_error_In; eauto. }
        apply (law_union L n t s F1 Os). exact W2.
      * intros G. exfalso. eapply (No (BMerge (kt_union K t s) i (S j))); [exact Logic.I| | | |exact G]; reflexivity.
      * intros G. exfalso. eapply (No (BMerge t i (S j))); [exact Logic.I| | | |exact G]; reflexivity.
    + injection E as <-. split; [|discriminate]. constructor; gcbn; auto.
      intros G. exfalso. eapply (No (BStore t i)); [exact Logic.I| | | |exact G]; reflexivity.
  - destruct (b_nw g) eqn:Nw; [|discriminate]. specialize (Nc eq_refl).
    destruct (i <? length (b_ks g)); [|discriminate]. injection E as <-. split; [|discriminate]. constructor; gcbn; auto.
    + pose proof (marked_upd_zero (b_ks g) i t W2). lia.
    + intros [G|[_ G]]; [gcbn; destruct (b_m g); tauto|destruct G].
  - destruct (b_nw g) eqn:Nw; [|discriminate]. specialize (Nc eq_refl). injection E as <-. split; [|discriminate]. constructor; gcbn; auto.
    intros [G|[G _]]; [gcbn; destruct (b_m g); tauto|discriminate].
  - injection E as <-. split; [constructor; rewrite ?Bb; auto|auto].
Qed.

Definition fewinv (g : bg) (k : N) : Prop := b_b g <> BDead /\ answers_ok (b_log g) /\ exists B, J g B /\ few g k.
Lemma step_few a g g' k k' : fewinv g k -> act_rng n a -> step wt T K a g = Ok g' ->
  k' = (k + match a with ACall (CDel _) => 1 | _ => 0 end)%N -> (k' + 1 < n)%N -> fewinv g' k'.
Proof using Hn HT.
  intros (ND & An & B & V & W) R E Ek Hk.
  assert (ND' : b_b g' <> BDead /\ few g' k').
  { destruct a as [c| |].
    - destruct (grows_step wt T K (ACall c) g g') as [X _]; [discriminate|auto|]. split; [congruence|]. subst k'. destruct c; apply (call_few g B _ g' k V W E).
    - destruct (grows_step wt T K AMain g g') as [X _]; [discriminate|auto|]. split; [congruence|]. rewrite N.add_0_r in Ek. subst k'. apply (main_few g B g' k V W E).
    - rewrite N.add_0_r in Ek. subst k'. destruct (back_few g B g' k V W Hk E) as [X Y]. auto. }
  destruct ND' as [ND' W']. destruct (step_J wt T K L n Hn a g g') with (3 := E) as [An' [B' V']]; auto.
  { intros _. eauto. }
  split; [auto|]. split; [auto|]. eauto.
Qed.
Lemma run_few s : forall g g' k, fewinv g k -> Forall (act_rng n) s -> (k + del_calls s + 1 < n)%N -> run wt T K s g = Ok g' -> b_b g' <> BDead.
Proof using Hn HT.
  induction s as [|a s IH]; intros g g' k V F Hk E; cbn [run] in E; [injection E as <-; apply V|]. inversion F; subst.
  destruct (step wt T K a g) as [g1|] eqn:E1; [|discriminate]. cbn [obind] in E.
  assert (D : del_calls (a :: s) = (match a with ACall (CDel _) => 1 | _ => 0 end + del_calls s)%N).
  { unfold del_calls. cbn [filter]. destruct a as [[]| |]; cbn [length]; lia. }
  eapply (IH g1 g'); [eapply step_few; eauto| | |]; auto; lia.
Qed.
Lemma new_few g : bg_new wt T K n = Ok g -> fewinv g 0.
Proof using Hn.
  intros E. pose proof (new_J wt T K L n Hn g E) as V. unfold bg_new in E. destruct (c0_new T n) as [c|]; [|discriminate]. cbn [obind] in E. injection E as <-.
  split; [discriminate|]. destruct V as [An [B V]]; [discriminate|]. split; [auto|]. exists B. split; [auto|]. constructor; gcbn.
  - vm_compute. discriminate.
  - exact Logic.I.
  - intros [].
  - intros [[]|[X _]]. discriminate.
Qed.
End Few.

(** C69 (partial): in every execution with fewer than n-1 calls of del_edge the merging thread does not throw. *)
Theorem C69_few_deletions_partial : forall wt T K, k2laws K -> th_top T -> forall n s g, (2 <= n)%N -> Forall (act_rng n) s ->
  (del_calls s + 1 < n)%N -> exec wt T K n s = Ok g -> b_b g <> BDead.
Proof.
  intros wt T K L HT n s g Hn F Hd E. unfold exec in E. destruct (bg_new wt T K n) as [g0|] eqn:E0; [|discriminate]. cbn [obind] in E.
  eapply (run_few wt T HT K L n Hn s g0 g 0); eauto. apply (new_few wt T K L n Hn g0 E0).
Qed.
(** The hypotheses are met: two flushes, then a deletion in a tree. *)
Example C69_few_example : exists g, exec false th_exact K2Ref 8 w62p = Ok g /\ del_calls w62p = 1%N.
Proof.
  destruct C62_example as [_ [g [E _]]]. exists g. split; [exact E|]. vm_compute. reflexivity.
Qed.
