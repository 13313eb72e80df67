(** * C60: the accesses listed in Bg.v are those the steps make.

    [race] (Bg.v) is about the lists [main_acc], [back_acc] of the shared fields the next step of each thread reads or writes.  Here: a step
    neither reads nor changes a shared field that is not in its list, and does not change a field its list has only as read; and the fields
    outside the list of shared fields are private to one thread (or never written), so no race on them is possible. *)
From Verif Require Import Base Spec Thresholds Table K2 C0 DK Delay BgSpec BgDelSpec Bg BgProof BgDel Prop_DK.

Section F.
Context (wt : bool) (T : thresholds) (K : k2impl).
Local Notation bg := (bg K).

(** g with the field l of h *)
Definition put (l : loc) (h g : bg) : bg :=
  mkbg (b_n g) (b_nt g) (b_c0 g)
    (match l with LMaxR => b_maxr h | _ => b_maxr g end)
    (match l with LKs => b_ks h | _ => b_ks g end)
    (match l with LConv => b_conv h | _ => b_conv g end)
    (b_nw g)
    (match l with LMsz => b_msz h | _ => b_msz g end)
    (b_mrb g) (b_tmp g) (b_copy g) (b_m g) (b_b g) (b_todo g) (b_log g).
Definition omap {A B} (f : A -> B) (o : out A) : out B := let* a := o in Ok (f a).

(** g and g' have the same value in field l *)
Definition same_loc (l : loc) (g g' : bg) : Prop :=
  match l with LConv => b_conv g' = b_conv g | LKs => b_ks g' = b_ks g | LMaxR => b_maxr g' = b_maxr g | LMsz => b_msz g' = b_msz g end.

Lemma start_put l h fuel : forall g e, ins_start K fuel (put l h g) e = omap (put l h) (ins_start K fuel g e).
Proof.
  induction fuel as [|f IH]; intros g e; cbn [ins_start]; change (b_c0 (put l h g)) with (b_c0 g);
    destruct (c0_contains (b_c0 g) e) as [[|]|]; try reflexivity; unfold ins_done; change (b_todo (put l h g)) with (b_todo g);
    destruct (b_todo g) as [[d [|f' r]]|]; try reflexivity.
  - cbn [obind]. change (set_todo (put l h g) (Some (d, r))) with (put l h (set_todo g (Some (d, r)))). apply IH.
Qed.
Lemma ins_end_put l h g e w : ins_end K (put l h g) e w = omap (put l h) (ins_end K g e w).
Proof.
  unfold ins_end, ins_done. change (b_todo (put l h g)) with (b_todo g). destruct (b_todo g) as [[d [|f r]]|]; try reflexivity.
  change (set_todo (put l h g) (Some (d, r))) with (put l h (set_todo g (Some (d, r)))). unfold start. apply start_put.
Qed.
Lemma has_end_put l h g k e b w : has_end K (put l h g) k e b w = omap (put l h) (has_end K g k e b w).
Proof. unfold has_end. destruct k, b; try reflexivity. apply ins_end_put. Qed.

(** A call begins without any access to a shared field. *)
Theorem C60_call_footprint : forall c l g h, call_step K c (put l h g) = omap (put l h) (call_step K c g).
Proof.
  intros c l g h. unfold call_step. change (b_m (put l h g)) with (b_m g). destruct (b_m g); try reflexivity.
  change (b_c0 (put l h g)) with (b_c0 g). destruct c.
  - unfold start. change (fuel_of K (put l h g)) with (fuel_of K g). apply start_put.
  - destruct (c0_contains (b_c0 g) e) as [[|]|]; reflexivity.
  - destruct (c0_neigh (b_c0 g) x); reflexivity.
  - destruct (c0_erase (b_c0 g) e) as [[[|] c]|]; reflexivity.
Qed.

(** A step of the calling thread: it neither reads nor changes a shared field that is not in its list, *)
Theorem C60_main_footprint : forall l g h, (forall w, ~ In (l, w) (main_acc (b_m g))) -> main_step wt T K (put l h g) = omap (put l h) (main_step wt T K g).
Proof.
  intros l g h A. unfold main_step. change (b_m (put l h g)) with (b_m g). destruct (b_m g) as [|k e|k e i|e|e|e|e j|e|e|x acc|x acc busy q|e|e] eqn:Em; cbn [main_acc] in A.
  - reflexivity.
  - change (b_nw (put l h g)) with (b_nw g). destruct (b_nw g); [|reflexivity]. change (b_tmp (put l h g)) with (b_tmp g). change (b_mrb (put l h g)) with (b_mrb g).
    change (b_copy (put l h g)) with (b_copy g). destruct (eeqb (b_tmp g) e); [apply has_end_put|]. destruct (b_mrb g <? length (b_copy g)); [apply has_end_put|reflexivity].
  - destruct l; try (exfalso; apply (A false); cbn; auto; fail).
    + change (b_maxr (put LConv h g)) with (b_maxr g). change (b_ks (put LConv h g)) with (b_ks g).
      destruct (i <=? b_maxr g); [|apply has_end_put]. destruct (nth_error (b_ks g) i) as [[t|]|]; try reflexivity. destruct (kt_adj K t (fst e) (snd e)); [apply has_end_put|reflexivity].
    + change (b_maxr (put LMsz h g)) with (b_maxr g). change (b_ks (put LMsz h g)) with (b_ks g).
      destruct (i <=? b_maxr g); [|apply has_end_put]. destruct (nth_error (b_ks g) i) as [[t|]|]; try reflexivity. destruct (kt_adj K t (fst e) (snd e)); [apply has_end_put|reflexivity].
  - change (b_n (put l h g)) with (b_n g). change (b_nt (put l h g)) with (b_nt g). change (b_c0 (put l h g)) with (b_c0 g).
    destruct (maxsz T (N.max (b_n g) (b_nt g)) 0) as [m|]; [cbn [obind]|reflexivity]. destruct (N.of_nat (c0_size (b_c0 g)) <? m)%N; [|reflexivity].
    destruct (c0_insert T (b_c0 g) e (b_nt g)) as [c|]; [cbn [obind]|reflexivity].
    change (set_store (put l h g) c (b_nt g + 1)) with (put l h (set_store g c (b_nt g + 1))). apply ins_end_put.
  - change (b_nw (put l h g)) with (b_nw g). destruct (b_nw g); [|reflexivity]. destruct wt; [reflexivity|]. change (b_c0 (put l h g)) with (b_c0 g). change (b_nt (put l h g)) with (b_nt g).
    cbv zeta. destruct (c0_insert T _ e (b_nt g)) as [c|]; [cbn [obind]|reflexivity].
    change (set_store (put l h g) c (b_nt g + 1)) with (put l h (set_store g c (b_nt g + 1))). apply ins_end_put.
  - destruct l; try (exfalso; apply (A true); cbn; auto; fail); try (exfalso; apply (A false); cbn; auto; fail).
    change (b_c0 (put LKs h g)) with (b_c0 g). destruct (c0_converted (b_c0 g)) as [c|]; reflexivity.
  - destruct l; try (exfalso; apply (A true); cbn; auto; fail); try (exfalso; apply (A false); cbn; auto; fail);
      cbn [b_ks put]; destruct (nth_error (b_ks g) j); reflexivity.
  - reflexivity.
  - change (b_c0 (put l h g)) with (b_c0 g). destruct (c0_clean (b_c0 g)) as [c|]; [cbn [obind]|reflexivity].
    change (set_store (put l h g) c (b_nt (put l h g) + 1)) with (put l h (set_store g c (b_nt g + 1))). apply ins_end_put.
  - change (b_nw (put l h g)) with (b_nw g). destruct (b_nw g); reflexivity.
  - destruct busy, l; try (exfalso; apply (A true); cbn; auto; fail); try (exfalso; apply (A false); cbn; auto; fail); cbn [b_maxr b_ks b_copy put];
      destruct (q <=? b_maxr g); try reflexivity; destruct (nth_error _ q) as [[t|]|]; reflexivity.
  - change (b_nw (put l h g)) with (b_nw g). destruct (b_nw g); reflexivity.
  - assert (E1 : b_ks (put l h g) = b_ks g) by (destruct l; try reflexivity; exfalso; apply (A true); cbn; auto).
    assert (E2 : b_maxr (put l h g) = b_maxr g) by (destruct l; try reflexivity; exfalso; apply (A true); cbn; auto). rewrite E1.
    destruct (dl_erase K (b_ks g) (fst e) (snd e)) as [[eb mk] t]. change (b_nt (put l h g)) with (b_nt g). rewrite E2. change (b_c0 (put l h g)) with (b_c0 g).
    assert (P : forall r k c m, set_store (set_ks (put l h g) r k) c m = put l h (set_store (set_ks g r k) c m)).
    { intros. destruct l; try reflexivity; exfalso; apply (A true); cbn; auto. }
    assert (P2 : forall r k r' k' c m c' m', set_store (set_ks (put l h (set_store (set_ks g r k) c m)) r' k') c' m' = put l h (set_store (set_ks (set_store (set_ks g r k) c m) r' k') c' m')).
    { intros. destruct l; try reflexivity; exfalso; apply (A true); cbn; auto. }
    rewrite P. cbv zeta. set (g1 := set_store (set_ks g (b_maxr g) t) (b_c0 g) (if eb then u64_dec (b_nt g) else b_nt g)).
    assert (E3 : b_maxr (put l h g1) = b_maxr g1) by (destruct l; try reflexivity; exfalso; apply (A true); cbn; auto). rewrite E3. change (b_c0 (put l h g1)) with (b_c0 g1).
    destruct (th_trig T mk _); [|reflexivity]. unfold g1. rewrite P2. fold g1.
    destruct (flat_map _ _) as [|f r]; [reflexivity|]. unfold start.
    set (g2 := set_store _ _ _). change (set_todo (put l h g2) (Some (e, r))) with (put l h (set_todo g2 (Some (e, r)))).
    change (fuel_of K (put l h (set_todo g2 (Some (e, r))))) with (fuel_of K (set_todo g2 (Some (e, r)))). apply start_put.
Qed.

Lemma start_same fuel : forall g e g' l, ins_start K fuel g e = Ok g' -> same_loc l g g'.
Proof.
  induction fuel as [|f IH]; intros g e g' l; cbn [ins_start]; destruct (c0_contains (b_c0 g) e) as [[|]|]; cbn [obind]; try discriminate; unfold ins_done;
    try (intros E; injection E as <-; destruct l; reflexivity); destruct (b_todo g) as [[d [|f' r]]|]; try discriminate; try (intros E; injection E as <-; destruct l; reflexivity).
  intros E. apply (IH _ _ _ l) in E. destruct l; exact E.
Qed.
Lemma ins_end_same g e w g' l : ins_end K g e w = Ok g' -> same_loc l g g'.
Proof.
  unfold ins_end, ins_done. destruct (b_todo g) as [[d [|f r]]|]; try (intros E; injection E as <-; destruct l; reflexivity).
  unfold start. intros E. apply (start_same _ _ _ _ l) in E. destruct l; exact E.
Qed.
Lemma has_end_same g k e b w g' l : has_end K g k e b w = Ok g' -> same_loc l g g'.
Proof. unfold has_end. destruct k, b; try (intros E; injection E as <-; destruct l; reflexivity). apply ins_end_same. Qed.
Lemma same_trans l g g1 g2 : same_loc l g g1 -> same_loc l g1 g2 -> same_loc l g g2.
Proof. destruct l; cbn; congruence. Qed.

(** and it does not change a field its list has only as read. *)
Theorem C60_main_writes : forall l g g', main_step wt T K g = Ok g' -> ~ In (l, true) (main_acc (b_m g)) -> same_loc l g g'.
Proof.
  intros l g g' E A. unfold main_step in E. destruct (b_m g) as [|k e|k e i|e|e|e|e j|e|e|x acc|x acc busy q|e|e] eqn:Em; cbn [main_acc] in A.
  - injection E as <-. destruct l; reflexivity.
  - destruct (b_nw g); [|injection E as <-; destruct l; reflexivity]. destruct (eeqb (b_tmp g) e); [eapply has_end_same; eauto|].
    destruct (b_mrb g <? length (b_copy g)); [eapply has_end_same; eauto|discriminate].
  - destruct (i <=? b_maxr g); [|eapply has_end_same; eauto]. destruct (nth_error (b_ks g) i) as [[t|]|]; try discriminate; [|injection E as <-; destruct l; reflexivity].
    destruct (kt_adj K t (fst e) (snd e)); [eapply has_end_same; eauto|injection E as <-; destruct l; reflexivity].
  - destruct (maxsz T (N.max (b_n g) (b_nt g)) 0) as [m|]; cbn [obind] in E; [|discriminate]. destruct (N.of_nat (c0_size (b_c0 g)) <? m)%N; [|injection E as <-; destruct l; reflexivity].
    destruct (c0_insert T (b_c0 g) e (b_nt g)) as [c|]; cbn [obind] in E; [|discriminate]. apply (ins_end_same _ _ _ _ l) in E. destruct l; exact E.
  - destruct (b_nw g); [|injection E as <-; destruct l; reflexivity]. destruct wt; [injection E as <-; destruct l; reflexivity|]. cbv zeta in E.
    destruct (c0_insert T _ e (b_nt g)) as [c|]; cbn [obind] in E; [|discriminate]. apply (ins_end_same _ _ _ _ l) in E. destruct l; exact E.
  - destruct (c0_converted (b_c0 g)) as [c|]; cbn [obind] in E; [|discriminate]. injection E as <-. destruct l; try reflexivity; exfalso; apply A; cbn; auto.
  - destruct (nth_error (b_ks g) j); injection E as <-; destruct l; reflexivity.
  - injection E as <-. destruct l; reflexivity.
  - destruct (c0_clean (b_c0 g)) as [c|]; cbn [obind] in E; [|discriminate]. apply (ins_end_same _ _ _ _ l) in E. destruct l; exact E.
  - destruct (b_nw g); injection E as <-; destruct l; reflexivity.
  - destruct (q <=? b_maxr g); [|injection E as <-; destruct l; reflexivity]. destruct (nth_error _ q) as [[t|]|]; try discriminate; injection E as <-; destruct l; reflexivity.
  - destruct (b_nw g); injection E as <-; destruct l; reflexivity.
  - assert (l = LConv \/ l = LMsz) as Hl by (destruct l; auto; exfalso; apply A; cbn; auto).
    destruct (dl_erase K (b_ks g) (fst e) (snd e)) as [[eb mk] t]. cbv zeta in E. destruct (th_trig T mk _); [|injection E as <-; destruct Hl; subst l; reflexivity].
    destruct (flat_map _ _) as [|f r]; [injection E as <-; destruct Hl; subst l; reflexivity|]. unfold start in E. apply (start_same _ _ _ _ l) in E.
    destruct Hl; subst l; exact E.
Qed.

(** The same of the merging thread. *)
Theorem C60_back_footprint : forall l g h, (forall w, ~ In (l, w) (back_acc K (b_b g))) -> back_step T K (put l h g) = omap (put l h) (back_step T K g).
Proof.
  intros l g h A. unfold back_step. change (b_b (put l h g)) with (b_b g). destruct (b_b g) as [| |t|t|t i j|t i| |]; cbn [back_acc] in A.
  - change (b_nw (put l h g)) with (b_nw g). destruct (b_nw g); reflexivity.
  - destruct l; try reflexivity. exfalso; apply (A false); cbn; auto.
  - destruct l; try reflexivity. exfalso; apply (A true); cbn; auto.
  - destruct l; try (exfalso; apply (A true); cbn; auto; fail); try (exfalso; apply (A false); cbn; auto; fail). cbn [b_msz b_ks put].
    destruct (maxsz T (b_msz g) 0); cbn [obind]; [|reflexivity]. destruct (find_level T K (b_msz g) (b_ks g) 0 _); reflexivity.
  - destruct l; try (exfalso; apply (A true); cbn; auto; fail); cbn [b_ks put]; (destruct (j <=? i); [|reflexivity]); destruct (nth_error (b_ks g) j) as [[s|]|]; reflexivity.
  - destruct l; try (exfalso; apply (A true); cbn; auto; fail); cbn [b_ks put]; destruct (i <? length (b_ks g)); reflexivity.
  - reflexivity.
  - reflexivity.
Qed.
Theorem C60_back_writes : forall l g g', back_step T K g = Ok g' -> ~ In (l, true) (back_acc K (b_b g)) -> same_loc l g g'.
Proof.
  intros l g g' E A. unfold back_step in E. destruct (b_b g) as [| |t|t|t i j|t i| |]; cbn [back_acc] in A.
  - destruct (b_nw g); injection E as <-; destruct l; reflexivity.
  - injection E as <-; destruct l; reflexivity.
  - injection E as <-; destruct l; try reflexivity. exfalso; apply A; cbn; auto.
  - destruct (maxsz T (b_msz g) 0); cbn [obind] in E; [|discriminate]. destruct (find_level T K (b_msz g) (b_ks g) 0 _); injection E as <-; destruct l; try reflexivity. exfalso; apply A; cbn; auto.
  - destruct (j <=? i); [|injection E as <-; destruct l; reflexivity]. destruct (nth_error (b_ks g) j) as [[s|]|]; try discriminate; injection E as <-; destruct l; try reflexivity. exfalso; apply A; cbn; auto.
  - destruct (i <? length (b_ks g)); [|discriminate]. injection E as <-; destruct l; try reflexivity. exfalso; apply A; cbn; auto.
  - injection E as <-; destruct l; reflexivity.
  - injection E as <-; destruct l; reflexivity.
Qed.

(** The other fields.  The merging thread neither reads nor changes the buffer, the edge counter, the copy made for queries and the rest of
    what belongs to the calling thread: h may have any other values there ([b_n] is the constant vertex count). *)
Definition mine (h g : bg) : bg :=
  mkbg (b_n g) (b_nt h) (b_c0 h) (b_maxr g) (b_ks g) (b_conv g) (b_nw g) (b_msz g) (b_mrb h) (b_tmp h) (b_copy h) (b_m h) (b_b g) (b_todo h) (b_log h).
Theorem C60_back_private : forall g h, back_step T K (mine h g) = omap (mine h) (back_step T K g).
Proof.
  intros g h. unfold back_step. cbn [mine b_b b_nw b_conv b_n b_msz b_ks b_maxr]. destruct (b_b g) as [| |t|t|t i j|t i| |]; try reflexivity.
  - destruct (b_nw g); reflexivity.
  - destruct (maxsz T (b_msz g) 0); cbn [obind]; [|reflexivity]. destruct (find_level T K (b_msz g) (b_ks g) 0 _); reflexivity.
  - destruct (j <=? i); [|reflexivity]. destruct (nth_error (b_ks g) j) as [[s|]|]; reflexivity.
  - destruct (i <? length (b_ks g)); reflexivity.
Qed.
(** The calling thread neither reads nor changes the local variables of the merging thread. *)
Lemma start_b b fuel : forall g e, ins_start K fuel (set_b g b) e = omap (fun g' => set_b g' b) (ins_start K fuel g e).
Proof.
  induction fuel as [|f IH]; intros g e; cbn [ins_start]; change (b_c0 (set_b g b)) with (b_c0 g);
    destruct (c0_contains (b_c0 g) e) as [[|]|]; try reflexivity; unfold ins_done; change (b_todo (set_b g b)) with (b_todo g);
    destruct (b_todo g) as [[d [|f' r]]|]; try reflexivity.
  - cbn [obind]. change (set_todo (set_b g b) (Some (d, r))) with (set_b (set_todo g (Some (d, r))) b). apply IH.
Qed.
Lemma ins_end_b b g e w : ins_end K (set_b g b) e w = omap (fun g' => set_b g' b) (ins_end K g e w).
Proof.
  unfold ins_end, ins_done. change (b_todo (set_b g b)) with (b_todo g). destruct (b_todo g) as [[d [|f r]]|]; try reflexivity.
  change (set_todo (set_b g b) (Some (d, r))) with (set_b (set_todo g (Some (d, r))) b). unfold start. apply start_b.
Qed.
Lemma has_end_b b g k e v w : has_end K (set_b g b) k e v w = omap (fun g' => set_b g' b) (has_end K g k e v w).
Proof. unfold has_end. destruct k, v; try reflexivity. apply ins_end_b. Qed.
Theorem C60_main_private : forall g b, main_step wt T K (set_b g b) = omap (fun g' => set_b g' b) (main_step wt T K g).
Proof.
  intros g b. unfold main_step. cbn [set_b b_m b_nw b_tmp b_mrb b_copy b_maxr b_ks b_n b_nt b_c0 b_conv].
  destruct (b_m g) as [|k e|k e i|e|e|e|e j|e|e|x acc|x acc busy q|e|e]; try reflexivity.
  - destruct (b_nw g); [|reflexivity]. destruct (eeqb (b_tmp g) e); [apply has_end_b|]. destruct (b_mrb g <? length (b_copy g)); [apply has_end_b|reflexivity].
  - destruct (i <=? b_maxr g); [|apply has_end_b]. destruct (nth_error (b_ks g) i) as [[t|]|]; try reflexivity. destruct (kt_adj K t (fst e) (snd e)); [apply has_end_b|reflexivity].
  - destruct (maxsz T (N.max (b_n g) (b_nt g)) 0) as [m|]; [cbn [obind]|reflexivity]. destruct (N.of_nat (c0_size (b_c0 g)) <? m)%N; [|reflexivity].
    destruct (c0_insert T (b_c0 g) e (b_nt g)) as [c|]; [cbn [obind]|reflexivity]. apply (ins_end_b b (set_store g c (b_nt g + 1))).
  - destruct (b_nw g); [|reflexivity]. destruct wt; [reflexivity|]. cbv zeta. destruct (c0_insert T _ e (b_nt g)) as [c|]; [cbn [obind]|reflexivity]. apply (ins_end_b b (set_store g c (b_nt g + 1))).
  - destruct (c0_converted (b_c0 g)) as [c|]; reflexivity.
  - destruct (nth_error (b_ks g) j); reflexivity.
  - destruct (c0_clean (b_c0 g)) as [c|]; [cbn [obind]|reflexivity]. apply (ins_end_b b (set_store g c (b_nt g + 1))).
  - destruct (b_nw g); reflexivity.
  - destruct (q <=? b_maxr g); [|reflexivity]. destruct (nth_error _ q) as [[t|]|]; reflexivity.
  - destruct (b_nw g); reflexivity.
  - destruct (dl_erase K (b_ks g) (fst e) (snd e)) as [[eb mk] t]. cbv zeta. cbn [set_store set_ks b_maxr b_c0]. destruct (th_trig T mk _); [|reflexivity].
    destruct (flat_map _ _) as [|f r]; [reflexivity|]. unfold start.
    match goal with |- ins_start K _ ?g1 f = omap _ (ins_start K _ ?g2 f) => change g1 with (set_b g2 b) end. apply start_b.
Qed.
End F.

(** A reached state in which the lists matter: the buffer is about to be handed over (converted, max_size_background are written, max_r is read,
    k_collection is not touched), *)
Definition w60 : list act := ACall (CIns (0, 1)%N) :: repeat AMain 12 ++ ACall (CIns (0, 2)%N) :: repeat AMain 5.
Example C60_footprint_example : exists g g', Forall (act_in 8) w60 /\ exec false th_exact K2Ref 8 w60 = Ok g /\ b_m g = MPush (0, 2)%N /\
  main_step false th_exact K2Ref g = Ok g' /\ same_loc K2Ref LMaxR g g' /\ ~ same_loc K2Ref LConv g g' /\ (forall w, ~ In (LKs, w) (main_acc (b_m g))).
Proof.
  rewrite <- (tabled_eq th_exact th_real_inhabited). do 2 eexists. split; [repeat constructor|]. split; [vm_compute; reflexivity|]. split; [reflexivity|].
  split; [vm_compute; reflexivity|]. split; [reflexivity|]. split; [discriminate|]. intros w. cbn. intuition congruence.
Qed.

(** The lists hold nothing else.  Every access listed for a kind of step is made by such a step in some reached state: a listed write changes the field,
    a listed read matters: with another value of the field the step does something else. *)
Definition mkind (m : mpc) : nat :=
  match m with
  | MIdle => 0 | MHas _ _ => 1 | MScan _ _ _ => 2 | MIns _ => 3 | MBusy _ => 4 | MPush _ => 5 | MCopy _ _ => 6 | MFlag _ => 7 | MClean _ => 8
  | MNbr _ _ => 9 | MNb _ _ false _ => 10 | MNb _ _ true _ => 11 | MWait _ => 12 | MErase _ => 13
  end.
Definition bkind (b : bpc K2Ref) : nat :=
  match b with BPoll => 0 | BBuild => 1 | BClear _ => 2 | BLevel _ => 3 | BMerge _ _ _ => 4 | BStore _ _ => 5 | BDone => 6 | BDead => 7 end.
Definition touches (f : bg K2Ref -> out (bg K2Ref)) (l : loc) (w : bool) (g : bg K2Ref) : Prop :=
  if w then exists g', f g = Ok g' /\ ~ same_loc K2Ref l g g'
  else exists h, f (put K2Ref l h g) <> omap (put K2Ref l h) (f g).
Definition whole (c : call) : list act := ACall c :: repeat AMain 20 ++ repeat ABack 12 ++ repeat AMain 20.
Definition ring (k : nat) : list call := map (fun i => CIns (i, (i + 1) mod 8)%N) (firstn k [0; 1; 2; 3; 4; 5; 6; 7]%N).
Definition other (g : bg K2Ref) : bg K2Ref :=
  mkbg (b_n g) (b_nt g) (b_c0 g) 0 [] [(7, 7)%N] (b_nw g) 1 (b_mrb g) (b_tmp g) (b_copy g) (b_m g) (b_b g) (b_todo g) (b_log g).
Definition at_flush (k : nat) : list act := flat_map whole (ring k) ++ [ACall (CIns (3, 4)%N)].
Definition at_erase : list act := flat_map whole (ring 8 ++ map (fun i => CDel (i, i + 1)%N) [0; 1; 2; 3]%N) ++ [ACall (CDel (4, 5)%N)].
Definition rngb (a : act) : bool :=
  match a with ACall (CIns e) | ACall (CHas e) | ACall (CDel e) => (fst e <? 8)%N && (snd e <? 8)%N | ACall (CNbr x) => (x <? 8)%N | _ => true end.
Lemma rng_ok s : forallb rngb s = true -> Forall (act_rng 8) s.
Proof.
  intros H. apply Forall_forall. intros a I. rewrite forallb_forall in H. specialize (H a I). destruct a as [[[x y]|[x y]|x|[x y]]| |]; cbn in *; auto;
    try (apply andb_true_iff in H; destruct H as [H1 H2]; apply N.ltb_lt in H1, H2; split; cbn; assumption). apply N.ltb_lt, H.
Qed.
Lemma touch_w (T : thresholds) f l s (k : bg K2Ref -> nat) n : forallb rngb s = true ->
  match exec false T K2Ref 8 s with Ok g => k g = n /\ match f g with Ok g' => ~ same_loc K2Ref l g g' | UB => False end | UB => False end ->
  exists s g, Forall (act_rng 8) s /\ exec false T K2Ref 8 s = Ok g /\ k g = n /\ touches f l true g.
Proof.
  intros A H. exists s. destruct (exec false T K2Ref 8 s) as [g|]; [|destruct H]. destruct H as [E H]. exists g. split; [apply rng_ok, A|]. split; [reflexivity|]. split; [exact E|].
  unfold touches. destruct (f g) as [g'|]; [|destruct H]. exists g'. auto.
Qed.
Lemma touch_r (T : thresholds) f l s (k : bg K2Ref -> nat) n : forallb rngb s = true ->
  match exec false T K2Ref 8 s with Ok g => k g = n /\ f (put K2Ref l (other g) g) <> omap (put K2Ref l (other g)) (f g) | UB => False end ->
  exists s g, Forall (act_rng 8) s /\ exec false T K2Ref 8 s = Ok g /\ k g = n /\ touches f l false g.
Proof.
  intros A H. exists s. destruct (exec false T K2Ref 8 s) as [g|]; [|destruct H]. destruct H as [E H]. exists g. split; [apply rng_ok, A|]. split; [reflexivity|]. split; [exact E|].
  exists (other g). exact H.
Qed.
Ltac touch k s := first [apply (touch_w _ _ _ s k)|apply (touch_r _ _ _ s k)]; [vm_compute; reflexivity|vm_compute; split; [reflexivity|discriminate]].
Theorem C60_main_tight : forall m l w, In (l, w) (main_acc m) -> exists s g,
  Forall (act_rng 8) s /\ exec false th_exact K2Ref 8 s = Ok g /\ mkind (b_m g) = mkind m /\ touches (main_step false th_exact K2Ref) l w g.
Proof.
  rewrite <- (tabled_eq th_exact th_real_inhabited). intros m l w I.
  destruct m as [|k e|k e i|e|e|e|e j|e|e|x acc|x acc busy q|e|e]; cbn [main_acc] in I; try (destruct I; fail).
  - destruct I as [I|[I|[]]]; injection I as <- <-; touch (fun g : bg K2Ref => mkind (b_m g)) (flat_map whole (ring 2) ++ [ACall (CHas (5, 4)%N)] ++ repeat AMain 2).
  - destruct I as [I|[I|[I|[]]]]; injection I as <- <-; first [touch (fun g : bg K2Ref => mkind (b_m g)) (at_flush 3 ++ repeat AMain 6)|touch (fun g : bg K2Ref => mkind (b_m g)) (at_flush 1 ++ repeat AMain 5)].
  - destruct I as [I|[]]; injection I as <- <-; touch (fun g : bg K2Ref => mkind (b_m g)) (at_flush 3 ++ repeat AMain 7).
  - destruct busy; [destruct I as [I|[]]|destruct I as [I|[I|[]]]]; injection I as <- <-.
    + touch (fun g : bg K2Ref => mkind (b_m g)) (at_flush 3 ++ repeat AMain 20 ++ [ACall (CNbr 1)] ++ repeat AMain 2).
    + touch (fun g : bg K2Ref => mkind (b_m g)) (flat_map whole (ring 2) ++ [ACall (CNbr 1)] ++ repeat AMain 2).
    + touch (fun g : bg K2Ref => mkind (b_m g)) (flat_map whole (ring 2) ++ [ACall (CNbr 1)] ++ repeat AMain 2).
  - destruct I as [I|[I|[]]]; injection I as <- <-; touch (fun g : bg K2Ref => mkind (b_m g)) (at_erase ++ repeat AMain 1).
Qed.
Theorem C60_back_tight : forall b l w, In (l, w) (back_acc K2Ref b) -> exists s g,
  Forall (act_rng 8) s /\ exec false th_exact K2Ref 8 s = Ok g /\ bkind (b_b g) = bkind b /\ touches (back_step th_exact K2Ref) l w g.
Proof.
  rewrite <- (tabled_eq th_exact th_real_inhabited). intros b l w I.
  destruct b as [| |t|t|t i j|t i| |]; cbn [back_acc] in I; try (destruct I; fail).
  - destruct I as [I|[]]; injection I as <- <-; touch (fun g : bg K2Ref => bkind (b_b g)) (at_flush 3 ++ repeat AMain 20 ++ repeat ABack 1).
  - destruct I as [I|[]]; injection I as <- <-; touch (fun g : bg K2Ref => bkind (b_b g)) (at_flush 3 ++ repeat AMain 20 ++ repeat ABack 2).
  - destruct I as [I|[I|[I|[]]]]; injection I as <- <-; touch (fun g : bg K2Ref => bkind (b_b g)) (at_flush 3 ++ repeat AMain 20 ++ repeat ABack 3).
  - destruct I as [I|[]]; injection I as <- <-; touch (fun g : bg K2Ref => bkind (b_b g)) (at_flush 3 ++ repeat AMain 20 ++ repeat ABack 5).
  - destruct I as [I|[]]; injection I as <- <-; touch (fun g : bg K2Ref => bkind (b_b g)) (at_flush 3 ++ repeat AMain 20 ++ repeat ABack 9).
Qed.
