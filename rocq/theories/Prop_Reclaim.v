(** * Prop_Reclaim: what becomes of deleted edges (C92, C93).

    A k2-tree only marks a deleted pair; it still stores it.  del_edge rebuilds the trees when too many are marked
    (DKtree.hpp:194-244, "TAU").  This file says what that achieves. *)
From Coq Require Import Reals Lra.
From Verif Require Import Base Spec Thresholds Table K2 C0 C0Proof DK DKProof DKHist DKGuard DKTotal DKBisim Delay BgSpec BgDelSpec Bg BgProof BgDel Prop_Bg Prop_DK Prop_BgDel Prop_BgFew Prop_DKLarge.

Open Scope nat_scope.

(** ** Specification *)
Section Spec.
Context {K : k2impl}.
Definition trees_of (l : list (option (kt K))) : list (kt K) := flat_map (fun o => match o with Some t => [t] | None => [] end) l.
(** the pairs a tree stores and no longer shows as edges *)
Definition dead (t : kt K) : N := (kt_total K t - N.of_nat (length (kt_edges K t)))%N.
Definition waste (l : list (option (kt K))) : N := fold_right N.add 0%N (map dead (trees_of l)).
(** not more of them than the threshold of DKtree.hpp:206 allows for [c] edges; with 0 or 2 edges the formula divides by log2(0) or log2(1)
    and allows any number *)
Definition allowed (k c : N) : Prop := (c = 1%N -> k = 0%N) /\ ((3 <= c)%N -> (RN k <= RN c / log2R (log2R (RN c)))%R).
End Spec.

Lemma allowed_trig T k c : th_real T -> th_trig T k c = false -> allowed k c.
Proof.
  intros (_ & _ & _ & H1 & _ & H3) E. split.
  - intros ->. rewrite H1 in E. apply N.ltb_ge in E. lia.
  - intros Hc. apply Rnot_gt_le. intros G. apply (H3 k c Hc) in G. congruence.
Qed.

Section Single.
Variable T : thresholds.
Hypothesis HT : th_real T.
Variable K : k2impl.
Variable L : k2laws K.
Hypothesis Hq : adjf_is_query L.
Variable n : N.
Hypothesis Hn : (2 <= n)%N.

Lemma dead_marked t : wf L n t -> dead t = kt_marked K t.
Proof. intros W. unfold dead. rewrite (law_total L n t W). lia. Qed.
Lemma waste_marked l : ks_wf K L n l -> waste l = ks_marked K l.
Proof.
  induction l as [|[t|] l IH]; intros H.
  - reflexivity.
  - inversion H as [|? ? Ht Hl]; subst. change (waste (Some t :: l)) with (dead t + waste l)%N. rewrite (dead_marked t Ht), IH; auto.
  - inversion H as [|? ? Ht Hl]; subst. apply IH; auto.
Qed.


Lemma del_waste (g : dk K) sl x y g' : dk_inv K L n g sl -> in_range n (x, y) -> dk_del T K g x y = Done g' -> ks_wf K L n (ks g') ->
  (waste (ks g') <= waste (ks g) + 1)%N /\
  ((c0_contains (C0_ g) (x, y) = Ok true /\ ks g' = ks g) \/ (waste (ks g') <= 1)%N \/ allowed (waste (ks g')) (nt g')).
Proof using HT Hq Hn.
  intros H Hr E W'. rewrite (waste_marked _ W'), (waste_marked _ (dv_wf _ _ _ _ _ H)). unfold dk_del in E.
  destruct (c0_erase (C0_ g) (x, y)) as [[b c]|] eqn:Ee; cbn [rbind] in E; [|discriminate].
  destruct (erase_inv _ _ _ _ _ (dv_c0 _ _ _ _ _ H) Ee) as [Hb [_ [_ [sl1 [I1 [I2 [I3 I4]]]]]]].
  destruct b.
  - injection E as <-. cbn [ks]. split; [lia|]. left. split; auto. rewrite (inv_contains _ _ _ (dv_c0 _ _ _ _ _ H)), <- Hb. reflexivity.
  - specialize (I4 eq_refl). subst c.
    pose proof (ks_erase_spec K L n (ks g) x y (dv_wf _ _ _ _ _ H) (dv_disj _ _ _ _ _ H) Hr) as [R1 [R2 [R3 [R4 [R5 [R6 _]]]]]].
    destruct (erase_count K L n (ks g) x y (dv_wf _ _ _ _ _ H) Hr) as [Q1 Q2].
    destruct (ks_erase K (ks g) x y) as [eb l]. cbn [fst snd] in *.
    pose proof (ks_sweep_spec K L n Hn l R1) as [W1 [W2 [W3 [W4 [W5 _]]]]].
    destruct (sweep_count K l) as [V1 [R [V2 _]]].
    destruct (ks_sweep K l) as [marked l2]. cbn [fst snd] in *.
    set (n' := if eb then u64_dec (nt g) else nt g) in *.
    destruct (th_trig T marked n') eqn:Etr.
    + set (g2 := mkdk (max_r g) (nv g) n' (C0_ g) l2) in *.
      assert (H2 : dk_inv K L n g2 sl).
      { destruct H as [h1 h2 h3 h4 h5 h6 h7 h8 h9]. constructor; cbn; auto.
        - rewrite W2, R2; auto.
        - intros e Q3 Q4. apply (h9 e Q3); auto. }
      pose proof (rebuild_marked T K L n Hn g2 sl g' H2 E) as Hm1. split; [lia|]. auto.
    + injection E as <-. cbn [ks nt]. split; [destruct eb; lia|]. right. right. rewrite <- V1. apply (allowed_trig T); auto.
Qed.
End Single.

(** ** C92: what one call does, in any state a history reaches *)
Theorem C92_deletion : forall T K (L : k2laws K) n h g u v g',
  th_real T -> adjf_is_query L -> (2 <= n)%N -> reached T K n h g -> in_range n (u, v) -> dk_del T K g u v = Done g' ->
  (waste (ks g') <= waste (ks g) + 1)%N /\
  ((c0_contains (C0_ g) (u, v) = Ok true /\ ks g' = ks g) \/
   (waste (ks g') <= 1)%N \/ allowed (waste (ks g')) (dk_edges K g')).
Proof.
  intros T K L n h g u v g' HT Hq Hn [HF E] Hr Ed. destruct (hist_rel T K L n Hn h g HF E) as [sl R].
  destruct (rel_step T K L n Hn g sl (espec h) (Del (u, v)) g' R Hr Ed) as [sl' R'].
  apply (del_waste T HT K L Hq n Hn g sl u v g'); auto; [apply (rl_inv _ _ _ _ _ _ R)|]. apply (dv_wf _ _ _ _ _ (rl_inv _ _ _ _ _ _ R')).
Qed.
Theorem C92_addition : forall T K (L : k2laws K) n h g u v g',
  adjf_is_query L -> (2 <= n)%N -> reached T K n h g -> in_range n (u, v) -> dk_add T K g u v = Done g' ->
  (waste (ks g') <= waste (ks g))%N.
Proof.
  intros T K L n h g u v g' Hq Hn [HF E] Hr Ea. destruct (hist_rel T K L n Hn h g HF E) as [sl R].
  destruct (rel_step T K L n Hn g sl (espec h) (Add (u, v)) g' R Hr Ea) as [sl' R'].
  rewrite (waste_marked K L n Hn _ (dv_wf _ _ _ _ _ (rl_inv _ _ _ _ _ _ R))), (waste_marked K L n Hn _ (dv_wf _ _ _ _ _ (rl_inv _ _ _ _ _ _ R'))).
  apply (add_marked T K L n Hn g sl u v g'); auto. apply (rl_inv _ _ _ _ _ _ R).
Qed.
(** and altogether, on large graphs: fewer than the vertices, or than the edges *)
Theorem C92_total_partial : forall T K (L : k2laws K) n h g,
  th_real T -> adjf_is_query L -> (32768 <= n)%N -> reached T K n h g ->
  (waste (ks g) + 1 < N.max n (dk_edges K g))%N.
Proof.
  intros T K L n h g HT Hq Hn [HF E]. pose proof (large_hist T HT K L Hq n Hn h HF) as H. rewrite E in H. destruct H as [sl [H HB]].
  rewrite (waste_marked K L n ltac:(lia) _ (dv_wf _ _ _ _ _ H)). eapply big_ok; eauto.
Qed.
(** False of smaller graphs: on 2 vertices, with 2 edges, 3 deleted pairs are stored, with every implementation of the trees. *)
Definition w92 : list op := [d 0 1; a 0 1; a 1 1; a 1 0; a 0 1; a 1 0; a 0 0; a 0 1; a 1 0; a 1 1; d 1 0; d 0 1; a 1 1; a 0 1; d 1 1]%N.
Lemma lsim_marked K1 K2 (L1 : k2laws K1) (L2 : k2laws K2) n l1 l2 : lsim n K1 L1 K2 L2 l1 l2 -> ks_marked K1 l1 = ks_marked K2 l2.
Proof. induction 1 as [|[x|] [y|] l1 l2 H]; cbn in *; try tauto. rewrite (ts_marked _ _ _ _ _ _ _ H). congruence. Qed.
Theorem C92_refuted : forall T K (L : k2laws K), th_real T -> adjf_is_query L ->
  exists n h g, (2 <= n)%N /\ reached T K n h g /\ (N.max n (dk_edges K g) < waste (ks g))%N.
Proof.
  intros T K L HT Hq. exists 2%N, w92.
  assert (HF : Forall (op_in_range 2) w92) by ranges.
  pose proof (transfer T K L 2 w92 Hq ltac:(lia) HF) as HS.
  assert (HW : match dk_hist T K2Ref 2 w92 with Done g => ks_marked K2Ref (ks g) = 3%N /\ nt g = 2%N | _ => False end).
  { rewrite <- (tabled_eq T HT). vm_compute. auto. }
  destruct (dk_hist T K2Ref 2 w92) as [gr|gr|]; try tauto. destruct HW as [W1 W2].
  destruct (dk_hist T K 2 w92) as [g|g|] eqn:E; try tauto. exists g. split; [lia|]. split; [split; auto|].
  destruct (hist_rel T K L 2 ltac:(lia) w92 g HF E) as [sl R].
  rewrite (waste_marked K L 2 ltac:(lia) _ (dv_wf _ _ _ _ _ (rl_inv _ _ _ _ _ _ R))).
  unfold dk_edges. rewrite (gs_nt _ _ _ _ _ _ _ HS), (lsim_marked _ _ _ _ _ _ _ (gs_ks _ _ _ _ _ _ _ HS)), W1, W2. reflexivity.
Qed.
(** The hypotheses of the others are met: a deletion that leaves two dead pairs (2 <= 3 / log2(log2(3))), and one that triggers the
    rebuild, which drops them; 32768 vertices: C16_large_example. *)
Example C92_example : exists g1 g2,
  dk_hist th_exact K2Ref 3 [a 2 1; a 0 0; a 0 1; a 1 2; d 0 0]%N = Done g1 /\
  dk_del th_exact K2Ref g1 0 1 = Done g2 /\ waste (ks g1) = 1%N /\ dk_edges K2Ref g1 = 3%N /\ waste (ks g2) = 2%N.
Proof.
  rewrite <- (tabled_eq th_exact th_real_inhabited).
  match goal with |- exists g1 g2, ?h = _ /\ _ => assert (HW : match h with Done g1 =>
    match dk_del (tabled th_exact) K2Ref g1 0 1 with Done g2 => waste (ks g1) = 1%N /\ dk_edges K2Ref g1 = 3%N /\ waste (ks g2) = 2%N | _ => False end | _ => False end)
    by (vm_compute; auto); destruct h as [g1|g1|]; try tauto end.
  destruct (dk_del (tabled th_exact) K2Ref g1 0 1) as [g2|g2|] eqn:E2; try tauto. exists g1, g2. destruct HW as (W1 & W2 & W3). repeat split; auto.
Qed.

(** ** The delayed-union graph: del_edge looks at one tree's deleted pairs, and its rebuild leaves the larger trees alone *)
Definition w93 : list op := [a 0 0; a 0 1; a 0 2; a 0 3; a 0 4; a 0 5; a 0 6; a 0 7; a 1 0; a 1 1; a 1 2;
  d 0 0; d 0 1; d 0 2; d 0 3; d 0 4; a 7 7; d 0 5; a 7 6]%N.
Lemma not_allowed_7_6 : ~ allowed 7 6.
Proof.
  intros [_ H]. specialize (H ltac:(lia)). assert (H1 : (INR 2 <= log2R (RN 6))%R) by (apply log2R_ge; unfold RN; cbn [Z.of_N pow]; lra).
  assert (H2 : (INR 1 <= log2R (log2R (RN 6)))%R) by (apply log2R_ge; cbn [INR pow] in *; lra).
  set (l := log2R (log2R (RN 6))) in *. cbn [INR] in H2.
  assert (G : (RN 7 * l <= RN 6)%R).
  { replace (RN 6) with (RN 6 / l * l)%R by (field; lra). apply Rmult_le_compat_r; lra. }
  unfold RN in G. cbn [Z.of_N] in G. lra.
Qed.
Theorem C93_delay_refuted : forall T, th_real T -> Forall (op_in_range 8) w93 /\ exists d d',
  dl_hist T K2Ref 8 w93 = Done d /\ dl_contains K2Ref d 0 6 = Ok true /\ c0_contains (C0_ (d_g d)) (0, 6)%N = Ok false /\
  dl_del T K2Ref d 0 6 = Done d' /\ waste (ks (d_g d')) = 7%N /\ dl_edges K2Ref d' = 6%N /\ ~ allowed 7 6.
Proof.
  intros T HT. split; [ranges|]. rewrite <- (tabled_eq T HT).
  assert (HW : match dl_hist (tabled T) K2Ref 8 w93 with Done g1 =>
    match dl_del (tabled T) K2Ref g1 0 6 with Done g2 => dl_contains K2Ref g1 0 6 = Ok true /\ c0_contains (C0_ (d_g g1)) (0, 6)%N = Ok false /\
      waste (ks (d_g g2)) = 7%N /\ dl_edges K2Ref g2 = 6%N | _ => False end | _ => False end) by (vm_compute; auto).
  destruct (dl_hist (tabled T) K2Ref 8 w93) as [g1|g1|]; try tauto.
  destruct (dl_del (tabled T) K2Ref g1 0 6) as [g2|g2|] eqn:E2; try tauto. exists g1, g2.
  destruct HW as (W1 & W2 & W3 & W4). repeat split; auto; apply not_allowed_7_6; auto.
Qed.

(** ** The background graphs *)
Section BgWaste.
Context (wt : bool) (T : thresholds) (HT : th_real T) (K : k2impl) (L : k2laws K) (n : N) (Hn : (2 <= n)%N).
Local Notation bg := (bg K).
Local Notation J := (J K L n).

Definition clean (b : bpc K) : Prop :=
  match b with BClear t | BLevel t | BMerge t _ _ | BStore t _ => kt_marked K t = 0%N | _ => True end.
Definition kept (g g' : bg) : Prop := b_ks g' = b_ks g /\ b_b g' = b_b g.
Lemma kept_fr g g' : fr K g g' -> kept g g'.
Proof. intros (A & B & _). split; auto. Qed.

Lemma call_kept g c g' : call_step K c g = Ok g' -> kept g g'.
Proof.
  unfold call_step. destruct (b_m g); try (intros E; injection E as <-; split; reflexivity). destruct c as [e|e|x|e]; intros E.
  - apply kept_fr, (ins_start_fr _ _ _ _ _ E).
  - destruct (c0_contains (b_c0 g) e) as [[|]|]; [| |discriminate]; injection E as <-; split; reflexivity.
  - destruct (c0_neigh (b_c0 g) x); [|discriminate]. injection E as <-. split; reflexivity.
  - destruct (c0_erase (b_c0 g) e) as [[b c']|]; [|discriminate]. cbn [obind fst snd] in E. destruct b; injection E as <-; split; reflexivity.
Qed.
Lemma main_kept g g' : main_step wt T K g = Ok g' -> match b_m g with MErase _ => True | _ => kept g g' end.
Proof.
  intros E. unfold main_step in E. destruct (b_m g) as [|e0 e|e0 e i|e|e|e|e j|e|e|x acc|x acc busy l|e|e] eqn:M; auto.
  - injection E as <-. split; reflexivity.
  - destruct (b_nw g); [|injection E as <-; split; reflexivity].
    destruct (eeqb (b_tmp g) e); [apply kept_fr, (has_end_fr _ _ _ _ _ _ _ E)|].
    destruct (b_mrb g <? length (b_copy g)); [apply kept_fr, (has_end_fr _ _ _ _ _ _ _ E)|discriminate].
  - destruct (i <=? b_maxr g); [|apply kept_fr, (has_end_fr _ _ _ _ _ _ _ E)].
    destruct (nth_error (b_ks g) i) as [[t|]|]; [|injection E as <-; split; reflexivity|discriminate].
    destruct (kt_adj K t (fst e) (snd e)); [apply kept_fr, (has_end_fr _ _ _ _ _ _ _ E)|injection E as <-; split; reflexivity].
  - destruct (maxsz T (N.max (b_n g) (b_nt g)) 0); [|discriminate]. cbn [obind] in E. destruct (_ <? _)%N; [|injection E as <-; split; reflexivity].
    destruct (c0_insert T (b_c0 g) e (b_nt g)); [|discriminate]. cbn [obind] in E. apply ins_end_fr in E. apply (kept_fr _ _ E).
  - destruct (b_nw g); [|injection E as <-; split; reflexivity]. destruct wt; [injection E as <-; split; reflexivity|].
    cbv zeta in E. destruct (c0_insert T _ e (b_nt g)) as [c'|]; [|discriminate]. cbn [obind] in E. apply ins_end_fr in E. apply (kept_fr _ _ E).
  - destruct (c0_converted (b_c0 g)); [|discriminate]. injection E as <-. split; reflexivity.
  - destruct (nth_error (b_ks g) j); injection E as <-; split; reflexivity.
  - injection E as <-. split; reflexivity.
  - destruct (c0_clean (b_c0 g)); [|discriminate]. cbn [obind] in E. apply ins_end_fr in E. apply (kept_fr _ _ E).
  - destruct (b_nw g); injection E as <-; split; reflexivity.
  - destruct (l <=? b_maxr g); [|injection E as <-; split; reflexivity].
    destruct (nth_error (if busy then b_copy g else b_ks g) l) as [[t|]|]; [| |discriminate]; injection E as <-; split; reflexivity.
  - destruct (b_nw g); injection E as <-; split; reflexivity.
Qed.

Definition small (c : N) (t : kt K) : Prop := dead t = 0%N \/ allowed (dead t) c.
(** what the trees of the level [i] may be after a step *)
Definition level_ok (old new : list (option (kt K))) (c : N) : Prop :=
  forall i t', nth_error new i = Some (Some t') -> (exists t, nth_error old i = Some (Some t) /\ dead t' = dead t) \/ small c t'.
Lemma level_same l c : level_ok l l c.
Proof. intros i t' E. left. eauto. Qed.

Lemma erase_levels l x y : ks_wf K L n l -> in_range n (x, y) ->
  forall i t', nth_error (snd (dl_erase K l x y)) i = Some (Some t') ->
  exists t, nth_error l i = Some (Some t) /\ (dead t' = dead t \/ dead t' = snd (fst (dl_erase K l x y))).
Proof.
  intros H [Hx Hy]. cbn in Hx, Hy. induction l as [|[t|] l IH]; cbn [dl_erase]; intros i t'.
  - destruct i; discriminate.
  - inversion H as [|? ? Ht Hl]; subst. specialize (IH Hl). destruct (law_erase L n t x y Ht Hx Hy) as [E1 [E2 E3]].
    pose proof (dead_marked K L n Hn _ E1) as D1. pose proof (dead_marked K L n Hn _ Ht) as D2.
    destruct (kt_erase K t x y) as [b t1]. cbn [fst snd] in *. destruct b.
    + destruct (_ =? _)%N; cbn [snd fst]; destruct i as [|i]; cbn [nth_error]; intros G.
      * discriminate.
      * exists t'. auto.
      * injection G as <-. exists t. auto.
      * exists t'. auto.
    + destruct (dl_erase K l x y) as [[b' k'] l']. cbn [snd fst] in *. destruct i as [|i]; cbn [nth_error]; intros G; [|apply (IH i t' G)].
      injection G as <-. exists t. split; auto. left. lia.
  - inversion H as [|? ? Ht Hl]; subst. specialize (IH Hl).
    destruct (dl_erase K l x y) as [[b' k'] l']. cbn [snd fst] in *. destruct i as [|i]; cbn [nth_error]; intros G; [discriminate|apply (IH i t' G)].
Qed.

Lemma nth_skip {A} k : forall (l : list A) i, nth_error (skipn k l) i = nth_error l (k + i).
Proof. induction k as [|k IH]; intros [|x l] i; cbn [skipn Nat.add nth_error]; auto. destruct i; reflexivity. Qed.
Lemma nth_upd {A} (l : list A) : forall i j v x, nth_error (upd l j v) i = Some x -> (i = j /\ x = v) \/ nth_error l i = Some x.
Proof.
  induction l as [|y l IH]; intros [|i] [|j] v x E; cbn in *; auto; try discriminate.
  - injection E as <-. auto.
  - destruct (IH _ _ _ _ E) as [[-> ->]|G]; auto.
Qed.

Definition winv (g : bg) : Prop := b_b g <> BDead -> clean (b_b g).
Lemma step_levels a g g' : Jinv K L n g -> winv g -> act_rng n a -> step wt T K a g = Ok g' ->
  winv g' /\ (b_b g' <> BDead -> level_ok (b_ks g) (b_ks g') (b_nt g')).
Proof using HT Hn.
  intros V W R E.
  assert (NB : b_b g' <> BDead -> b_b g <> BDead).
  { intros ND. destruct a as [c| |].
    - destruct (grows_step wt T K (ACall c) g g') as [X _]; [discriminate|auto|]. congruence.
    - destruct (grows_step wt T K AMain g g') as [X _]; [discriminate|auto|]. congruence.
    - intros X. cbn [step] in E. unfold back_step in E. rewrite X in E. injection E as <-. auto. }
  assert (KK : kept g g' -> winv g' /\ (b_b g' <> BDead -> level_ok (b_ks g) (b_ks g') (b_nt g'))).
  { intros [A B]. split; [unfold winv; rewrite B; exact W|]. rewrite A. intros _. apply level_same. }
  destruct a as [c| |]; cbn [step] in E.
  - apply KK, (call_kept _ _ _ E).
  - pose proof (main_kept g g' E) as MK. destruct (b_m g) as [|e0 e|e0 e i|e|e|e|e j|e|e|x acc|x acc busy l|e|e] eqn:M; try (apply KK, MK).
    unfold main_step in E. rewrite M in E. destruct e as [x y]. cbn [fst snd] in E.
    assert (Hb : b_b g' = b_b g).
    { clear - E. destruct (dl_erase K (b_ks g) x y) as [[eb mk] l]. cbv zeta in E. destruct (th_trig T mk _); [|injection E as <-; reflexivity].
      match type of E with match ?x with _ => _ end = _ => destruct x as [|f r] end; [injection E as <-; reflexivity|].
      apply ins_start_fr in E. destruct E as (_ & E2 & _). exact E2. }
    split; [unfold winv; rewrite Hb; exact W|]. intros ND. destruct (V (NB ND)) as [An [B JB]].
    pose proof (j_core _ _ _ _ _ JB) as C. pose proof (j_m _ _ _ _ _ JB) as Fm. rewrite M in Fm. cbn [mfactd] in Fm. destruct Fm as (Re & _ & Nw).
    pose proof (co_wf _ _ _ _ _ _ _ _ _ _ _ _ _ _ _ _ C) as Wf. pose proof (co_len _ _ _ _ _ _ _ _ _ _ _ _ _ _ _ _ C) as Le.
    pose proof (erase_levels (b_ks g) x y Wf Re) as EL.
    destruct (dl_erase K (b_ks g) x y) as [[eb mk] l]. cbn [fst snd] in EL. cbv zeta in E.
    destruct (th_trig T mk _) eqn:Tr.
    + assert (Hk : b_ks g' = repeat None (Nat.min (S (b_maxr g)) (length l)) ++ skipn (S (b_maxr g)) l).
      { match type of E with match ?x with _ => _ end = _ => destruct x as [|f r] end; [injection E as <-; reflexivity|].
        apply ins_start_fr in E. destruct E as (E1 & _). exact E1. }
      rewrite Hk. intros i t' G. exfalso. assert (Hi : S (b_maxr g) <= i /\ nth_error l i = Some (Some t')).
      { destruct (Nat.lt_ge_cases i (Nat.min (S (b_maxr g)) (length l))) as [Hl|Hl].
        - rewrite nth_error_app1 in G by (rewrite repeat_length; auto). apply nth_error_In, repeat_spec in G. discriminate.
        - rewrite nth_error_app2 in G by (rewrite repeat_length; auto). rewrite repeat_length, nth_skip in G.
          assert (i < length l \/ length l <= i) as [Q|Q] by lia.
          + split; [lia|]. replace (S (b_maxr g) + (i - Nat.min (S (b_maxr g)) (length l))) with i in G by lia. exact G.
          + assert (X : nth_error l (S (b_maxr g) + (i - Nat.min (S (b_maxr g)) (length l))) = None) by (apply nth_error_None; lia). congruence. }
      destruct Hi as [Hi Gi]. destruct (EL i t' Gi) as (t & Et & _).
      pose proof (co_above _ _ _ _ _ _ _ _ _ _ _ _ _ _ _ _ C i t Et). lia.
    + injection E as <-. gcbn. intros i t' G. destruct (EL i t' G) as (t & Et & [A|A]); [left; eauto|]. right. right. rewrite A. apply (allowed_trig T); auto.
  - assert (UB' : forall ks', level_ok (b_ks g) ks' (b_nt g') -> b_ks g' = ks' -> level_ok (b_ks g) (b_ks g') (b_nt g')) by (intros; subst; auto).
    assert (NDg : b_b g <> BDead -> exists B, J g B) by (intros X; destruct (V X) as [_ Y]; exact Y).
    unfold back_step in E. destruct (b_b g) as [| |t|t|t i j|t i| |] eqn:Bb.
    + destruct (b_nw g); injection E as <-; (split; [unfold winv; gcbn; rewrite ?Bb; intros _; exact Logic.I|intros _; apply level_same]).
    + destruct (NDg ltac:(discriminate)) as [B JB]. pose proof (j_core _ _ _ _ _ JB) as C. pose proof (j_n _ _ _ _ _ JB) as En.
      pose proof (co_b _ _ _ _ _ _ _ _ _ _ _ _ _ _ _ _ C) as F. rewrite Bb in F. unfold bfactd in F.
      injection E as <-. split; [|intros _; apply level_same]. intros _. gcbn. cbn [clean]. rewrite En.
      destruct (b_nw g); [|discriminate]. destruct F as (F1 & F2 & F3). apply (law_build L n (b_conv g) Hn F1 F2 F3).
    + injection E as <-. split; [|intros _; apply level_same]. intros _. gcbn. unfold winv in W. rewrite Bb in W. apply W. discriminate.
    + destruct (maxsz T (b_msz g) 0) as [n0|]; [|discriminate]. cbn [obind] in E. destruct (find_level T K (b_msz g) (b_ks g) 0 n0); injection E as <-.
      * split; [|intros _; apply level_same]. intros _. gcbn. unfold winv in W. rewrite Bb in W. apply W. discriminate.
      * split; [|intros X; destruct X; reflexivity]. intros X. destruct X. reflexivity.
    + destruct (NDg ltac:(discriminate)) as [B JB]. pose proof (j_core _ _ _ _ _ JB) as C.
      pose proof (co_b _ _ _ _ _ _ _ _ _ _ _ _ _ _ _ _ C) as F. rewrite Bb in F. unfold bfactd in F. destruct (b_nw g); [|discriminate].
      destruct F as (F1 & _). pose proof (co_wf _ _ _ _ _ _ _ _ _ _ _ _ _ _ _ _ C) as Wf.
      assert (Wc : kt_marked K t = 0%N) by (unfold winv in W; rewrite Bb in W; apply W; discriminate).
      destruct (j <=? i).
      * destruct (nth_error (b_ks g) j) as [[s|]|] eqn:Ej; [| |discriminate]; injection E as <-.
        -- split; [intros _; gcbn; apply (law_union L n t s F1)|]; auto.
           ++ unfold ks_wf in Wf. rewrite Forall_forall in Wf. apply (Wf (Some s)). eapply nth_error_In; eauto.
           ++ intros _. gcbn. intros k t' G. destruct (nth_upd _ _ _ _ _ G) as [[_ X]|X]; [discriminate|]. left. eauto.
        -- split; [intros _; exact Wc|intros _; apply level_same].
      * injection E as <-. split; [intros _; exact Wc|intros _; apply level_same].
    + destruct (NDg ltac:(discriminate)) as [B JB]. pose proof (j_core _ _ _ _ _ JB) as C.
      pose proof (co_b _ _ _ _ _ _ _ _ _ _ _ _ _ _ _ _ C) as F. rewrite Bb in F. unfold bfactd in F. destruct (b_nw g); [|discriminate].
      destruct F as (F1 & _).
      assert (Wc : kt_marked K t = 0%N) by (unfold winv in W; rewrite Bb in W; apply W; discriminate).
      destruct (i <? length (b_ks g)); [|discriminate]. injection E as <-. split; [intros _; exact Logic.I|].
      intros _. gcbn. intros k t' G. destruct (nth_upd _ _ _ _ _ G) as [[_ X]|X]; [|left; eauto].
      injection X as ->. right. left. rewrite (dead_marked K L n Hn _ F1). exact Wc.
    + injection E as <-. split; [intros _; exact Logic.I|intros _; apply level_same].
    + injection E as <-. split; [unfold winv; rewrite Bb; intros X; destruct X; reflexivity|intros _; apply level_same].
Qed.
Lemma run_winv s : forall g g', Jinv K L n g -> winv g -> Forall (act_rng n) s -> run wt T K s g = Ok g' -> winv g'.
Proof using HT Hn.
  induction s as [|a s IH]; intros g g' V W F E; cbn [run] in E; [injection E as <-; auto|]. inversion F; subst.
  destruct (step wt T K a g) as [g1|] eqn:E1; [|discriminate]. cbn [obind] in E.
  apply (IH g1 g'); auto; [eapply (step_J wt T K L n Hn a g g1); eauto|apply (step_levels a g g1); auto].
Qed.
End BgWaste.

(** ** C93: both background graphs, every schedule.  After a step a tree is as it was, or has no deleted pairs, or (it is the tree a
    deletion was just made in) no more than the threshold allows for the edges there are now. *)
Theorem C93_background_partial : forall wt T K (L : k2laws K), th_real T -> forall n s a g g', (2 <= n)%N ->
  Forall (act_rng n) s -> act_rng n a -> exec wt T K n s = Ok g -> step wt T K a g = Ok g' -> b_b g' <> BDead ->
  forall i t', nth_error (b_ks g') i = Some (Some t') ->
  (exists t, nth_error (b_ks g) i = Some (Some t) /\ dead t' = dead t) \/ dead t' = 0%N \/ allowed (dead t') (bg_edges K g').
Proof.
  intros wt T K L HT n s a g g' Hn F R E Es ND. pose proof (exec_J wt T K L n Hn s g F E) as V.
  apply (step_levels wt T HT K L n Hn a g g' V); auto.
  unfold exec in E. destruct (bg_new wt T K n) as [g0|] eqn:E0; [|discriminate]. cbn [obind] in E.
  apply (run_winv wt T HT K L n Hn s g0 g); auto; [apply (new_J wt T K L n Hn g0 E0)|].
  unfold bg_new in E0. destruct (c0_new T n); [|discriminate]. cbn [obind] in E0. injection E0 as <-. intros _. exact Logic.I.
Qed.
(** The hypotheses are met: the step that deletes (0,2) from a tree. *)
Definition s93 : list act := w30 ++ repeat ABack 15 ++ ins (0, 3)%N ++ [ACall (CDel (0, 2)%N); AMain].
Example C93_example : Forall (act_rng 8) s93 /\ exists g g', exec false th_exact K2Ref 8 s93 = Ok g /\
  step false th_exact K2Ref AMain g = Ok g' /\ b_b g' <> BDead /\ waste (b_ks g) = 0%N /\ waste (b_ks g') = 1%N.
Proof.
  split; [repeat constructor|]. rewrite <- (tabled_eq th_exact th_real_inhabited).
  assert (HW : match exec false (tabled th_exact) K2Ref 8 s93 with Ok g =>
    match step false (tabled th_exact) K2Ref AMain g with Ok g' =>
      match b_b g' with BDead => False | _ => True end /\ waste (b_ks g) = 0%N /\ waste (b_ks g') = 1%N | UB => False end | UB => False end) by (vm_compute; auto).
  destruct (exec false (tabled th_exact) K2Ref 8 s93) as [g|]; [|tauto].
  destruct (step false (tabled th_exact) K2Ref AMain g) as [g'|] eqn:E2; [|tauto]. exists g, g'. destruct HW as (W1 & W2 & W3).
  repeat split; auto. intros X. rewrite X in W1. exact W1.
Qed.
