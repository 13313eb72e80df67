(** * Prop_BgSerial: saving and loading the background graphs (C73, C74).

    [bg_serialize k d g]: serialize is called on [g], into the directory [d]; while it waits, the merging thread takes k steps.
    [bg_load h d' g0 log]: load into g0, from the archive h and the directory d'; the log of the loaded graph, the history it is
    supposed to have, is that of the saved one, so that BgSpec and BgDelSpec say what it should answer. *)
From Verif Require Import Base Spec Thresholds Table K2 C0 DK DKProof DKHist Delay BgSpec Bg BgProof BgTime Prop_Bg BgDelSpec BgDel BgDelTime Prop_BgDel BgSerial.

Section Main.
Context (wt : bool) (T : thresholds) (K : k2impl) (L : k2laws K).

(** ** C73: a background graph survives serialize and load *)
(** Insertions only, no merge in progress when serialize is called, an empty directory, a newly built target (on any number of vertices):
    both calls succeed, the original is as before, the loaded graph is equal to it (both ways), and goes on as the original would, under
    every schedule: nothing lost, nothing invented, no undefined behaviour. *)
Theorem C73_insertions_partial : th_top T -> forall n s g k n0 g0, (2 <= n)%N -> Forall (act_in n) s -> exec wt T K n s = Ok g -> b_m g = MIdle ->
  b_nw g = false -> bg_new wt T K n0 = Ok g0 ->
  exists h d g', bg_serialize wt T K k (tdir_empty K) g = Ok (Some (h, d, g)) /\ bg_load T K h d g0 (b_log g) = Ok g' /\
    bg_eqb K g g' = Ok true /\ bg_eqb K g' g = Ok true /\ b_m g' = MIdle /\
    bg_edges K g' = bg_edges K g /\ bg_nodes K g' = n /\
    forall s2, Forall (act_in n) s2 -> exists g2, run wt T K s2 g' = Ok g2 /\ b_b g2 <> BDead /\
      (forall h2 h1 e b busy, b_log g2 = h2 ++ EHas e b busy :: h1 ->
         (b = true -> In e (inserted h1)) /\ (busy = false -> In e (inserted h1) -> b = true)) /\
      (forall h2 h1 x l busy, b_log g2 = h2 ++ ENbr x l busy :: h1 ->
         (forall y, In y l -> In (x, y) (inserted h1)) /\ (busy = false -> forall y, In (x, y) (inserted h1) -> In y l)) /\
      (b_m g2 = MIdle -> NoDup (inserted (b_log g2)) -> bg_edges K g2 = N.of_nat (length (inserted (b_log g2)))).
Proof using L.
  intros HT n s g k n0 g0 Hn F E Em W EN. destruct (exec_ok wt T K L n Hn HT s F) as (g1 & E1 & V). rewrite E in E1. injection E1 as <-.
  destruct (load_inv wt T K L n Hn k (tdir_empty K) g g0 (fun _ => eq_refl) V Em W (new_blank _ _ _ _ _ EN))
    as (h & d & g' & S1 & S2 & V' & EL & A1 & A2 & A3 & Q1 & Q2).
  exists h, d, g'. sp; auto; [unfold bg_nodes; rewrite A1; apply (bi_nn _ _ _ _ _ V)|].
  intros s2 F2. destruct (run_ok wt T K L n Hn HT s2 g' V' F2) as (g2 & E2 & V2). exists g2. split; [auto|]. split.
  { pose proof (st_b _ _ _ _ _ _ _ _ _ _ _ (bi_st _ _ _ _ _ V2)) as B. unfold bfact in B. intros X. rewrite X in B. destruct (b_nw g2); [auto|discriminate]. }
  pose proof (bi_log _ _ _ _ _ V2) as LO. split; [|split].
  - intros h2 h1 e b busy EL2. rewrite EL2 in LO. pose proof (log_ok_at _ _ _ LO) as EO. pose proof (log_ok_tail (h2 ++ [EHas e b busy]) h1) as LT.
    rewrite <- app_assoc in LT. specialize (LT LO). cbn [event_ok] in EO. split.
    + intros Hb. apply stored_inserted. apply EO in Hb. destruct busy; cbn [seen] in Hb; [apply visible_stored|]; auto.
    + intros -> I. apply EO. cbn [seen]. apply inserted_stored; auto.
  - intros h2 h1 x l busy EL2. rewrite EL2 in LO. pose proof (log_ok_at _ _ _ LO) as EO. pose proof (log_ok_tail (h2 ++ [ENbr x l busy]) h1) as LT.
    rewrite <- app_assoc in LT. specialize (LT LO). cbn [event_ok] in EO. destruct EO as [EO _]. split.
    + intros y I. apply stored_inserted. apply EO in I. destruct busy; cbn [seen] in I; [apply visible_stored|]; auto.
    + intros -> y I. apply EO. cbn [seen]. apply inserted_stored; auto.
  - intros _ ND. unfold bg_edges. rewrite (bi_nt _ _ _ _ _ V2), stored_exact; auto.
Qed.

(** With deletions, and with a merge in progress: if serialize returns and the merge has not raised max_r, the loaded graph is equal to the
    original (as serialize left it), and every answer it gives later is right (BgDelSpec.answers_ok) under every schedule. *)
Theorem C73_deletions_partial : forall n s g k h d g1 n0 g0, (2 <= n)%N -> Forall (act_rng n) s -> exec wt T K n s = Ok g -> b_m g = MIdle ->
  bg_serialize wt T K k (tdir_empty K) g = Ok (Some (h, d, g1)) -> b_b g1 <> BDead -> b_maxr g1 = b_maxr g -> bg_new wt T K n0 = Ok g0 ->
  exists g', bg_load T K h d g0 (b_log g) = Ok g' /\ bg_eqb K g1 g' = Ok true /\ bg_eqb K g' g1 = Ok true /\ b_m g' = MIdle /\
    bg_edges K g' = bg_edges K g /\ bg_nodes K g' = n /\
    forall s2 g2, Forall (act_rng n) s2 -> run wt T K s2 g' = Ok g2 -> b_b g2 <> BDead ->
      answers_ok (b_log g2) /\ exists h2, b_log g2 = h2 ++ b_log g.
Proof using L.
  intros n s g k h d g1 n0 g0 Hn F E Em ES ND ER EN.
  assert (ER1 : run wt T K (repeat ABack k) g = Ok g1 /\ b_nw g1 = false /\ b_maxr g1 < length (b_ks g1)).
  { unfold bg_serialize in ES. destruct (bg_head K g); [|discriminate]. cbn [obind] in ES. destruct (run wt T K (repeat ABack k) g) as [g2|]; [|discriminate]. cbn [obind] in ES.
    destruct (b_nw g2) eqn:W; [discriminate|]. destruct (Nat.ltb_spec (b_maxr g2) (length (b_ks g2))); [|discriminate]. injection ES as _ _ <-. auto. }
  destruct ER1 as (ER1 & W1 & Lr).
  assert (NDg : b_b g <> BDead) by (eapply alive_run; eauto).
  destruct (exec_J wt T K L n Hn s g F E NDg) as (A0 & B & V).
  pose proof (run_backs_J wt T K L n Hn k g B g1 V ER1 ND) as V1.
  destruct (load_J wt T K L n Hn k (tdir_empty K) g B h d g1 g0 (fun _ => eq_refl) V Em ES ND V1 ER (new_blank _ _ _ _ _ EN))
    as (g' & EL & V' & H1 & H2 & H3 & H4 & H5 & H6 & H7 & H8 & H9 & H10 & sl & I1 & I2).
  destruct (backs_frame wt T K k _ _ ER1) as (F1 & F2 & F3 & F4 & F5).
  exists g'. sp; auto.
  - apply (eqb_same K L n Hn _ _ sl); rewrite ?F3; auto; congruence.
  - apply (eqb_same K L n Hn _ _ sl); rewrite ?F3; auto; congruence.
  - unfold bg_nodes. rewrite H1. apply (j_n _ _ _ _ _ V).
  - intros s2 g2 FS R2 ND2. assert (JI : Jinv K L n g') by (intros _; rewrite H3; eauto).
    destruct (run_J wt T K L n Hn s2 g' g2 JI FS R2 ND2) as [A _]. split; [exact A|].
    rewrite <- H3. clear - R2. revert g' R2. induction s2 as [|a s2 IH]; intros g' R2; cbn [run] in R2; [injection R2 as <-; exists []; auto|].
    destruct (step wt T K a g') as [g3|] eqn:E3; [|discriminate]. cbn [obind] in R2. destruct (IH _ R2) as [h2 X]. 
    assert (Y : exists vs, b_log g3 = vs ++ b_log g').
    { destruct a as [c| |]; [apply (grows_step wt T K (ACall c) g' g3 ltac:(discriminate) E3)|apply (grows_step wt T K AMain g' g3 ltac:(discriminate) E3)|].
      exists []. cbn [step] in E3. destruct (back_frame_d _ _ _ _ E3) as (_ & _ & Z). exact Z. }
    destruct Y as [vs Y]. exists (h2 ++ vs). rewrite X, Y, app_assoc. reflexivity.
Qed.
End Main.

(** ** Counterexamples, for every k2-tree and the real thresholds *)
(** C73: two insertions on 8 vertices; the second starts a merge; serialize is called before the merging thread has chosen a level (its next
    step there writes max_r, which serialize reads: a data race too).  The archive says max_r = 0, the tree goes to level 1 and is
    written to 1.kt, load reads 0.kt only: the loaded graph has lost both edges, though it says it has two. *)
Theorem C73_refuted : forall T K, th_real T -> Forall (act_in 8) (w30 ++ [ABack; ABack; ABack]) /\
  exists g t h d g1 g0 g' g2, exec false T K 8 (w30 ++ [ABack; ABack; ABack]) = Ok g /\ b_m g = MIdle /\ b_b g = BLevel t /\
    bg_serialize false T K 12 (tdir_empty K) g = Ok (Some (h, d, g1)) /\ bg_new false T K 8 = Ok g0 /\
    bg_load T K h d g0 (b_log g) = Ok g' /\ bg_edges K g' = 2%N /\
    run false T K (ask (0, 1)%N ++ ask (0, 2)%N) g' = Ok g2 /\
    b_log g2 = [EHas (0, 2)%N false false; EHas (0, 1)%N false false; EIns (0, 2)%N Flushed; EIns (0, 1)%N Buffered].
Proof.
  intros T K HT. split; [repeat constructor|]. rewrite <- (tabled_eq T HT). do 8 eexists. split; [vm_compute; reflexivity|].
  split; [reflexivity|]. split; [reflexivity|]. split; [vm_compute; reflexivity|]. split; [vm_compute; reflexivity|].
  split; [vm_compute; reflexivity|]. split; [reflexivity|]. split; [vm_compute; reflexivity|]. reflexivity.
Qed.
(** ... and after the deletion of an edge of the buffer serialize is undefined (it writes indeterminate coordinates). *)
Theorem C73_deleted_refuted : forall T K k d, th_real T ->
  let s := ins (0, 1)%N ++ del (0, 1)%N in Forall (act_rng 8) s /\
  exists g, exec false T K 8 s = Ok g /\ b_m g = MIdle /\ b_nw g = false /\ bg_serialize false T K k d g = UB.
Proof.
  intros T K k d HT s. unfold s. split; [repeat constructor|]. rewrite <- (tabled_eq T HT). eexists. split; [vm_compute; reflexivity|].
  split; [reflexivity|]. split; [reflexivity|]. reflexivity.
Qed.

(** ** C74: a graph loaded into a default-constructed object *)
(** The default constructor starts no merging thread: no ABack.  If the memory of needs_work happens to hold false, the loaded graph is equal
    to the saved one and every answer it gives outside a merge is right; but its first merge never ends. *)
Definition no_back (s : list act) : Prop := ~ In ABack s.
Theorem C74_default_partial : forall T K (L : k2laws K) n s g k h d g1, (2 <= n)%N -> Forall (act_rng n) s -> exec false T K n s = Ok g -> b_m g = MIdle ->
  b_nw g = false -> bg_serialize false T K k (tdir_empty K) g = Ok (Some (h, d, g1)) -> b_b g1 <> BDead ->
  exists g', bg_load T K h d (bg_default K false) (b_log g) = Ok g' /\ b_m g' = MIdle /\ bg_edges K g' = bg_edges K g /\ bg_nodes K g' = n /\
    forall s2 g2, Forall (act_rng n) s2 -> no_back s2 -> run false T K s2 g' = Ok g2 -> answers_ok (b_log g2).
Proof.
  intros T K L n s g k h d g1 Hn F E Em W ES ND.
  assert (ER1 : run false T K (repeat ABack k) g = Ok g1).
  { unfold bg_serialize in ES. destruct (bg_head K g); [|discriminate]. cbn [obind] in ES. destruct (run false T K (repeat ABack k) g) as [g2|]; [|discriminate]. cbn [obind] in ES.
    destruct (b_nw g2); [discriminate|]. destruct (b_maxr g2 <? length (b_ks g2)); [|discriminate]. injection ES as _ _ <-. auto. }
  assert (NDg : b_b g <> BDead) by (eapply alive_run; eauto).
  destruct (exec_J false T K L n Hn s g F E NDg) as (A0 & B & V).
  pose proof (J_qcore _ _ _ _ _ V) as C. rewrite Em in C. specialize (C Logic.I eq_refl).
  pose proof (co_b _ _ _ _ _ _ _ _ _ _ _ _ _ _ _ _ C) as P. rewrite W in P. cbn in P.
  rewrite (backs_quiet false T K k g P W) in ER1. injection ER1 as <-.
  destruct (load_J false T K L n Hn k (tdir_empty K) g B h d g (bg_default K false) (fun _ => eq_refl) V Em ES ND V eq_refl (default_blank K))
    as (g' & EL & V' & H1 & H2 & H3 & H4 & H5 & H6 & H7 & H8 & H9 & H10 & _).
  exists g'. sp; auto; [unfold bg_nodes; rewrite H1; apply (j_n _ _ _ _ _ V)|].
  intros s2 g2 FS NB R2. assert (JI : Jinv K L n g') by (intros _; rewrite H3; eauto).
  apply (run_J false T K L n Hn s2 g' g2 JI FS R2).
  assert (X : forall s g g', no_back s -> run false T K s g = Ok g' -> b_b g' = b_b g).
  { clear. induction s as [|a s IH]; intros g g' NB R; cbn [run] in R; [injection R as <-; auto|].
    destruct (step false T K a g) as [g3|] eqn:E3; [|discriminate]. cbn [obind] in R. rewrite (IH g3 g'); auto; [|intros X; apply NB; right; auto].
    assert (NE : a <> ABack) by (intros ->; apply NB; left; auto). apply (grows_step false T K a g g3 NE E3). }
  rewrite (X _ _ _ NB R2), H9. discriminate.
Qed.
(** If it holds true, the loaded graph has lost its trees at once. *)
Definition w74 : list act := w30 ++ repeat ABack 15.
Theorem C74_true_refuted : forall T K, th_real T -> Forall (act_in 8) w74 /\
  exists g h d g' g2, exec false T K 8 w74 = Ok g /\ b_m g = MIdle /\ b_nw g = false /\ bg_serialize false T K 0 (tdir_empty K) g = Ok (Some (h, d, g)) /\
    bg_load T K h d (bg_default K true) (b_log g) = Ok g' /\ run false T K (ask (0, 1)%N) g' = Ok g2 /\
    b_log g2 = [EHas (0, 1)%N false true; EIns (0, 2)%N Flushed; EIns (0, 1)%N Buffered].
Proof.
  intros T K HT. split; [repeat constructor|]. rewrite <- (tabled_eq T HT). do 5 eexists. split; [vm_compute; reflexivity|].
  split; [reflexivity|]. split; [reflexivity|]. split; [vm_compute; reflexivity|]. split; [vm_compute; reflexivity|].
  split; [vm_compute; reflexivity|]. reflexivity.
Qed.
(** If it holds false: load an empty graph, insert (0,1) and (0,2): now (0,1) has disappeared, and del_edge(0,1) never returns, however long the caller's
    thread runs. *)
Theorem C74_false_refuted : forall T K, th_real T ->
  exists g h d g' g2 g3, exec false T K 8 [] = Ok g /\ bg_serialize false T K 0 (tdir_empty K) g = Ok (Some (h, d, g)) /\
    bg_load T K h d (bg_default K false) (b_log g) = Ok g' /\ run false T K (w30 ++ ask (0, 1)%N) g' = Ok g2 /\
    b_log g2 = [EHas (0, 1)%N false true; EIns (0, 2)%N Flushed; EIns (0, 1)%N Buffered] /\
    run false T K [ACall (CDel (0, 1)%N)] g2 = Ok g3 /\ b_m g3 <> MIdle /\ forall k, run false T K (repeat AMain k) g3 = Ok g3.
Proof.
  intros T K HT. rewrite <- (tabled_eq T HT). do 6 eexists. split; [vm_compute; reflexivity|].
  split; [vm_compute; reflexivity|]. split; [vm_compute; reflexivity|]. split; [vm_compute; reflexivity|]. split; [reflexivity|].
  split; [vm_compute; reflexivity|]. split; [discriminate|]. induction k as [|k IH]; [reflexivity|]. cbn [repeat run step]. exact IH.
Qed.

(** ** The hypotheses are met *)
Example C73_example : Forall (act_in 8) w74 /\ exists g h d g0 g', exec false th_exact K2Ref 8 w74 = Ok g /\ b_m g = MIdle /\ b_nw g = false /\
  bg_new false th_exact K2Ref 8 = Ok g0 /\ bg_serialize false th_exact K2Ref 3 (tdir_empty K2Ref) g = Ok (Some (h, d, g)) /\
  bg_load th_exact K2Ref h d g0 (b_log g) = Ok g' /\ d 1 = Some (kt_build K2Ref [(0, 1); (0, 2)]%N 8).
Proof.
  split; [repeat constructor|]. rewrite <- (tabled_eq th_exact th_real_inhabited). do 5 eexists. split; [vm_compute; reflexivity|].
  split; [reflexivity|]. split; [reflexivity|]. split; [vm_compute; reflexivity|]. split; [vm_compute; reflexivity|]. split; [vm_compute; reflexivity|]. reflexivity.
Qed.
(** a merge in progress that does not raise max_r, after a deletion *)
Definition w73 : list act :=
  w74 ++ del (0, 2)%N ++ ins (1, 1)%N ++ repeat ABack 15 ++ flat_map ins [(1, 2); (1, 3); (1, 4)]%N ++ repeat ABack 15 ++ flat_map ins [(2, 1); (2, 2); (2, 3)]%N.
Example C73_example_deletions : Forall (act_rng 8) w73 /\ exists g h d g1, exec false th_exact K2Ref 8 w73 = Ok g /\ b_m g = MIdle /\ b_nw g = true /\
  bg_serialize false th_exact K2Ref 15 (tdir_empty K2Ref) g = Ok (Some (h, d, g1)) /\ b_b g1 = BPoll /\ b_maxr g1 = b_maxr g.
Proof.
  split; [repeat constructor|]. rewrite <- (tabled_eq th_exact th_real_inhabited). do 4 eexists. split; [vm_compute; reflexivity|].
  split; [reflexivity|]. split; [reflexivity|]. split; [vm_compute; reflexivity|]. split; reflexivity.
Qed.
