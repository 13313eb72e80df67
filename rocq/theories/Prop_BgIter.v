(** * C81: iterating over a background graph while its merging thread is at work.

    [wt = false]: DKtree_background; [wt = true]: DKtree_background_wait.  g is any state reached by calls of add_edge, contains and
    list_neighbour under any schedule, between two calls ([b_m g = MIdle]).  The calling thread then calls edge_begin(), or runs a loop from
    neighbour_begin(x) to neighbour_end(), while the merging thread takes steps: [xrun T K s g p] for a schedule s. *)
From Verif Require Import Base Spec AlgoSpec Thresholds Table K2 C0 C0Proof DK DKProof DKHist Prop_DK Iter IterProof Prop_Iter Algo AlgoProof TriProof Prop_Algo ViewProof Delay MunroProof BgSpec Bg BgProof BgTime Prop_Bg BgView Prop_BgView BgIter.

Section Main.
Context (wt : bool) (T : thresholds) (K : k2impl) (L : k2laws K) (HT : th_top T).

Lemma caller_copies s : forall (g : bg K) acc, b_nw g = false -> b_b g = BPoll -> length (b_ks g) - length acc < count_occ Bool.bool_dec s true ->
  exists l, xrun T K s g (XCopy acc) = Ok (g, XGot l).
Proof.
  induction s as [|[|] s IH]; intros g acc W B C; cbn [count_occ] in C; [lia| |].
  - destruct (Bool.bool_dec true true) as [_|]; [|congruence]. cbn [xrun xmain]. destruct (nth_error (b_ks g) (length acc)) as [o|] eqn:E; cbn [obind].
    + assert (G : length acc < length (b_ks g)) by (apply nth_error_Some; congruence). apply IH; auto. rewrite app_length. cbn [length]. lia.
    + exists acc. assert (G : forall s, xrun T K s g (XGot acc) = Ok (g, XGot acc)); [|apply G].
      clear - B W. intros s. induction s as [|[|] s IH]; cbn [xrun]; [reflexivity|exact IH|]. rewrite (idle_back T K g W B). exact IH.
  - destruct (Bool.bool_dec false true) as [|_]; [congruence|]. cbn [xrun]. rewrite (idle_back T K g W B). cbn [obind xback]. apply IH; auto.
Qed.

(** C81, what holds: if no merge is in progress when edge_begin() is called, no schedule leads to a race; after nine steps of the calling
    thread the iterator exists, and its loop visits exactly the inserted edges. *)
Theorem C81_edges_partial : forall n s g, (2 <= n < 2 ^ 31)%N -> Forall (act_in n) s -> exec wt T K n s = Ok g ->
  b_m g = MIdle -> b_nw g = false -> ~ In (9999999, 9999999)%N (inserted (b_log g)) ->
  forall xs, exists p, xrun T K xs g (edge_begin_bg K) = Ok (g, p) /\ ~ xrace K g p /\
    (9 <= count_occ Bool.bool_dec xs true -> exists l, p = XGot l) /\
    (forall l, p = XGot l -> searches K (xsnap K g l) n (fun x y => In (x, y) (inserted (b_log g)))).
Proof using L HT.
  intros n s g Hn F E Em W M xs. pose proof (C76_idle_partial wt T K L HT n s g Hn F E Em W M) as X.
  destruct (exec_ok wt T K L n ltac:(lia) HT s F) as (g0 & E0 & V). rewrite E in E0. injection E0 as <-.
  pose proof (bi_st _ _ _ _ _ V) as S. pose proof (st_b _ _ _ _ _ _ _ _ _ _ _ S) as B. unfold bfact in B. rewrite W in B.
  destruct (st_ok _ _ _ _ _ _ _ _ _ _ _ S) as [S1 _].
  destruct (xrun_idle T K xs g 0%N [] (edge_begin_bg K) W B) as (p & R & O).
  { rewrite S1. apply (st_maxr _ _ _ _ _ _ _ _ _ _ _ S). } { exact (st_above _ _ _ _ _ _ _ _ _ _ _ S). } { exact I. } { reflexivity. }
  exists p. split; [exact R|]. split; [apply quiet_no_race; auto|]. split.
  - intros C. destruct (caller_copies xs g [] W B) as [l G]; [rewrite S1; cbn; unfold RS in *; lia|]. unfold edge_begin_bg in R. rewrite R in G. injection G as ->. eauto.
  - intros l ->. cbn [xok] in O. subst l. exact X.
Qed.

(** ... and the loop over the neighbours of x sees exactly the neighbours, each once if no edge was inserted twice. *)
Theorem C81_neighbours_partial : forall n s g x, (2 <= n)%N -> Forall (act_in n) s -> exec wt T K n s = Ok g ->
  b_m g = MIdle -> b_nw g = false -> (x < n)%N ->
  exists p0, neigh_begin_bg K g x = Ok p0 /\
  forall xs, exists p, xrun T K xs g p0 = Ok (g, p) /\ ~ xrace K g p /\
    (forall out, p = XEnd out -> (forall y, In y out <-> In (x, y) (inserted (b_log g))) /\ (NoDup (inserted (b_log g)) -> NoDup out)).
Proof using L HT.
  intros n s g x Hn F E Em W Hx.
  destruct (exec_ok wt T K L n ltac:(lia) HT s F) as (g0 & E0 & V). rewrite E in E0. injection E0 as <-.
  pose proof (bi_st _ _ _ _ _ V) as S. pose proof (st_b _ _ _ _ _ _ _ _ _ _ _ S) as B. unfold bfact in B. rewrite W in B.
  destruct (st_ok _ _ _ _ _ _ _ _ _ _ _ S) as [S1 S2]. pose proof (st_maxr _ _ _ _ _ _ _ _ _ _ _ S) as Mr. pose proof (st_above _ _ _ _ _ _ _ _ _ _ _ S) as Ab.
  unfold neigh_begin_bg. rewrite (inv_neigh _ _ _ (bi_c0 _ _ _ _ _ V)), live_lv. cbn [obind]. eexists. split; [reflexivity|]. intros xs.
  destruct (xrun_idle T K xs g x (rev (succs x (rev (recent (b_log g))))) (XLev x (rev (succs x (rev (recent (b_log g))))) 0) W B) as (p & R & O); auto.
  { rewrite S1. exact Mr. } { lia. } { split; auto. cbn [firstn nbrs flat_map]. rewrite app_nil_r. reflexivity. }
  exists p. split; [exact R|]. split; [apply quiet_no_race; auto|]. intros out ->. cbn [xok] in O.
  rewrite (nbrs_firstn K n Hn x _ _ _ Ab (Nat.lt_succ_diag_r _)) in O. subst out.
  assert (Wk : ks_wf K L n (b_ks g)) by (apply ks_ok_wf; split; auto). split.
  - intros y. rewrite in_app_iff, (nbrs_In K L n x _ y Wk Hx).
    rewrite <- (snap_idle T K L n g (x, y) V Em W), snap_all, in_app_iff. rewrite <- in_rev, In_succs. reflexivity.
  - intros ND. pose proof (snap_nodup T K L n Hn g V Em W ND) as N1. rewrite snap_all in N1. apply nodup_app_inv in N1. destruct N1 as (N1 & N2 & N3).
    apply NoDup_app. split; [|split].
    + apply NoDup_rev. apply NoDup_succs. exact N1.
    + apply (nbrs_nodup K L n); auto.
    + intros y H1 H2. apply in_rev in H1. apply In_succs in H1. apply (nbrs_In K L n x _ y Wk Hx) in H2. exact (N3 _ H1 H2).
Qed.

(** C81, the exact condition: a schedule that leads to a data race exists if and only if a merge is in progress whose tree is not yet
    stored; for edge_begin() and for the neighbour loop alike. *)
Theorem C81_race_exact : forall n s g x p0, (2 <= n)%N -> Forall (act_in n) s -> exec wt T K n s = Ok g -> b_m g = MIdle ->
  p0 = edge_begin_bg K \/ neigh_begin_bg K g x = Ok p0 ->
  (exists xs g' p, xrun T K xs g p0 = Ok (g', p) /\ xrace K g' p) <-> (b_nw g = true /\ b_b g <> BDone).
Proof using L HT.
  intros n s g x p0 Hn F E Em P0.
  destruct (exec_ok wt T K L n ltac:(lia) HT s F) as (g0 & E0 & V). rewrite E in E0. injection E0 as <-.
  pose proof (bi_st _ _ _ _ _ V) as S. pose proof (st_b _ _ _ _ _ _ _ _ _ _ _ S) as B. unfold bfact in B. split.
  - intros (xs & g' & p & R & X). destruct (b_nw g) eqn:W.
    + split; auto. intros D. revert X. apply quiet_no_race. eapply (quiet_run T K xs g p0 g' p); eauto.
    + exfalso. revert X. apply quiet_no_race. eapply (quiet_run T K xs g p0 g' p); eauto.
  - intros [W D]. destruct (to_write T K L n Hn HT _ g V W D (le_n _)) as (j & g' & X & A).
    assert (Q : (forall h, xback K h p0 = p0) /\ In LKs (xacc K p0)).
    { destruct P0 as [->|P0]; [split; [reflexivity|cbn; auto]|]. unfold neigh_begin_bg in P0. destruct (c0_neigh (b_c0 g) x); cbn [obind] in P0; [|discriminate].
      injection P0 as <-. split; [reflexivity|cbn; auto]. }
    destruct Q as [Q1 Q2]. exists (repeat false j), g', p0. split; [apply X; auto|]. exists LKs. auto.
Qed.
End Main.

(** C81 is false of the code in general: on 8 vertices, (0,1) and (0,2) are merged into a tree, then (0,3) and (0,4) are inserted and a merge
    that will absorb that tree is pending. *)
Definition w81 : list act := w30 ++ ACall (CIns (0, 3)%N) :: repeat AMain 24 ++ ACall (CIns (0, 4)%N) :: [AMain; AMain] ++ repeat ABack 15 ++ repeat AMain 24.
Definition t81 (K : k2impl) := kt_build K [(0, 1); (0, 2)]%N 8.
Lemma t81_facts K (L : k2laws K) : wf L 8 (t81 K) /\ kt_total K (t81 K) = 2%N /\ kt_neigh K (t81 K) 0 <> [] /\ forall e, In e (kt_edges K (t81 K)) <-> In e [(0, 1); (0, 2)]%N.
Proof.
  destruct (law_build L 8 [(0, 1); (0, 2)]%N) as [A [B C]]; [lia|discriminate| |repeat constructor|].
  { constructor; [cbn; intuition congruence|]. repeat constructor. auto. }
  split; [exact A|]. split; [|split]; [| |exact C].
  - rewrite (law_total L 8); auto. unfold t81 at 2. rewrite B. pose proof (law_edges_nodup L 8 _ A) as D. fold (t81 K) in C, D.
    assert (P : Permutation (kt_edges K (t81 K)) [(0, 1); (0, 2)]%N).
    { apply NoDup_Permutation; auto. constructor; [cbn; intuition congruence|]. repeat constructor. auto. }
    rewrite (Permutation_length P). reflexivity.
  - intros G. assert (I : In 1%N (kt_neigh K (t81 K) 0)) by (apply (law_neigh L 8); auto; [lia|]; apply C; left; auto). rewrite G in I. destruct I.
Qed.


(** (i) The neighbour loop is inside the tree when the merging thread resets it: the next step uses an object that is gone. *)
Theorem C81_dangling_refuted : forall T K (L : k2laws K), th_real T ->
  exists g p0 xs, Forall (act_in 8) w81 /\ exec false T K 8 w81 = Ok g /\ b_m g = MIdle /\ neigh_begin_bg K g 0 = Ok p0 /\ xrun T K xs g p0 = UB.
Proof.
  intros T K L HT. destruct (t81_facts K L) as (A & Tot & Nn & C). unfold t81 in *. clear A C L. destruct K as [? ? ? ? ? ? ? ? ? ? ? ? ? ?]. cbn [K2.kt_total K2.kt_neigh K2.kt_build K2.kt] in *.
  destruct (kt_neigh (kt_build [(0, 1); (0, 2)]%N 8%N) 0%N) as [|y r] eqn:En; [congruence|].
  rewrite <- (tabled_eq T HT). do 2 eexists. exists [false; false; false; false; false; true; true; false; true].
  split; [repeat constructor|]. split; [vm_compute; reflexivity|]. split; [reflexivity|]. split; [vm_compute; reflexivity|].
  lazy. rewrite Tot. lazy. rewrite En. reflexivity.
Qed.

(** (ii) edge_begin() copies the level before the merge and the merged level after it: the loop visits an edge twice although no edge was
    inserted twice. *)
Definition u81 (K : k2impl) := kt_union K (kt_build K [(0, 3); (0, 4)]%N 8) (t81 K).
Definition l81 (K : k2impl) : list (option (kt K)) := [None; Some (t81 K); None; Some (u81 K); None; None; None; None].
Definition s81 : list bool := [true; true] ++ repeat false 10 ++ repeat true 7.
Lemma xrun_app T K a b : forall (g : bg K) p, xrun T K (a ++ b) g p = let* r := xrun T K a g p in xrun T K b (fst r) (snd r).
Proof.
  induction a as [|[|] a IH]; intros g p; cbn [app xrun obind fst snd]; [reflexivity| |].
  - destruct (xmain K g p); cbn [obind]; auto.
  - destruct (back_step T K g); cbn [obind]; auto.
Qed.
Lemma torn T K (L : k2laws K) : th_real T -> exists g g', exec false T K 8 w81 = Ok g /\ b_m g = MIdle /\ recent (b_log g) = [] /\
  inserted (b_log g) = [(0, 4); (0, 3); (0, 2); (0, 1)]%N /\ xrun T K s81 g (edge_begin_bg K) = Ok (g', XGot (l81 K)).
Proof.
  intros HT. destruct (t81_facts K L) as (A & Tot & Nn & C). unfold l81, u81, t81 in *. clear A C Nn L. destruct K as [? ? ? ? ? ? ? ? ? ? ? ? ? ?].
  cbn [K2.kt_total K2.kt_neigh K2.kt_build K2.kt] in *.
  rewrite <- (tabled_eq T HT). do 2 eexists. split; [vm_compute; reflexivity|]. split; [reflexivity|]. split; [reflexivity|]. split; [reflexivity|].
  change s81 with ([true; true; false; false; false] ++ [false] ++ repeat false 6 ++ repeat true 7). rewrite xrun_app.
  match goal with |- obind ?X _ = _ => eassert (Y : X = Ok _) by (lazy; reflexivity); rewrite Y; clear Y; cbn [obind fst snd] end. rewrite (xrun_app _ _ [false]).
  match goal with |- obind ?X _ = _ => eassert (Y : X = Ok _) by (lazy; rewrite Tot; lazy; reflexivity); rewrite Y; clear Y; cbn [obind fst snd] end.
  lazy. reflexivity.
Qed.
Theorem C81_torn_refuted : forall T K (L : k2laws K), th_real T ->
  exists g xs g' l es, Forall (act_in 8) w81 /\ exec false T K 8 w81 = Ok g /\ b_m g = MIdle /\ NoDup (inserted (b_log g)) /\
    xrun T K xs g (edge_begin_bg K) = Ok (g', XGot l) /\ ewalk K (xsnap K g l) es /\ ~ NoDup es.
Proof.
  intros T K L HT. destruct (torn T K L HT) as (g & g' & E & Em & Rc & Ins & X). destruct (t81_facts K L) as (A & _ & _ & C).
  destruct (law_build L 8 [(0, 3); (0, 4)]%N) as [A2 [_ C2]]; [lia|discriminate| |repeat constructor|].
  { constructor; [cbn; intuition congruence|]. repeat constructor. auto. }
  destruct (law_union L 8 _ _ A2 A) as [_ [C3 _]]. fold (u81 K) in C3.
  assert (F : Forall (act_in 8) w81) by (repeat constructor).
  destruct (exec_full false T K L 8 ltac:(lia) (th_real_top T HT) w81 F) as (g0 & E0 & V & Fu). rewrite E in E0. injection E0 as <-.
  assert (H : holds K L 8 (snap g) (lv (rev (recent (b_log g))))) by (apply (inv_holds T); auto). rewrite Rc in H. cbn [rev] in H.
  assert (I1 : In (0, 1)%N (kt_edges K (t81 K))) by (apply C; left; auto).
  assert (I2 : In (0, 1)%N (kt_edges K (u81 K))) by (apply C3; auto).
  exists g, s81, g', (l81 K), (kt_edges K (t81 K) ++ kt_edges K (u81 K)).
  split; [exact F|]. split; [exact E|]. split; [exact Em|]. split; [rewrite Ins; repeat constructor; cbn; intuition congruence|]. split; [exact X|]. split.
  - destruct (edge_loop_raw K (xsnap K g (l81 K)) (lv []) 0) as [it [E1 Hl]]; cbn [xsnap nv ks C0_]; auto.
    { pose proof (hl_nv _ _ _ _ _ H) as N. cbn in N. rewrite N. discriminate. } { exact (hl_c0 _ _ _ _ _ H). }
    { intros t G Z. cbn in G. destruct G as [G|[G|[G|[G|[G|[G|[G|[G|[]]]]]]]]]; try discriminate; injection G as <-; rewrite Z in *; [destruct I1|destruct I2]. }
    exists it. split; [exact E1|]. rewrite (seen_live K), before_max_id in Hl; auto.
    + unfold dk_all in Hl. cbn in Hl. unfold ks_edges in Hl. cbn in Hl. rewrite ?app_nil_r in Hl. exact Hl.
    + intros M. unfold dk_all in M. cbn in M. unfold ks_edges in M. cbn in M. rewrite ?app_nil_r, in_app_iff, C3, C, C2 in M. cbn in M. unfold MAXE in M. intuition congruence.
    + constructor.
  - intros D. apply nodup_app_inv in D. destruct D as (_ & _ & D). exact (D _ I1 I2).
Qed.

Example C81_example : Forall (act_in 8) x76 /\ exists g p, exec false th_exact K2Ref 8 x76 = Ok g /\ b_m g = MIdle /\ b_nw g = false /\ inserted (b_log g) <> [] /\
  neigh_begin_bg K2Ref g 0 = Ok p /\ xrun th_exact K2Ref [true; false; true; true; false; true; true; true; true; true] g p = Ok (g, XEnd [1; 2]%N).
Proof.
  split; [repeat constructor|]. rewrite <- (tabled_eq th_exact th_real_inhabited). do 2 eexists. split; [vm_compute; reflexivity|].
  split; [reflexivity|]. split; [reflexivity|]. split; [discriminate|]. split; vm_compute; reflexivity.
Qed.
Example C81_race_example : exists g, exec false th_exact K2Ref 8 w81 = Ok g /\ b_m g = MIdle /\ b_nw g = true /\ b_b g <> BDone.
Proof. rewrite <- (tabled_eq th_exact th_real_inhabited). eexists. split; [vm_compute; reflexivity|]. split; [reflexivity|]. split; [reflexivity|discriminate]. Qed.
