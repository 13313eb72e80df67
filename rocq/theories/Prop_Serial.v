(** * Property theorems about serialize and load (C21, C22, C23, C52, C53). *)
From Verif Require Import Base Spec Thresholds Table K2 C0 C0Proof C0Hist DK DKProof DKHist DKGuard DKTotal DKBisim Prop_DK Serial.

(** Two graphs on n vertices that no query tells apart. *)
Definition same_answers (K : k2impl) (n : N) (g g' : dk K) : Prop :=
  (forall x y, in_range n (x, y) -> dk_contains K g' x y = dk_contains K g x y) /\
  (forall x, (x < n)%N -> dk_neigh K g' x = dk_neigh K g x) /\
  dk_edges K g' = dk_edges K g /\ dk_nodes K g' = dk_nodes K g.

(** A target of load that holds no tree (default-constructed, or with all its edges in the buffer). *)
Definition no_trees {K} (g0 : dk K) : Prop := ks g0 = repeat None RS.

Lemma same_of K L n g sl g' sl' : dk_inv K L n g sl -> c0_inv (C0_ g') sl' -> live_edges sl' = live_edges sl ->
  ks g' = ks g -> max_r g' = max_r g -> nt g' = nt g -> nv g' = nv g -> same_answers K n g g'.
Proof.
  intros I H1 H0 H2 H3 H4 H5. pose proof (dv_c0 _ _ _ _ _ I) as Ic. unfold same_answers. sp.
  - intros x y Hr. unfold dk_contains. rewrite (inv_contains _ _ _ H1), (inv_contains _ _ _ Ic), H0, H2. reflexivity.
  - intros x Hx. unfold dk_neigh. rewrite (inv_neigh _ _ _ H1), (inv_neigh _ _ _ Ic), H0, H2, H3. reflexivity.
  - exact H4.
  - exact H5.
Qed.

Lemma all_live_dead sl : DKProof.all_live sl -> dead_count sl = 0.
Proof. unfold dead_count. induction 1 as [|[e b] sl H F IH]; cbn in *; [reflexivity|]. subst. cbn. exact IH. Qed.

(** The state a loaded insert-only graph is in allows the run to go on as if nothing had happened. *)
Lemma relI_reload T K L n g sl S d g0 : (2 <= n)%N -> relI K L n g sl S -> no_stale K g d g0 ->
  exists ws g', dk_serialize K g = Ok ws /\ dk_load T K (writes K d ws) g0 = Done g' /\
    same_answers K n g g' /\ dk_eqb K g g' = Ok true /\ dk_eqb K g' g = Ok true /\ relI K L n g' sl S.
Proof.
  intros Hn R HS. pose proof (ri_inv _ _ _ _ _ _ R) as I.
  destruct (serial_core T K L n g sl d g0 I (all_live_dead _ (ri_live _ _ _ _ _ _ R)) HS)
    as [ws [g' [E1 [E2 [H1 [H2 [H3 [H4 [H5 [H6 H7]]]]]]]]]].
  pose proof (ks_sub_inv K L n g sl g' I H2 H1 H4 H5 H7) as I'.
  rewrite (cut_below K g (dv_len _ _ _ _ _ I) (dv_maxr _ _ _ _ _ I) (ri_below _ _ _ _ _ _ R)) in H4.
  exists ws, g'. sp; auto.
  - apply (same_of K L n g sl g' sl); auto.
  - apply (dk_eqb_same K L n g g' sl); auto.
  - apply (dk_eqb_same K L n g' g sl); auto. apply (dv_c0 _ _ _ _ _ I).
  - destruct R. constructor; auto.
    + intros e. rewrite <- ri_set. unfold dk_all. rewrite H4. reflexivity.
    + rewrite H4. auto.
    + unfold ks_below. rewrite H4, H1. exact ri_below.
    + unfold dk_all in *. rewrite H3, H4. auto.
Qed.

(** Running a history on the reference tree tells how it goes on any other. *)
Lemma wit T K (L : k2laws K) (Hq : adjf_is_query L) n h hr : (2 <= n)%N -> dk_hist T K2Ref n h = Done hr -> Forall (op_in_range n) h ->
  exists g, dk_hist T K n h = Done g /\ gsim n K L K2Ref K2Ref_laws g hr.
Proof.
  intros Hn E HF. pose proof (transfer T K L n h Hq Hn HF) as HS. rewrite E in HS.
  destruct (dk_hist T K n h) as [g| |]; try tauto. exists g. auto.
Qed.
Lemma ser_ex K (L : k2laws K) n g h v : gsim n K L K2Ref K2Ref_laws g h -> dk_serialize K2Ref h = Ok v ->
  exists w, dk_serialize K g = Ok w /\ wsim n K L K2Ref K2Ref_laws w v.
Proof.
  intros G E. pose proof (sim_serialize n K L K2Ref K2Ref_laws g h G) as HS. rewrite E in HS.
  destruct (dk_serialize K g) as [w|]; [eauto|tauto].
Qed.
Lemma load_ex T K (L : k2laws K) n a b g h h' : dsim n K L K2Ref K2Ref_laws a b -> gsim n K L K2Ref K2Ref_laws g h ->
  dk_load T K2Ref b h = Done h' -> exists g', dk_load T K a g = Done g' /\ gsim n K L K2Ref K2Ref_laws g' h'.
Proof.
  intros D G E. pose proof (sim_load T n K L K2Ref K2Ref_laws a b g h D G) as HS. rewrite E in HS.
  destruct (dk_load T K a g) as [g'| |]; try tauto. eauto.
Qed.
Lemma wsim_crash n K (L : k2laws K) v w k : wsim n K L K2Ref K2Ref_laws v w ->
  wsim n K L K2Ref K2Ref_laws (firstn k (steps K v)) (firstn k (steps K2Ref w)).
Proof.
  intros H. assert (G : wsim n K L K2Ref K2Ref_laws (steps K v) (steps K2Ref w)).
  { induction H as [|[i f] [j g] v w [H1 H2] H IH]; cbn; [constructor|]. cbn in *. subst.
    constructor; [split; [reflexivity|exact I]|]. constructor; [split; auto|]. exact IH. }
  revert k. induction G; intros [|k]; cbn; constructor; auto. apply IHG.
Qed.

(** C21: a graph built by insertions, serialized into an empty directory and loaded into a graph that holds no tree,
    is equal to the original under == (both ways), answers every query alike, and behaves like the original under
    any further insertions. *)
Theorem C21_round_trip : forall T K (L : k2laws K) n es more g0,
  th_top T -> (2 <= n)%N -> Forall (in_range n) es -> Forall (in_range n) more -> no_trees g0 ->
  exists g ws g' g'', dk_hist T K n (map Add es) = Done g /\
    dk_serialize K g = Ok ws /\ dk_load T K (writes K (dir_empty K) ws) g0 = Done g' /\
    dk_eqb K g g' = Ok true /\ dk_eqb K g' g = Ok true /\ same_answers K n g g' /\
    dk_ops T K g' (map Add more) = Done g'' /\
    (forall x y, in_range n (x, y) -> dk_contains K g'' x y = Ok (emem (x, y) (es ++ more))) /\
    dk_edges K g'' = N.of_nat (length (nodup edge_dec (es ++ more))).
Proof.
  intros T K L n es more g0 HT Hn HF HM H0. destruct (hist_insert T K L n Hn es HT HF) as [g [sl [E R]]].
  destruct (relI_reload T K L n g sl _ _ g0 Hn R (no_stale_fresh K g g0 H0)) as [ws [g' [E1 [E2 [H1 [H2 [H3 R']]]]]]].
  destruct (relI_ops T K L n Hn more HT g' sl _ R' HM) as [g'' [sl'' [E3 R'']]].
  exists g, ws, g', g''. sp; auto; try apply H1.
  - intros x y Hr. rewrite (dk_contains_spec K L n g'' sl'' x y (ri_inv _ _ _ _ _ _ R'') Hr). f_equal.
    apply eq_true_iff_eq. rewrite !emem_In, (ri_set _ _ _ _ _ _ R''), <- espec_app, <- map_app. apply espec_adds.
  - unfold dk_edges. rewrite (ri_nt _ _ _ _ _ _ R''). f_equal. apply len_same.
    + apply (dk_all_nodup K L n g'' sl'' (ri_inv _ _ _ _ _ _ R'')).
    + apply NoDup_nodup.
    + intros e. rewrite (ri_set _ _ _ _ _ _ R''), <- espec_app, <- map_app, nodup_In. apply espec_adds.
Qed.

(** ** A reused directory *)
(** C22 (partial): the second graph is restored exactly if the directory was emptied (load with clear = true), if it
    holds the same graph, or, in general, if it has no tree file at a level at or below max_r where the
    second graph has no tree.  Missing: see C22_refuted. *)
Theorem C22_reuse_partial : forall T K (L : k2laws K) n es g d g0,
  th_top T -> (2 <= n)%N -> Forall (in_range n) es -> no_trees g0 -> dk_hist T K n (map Add es) = Done g ->
  (forall i, i <= max_r g -> nth_error (ks g) i = Some None -> d (S i) = None) ->
  exists ws, dk_serialize K g = Ok ws /\
    forall d', d' = d \/ d' = writes K d ws \/ d' = dk_clear K (writes K d ws) ->
      exists g', dk_load T K (writes K d' ws) g0 = Done g' /\ same_answers K n g g'.
Proof.
  intros T K L n es g d g0 HT Hn HF H0 E Hd. destruct (hist_insert T K L n Hn es HT HF) as [g1 [sl [E1 R]]].
  rewrite E in E1. injection E1 as <-.
  assert (G : forall d', (forall i, i <= max_r g -> nth_error (ks g) i = Some None -> d' (S i) = None) ->
    exists ws g', dk_serialize K g = Ok ws /\ dk_load T K (writes K d' ws) g0 = Done g' /\ same_answers K n g g').
  { intros d' Hd'. destruct (no_stale_fresh K g g0 H0) as [A [B C]].
    destruct (relI_reload T K L n g sl _ d' g0 Hn R) as [ws [g' [S1 [S2 [S3 _]]]]]; [|exists ws, g'; auto].
    split; [exact A|split; [|exact C]]. intros i Hi Hi2 Hg. split; [auto|]. apply (B i); auto. }
  destruct (G d Hd) as [ws [g' [S1 [S2 S3]]]]. exists ws. split; auto.
  assert (G2 : forall d', (forall i, i <= max_r g -> nth_error (ks g) i = Some None -> d' (S i) = None) ->
    exists g', dk_load T K (writes K d' ws) g0 = Done g' /\ same_answers K n g g').
  { intros d' Hd'. destruct (G d' Hd') as [ws' [h' [A1 A2]]]. rewrite S1 in A1. injection A1 as <-. eauto. }
  intros d' [->|[->| ->]]; apply G2; auto. intros i Hi Hg.
  unfold dk_serialize in S1. destruct (max_r g <? length (ks g)); [|discriminate].
  destruct (c0_save (C0_ g)) as [im|]; [|discriminate]. cbn [obind] in S1.
  assert (Ew : ws = tree_writes K 0 (firstn (S (max_r g)) (ks g)) ++ [(0, HeadF (max_r g) (nv g) (nt g) im)]) by congruence.
  rewrite Ew, writes_app. cbn [writes fold_left fst snd]. rewrite put_neq by lia. rewrite tree_writes_at.
  destruct (i <? 0); auto. rewrite nth_error_firstn, Nat.sub_0_r, Hg. destruct (i <? S (max_r g)); auto.
Qed.

(** C22 is false of the code: two graphs of 2 and 4 edges on 8 vertices, serialized one after the other to the same
    directory.  Loading gives the second graph plus an edge of the first: the first graph's 2.kt is neither
    overwritten nor removed. *)
Definition s22a := [(0, 1); (0, 2)]%N.
Definition s22b := [(1, 3); (1, 4); (1, 5); (1, 6)]%N.
Theorem C22_refuted : forall T K (L : k2laws K), th_real T -> adjf_is_query L ->
  exists n es1 es2 g1 g2 ws1 ws2 g0 g', dk_hist T K n (map Add es1) = Done g1 /\ dk_hist T K n (map Add es2) = Done g2 /\
    Forall (in_range n) (es1 ++ es2) /\ dk_hist T K n [] = Done g0 /\
    dk_serialize K g1 = Ok ws1 /\ dk_serialize K g2 = Ok ws2 /\
    dk_load T K (writes K (writes K (dir_empty K) ws1) ws2) g0 = Done g' /\
    dk_contains K g2 0 1 = Ok false /\ dk_contains K g' 0 1 = Ok true.
Proof.
  intros T K L HT Hq. exists 8%N, s22a, s22b.
  assert (HW : exists h1 h2 h0 v1 v2 h', dk_hist T K2Ref 8 (map Add s22a) = Done h1 /\ dk_hist T K2Ref 8 (map Add s22b) = Done h2 /\
    dk_hist T K2Ref 8 [] = Done h0 /\ dk_serialize K2Ref h1 = Ok v1 /\ dk_serialize K2Ref h2 = Ok v2 /\
    dk_load T K2Ref (writes K2Ref (writes K2Ref (dir_empty K2Ref) v1) v2) h0 = Done h' /\
    dk_contains K2Ref h2 0 1 = Ok false /\ dk_contains K2Ref h' 0 1 = Ok true).
  { rewrite <- (tabled_eq T HT). do 6 eexists. sp; vm_compute; reflexivity. }
  destruct HW as [h1 [h2 [h0 [v1 [v2 [h' [A1 [A2 [A0 [B1 [B2 [C [D1 D2]]]]]]]]]]]]].
  destruct (wit T K L Hq 8 _ h1 ltac:(lia) A1 ltac:(ranges)) as [g1 [G1 F1]].
  destruct (wit T K L Hq 8 _ h2 ltac:(lia) A2 ltac:(ranges)) as [g2 [G2 F2]].
  destruct (wit T K L Hq 8 _ h0 ltac:(lia) A0 ltac:(ranges)) as [g0 [G0 F0]].
  destruct (ser_ex K L 8 g1 h1 v1 F1 B1) as [w1 [E1 S1]]. destruct (ser_ex K L 8 g2 h2 v2 F2 B2) as [w2 [E2 S2]].
  destruct (load_ex T K L 8 _ _ g0 h0 h' (dsim_writes 8 K L K2Ref K2Ref_laws _ _ S2 _ _
    (dsim_writes 8 K L K2Ref K2Ref_laws _ _ S1 _ _ (dsim_empty 8 K L K2Ref K2Ref_laws))) F0 C) as [g' [EL SL]].
  rewrite <- (sim_contains 8 K L K2Ref K2Ref_laws g2 h2 0 1 F2) in D1 by ranges.
  rewrite <- (sim_contains 8 K L K2Ref K2Ref_laws g' h' 0 1 SL) in D2 by ranges.
  exists g1, g2, w1, w2, g0, g'. sp; auto. ranges.
Qed.

(** ** Crashes *)
(** C23 is false of the code: over a snapshot of one graph (5 edges) the process stops while serializing another
    (4 edges), after the tree file 4.kt is complete and before 0.kt is touched.  load succeeds and returns a graph
    that has an edge the new graph lacks and an edge the old graph lacks. *)
Definition s23a := [(0, 1); (0, 2); (0, 3); (0, 4); (0, 5)]%N.
Theorem C23_refuted : forall T K (L : k2laws K), th_real T -> adjf_is_query L ->
  exists n es1 es2 g1 g2 ws1 ws2 k g0 g', dk_hist T K n (map Add es1) = Done g1 /\ dk_hist T K n (map Add es2) = Done g2 /\
    Forall (in_range n) (es1 ++ es2) /\ dk_hist T K n [] = Done g0 /\
    dk_serialize K g1 = Ok ws1 /\ dk_serialize K g2 = Ok ws2 /\
    dk_load T K (crash K (writes K (dir_empty K) ws1) ws2 k) g0 = Done g' /\
    dk_contains K g' 0 5 = Ok true /\ dk_contains K g2 0 5 = Ok false /\
    dk_contains K g' 1 3 = Ok true /\ dk_contains K g1 1 3 = Ok false.
Proof.
  intros T K L HT Hq. exists 8%N, s23a, s22b.
  assert (HW : exists h1 h2 h0 v1 v2 h', dk_hist T K2Ref 8 (map Add s23a) = Done h1 /\ dk_hist T K2Ref 8 (map Add s22b) = Done h2 /\
    dk_hist T K2Ref 8 [] = Done h0 /\ dk_serialize K2Ref h1 = Ok v1 /\ dk_serialize K2Ref h2 = Ok v2 /\
    dk_load T K2Ref (crash K2Ref (writes K2Ref (dir_empty K2Ref) v1) v2 2) h0 = Done h' /\
    dk_contains K2Ref h' 0 5 = Ok true /\ dk_contains K2Ref h2 0 5 = Ok false /\
    dk_contains K2Ref h' 1 3 = Ok true /\ dk_contains K2Ref h1 1 3 = Ok false).
  { rewrite <- (tabled_eq T HT). do 6 eexists. sp; vm_compute; reflexivity. }
  destruct HW as [h1 [h2 [h0 [v1 [v2 [h' [A1 [A2 [A0 [B1 [B2 [C [D1 [D2 [D3 D4]]]]]]]]]]]]]]].
  destruct (wit T K L Hq 8 _ h1 ltac:(lia) A1 ltac:(ranges)) as [g1 [G1 F1]].
  destruct (wit T K L Hq 8 _ h2 ltac:(lia) A2 ltac:(ranges)) as [g2 [G2 F2]].
  destruct (wit T K L Hq 8 _ h0 ltac:(lia) A0 ltac:(ranges)) as [g0 [G0 F0]].
  destruct (ser_ex K L 8 g1 h1 v1 F1 B1) as [w1 [E1 S1]]. destruct (ser_ex K L 8 g2 h2 v2 F2 B2) as [w2 [E2 S2]].
  destruct (load_ex T K L 8 _ _ g0 h0 h' (dsim_writes 8 K L K2Ref K2Ref_laws _ _ (wsim_crash 8 K L _ _ 2 S2) _ _
    (dsim_writes 8 K L K2Ref K2Ref_laws _ _ S1 _ _ (dsim_empty 8 K L K2Ref K2Ref_laws))) F0 C) as [g' [EL SL]].
  rewrite <- (sim_contains 8 K L K2Ref K2Ref_laws g' h' 0 5 SL) in D1 by ranges.
  rewrite <- (sim_contains 8 K L K2Ref K2Ref_laws g2 h2 0 5 F2) in D2 by ranges.
  rewrite <- (sim_contains 8 K L K2Ref K2Ref_laws g' h' 1 3 SL) in D3 by ranges.
  rewrite <- (sim_contains 8 K L K2Ref K2Ref_laws g1 h1 1 3 F1) in D4 by ranges.
  exists g1, g2, w1, w2, 2, g0, g'. sp; auto. ranges.
Qed.

(** C23 (partial): the first serialize into a directory (no 0.kt, no leftover tree files in the way).  Whatever the
    crash point, load either throws without touching the target, or meets an incomplete 0.kt, or returns the graph
    serialized; the latter happens exactly when serialize had finished.  Missing: see C23_refuted. *)
Theorem C23_first_crash_partial : forall T K (L : k2laws K) n es g ws d g0 k,
  th_top T -> (2 <= n)%N -> Forall (in_range n) es -> no_trees g0 -> dk_hist T K n (map Add es) = Done g ->
  dk_serialize K g = Ok ws -> d 0 = None ->
  (forall i, i <= max_r g -> nth_error (ks g) i = Some None -> d (S i) = None) ->
  match dk_load T K (crash K d ws k) g0 with
  | Thrown g' => g' = g0 /\ k < 2 * length ws
  | Undefined => crash K d ws k 0 = Some Partial /\ k < 2 * length ws
  | Done g' => 2 * length ws <= k /\ same_answers K n g g'
  end.
Proof.
  intros T K L n es g ws d g0 k HT Hn HF H0 E Ews Hd0 Hd.
  assert (Hws : exists ts f, ws = ts ++ [(0, f)] /\ (forall w, In w ts -> fst w <> 0)).
  { unfold dk_serialize in Ews. destruct (max_r g <? length (ks g)); [|discriminate].
    destruct (c0_save (C0_ g)) as [im|]; [|discriminate]. cbn [obind] in Ews.
    eexists _, _. split; [symmetry; match type of Ews with Ok ?a = Ok ?b => assert (a = b) by congruence; eassumption end|].
    assert (G : forall l i w, In w (tree_writes K i l) -> fst w <> 0).
    { induction l as [|[t|] l IH]; intros i w Hw; cbn in Hw; [tauto| |eapply IH; eauto].
      destruct Hw as [<-|Hw]; [discriminate|eapply IH; eauto]. }
    apply G. }
  destruct (Nat.le_gt_cases (2 * length ws) k) as [Hk|Hk].
  - destruct (C22_reuse_partial T K L n es g d g0 HT Hn HF H0 E Hd) as [ws' [E' G]]. rewrite Ews in E'. injection E' as <-.
    destruct (G d (or_introl eq_refl)) as [g' [EL SA]].
    rewrite (load_ext T K (crash K d ws k) (writes K d ws)), EL; [auto|].
    intros i. unfold crash. rewrite firstn_all2 by (rewrite steps_length; lia). apply writes_steps. auto.
  - destruct Hws as [ts [f [-> Hts]]]. rewrite app_length in Hk. cbn [length] in Hk.
    assert (Hno : forall j, crash K d ts j 0 = None).
    { intros j. unfold crash. rewrite writes_other; auto. intros w Hw. apply In_firstn in Hw. apply In_steps in Hw.
      destruct Hw as [w' [Hw1 Hw2]]. rewrite Hw2. apply Hts; auto. }
    assert (Hs : steps K (ts ++ [(0, f)]) = steps K ts ++ [(0, Partial); (0, f)]).
    { unfold steps. rewrite flat_map_app. reflexivity. }
    assert (Hlen : length (steps K ts) = 2 * length ts) by apply steps_length.
    rewrite app_length. cbn [length].
    destruct (Nat.le_gt_cases k (2 * length ts)) as [Hk2|Hk2].
    + assert (Hc : crash K d (ts ++ [(0, f)]) k 0 = None).
      { unfold crash. rewrite Hs, firstn_app. replace (k - length (steps K ts)) with 0 by lia. cbn [firstn]. rewrite app_nil_r. apply Hno. }
      unfold dk_load. rewrite Hc. split; [reflexivity|lia].
    + assert (Hc : crash K d (ts ++ [(0, f)]) k 0 = Some Partial).
      { unfold crash. rewrite Hs, firstn_app. replace (k - length (steps K ts)) with 1 by lia. cbn [firstn].
        rewrite writes_app. cbn [writes fold_left fst snd]. apply put_eq. }
      unfold dk_load. rewrite Hc. split; [reflexivity|lia].
Qed.

(** ** Graphs with deletions *)
(** C52 (partial): for any history.  If serialize is defined, the loaded graph has the same count and the same
    neighbour lists, invents no edge, and contains exactly the edges the neighbour lists show (which may be
    fewer than contains shows on the original, C17_refuted).  It is then exact if the history is calm or benign. *)
Theorem C52_after_deletions_partial : forall T K (L : k2laws K) n h g ws g0,
  (2 <= n)%N -> reached T K n h g -> no_trees g0 -> dk_serialize K g = Ok ws ->
  exists g', dk_load T K (writes K (dir_empty K) ws) g0 = Done g' /\
    dk_edges K g' = dk_edges K g /\
    (forall x, (x < n)%N -> dk_neigh K g' x = dk_neigh K g x) /\
    (forall x y, in_range n (x, y) -> exists b l, dk_contains K g' x y = Ok b /\ dk_neigh K g x = Ok l /\ (b = true <-> In y l)) /\
    (forall x y, in_range n (x, y) -> dk_contains K g' x y = Ok true -> dk_contains K g x y = Ok true) /\
    (th_real T -> adjf_is_query L -> calm h \/ benign T n h -> same_answers K n g g').
Proof.
  intros T K L n h g ws g0 Hn [HF E] H0 Es. destruct (hist_rel T K L n Hn h g HF E) as [sl R].
  pose proof (rl_inv _ _ _ _ _ _ R) as I.
  assert (Hd : dead_count sl = 0).
  { unfold dk_serialize in Es. destruct (max_r g <? length (ks g)); [|discriminate].
    rewrite (inv_save _ _ (dv_c0 _ _ _ _ _ I)) in Es. destruct (Nat.eqb_spec (dead_count sl) 0); [auto|discriminate]. }
  destruct (serial_core T K L n g sl _ g0 I Hd (no_stale_fresh K g g0 H0))
    as [ws' [g' [E1 [E2 [H1 [H2 [H3 [H4 [H5 [H6 H7]]]]]]]]]]. rewrite Es in E1. injection E1 as <-.
  pose proof (ks_sub_inv K L n g sl g' I H2 H1 H4 H5 H7) as I'.
  pose proof (dv_len _ _ _ _ _ I) as Hl. pose proof (dv_maxr _ _ _ _ _ I) as Hm.
  assert (Hf : firstn (S (max_r g)) (cut K g) = firstn (S (max_r g)) (ks g)).
  { apply list_ext. intros i. rewrite !nth_error_firstn. destruct (Nat.ltb_spec i (S (max_r g))) as [Hi|]; auto.
    rewrite cut_nth by auto. destruct (Nat.leb_spec i (max_r g)); [auto|lia]. }
  assert (Hcb : ks_below K g').
  { intros i t Hi. rewrite H4, cut_nth in Hi by auto. rewrite H1. destruct (Nat.leb_spec i (max_r g)); auto. destruct (i <? RS); discriminate. }
  assert (Hne : forall x, (x < n)%N -> dk_neigh K g' x = dk_neigh K g x).
  { intros x Hx. unfold dk_neigh. rewrite (inv_neigh _ _ _ H5), (inv_neigh _ _ _ (dv_c0 _ _ _ _ _ I)). cbn [obind].
    rewrite H1, H4, Hf. rewrite <- H4, (dv_len _ _ _ _ _ I'), Hl. reflexivity. }
  exists g'. split; auto. split; [exact H3|]. split; auto. split; [|split].
  - intros x y Hr. destruct (dk_neigh_spec K L n Hn g' sl x I' (proj1 Hr)) as [l [El [_ [Hs Hc]]]].
    exists (emem (x, y) (dk_all K g' sl)), l. rewrite (dk_contains_spec K L n g' sl x y I' Hr). sp; auto.
    + rewrite <- Hne by apply Hr. exact El.
    + rewrite emem_In. split; auto.
  - intros x y Hr. rewrite (dk_contains_spec K L n g' sl x y I' Hr), (dk_contains_spec K L n g sl x y I Hr).
    intros G. injection G as G. f_equal. apply emem_In. apply emem_In in G. unfold dk_all in *. apply in_app_iff in G. apply in_app_iff.
    destruct G as [G|G]; auto. right. rewrite H4 in G. unfold cut in G.
    rewrite ks_edges_app, ks_edges_none, app_nil_r in G. eapply ks_edges_firstn_sub; eauto.
  - intros HT Hq HB. assert (G : exists sl', relX K L n g sl' (espec h)).
    { destruct HB as [HB|HB]; [apply (hist_calm T HT K L Hq n Hn); auto|].
      destruct (benign_hist T K L n h HT Hq Hn HF HB) as [g1 [sl1 [E' R1]]]. rewrite E in E'. inversion E'; subst. eauto. }
    destruct G as [sl' RX]. rewrite (cut_below K g Hl Hm (rx_below _ _ _ _ _ _ RX)) in H4.
    apply (same_of K L n g sl g' sl); auto.
Qed.

(** C52 is false of the code: after a rebuild above max_r the tree is not written, although the archive records the
    count.  The state of C17_refuted: contains(1,2) before, not after. *)
Theorem C52_refuted : forall T K (L : k2laws K), th_real T -> adjf_is_query L ->
  exists n h g ws g0 g', reached T K n h g /\ dk_hist T K n [] = Done g0 /\ dk_serialize K g = Ok ws /\
    dk_load T K (writes K (dir_empty K) ws) g0 = Done g' /\
    dk_contains K g 1 2 = Ok true /\ dk_contains K g' 1 2 = Ok false.
Proof.
  intros T K L HT Hq. exists 3%N, w17.
  assert (HW : exists h1 h0 v1 h', dk_hist T K2Ref 3 w17 = Done h1 /\ dk_hist T K2Ref 3 [] = Done h0 /\
    dk_serialize K2Ref h1 = Ok v1 /\ dk_load T K2Ref (writes K2Ref (dir_empty K2Ref) v1) h0 = Done h' /\
    dk_contains K2Ref h1 1 2 = Ok true /\ dk_contains K2Ref h' 1 2 = Ok false).
  { rewrite <- (tabled_eq T HT). do 4 eexists. sp; vm_compute; reflexivity. }
  destruct HW as [h1 [h0 [v1 [h' [A1 [A0 [B1 [C [D1 D2]]]]]]]]].
  destruct (wit T K L Hq 3 _ h1 ltac:(lia) A1 ltac:(ranges)) as [g1 [G1 F1]].
  destruct (wit T K L Hq 3 _ h0 ltac:(lia) A0 ltac:(ranges)) as [g0 [G0 F0]].
  destruct (ser_ex K L 3 g1 h1 v1 F1 B1) as [w1 [E1 S1]].
  destruct (load_ex T K L 3 _ _ g0 h0 h' (dsim_writes 3 K L K2Ref K2Ref_laws _ _ S1 _ _ (dsim_empty 3 K L K2Ref K2Ref_laws)) F0 C) as [g' [EL SL]].
  rewrite <- (sim_contains 3 K L K2Ref K2Ref_laws g1 h1 1 2 F1) in D1 by ranges.
  rewrite <- (sim_contains 3 K L K2Ref K2Ref_laws g' h' 1 2 SL) in D2 by ranges.
  exists g1, w1, g0, g'. sp; auto. split; auto. ranges.
Qed.

(** ** Loading into a graph that is in use *)
(** C53 (partial): load replaces the target completely if every level at which the target holds a tree is one for
    which the snapshot has a tree file.  Missing: see C53_refuted. *)
Theorem C53_load_replaces_partial : forall T K (L : k2laws K) n es g g0,
  th_top T -> (2 <= n)%N -> Forall (in_range n) es -> dk_hist T K n (map Add es) = Done g ->
  length (ks g0) = RS ->
  (forall i t, nth_error (ks g0) i = Some (Some t) -> exists u, nth_error (ks g) i = Some (Some u)) ->
  exists ws g', dk_serialize K g = Ok ws /\ dk_load T K (writes K (dir_empty K) ws) g0 = Done g' /\
    same_answers K n g g' /\ dk_eqb K g g' = Ok true /\ dk_eqb K g' g = Ok true.
Proof.
  intros T K L n es g g0 HT Hn HF E Hl0 H0. destruct (hist_insert T K L n Hn es HT HF) as [g1 [sl [E1 R]]].
  rewrite E in E1. injection E1 as <-.
  assert (HN : forall i, i < RS -> (forall u, nth_error (ks g) i <> Some (Some u)) -> nth_error (ks g0) i = Some None).
  { intros i Hi Hu. destruct (nth_error (ks g0) i) as [[t|]|] eqn:Et; auto.
    - destruct (H0 i t Et) as [u G]. elim (Hu u); auto.
    - apply nth_error_None in Et. lia. }
  destruct (relI_reload T K L n g sl _ (dir_empty K) g0 Hn R) as [ws [g' [S1 [S2 [S3 [S4 [S5 _]]]]]]].
  - split; [exact Hl0|]. split.
    + intros i _ Hi Hg. split; [reflexivity|]. apply HN; auto. congruence.
    + intros i Hi. apply HN; [lia|]. intros u Hu. apply (ri_below _ _ _ _ _ _ R) in Hu. lia.
  - exists ws, g'. sp; auto; apply S3.
Qed.

(** C53 is false of the code: loading a graph of 4 edges into a graph that holds 2 edges keeps the 2 edges. *)
Theorem C53_refuted : forall T K (L : k2laws K), th_real T -> adjf_is_query L ->
  exists n es1 es2 g g0 ws g', dk_hist T K n (map Add es1) = Done g0 /\ dk_hist T K n (map Add es2) = Done g /\
    Forall (in_range n) (es1 ++ es2) /\ dk_serialize K g = Ok ws /\
    dk_load T K (writes K (dir_empty K) ws) g0 = Done g' /\
    dk_contains K g 0 1 = Ok false /\ dk_contains K g' 0 1 = Ok true /\ dk_edges K g' = dk_edges K g.
Proof.
  intros T K L HT Hq. exists 8%N, s22a, s22b.
  assert (HW : exists h1 h2 v2 h', dk_hist T K2Ref 8 (map Add s22a) = Done h1 /\ dk_hist T K2Ref 8 (map Add s22b) = Done h2 /\
    dk_serialize K2Ref h2 = Ok v2 /\ dk_load T K2Ref (writes K2Ref (dir_empty K2Ref) v2) h1 = Done h' /\
    dk_contains K2Ref h2 0 1 = Ok false /\ dk_contains K2Ref h' 0 1 = Ok true /\ nt h' = nt h2).
  { rewrite <- (tabled_eq T HT). do 4 eexists. sp; vm_compute; reflexivity. }
  destruct HW as [h1 [h2 [v2 [h' [A1 [A2 [B2 [C [D1 [D2 D3]]]]]]]]]].
  destruct (wit T K L Hq 8 _ h1 ltac:(lia) A1 ltac:(ranges)) as [g1 [G1 F1]].
  destruct (wit T K L Hq 8 _ h2 ltac:(lia) A2 ltac:(ranges)) as [g2 [G2 F2]].
  destruct (ser_ex K L 8 g2 h2 v2 F2 B2) as [w2 [E2 S2]].
  destruct (load_ex T K L 8 _ _ g1 h1 h' (dsim_writes 8 K L K2Ref K2Ref_laws _ _ S2 _ _ (dsim_empty 8 K L K2Ref K2Ref_laws)) F1 C) as [g' [EL SL]].
  rewrite <- (sim_contains 8 K L K2Ref K2Ref_laws g2 h2 0 1 F2) in D1 by ranges.
  rewrite <- (sim_contains 8 K L K2Ref K2Ref_laws g' h' 0 1 SL) in D2 by ranges.
  exists g2, g1, w2, g'. sp; auto.
  - ranges.
  - unfold dk_edges. rewrite (gs_nt _ _ _ _ _ _ _ SL), (gs_nt _ _ _ _ _ _ _ F2). exact D3.
Qed.

(** ** The hypotheses are met *)
(** C21-C23: a graph of seven edges, with a buffered edge and trees at two levels, is written to three files. *)
Example C21_example : exists g ws, dk_hist th_exact K2Ref 8 (map Add (s23a ++ s22a ++ [(3, 3); (4, 4)])%N) = Done g /\
  dk_serialize K2Ref g = Ok ws /\ map fst ws = [2; 4; 0] /\ c0_size (C0_ g) = 1 /\ no_trees (mkdk (K := K2Ref) 0 8 0 (C0_ g) (repeat None RS)).
Proof.
  rewrite <- (tabled_eq th_exact th_real_inhabited). do 2 eexists. sp; [vm_compute; reflexivity..|reflexivity].
Qed.
(** C52: a calm history with a deletion after which serialize is defined. *)
Example C52_example : exists h g ws, reached th_exact K2Ref 8 h g /\ calm h /\ dels h = 1%N /\ dk_serialize K2Ref g = Ok ws.
Proof.
  unfold reached. rewrite <- (tabled_eq th_exact th_real_inhabited).
  exists (map Add [(0,1);(0,2);(0,3);(0,4);(0,5);(0,6);(0,7);(1,0);(1,2);(1,3)] ++ [d 0 3])%N. do 2 eexists.
  sp; [ranges|vm_compute; reflexivity| |reflexivity|vm_compute; reflexivity].
  vm_compute. repeat split; discriminate.
Qed.
(** C53: the target is an earlier state of the same graph. *)
Example C53_example : exists g g0, dk_hist th_exact K2Ref 8 (map Add (s22b ++ s22a)) = Done g /\ dk_hist th_exact K2Ref 8 (map Add s22b) = Done g0 /\
  (exists t, nth_error (ks g0) 3 = Some (Some t)) /\
  (forall i t, nth_error (ks g0) i = Some (Some t) -> exists u, nth_error (ks g) i = Some (Some u)).
Proof.
  rewrite <- (tabled_eq th_exact th_real_inhabited). do 2 eexists. sp; [vm_compute; reflexivity|vm_compute; reflexivity|eexists; vm_compute; reflexivity|].
  intros i t H. do 8 (destruct i as [|i]; [vm_compute in H; try discriminate; eexists; vm_compute; reflexivity|]).
  vm_compute in H. destruct i; discriminate.
Qed.
