(** * Prop_Eq: what operator== says (C78).

    [dk_eqb K a b]: a == b of DKtree (DKtree.hpp:400-418, Container0.hpp:189-204); UB when the comparison reads memory that holds no value.
    Full claim: for any two graphs, a == b is defined, and true exactly if they have the same vertices and hold the same edges. *)
From Verif Require Import Base Spec Thresholds Table K2 C0 C0Proof C0Hist DK DKProof DKHist DKBisim Prop_DK Serial Prop_Serial EqProof Bits Union UnionEdges Prop_Union Munro MunroProof Prop_Munro MunroSerial BgSpec Bg BgProof BgTime Prop_Bg BgSerial.

Lemma ok_inj {A} (x y : A) : Ok x = Ok y -> x = y.
Proof. congruence. Qed.

Section Trees.
Context (K : k2impl) (L : k2laws K) (n : N).
Lemma trees_eqb_edges : forall a b, ks_wf K L n a -> ks_wf K L n b -> trees_eqb K a b = true -> forall e, In e (ks_edges K a) <-> In e (ks_edges K b).
Proof.
  induction a as [|[s|] a IH]; intros [|[t|] b]; cbn [trees_eqb]; try discriminate; intros Wa Wb E e; [reflexivity| |].
  - apply andb_true_iff in E. destruct E as [E1 E2]. inversion Wa as [|? ? W1 W2]; subst. inversion Wb as [|? ? W3 W4]; subst.
    rewrite !ks_edges_cons_some, !in_app_iff, (IH b W2 W4 E2 e), (law_eq L n s t W1 W3 E1 e). reflexivity.
  - inversion Wa as [|? ? W1 W2]; subst. inversion Wb as [|? ? W3 W4]; subst. apply (IH b W2 W4 E e).
Qed.
End Trees.

(** C78, what holds of every two DKtree graphs ever reached, with deletions: if a == b then they have the same number of vertices and edges, and
    list_neighbour lists the same neighbours (as a set) for every vertex; if moreover both were built by insertions only, contains agrees. *)
Theorem C78_equal_partial : forall T K (L : k2laws K) na nb ha hb a b, (2 <= na)%N -> (2 <= nb)%N ->
  reached T K na ha a -> reached T K nb hb b -> dk_eqb K a b = Ok true ->
  na = nb /\ nt a = nt b /\
  (forall x, (x < na)%N -> exists la lb, dk_neigh K a x = Ok la /\ dk_neigh K b x = Ok lb /\ forall y, In y la <-> In y lb) /\
  (forall ea eb, th_top T -> ha = map Add ea -> hb = map Add eb -> forall x y, in_range na (x, y) -> dk_contains K a x y = dk_contains K b x y).
Proof.
  intros T K L na nb ha hb a b Ha Hb [Ra Ea] [Rb Eb] E.
  destruct (hist_rel T K L na Ha ha a Ra Ea) as [sa Rla]. destruct (hist_rel T K L nb Hb hb b Rb Eb) as [sb Rlb].
  pose proof (rl_inv _ _ _ _ _ _ Rla) as Ia. pose proof (rl_inv _ _ _ _ _ _ Rlb) as Ib.
  unfold dk_eqb in E. destruct (c0_eqb (C0_ a) (C0_ b)) as [r|] eqn:Ec; [|discriminate]. cbn [obind] in E.
  destruct (max_r a <? length (ks a)) eqn:Hm; [|discriminate]. apply ok_inj in E. rewrite !andb_true_iff in E. destruct E as ((((E1 & E2) & E3) & ->) & E5).
  apply Nat.eqb_eq in E1. apply N.eqb_eq in E2, E3. rewrite (dv_nv _ _ _ _ _ Ia), (dv_nv _ _ _ _ _ Ib) in E2. subst nb.
  pose proof (c0_eqb_true _ _ _ _ (dv_c0 _ _ _ _ _ Ia) (dv_c0 _ _ _ _ _ Ib) Ec) as <-.
  pose proof E5 as E6. rewrite E1 in E6 at 2.
  pose proof (trees_eqb_edges K L na _ _ (ks_wf_firstn K L na _ (S (max_r a)) (dv_wf _ _ _ _ _ Ia)) (ks_wf_firstn K L na _ (S (max_r b)) (dv_wf _ _ _ _ _ Ib)) E6) as Te.
  split; [reflexivity|]. split; [exact E3|]. split.
  - intros x Hx. unfold dk_neigh. rewrite (inv_neigh _ _ _ (dv_c0 _ _ _ _ _ Ia)), (inv_neigh _ _ _ (dv_c0 _ _ _ _ _ Ib)). cbn [obind]. rewrite Hm.
    rewrite (dv_len _ _ _ _ _ Ia), <- (dv_len _ _ _ _ _ Ib), E1 in Hm. rewrite Hm. do 2 eexists. split; [reflexivity|]. split; [reflexivity|].
    destruct (ks_neigh_spec K L na (firstn (S (max_r a)) (ks a)) x (ks_wf_firstn K L na _ _ (dv_wf _ _ _ _ _ Ia)) (ks_disj_firstn K L _ _ (dv_disj _ _ _ _ _ Ia)) Hx) as [_ Na].
    destruct (ks_neigh_spec K L na (firstn (S (max_r b)) (ks b)) x (ks_wf_firstn K L na _ _ (dv_wf _ _ _ _ _ Ib)) (ks_disj_firstn K L _ _ (dv_disj _ _ _ _ _ Ib)) Hx) as [_ Nb].
    intros y. rewrite !in_app_iff, Na, Nb, Te. reflexivity.
  - intros ea eb HT -> -> x y Hxy.
    assert (Fa : Forall (in_range na) ea) by (rewrite Forall_map in Ra; exact Ra).
    assert (Fb : Forall (in_range na) eb) by (rewrite Forall_map in Rb; exact Rb).
    destruct (hist_insert T K L na Ha ea HT Fa) as (a' & sa' & Ea' & Ia'). rewrite Ea in Ea'. injection Ea' as <-.
    destruct (hist_insert T K L na Ha eb HT Fb) as (b' & sb' & Eb' & Ib'). rewrite Eb in Eb'. injection Eb' as <-.
    rewrite (dk_contains_spec K L na a sa x y Ia Hxy), (dk_contains_spec K L na b sa x y Ib Hxy). f_equal.
    apply eq_true_iff_eq. rewrite !emem_In. unfold dk_all. rewrite !in_app_iff.
    pose proof (ks_below_firstn K na Ha a (x, y) (ri_below _ _ _ _ _ _ Ia')) as Ba. pose proof (ks_below_firstn K na Ha b (x, y) (ri_below _ _ _ _ _ _ Ib')) as Bb.
    pose proof (ks_edges_firstn_sub K (ks a) (S (max_r a)) (x, y)) as Sa. pose proof (ks_edges_firstn_sub K (ks b) (S (max_r b)) (x, y)) as Sb.
    specialize (Te (x, y)). tauto.
Qed.

(** a == b is defined exactly if a's buffer has been written at most as often, since it was last emptied, as b's. *)
Theorem C78_defined_iff : forall T K (L : k2laws K) na nb ha hb a b, (2 <= na)%N -> (2 <= nb)%N -> reached T K na ha a -> reached T K nb hb b ->
  ((exists r, dk_eqb K a b = Ok r) <-> c_n (C0_ a) <= c_n (C0_ b)).
Proof.
  intros T K L na nb ha hb a b Ha Hb [Ra Ea] [Rb Eb].
  destruct (hist_rel T K L na Ha ha a Ra Ea) as [sa Rla]. destruct (hist_rel T K L nb Hb hb b Rb Eb) as [sb Rlb].
  pose proof (rl_inv _ _ _ _ _ _ Rla) as Ia. pose proof (rl_inv _ _ _ _ _ _ Rlb) as Ib.
  rewrite <- (nodes_eqb_def _ _ _ _ (dv_c0 _ _ _ _ _ Ia) (dv_c0 _ _ _ _ _ Ib) (blank_ub _ _ (dv_c0 _ _ _ _ _ Ib) (blank_hist T K L nb Hb hb b Rb Eb))).
  unfold dk_eqb. pose proof (dv_len _ _ _ _ _ Ia) as Ll. pose proof (dv_maxr _ _ _ _ _ Ia) as Lm. destruct (Nat.ltb_spec (max_r a) (length (ks a))); [|lia].
  split; intros [r E].
  - destruct (c0_eqb (C0_ a) (C0_ b)) as [q|]; [eauto|discriminate].
  - rewrite E. cbn [obind]. eauto.
Qed.

(** A graph equals itself. *)
Theorem C78_reflexive : forall T K (L : k2laws K) n h g, (2 <= n)%N -> reached T K n h g -> dk_eqb K g g = Ok true.
Proof.
  intros T K L n h g Hn [Rg Eg]. destruct (hist_rel T K L n Hn h g Rg Eg) as [sl Rl]. pose proof (rl_inv _ _ _ _ _ _ Rl) as I.
  eapply dk_eqb_same; eauto. apply (dv_c0 _ _ _ _ _ I).
Qed.

(** C78 is false of the code.  (i) Two graphs on 3 vertices that compare equal both ways although one contains (0,2) and not (1,2), and the other
    (1,2) and not (0,2): the trees above max_r are not compared. *)
Theorem C78_refuted : forall T K (L : k2laws K), th_real T -> adjf_is_query L ->
  exists ha hb a b, reached T K 3 ha a /\ reached T K 3 hb b /\ dk_eqb K a b = Ok true /\ dk_eqb K b a = Ok true /\
    dk_contains K a 1 2 = Ok false /\ dk_contains K b 1 2 = Ok true /\ dk_contains K a 0 2 = Ok true /\ dk_contains K b 0 2 = Ok false.
Proof.
  intros T K L HT Hq. exists (w17 ++ [d 1 2])%N, (w17 ++ [d 0 2])%N.
  assert (HW : exists ga gb, dk_hist T K2Ref 3 (w17 ++ [d 1 2])%N = Done ga /\ dk_hist T K2Ref 3 (w17 ++ [d 0 2])%N = Done gb /\
    C0_ ga = C0_ gb /\ max_r ga = 4 /\ max_r gb = 4 /\ nt ga = nt gb /\ firstn 5 (ks ga) = repeat None 5 /\ firstn 5 (ks gb) = repeat None 5 /\
    length (ks ga) = 8 /\ length (ks gb) = 8 /\
    dk_contains K2Ref ga 1 2 = Ok false /\ dk_contains K2Ref gb 1 2 = Ok true /\ dk_contains K2Ref ga 0 2 = Ok true /\ dk_contains K2Ref gb 0 2 = Ok false).
  { rewrite <- (tabled_eq T HT). do 2 eexists. split; [vm_compute; reflexivity|]. split; [vm_compute; reflexivity|]. vm_compute. repeat (split; [reflexivity|]). reflexivity. }
  destruct HW as (ga & gb & A & B & W1 & W2 & W3 & W4 & W5 & W6 & W7 & W8 & C1 & C2 & C3 & C4).
  destruct (wit T K L Hq 3 _ ga ltac:(lia) A ltac:(ranges)) as [a [Ea Sa]].
  destruct (wit T K L Hq 3 _ gb ltac:(lia) B ltac:(ranges)) as [b [Eb Sb]].
  rewrite <- (sim_contains 3 K L K2Ref K2Ref_laws a ga 1 2 Sa) in C1 by ranges. rewrite <- (sim_contains 3 K L K2Ref K2Ref_laws b gb 1 2 Sb) in C2 by ranges.
  rewrite <- (sim_contains 3 K L K2Ref K2Ref_laws a ga 0 2 Sa) in C3 by ranges. rewrite <- (sim_contains 3 K L K2Ref K2Ref_laws b gb 0 2 Sb) in C4 by ranges.
  assert (Ra : reached T K 3 (w17 ++ [d 1 2])%N a) by (split; [ranges|exact Ea]). assert (Rb : reached T K 3 (w17 ++ [d 0 2])%N b) by (split; [ranges|exact Eb]).
  destruct (hist_rel T K L 3 ltac:(lia) _ a (proj1 Ra) Ea) as [sa Rla]. destruct (hist_rel T K L 3 ltac:(lia) _ b (proj1 Rb) Eb) as [sb Rlb].
  pose proof (rl_inv _ _ _ _ _ _ Rla) as Ia. pose proof (rl_inv _ _ _ _ _ _ Rlb) as Ib.
  assert (Nn : forall (g : dk K) (h : dk K2Ref), gsim 3 K L K2Ref K2Ref_laws g h -> firstn 5 (ks h) = repeat None 5 -> firstn 5 (ks g) = repeat None 5).
  { intros g h S F. pose proof (gs_ks _ _ _ _ _ _ _ S) as Ks. clear - Ks F. revert F. generalize 5 as k. induction Ks as [|x y l1 l2 Hxy Hl IH]; intros [|k] F; cbn [firstn repeat] in *; auto; try discriminate.
    injection F as F1 F2. subst y. destruct x; [destruct Hxy|]. f_equal. auto. }
  assert (Q : forall u v, c0_inv (C0_ u) sa -> C0_ v = C0_ u -> max_r u = 4 -> max_r v = 4 -> nt v = nt u -> nv v = nv u -> length (ks u) = 8 -> firstn 5 (ks u) = repeat None 5 ->
    firstn 5 (ks v) = repeat None 5 -> dk_eqb K u v = Ok true).
  { intros u v I Q1 Q2 Q3 Q4 Q5 Q6 Q7 Q8. unfold dk_eqb. rewrite Q1, (c0_eqb_same _ _ sa I I eq_refl eq_refl). cbn [obind]. rewrite Q2, Q3, Q4, Q5, Q6, Q7, Q8.
    cbn [Nat.ltb Nat.leb Nat.eqb]. rewrite !N.eqb_refl. reflexivity. }
  pose proof (gs_c0 _ _ _ _ _ _ _ Sa) as Ca. pose proof (gs_c0 _ _ _ _ _ _ _ Sb) as Cb. pose proof (gs_maxr _ _ _ _ _ _ _ Sa) as Ma. pose proof (gs_maxr _ _ _ _ _ _ _ Sb) as Mb.
  pose proof (gs_nt _ _ _ _ _ _ _ Sa) as Ta. pose proof (gs_nt _ _ _ _ _ _ _ Sb) as Tb.
  pose proof (dv_nv _ _ _ _ _ Ia) as Va. pose proof (dv_nv _ _ _ _ _ Ib) as Vb. pose proof (dv_len _ _ _ _ _ Ia) as La. pose proof (dv_len _ _ _ _ _ Ib) as Lb.
  change RS with 8 in La, Lb. exists a, b. split; [exact Ra|]. split; [exact Rb|]. split; [|split; [|auto]].
  - apply Q; try congruence; [apply (dv_c0 _ _ _ _ _ Ia)|apply (Nn a ga)|apply (Nn b gb)]; auto.
  - apply Q; try congruence; [|apply (Nn b gb)|apply (Nn a ga)]; auto. replace (C0_ b) with (C0_ a) by congruence. apply (dv_c0 _ _ _ _ _ Ia).
Qed.
(** (ii) Comparing a graph that holds two edges with one that holds one is undefined; the other way round it is defined, and false. *)
Theorem C78_undefined_refuted : forall T K, th_real T ->
  exists a b, reached T K 16 (map Add [(1, 2); (2, 3)]%N) a /\ reached T K 16 (map Add [(1, 2)]%N) b /\ dk_eqb K a b = UB /\ dk_eqb K b a = Ok false.
Proof.
  intros T K HT. rewrite <- (tabled_eq T HT). do 2 eexists. split; [split; [ranges|vm_compute; reflexivity]|]. split; [split; [ranges|vm_compute; reflexivity]|].
  split; vm_compute; reflexivity.
Qed.
(** (iii) The same two edges, inserted in a different order: not equal, either way. *)
Theorem C78_order_refuted : forall T K, th_real T ->
  exists a b, reached T K 16 (map Add [(1, 2); (2, 3)]%N) a /\ reached T K 16 (map Add [(2, 3); (1, 2)]%N) b /\
    (forall x y, dk_contains K a x y = dk_contains K b x y) /\ dk_eqb K a b = Ok false /\ dk_eqb K b a = Ok false.
Proof.
  intros T K HT. rewrite <- (tabled_eq T HT). do 2 eexists. split; [split; [ranges|vm_compute; reflexivity]|]. split; [split; [ranges|vm_compute; reflexivity]|].
  split; [|split; vm_compute; reflexivity].
  intros x y. unfold dk_contains, c0_contains. cbn [C0_ ks c_lst eget]. 
  destruct (eeqb (x, y) (1, 2)%N) eqn:E1, (eeqb (x, y) (2, 3)%N) eqn:E2; try reflexivity.
Qed.

(** Non-vacuity of C78_equal_partial and C78_defined_iff: the graphs of C78_refuted; and two different lists of insertions that fill a tree
    and the buffer the same way. *)
Example C78_example : forall T K (L : k2laws K), th_real T -> exists a b,
  reached T K 16 (map Add [(1, 2); (2, 3); (1, 2)]%N) a /\ reached T K 16 (map Add [(1, 2); (2, 3)]%N) b /\ dk_eqb K a b = Ok true.
Proof.
  intros T K L HT. rewrite <- (tabled_eq T HT). do 2 eexists. split; [split; [ranges|vm_compute; reflexivity]|]. split; [split; [ranges|vm_compute; reflexivity]|].
  vm_compute. reflexivity.
Qed.

(** ** The incremental-union graph *)
(** If no union is in progress in either graph and a == b, they have the same vertices and the same number of edges, and contain the same edges.  With a
    union in progress this fails (C77_refuted). *)
Theorem C78_incremental_partial : forall T hgt na nb ha hb a b, (2 <= na)%N -> (2 <= nb)%N -> mreached T hgt na ha a -> mreached T hgt nb hb b ->
  mg_finished a = true -> mg_finished b = true -> mg_eqb a b = Ok true ->
  na = nb /\ mg_edges a = mg_edges b /\ forall x y, mg_contains a x y = mg_contains b x y.
Proof.
  intros T hgt na nb ha hb a b Ha Hb (HOa & Fa & Sma & Ea) (HOb & Fb & Smb & Eb) Fna Fnb E.
  destruct (hist_inv T hgt na Ha HOa ha Fa Sma a Ea) as (Ls & P & B & c & Va & _). destruct (hist_inv T hgt nb Hb HOb hb Fb Smb b Eb) as (Ls' & P' & B' & c' & Vb & _).
  pose proof (hist_top T hgt na ha a Ea) as [A1 A2 _ A3]. pose proof (hist_top T hgt nb hb b Eb) as [B1 B2 _ B3].
  unfold mg_eqb in E. destruct (c0_eqb (m_c0 a) (m_c0 b)) as [r|] eqn:Ec; [|discriminate]. cbn [obind] in E.
  destruct (m_maxr a <? length (m_ks a)) eqn:Hm; [|discriminate]. apply ok_inj in E. rewrite !andb_true_iff in E. destruct E as ((((E1 & E2) & E3) & ->) & E5).
  apply Nat.eqb_eq in E1. apply N.eqb_eq in E2, E3. apply mtrees_eqb_eq in E5. rewrite (mv_n _ _ _ _ _ _ _ _ Va), (mv_n _ _ _ _ _ _ _ _ Vb) in E2. subst nb.
  split; [reflexivity|]. split; [exact E3|].
  pose proof (c0_eqb_true _ _ _ _ (mv_c0 _ _ _ _ _ _ _ _ Va) (mv_c0 _ _ _ _ _ _ _ _ Vb) Ec) as El.
  assert (Ek : m_ks a = m_ks b).
  { apply nth_ext'. intros i. destruct (Nat.le_gt_cases i (m_maxr a)) as [Li|Li].
    - apply (f_equal (fun l => nth_error l i)) in E5. rewrite !nth_error_firstn in E5. replace (i <? S (m_maxr a)) with true in E5 by (symmetry; apply Nat.ltb_lt; lia). exact E5.
    - destruct (nth_error (m_ks a) i) as [[t|]|] eqn:Ni; [apply A3 in Ni; lia| |].
      + destruct (nth_error (m_ks b) i) as [[t|]|] eqn:Nj; [apply B3 in Nj; lia|reflexivity|]. apply nth_error_None in Nj.
        assert (i < length (m_ks a)) by (apply nth_error_Some; congruence). lia.
      + apply nth_error_None in Ni. symmetry. apply nth_error_None. lia. }
  intros x y. unfold mg_contains, mg_finished in *. rewrite (inv_contains _ _ _ (mv_c0 _ _ _ _ _ _ _ _ Va)), (inv_contains _ _ _ (mv_c0 _ _ _ _ _ _ _ _ Vb)), El, Ek, Fna, Fnb. reflexivity.
Qed.

(** ** The background graphs *)
(** Insertions only, under any schedules of the two graphs: if neither is merging and a == b, the two have the same vertices, the same number of edges, and
    the same edges were inserted into both.  With a merge in progress in a this fails (C78_background_refuted). *)
Theorem C78_background_partial : forall wt T K (L : k2laws K) na nb s1 s2 a b, th_top T -> (2 <= na)%N -> (2 <= nb)%N ->
  Forall (act_in na) s1 -> Forall (act_in nb) s2 -> exec wt T K na s1 = Ok a -> exec wt T K nb s2 = Ok b ->
  b_m a = MIdle -> b_nw a = false -> b_m b = MIdle -> b_nw b = false -> bg_eqb K a b = Ok true ->
  na = nb /\ bg_edges K a = bg_edges K b /\ forall e, In e (inserted (b_log a)) <-> In e (inserted (b_log b)).
Proof.
  intros wt T K L na nb s1 s2 a b HT Ha Hb F1 F2 E1 E2 Ma Wa Mb Wb E.
  destruct (exec_ok wt T K L na Ha HT s1 F1) as (a' & Ea & Va). rewrite E1 in Ea. injection Ea as <-.
  destruct (exec_ok wt T K L nb Hb HT s2 F2) as (b' & Eb & Vb). rewrite E2 in Eb. injection Eb as <-.
  unfold bg_eqb in E. destruct (c0_eqb (b_c0 a) (b_c0 b)) as [r|] eqn:Ec; [|discriminate]. cbn [obind] in E.
  destruct (b_maxr a <? length (b_ks a)) eqn:Hm; [|discriminate]. apply ok_inj in E. rewrite !andb_true_iff in E. destruct E as ((((X1 & X2) & X3) & ->) & X5).
  apply Nat.eqb_eq in X1. apply N.eqb_eq in X2, X3. rewrite (bi_nn _ _ _ _ _ Va), (bi_nn _ _ _ _ _ Vb) in X2. subst nb.
  split; [reflexivity|]. split; [exact X3|].
  pose proof (c0_eqb_true _ _ _ _ (bi_c0 _ _ _ _ _ Va) (bi_c0 _ _ _ _ _ Vb) Ec) as El.
  pose proof (bi_st _ _ _ _ _ Va) as Sa. pose proof (bi_st _ _ _ _ _ Vb) as Sb. rewrite Ma, Wa in Sa. rewrite Mb, Wb in Sb. cbn [vlog] in Sa, Sb.
  pose proof (ks_ok_wf _ _ _ _ (st_ok _ _ _ _ _ _ _ _ _ _ _ Sa)) as Wfa. pose proof (ks_ok_wf _ _ _ _ (st_ok _ _ _ _ _ _ _ _ _ _ _ Sb)) as Wfb.
  pose proof (trees_eqb_edges K L na _ _ (ks_wf_firstn K L na _ (S (b_maxr a)) Wfa) (ks_wf_firstn K L na _ (S (b_maxr a)) Wfb) X5) as Te.
  pose proof (kse_firstn K na Ha (b_ks a) (b_maxr a) (S (b_maxr a)) (st_above _ _ _ _ _ _ _ _ _ _ _ Sa) ltac:(lia)) as Ka.
  pose proof (kse_firstn K na Ha (b_ks b) (b_maxr b) (S (b_maxr a)) (st_above _ _ _ _ _ _ _ _ _ _ _ Sb) ltac:(lia)) as Kb.
  assert (Er : forall e, In e (recent (b_log a)) <-> In e (recent (b_log b))).
  { intros e. apply (f_equal live_edges) in El. rewrite !live_lv in El. apply (f_equal (@rev edge)) in El. rewrite !rev_involutive in El. rewrite El. reflexivity. }
  pose proof (st_set _ _ _ _ _ _ _ _ _ _ _ Sa) as Oa. pose proof (st_set _ _ _ _ _ _ _ _ _ _ _ Sb) as Ob. cbn [pend] in Oa, Ob.
  assert (St : forall h e, log_ok h -> (In e (inserted h) <-> In e (recent h) \/ In e (older h))).
  { intros h e LO. rewrite <- stored_split. split; [apply inserted_stored, LO|apply stored_inserted]. }
  intros e. rewrite (St _ _ (bi_log _ _ _ _ _ Va)), (St _ _ (bi_log _ _ _ _ _ Vb)), Er, Oa, Ob, !in_app_iff, <- Ka, <- Kb, Te. reflexivity.
Qed.
(** Two graphs on 8 vertices, two edges inserted into each, both merging: equal both ways, and no edge in common. *)
Definition w78 (e f : edge) : list act := ACall (CIns e) :: repeat AMain 10 ++ ACall (CIns f) :: repeat AMain 24.
Theorem C78_background_refuted : forall T K, th_real T -> let s1 := w78 (0, 1)%N (0, 2)%N in let s2 := w78 (5, 6)%N (6, 7)%N in
  Forall (act_in 8) s1 /\ Forall (act_in 8) s2 /\
  exists a b, exec false T K 8 s1 = Ok a /\ exec false T K 8 s2 = Ok b /\ b_m a = MIdle /\ b_m b = MIdle /\ bg_eqb K a b = Ok true /\ bg_eqb K b a = Ok true /\
    inserted (b_log a) = [(0, 2); (0, 1)]%N /\ inserted (b_log b) = [(6, 7); (5, 6)]%N.
Proof.
  intros T K HT s1 s2. unfold s1, s2. split; [repeat constructor|]. split; [repeat constructor|]. rewrite <- (tabled_eq T HT).
  do 2 eexists. split; [vm_compute; reflexivity|]. split; [vm_compute; reflexivity|]. vm_compute. repeat split.
Qed.
Example C78_background_example : forall T K (L : k2laws K), th_real T -> let s := w78 (0, 1)%N (0, 2)%N ++ repeat ABack 15 in Forall (act_in 8) s /\
  exists a, exec false T K 8 s = Ok a /\ b_m a = MIdle /\ b_nw a = false /\ bg_eqb K a a = Ok true.
Proof.
  intros T K L HT s. unfold s. split; [repeat constructor|]. rewrite <- (tabled_eq T HT). eexists. split; [vm_compute; reflexivity|].
  split; [reflexivity|]. split; [reflexivity|].
  match goal with |- bg_eqb K ?g ?g = _ => set (x := g) end.
  assert (V : exists a, exec false (tabled T) K 8 s = Ok a /\ a = x) by (eexists; split; [vm_compute; reflexivity|reflexivity]).
  destruct V as (a & E & <-). assert (HT' : th_top (tabled T)) by (rewrite (tabled_eq T HT); apply th_real_top, HT).
  destruct (exec_ok false (tabled T) K L 8 ltac:(lia) HT' s ltac:(repeat constructor)) as (a' & Ea & V). rewrite E in Ea. injection Ea as <-.
  pose proof (bi_c0 _ _ _ _ _ V) as Ic. assert (H28 : (2 <= 8)%N) by lia. eapply eqb_same; eauto. pose proof (bi_st _ _ _ _ _ V) as S.
  pose proof (st_maxr _ _ _ _ _ _ _ _ _ _ _ S). destruct (st_ok _ _ _ _ _ _ _ _ _ _ _ S) as [Ll _]. lia.
Qed.
Example C78_incremental_example : forall T, th_real T -> exists a, mreached T lg 16 (ex_mh 11) a /\ mg_finished a = true /\ mg_eqb a a = Ok true.
Proof.
  intros T HT. assert (W : match mg_hist T lg 16 (ex_mh 11) with Done a => mg_finished a = true /\ mg_eqb a a = Ok true | _ => False end).
  { rewrite <- (tabled_eq T HT). vm_compute. auto. }
  destruct (mg_hist T lg 16 (ex_mh 11)) as [a| |] eqn:E; try (destruct W; fail). exists a. split; [apply ex_reached; auto|exact W].
Qed.
