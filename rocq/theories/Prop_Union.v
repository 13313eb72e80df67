(** * Prop_Union: C27, C56 - the incremental union (include/dktree/union_support.hpp). *)
From Verif Require Import Base Bits Union UnionProof UnionMerge UnionEdges.

Section Calls.
Variable hgt : N -> nat.
Variable n : N.
Notation H := (hgt n).
Hypothesis H1 : 1 <= H.
Hypothesis H256 : H <= 256.

Lemma fin_calls c ks u : s_fin u = true -> union_calls K4 hgt c ks u = Ok (ks, u).
Proof.
  intros F. induction c as [|c IH]; [reflexivity|]. cbn [union_calls]. rewrite union_op_body. unfold ubody. rewrite F. cbn [obind]. exact IH.
Qed.
Lemma calls_spec : forall c ks u ta tb ts w, UInv hgt n ks u ta tb ts w -> length ts <= RSZ -> s_times u = 0 -> 1 <= s_isz u ->
  let R := w + workl hgt n (tun H ta tb) ts in
  exists ks' u', union_calls K4 hgt c ks u = Ok (ks', u') /\ frame ks ks' u u' /\
   ((R <= c * s_isz u /\ s_fin u' = true /\ done hgt n ks' (s_mi u) (merge hgt n (tun H ta tb) ts)) \/
    (c * s_isz u < R /\ s_fin u' = false)).
Proof.
  cbv zeta. induction c as [|c IH]; intros ks u ta tb ts w HU Lt Ht Hi.
  { exists ks, u. split; [reflexivity|]. split; [unfold frame; auto|]. right. split; [|apply (ui_fin _ _ _ _ _ _ _ _ HU)].
    destruct HU as [_ (A & _ & _ & B & _ & _ & Hp) _ _ _ _ _]. cbn. destruct Hp as [(_ & _ & _ & _ & _ & _ & ->)|[X _]]; [|lia].
    pose proof (cnt_pos hgt n H1 (tun H ta tb)). lia. }
  cbn [union_calls].
  destruct (union_step hgt n H1 H256 RSZ ks u ta tb ts w HU Lt ltac:(lia)) as (ks1 & u1 & E1 & F1 & C).
  rewrite E1. cbn [obind]. pose proof F1 as (L1 & I1 & M1 & N1).
  rewrite Ht, Nat.sub_0_r in C.
  destruct C as [(C1 & C2 & C3)|(C1 & C2 & ta' & tb' & ts' & w' & HU' & C4 & C5 & C6)].
  - rewrite fin_calls by auto. exists ks1, u1. split; [reflexivity|]. split; [exact F1|]. left. split; [nia|]. auto.
  - destruct (IH ks1 u1 ta' tb' ts' w' HU' ltac:(lia) C2 ltac:(lia)) as (ks2 & u2 & E2 & (L2 & I2 & M2 & N2) & C).
    rewrite E2. exists ks2, u2. split; [reflexivity|]. split.
    { unfold frame. split; [congruence|]. split; [congruence|]. split; [congruence|]. intros i Hi'. rewrite N2 by lia. apply N1. lia. }
    rewrite I1, M1, C5 in C. destruct C as [(C7 & C8 & C9)|(C7 & C8)].
    + left. split; [|split; auto]. cbn. lia.
    + right. split; [|auto]. cbn. lia.
Qed.

(** ** The constructor *)
Definition sizes (ks : list (option bt)) : nat := fold_right (fun o m => match o with Some t => get_ones t + m | None => m end) 0 ks.
Lemma sizes_app a b : sizes (a ++ b) = sizes a + sizes b.
Proof. unfold sizes. induction a as [|[t|] a IH]; cbn; lia. Qed.
Lemma sizes_trees ks i c ts : Forall2 (repr hgt n) (trees ks i c) ts -> sizes (firstn c (skipn i ks)) = list_sum (map (tsz hgt n) ts).
Proof.
  unfold trees. generalize (firstn c (skipn i ks)) as l. intros l. revert ts. induction l as [|[t|] l IH]; intros ts F; cbn [somes] in F.
  - inversion F; subst. reflexivity.
  - inversion F as [|? t' ? ts' R F']; subst. cbn [sizes fold_right map list_sum]. fold (sizes l). rewrite (IH _ F').
    destruct R as (_ & _ & R3 & R4 & _). unfold get_ones, tsz. rewrite R3, R4. reflexivity.
  - cbn [sizes fold_right]. apply IH. exact F.
Qed.

Lemma us_new_spec t es_sz ks mi tn ts : repr hgt n t tn -> 1 <= es_sz -> mi < length ks -> Forall2 (repr hgt n) (trees ks 0 (S mi)) ts ->
  (N.of_nat (get_ones t + sizes (firstn (S mi) ks)) <= CAP)%N -> 1 <= get_ones t ->
  exists ks1 u, us_new t es_sz ks mi = Ok (ks1, u) /\ s_mi u = mi /\ s_times u = 0 /\ 1 <= s_isz u /\
    get_ones t + sizes (firstn (S mi) ks) <= es_sz * s_isz u /\
    match ts with
    | [] => s_fin u = true /\ done hgt n ks1 mi tn /\ length ks1 = length ks /\ forall i, mi < i -> nth_error ks1 i = nth_error ks i
    | tb :: ts' => ks1 = ks /\ UInv hgt n ks u tn tb ts' (cnt H [tun H tn tb])
    end.
Proof.
  pose proof H1. pose proof H256. intros Rt He Hm Ft Hc Hp. unfold us_new. fold (sizes (firstn (S mi) ks)).
  set (total := sizes (firstn (S mi) ks) + get_ones t).
  destruct (Nat.eqb_spec total 0) as [E|_]; [unfold total in E; lia|].
  destruct (Nat.eqb_spec es_sz 0) as [E|_]; [lia|].
  set (isz := total / es_sz + (if total mod es_sz =? 0 then 0 else 1)).
  assert (Ht : 1 <= total) by (unfold total; lia).
  pose proof (Nat.div_mod total es_sz ltac:(lia)) as DM. pose proof (Nat.mod_upper_bound total es_sz ltac:(lia)) as MB.
  assert (I1 : total <= es_sz * isz) by (unfold isz; destruct (Nat.eqb_spec (total mod es_sz) 0); nia).
  assert (I2 : 1 <= isz) by nia.
  assert (I3 : isz <= total).
  { unfold isz. destruct (Nat.eqb_spec (total mod es_sz) 0).
    - rewrite Nat.add_0_r. apply Nat.div_le_upper_bound; nia.
    - destruct (Nat.eq_dec es_sz 1) as [->|]; [rewrite Nat.mod_1_r in n0; lia|].
      destruct (Nat.eq_dec (total / es_sz) 0) as [->|]; [lia|]. nia. }
  destruct (Nat.ltb_spec total isz) as [X|_]; [lia|].
  pose proof (first_tree_spec ks (S mi) 0 ltac:(lia)) as FT. cbn [plus] in FT.
  assert (TT : get_ones t + sizes (firstn (S mi) ks) = total) by (unfold total; lia).
  destruct (first_tree ks 0 (S mi)) as [j|].
  - destruct FT as (J1 & J2 & B & J3 & J4). rewrite J4 in Ft. inversion Ft as [|? tb ? ts' RB Ft']; subst.
    eexists _, _. split; [reflexivity|]. cbn [s_mi s_times s_isz]. sp; auto; try lia.
    constructor; cbn [s_fin s_tmp s_ki s_mi]; auto; try lia.
    + exists t. split; [reflexivity|]. split; [exact Rt|]. exists B. split; [exact J3|]. split; [exact RB|]. left. cbn. sp; reflexivity.
    + intros i Hi. apply J2; lia.
    + pose proof (sizes_trees ks 0 (S mi) (tb :: ts')) as SZ. rewrite J4 in SZ. specialize (SZ Ft). cbn [skipn] in SZ.
      unfold fits. destruct Rt as (_ & _ & R3 & R4 & _). unfold get_ones in Hc. rewrite R3, R4 in Hc. fold (tsz hgt n tn) in Hc. rewrite SZ in Hc. exact Hc.
  - destruct FT as [J1 J2]. rewrite J1 in Ft. inversion Ft; subst. rewrite set_ok by lia. cbn [obind].
    eexists _, _. split; [reflexivity|]. cbn [s_mi s_times s_isz s_fin]. sp; auto; try lia.
    + split.
      * intros i Hi. rewrite nth_upd. destruct (Nat.eqb_spec mi i); [lia|]. apply J2; lia.
      * exists t. rewrite nth_upd, Nat.eqb_refl. destruct (Nat.ltb_spec mi (length ks)); [|lia]. auto.
    + apply len_upd.
    + intros i Hi. rewrite nth_upd. destruct (Nat.eqb_spec mi i); [lia|]. reflexivity.
Qed.

(** ** The work, compared with the sizes *)
Lemma tsz_cnt t : twf K4 H t -> tsz hgt n t = cnt H [t] * K4.
Proof.
  intros W. unfold tsz. rewrite <- app_length, <- stream_split. apply cnt_stream. intros u [<-|[]]. exact W.
Qed.
Lemma work_bound : forall ts a, twf K4 H a -> Forall (twf K4 H) ts -> workl hgt n a ts * K4 <= length ts * (tsz hgt n a + list_sum (map (tsz hgt n) ts)).
Proof.
  induction ts as [|t ts IH]; intros a Wa F; [cbn; lia|]. inversion F as [|? ? Wt F']; subst. cbn [workl length map list_sum fold_right].
  change (fold_right Nat.add 0) with list_sum. pose proof (tun_wf K4 H a t Wa Wt) as Wu. pose proof (IH _ Wu F') as B.
  pose proof (tsz_cnt _ Wu) as C. pose proof (tsz_tun hgt n a t Wa Wt) as [S1 S2]. unfold tsz in *. nia.
Qed.
End Calls.

(** ** In terms of edges.
    [Ls]: for every level of the collection, the edges its tree was built from (None: no tree). *)
Definition in_rng (n : N) (es : list edge) : Prop := Forall (fun e => fst e < n /\ snd e < n)%N es.
Definition lev (hgt : N -> nat) (n : N) (Ls : list (option (list edge))) : list (option bt) := map (option_map (built hgt n)) Ls.
Definition total_bits (hgt : N -> nat) (n : N) (es : list edge) (Ls : list (option (list edge))) (mi : nat) : nat :=
  get_ones (built hgt n es) + sizes (firstn (S mi) (lev hgt n Ls)).

Lemma trees_lev hgt n Ls mi : trees (lev hgt n Ls) 0 (S mi) = map (built hgt n) (somes (firstn (S mi) Ls)).
Proof.
  unfold trees, lev. cbn [skipn]. rewrite firstn_map. generalize (firstn (S mi) Ls) as l.
  induction l as [|[es|] l IH]; cbn; [reflexivity| |]; rewrite ?IH; reflexivity.
Qed.
Lemma lev_repr hgt n Ls mi : Forall2 (repr hgt n) (trees (lev hgt n Ls) 0 (S mi)) (map (etrie hgt n) (somes (firstn (S mi) Ls))).
Proof.
  rewrite trees_lev. induction (somes (firstn (S mi) Ls)) as [|es l IH]; cbn; constructor; auto using repr_built.
Qed.
Lemma ones_pos hgt n es : 1 <= hgt n -> 1 <= get_ones (built hgt n es).
Proof.
  intros H1. unfold get_ones, built. cbn [b_t b_l]. fold (tsz hgt n (etrie hgt n es)). rewrite tsz_cnt by apply tofl_wf. pose proof (cnt_pos hgt n H1 (etrie hgt n es)). lia.
Qed.

(** C27.  The union is built call by call; whatever the number of calls of unionOperation, none fails; after enough
    calls it reports that it has finished, and then level [mi] holds, bit for bit, the tree k2_tree would build from all
    the edges of the new tree and of levels 0..mi, the levels below are empty and those above untouched.  The number
    of calls needed is fixed from the start. *)
Theorem C27_union_correct (hgt : N -> nat) n es Ls mi :
  1 <= hgt n -> hgt n <= 256 -> es <> [] -> mi < length Ls -> length Ls <= RSZ -> (N.of_nat (total_bits hgt n es Ls mi) <= CAP)%N ->
  exists ks0 u0 work, us_new (built hgt n es) (length es) (lev hgt n Ls) mi = Ok (ks0, u0) /\ 1 <= s_isz u0 /\
   forall calls, exists ks u, union_calls K4 hgt calls ks0 u0 = Ok (ks, u) /\
     (s_fin u = true <-> work <= calls * s_isz u0) /\
     (s_fin u = true -> length ks = length Ls /\
        (forall i, i < mi -> nth_error ks i = Some None) /\
        nth_error ks mi = Some (Some (built hgt n (es ++ concat (somes (firstn (S mi) Ls))))) /\
        (forall i, mi < i -> nth_error ks i = nth_error (lev hgt n Ls) i)).
Proof.
  intros H1 H256 Hes Hm Hr Hc. set (tn := etrie hgt n es).
  assert (Hes' : 1 <= length es) by (destruct es; [congruence|cbn; lia]).
  assert (Hm' : mi < length (lev hgt n Ls)) by (unfold lev; rewrite map_length; exact Hm).
  destruct (us_new_spec hgt n H1 H256 (built hgt n es) (length es) (lev hgt n Ls) mi tn _ (repr_built _ _ _) Hes' Hm' (lev_repr hgt n Ls mi) Hc (ones_pos hgt n es H1))
    as (ks0 & u0 & E0 & M0 & T0 & I0 & _ & C).
  assert (Ln : length (lev hgt n Ls) = length Ls) by (unfold lev; apply map_length).
  destruct (somes (firstn (S mi) Ls)) as [|e1 ess] eqn:Ee; cbn [map] in C.
  - destruct C as (C1 & (C2 & A & C3 & C4) & C5 & C6). exists ks0, u0, 0. split; [exact E0|]. split; [exact I0|]. intros calls. rewrite fin_calls by auto.
    exists ks0, u0. split; [reflexivity|]. split; [split; [lia|auto]|]. intros _. split; [congruence|]. split; [exact C2|]. split; [|exact C6].
    rewrite C3. f_equal. f_equal. cbn [concat]. rewrite app_nil_r. apply repr_unique. exact C4.
  - destruct C as [-> HU]. exists (lev hgt n Ls), u0, (cnt (hgt n) [tun (hgt n) tn (etrie hgt n e1)] + workl hgt n (tun (hgt n) tn (etrie hgt n e1)) (map (etrie hgt n) ess)).
    split; [exact E0|]. split; [exact I0|]. intros calls.
    assert (Le : length (map (etrie hgt n) ess) <= RSZ).
    { rewrite map_length. assert (X : length (e1 :: ess) <= length (firstn (S mi) Ls)).
      { rewrite <- Ee. clear. generalize (firstn (S mi) Ls) as l. induction l as [|[a|] l IH]; cbn; lia. }
      rewrite firstn_length in X. cbn [length] in X. lia. }
    destruct (calls_spec hgt n H1 H256 calls (lev hgt n Ls) u0 _ _ _ _ HU Le T0 I0) as (ks & u & E & (F1 & F2 & F3 & F4) & C).
    exists ks, u. split; [exact E|]. destruct C as [(C1 & C2 & (C3 & A & C4 & C5))|(C1 & C2)].
    + split; [split; auto|]. intros _. rewrite M0 in *. split; [congruence|]. split; [exact C3|]. split; [|exact F4].
      rewrite C4. f_equal. f_equal. change (tun (hgt n) tn (etrie hgt n e1)) with (tun (hgt n) (etrie hgt n es) (etrie hgt n e1)) in C5.
      rewrite etrie_tun, merge_etrie in C5. cbn [concat]. rewrite app_assoc. apply repr_unique. exact C5.
    + split; [split; [congruence|lia]|congruence].
Qed.

(** How many calls are enough: a quarter of the number of edges of the new tree for every level that holds a tree. *)
Theorem C56_calls (hgt : N -> nat) n es Ls mi calls :
  1 <= hgt n -> hgt n <= 256 -> es <> [] -> mi < length Ls -> length Ls <= RSZ -> (N.of_nat (total_bits hgt n es Ls mi) <= CAP)%N ->
  length (somes (firstn (S mi) Ls)) * length es <= 4 * calls ->
  exists ks0 u0 ks u, us_new (built hgt n es) (length es) (lev hgt n Ls) mi = Ok (ks0, u0) /\
    union_calls K4 hgt calls ks0 u0 = Ok (ks, u) /\ s_fin u = true.
Proof.
  intros H1 H256 Hes Hm Hr Hc H4. set (tn := etrie hgt n es).
  assert (Hes' : 1 <= length es) by (destruct es; [congruence|cbn; lia]).
  assert (Hm' : mi < length (lev hgt n Ls)) by (unfold lev; rewrite map_length; exact Hm).
  pose proof (lev_repr hgt n Ls mi) as LR. pose proof (sizes_trees hgt n _ _ _ _ LR) as SZ. cbn [skipn] in SZ.
  destruct (us_new_spec hgt n H1 H256 (built hgt n es) (length es) (lev hgt n Ls) mi tn _ (repr_built _ _ _) Hes' Hm' LR Hc (ones_pos hgt n es H1))
    as (ks0 & u0 & E0 & M0 & T0 & I0 & I1 & C).
  rewrite SZ in I1. clear SZ LR.
  destruct (somes (firstn (S mi) Ls)) as [|e1 ess'] eqn:Ee; cbn [map] in C.
  - destruct C as (C1 & _). exists ks0, u0. rewrite fin_calls by auto. exists ks0, u0. auto.
  - destruct C as [-> HU]. exists (lev hgt n Ls), u0.
    assert (Le : length (map (etrie hgt n) ess') <= RSZ).
    { rewrite map_length. assert (X : length (e1 :: ess') <= length (firstn (S mi) Ls)).
      { rewrite <- Ee. clear. generalize (firstn (S mi) Ls) as l. induction l as [|[a|] l IH]; cbn; lia. }
      rewrite firstn_length in X. cbn [length] in X. lia. }
    destruct (calls_spec hgt n H1 H256 calls (lev hgt n Ls) u0 _ _ _ _ HU Le T0 I0) as (ks & u & E & F & C).
    exists ks, u. split; [exact E0|]. split; [exact E|]. destruct C as [(C1 & C2 & C3)|(C1 & C2)]; [exact C2|]. exfalso.
    assert (Wt : twf K4 (hgt n) tn) by apply tofl_wf.
    assert (Wf : Forall (twf K4 (hgt n)) (map (etrie hgt n) (e1 :: ess'))).
    { apply Forall_forall. intros x Hx. apply in_map_iff in Hx. destruct Hx as [? [<- _]]. apply tofl_wf. }
    pose proof (work_bound hgt n H1 H256 (map (etrie hgt n) (e1 :: ess')) tn Wt Wf) as B. rewrite map_length in B.
    set (Z := list_sum (map (tsz hgt n) (map (etrie hgt n) (e1 :: ess')))) in *. cbn [map workl] in B.
    change (get_ones (built hgt n es)) with (tsz hgt n tn) in I1. nia.
Qed.

(** C56.  If at most four levels hold a tree, as many calls as the new tree has edges are enough. *)
Theorem C56_in_time_partial (hgt : N -> nat) n es Ls mi :
  1 <= hgt n -> hgt n <= 256 -> es <> [] -> mi < length Ls -> length Ls <= RSZ -> (N.of_nat (total_bits hgt n es Ls mi) <= CAP)%N ->
  length (somes (firstn (S mi) Ls)) <= 4 ->
  exists ks0 u0 ks u, us_new (built hgt n es) (length es) (lev hgt n Ls) mi = Ok (ks0, u0) /\
    union_calls K4 hgt (length es) ks0 u0 = Ok (ks, u) /\ s_fin u = true.
Proof. intros H1 H256 Hes Hm Hr Hc H4. apply C56_calls; auto. nia. Qed.

(** What the tree left at level [mi] answers. *)
Theorem C27_union_answers (hgt : N -> nat) n es Ls mi :
  1 <= hgt n -> (n <= 2 ^ N.of_nat (hgt n))%N -> in_rng n es -> Forall (fun o => forall l, o = Some l -> in_rng n l) Ls ->
  let t := built hgt n (es ++ concat (somes (firstn (S mi) Ls))) in
  (forall x y, (x < n)%N -> (y < n)%N ->
     (badj t x y = true <-> badj (built hgt n es) x y = true \/ exists i l, i <= mi /\ nth_error Ls i = Some (Some l) /\ badj (built hgt n l) x y = true)) /\
  (es <> [] -> exists l, NoDup l /\ (forall x y, (x < n)%N -> (y < n)%N -> (In (x, y) l <-> badj t x y = true)) /\ in_rng n l /\ b_m t = N.of_nat (length l)).
Proof.
  intros H1 Hn Hes HL t.
  assert (HR : in_rng n (concat (somes (firstn (S mi) Ls)))).
  { apply Forall_forall. intros e He. apply in_concat in He. destruct He as [l [Hl He]]. apply In_somes in Hl.
    assert (Hl' : In (Some l) Ls) by (rewrite <- (firstn_skipn (S mi) Ls); apply in_app_iff; auto). rewrite Forall_forall in HL. specialize (HL _ Hl' l eq_refl). unfold in_rng in HL. rewrite Forall_forall in HL. auto. }
  assert (HR2 : in_rng n (es ++ concat (somes (firstn (S mi) Ls)))) by (apply Forall_app; auto).
  split.
  - intros x y Hx Hy. unfold t. rewrite built_adj by auto. rewrite in_app_iff. rewrite built_adj by auto. apply or_iff_compat_l. rewrite in_concat. split.
    + intros [l [Hl He]]. apply In_somes in Hl. apply In_nth_error in Hl. destruct Hl as [i Hi].
      assert (Li : i < length (firstn (S mi) Ls)) by (apply nth_error_Some; intros X; pose proof (eq_trans (eq_sym X) Hi) as Y; discriminate Y). rewrite firstn_length in Li.
      assert (Ei : nth_error Ls i = Some (Some l)).
      { refine (eq_trans _ Hi). symmetry. rewrite <- (firstn_skipn (S mi) Ls) at 2. rewrite nth_error_app1; auto. rewrite firstn_length. lia. }
      exists i, l. split; [lia|]. split; auto. apply built_adj; auto. apply nth_error_In in Ei. rewrite Forall_forall in HL. apply (HL _ Ei). reflexivity.
    + intros (i & l & Li & Ei & Ha). exists l. split.
      * apply In_somes. apply nth_error_In with i. refine (eq_trans _ Ei). rewrite <- (firstn_skipn (S mi) Ls) at 2. rewrite nth_error_app1; auto. rewrite firstn_length.
        assert (i < length Ls) by (apply nth_error_Some; intros X; pose proof (eq_trans (eq_sym X) Ei) as Y; discriminate Y). lia.
      * apply built_adj in Ha; auto. apply nth_error_In in Ei. rewrite Forall_forall in HL. apply (HL _ Ei). reflexivity.
  - intros Hne. set (all := es ++ concat (somes (firstn (S mi) Ls))) in *.
    assert (X : built hgt n (nodup edge_dec all) = t) by (apply built_ext; intros e; apply nodup_In).
    assert (HN : in_rng n (nodup edge_dec all)). { apply Forall_forall. intros e He. apply nodup_In in He. unfold in_rng in HR2. rewrite Forall_forall in HR2. auto. }
    exists (nodup edge_dec all). split; [apply NoDup_nodup|]. split; [|split; [exact HN|]].
    + intros x y Hx Hy. rewrite <- X. rewrite built_adj by auto. reflexivity.
    + rewrite <- X. apply built_total; auto; [|apply NoDup_nodup].
      destruct es as [|e es]; [congruence|]. intros E. assert (In e (nodup edge_dec all)) by (apply nodup_In; left; reflexivity). rewrite E in *. auto.
Qed.

(** ** Concrete cases *)
(** the height for k = 2 in exact arithmetic *)
Definition lg (n : N) : nat := Nat.max 1 (N.to_nat (N.log2_up n)).
Lemma lg_ok n : (n < 2 ^ 32)%N -> 1 <= lg n /\ lg n <= 256 /\ (n <= 2 ^ N.of_nat (lg n))%N.
Proof.
  intros Hn. unfold lg. split; [lia|]. destruct (N.le_gt_cases n 1) as [L|L].
  - rewrite N.log2_up_eqn0 by lia. cbn. lia.
  - pose proof (N.log2_up_spec n L) as [_ S1]. pose proof (N.log2_up_pos n L).
    assert (N.log2_up n <= 32)%N by (rewrite <- (N.log2_up_pow2 32) by lia; apply N.log2_up_le_mono; lia).
    split; [lia|]. rewrite Nat.max_r by lia. rewrite N2Nat.id. exact S1.
Qed.
(** three trees over 8 vertices are merged into level 2, which takes two calls *)
Definition ex_es : list edge := [(0, 1); (3, 4); (7, 7); (6, 6); (4, 0)]%N.
Definition ex_Ls : list (option (list edge)) := [Some [(0, 2); (5, 5)]; None; Some [(7, 6)]; Some [(1, 1)]; None; None; None; None]%N.
Example C27_example : exists ks0 u0 ks u, us_new (built lg 8 ex_es) 5 (lev lg 8 ex_Ls) 2 = Ok (ks0, u0) /\
  union_calls K4 lg 1 ks0 u0 = Ok (ks, u) /\ s_fin u = false /\
  exists ks' u', union_calls K4 lg 2 ks0 u0 = Ok (ks', u') /\ s_fin u' = true /\
    nth_error ks' 2 = Some (Some (built lg 8 [(0, 1); (3, 4); (7, 7); (6, 6); (4, 0); (0, 2); (5, 5); (7, 6)]%N)) /\ nth_error ks' 0 = Some None.
Proof. eexists _, _, _, _. split; [vm_compute; reflexivity|]. split; [vm_compute; reflexivity|]. split; [reflexivity|].
  eexists _, _. split; [vm_compute; reflexivity|]. split; [reflexivity|]. split; vm_compute; reflexivity. Qed.
(** the hypotheses of the theorems hold for it *)
Example C27_example_hyps : 1 <= lg 8 /\ lg 8 <= 256 /\ ex_es <> [] /\ 2 < length ex_Ls /\ length ex_Ls <= RSZ /\
  (N.of_nat (total_bits lg 8 ex_es ex_Ls 2) <= CAP)%N /\ length (somes (firstn 3 ex_Ls)) <= 4 /\ (8 <= 2 ^ N.of_nat (lg 8))%N.
Proof. repeat split; try discriminate; vm_compute; try (repeat constructor); discriminate. Qed.

(** Four levels are the limit: with trees at five levels, as many calls as the new tree has edges are not enough. *)
Definition ex5_es : list edge := map (fun i => let i := N.of_nat i in ((i * 17) mod 1024, (i * 389) mod 1024)%N) (seq 1 60).
Definition ex5_Ls : list (option (list edge)) :=
  map (fun i => let i := N.of_nat i in Some [((i * 17) mod 1024, (i * 389) mod 1024)%N]) (seq 1 5) ++ repeat None 3.
Theorem C56_refuted : exists ks0 u0 ks u, us_new (built lg 1024 ex5_es) (length ex5_es) (lev lg 1024 ex5_Ls) 4 = Ok (ks0, u0) /\
  union_calls K4 lg (length ex5_es) ks0 u0 = Ok (ks, u) /\ s_fin u = false /\ length (somes (firstn 5 ex5_Ls)) = 5.
Proof. eexists _, _, _, _. split; [vm_compute; reflexivity|]. split; [vm_compute; reflexivity|]. split; vm_compute; reflexivity. Qed.
