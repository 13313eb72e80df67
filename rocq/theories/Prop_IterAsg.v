(** * C84: assignment between edge iterators.

    [nexts K k it]: it after k times ++.  operator= does not copy _i ([eit_assign], Iter.v), the index of the tree the iterator is in. *)
From Verif Require Import Base Spec Thresholds Table K2 C0 C0Proof DK DKProof DKHist DKFull Prop_DK Iter IterProof Prop_Iter IterPos Serial DKBisim IterVal IterValProof Prop_IterVal.

(** The sizes of the parts an edge loop goes through, one after the other: the buffer, then the trees of the collection. *)
Definition part_sizes (K : k2impl) (g : dk K) : list nat :=
  c0_size (C0_ g) :: map (fun t => length (kt_edges K t)) (trees_of K (ks g)).

Section A.
Context (K : k2impl) (c : c0) (l : list (option (kt K))) (pre : list edge).
Context (Hl : length l = RS) (Hfull : ks_full K l) (Hpre : length pre = c0_size c) (Hnode : forall i e, nth_error pre i = Some e -> node_at c i = Ok e).
Context (NM : ~ In MAXE (pre ++ ks_edges K l)).
Local Notation W := (pre ++ ks_edges K l).
Local Notation at_ := (IterPos.at_ K true c l pre).
Local Notation ss := (c0_size c :: map (fun t => length (kt_edges K t)) (trees_of K l)).

Lemma sum_parts : list_sum (map (fun t => length (kt_edges K t)) (trees_of K l)) = length (ks_edges K l).
Proof. rewrite edges_trees. induction (trees_of K l) as [|t s IH]; [reflexivity|]. cbn [map list_sum fold_right flat_map]. rewrite app_length, <- IH. reflexivity. Qed.
Lemma part_buf k : k < length pre -> part_of ss k = 0.
Proof. intros H. cbn [part_of]. destruct (Nat.ltb_spec k (c0_size c)); [reflexivity|lia]. Qed.
Lemma part_tree q t d : nth_error l q = Some (Some t) -> d < length (kt_edges K t) ->
  part_of ss (length pre + length (ks_edges K (firstn q l)) + d) = S (length (trees_of K (firstn q l))).
Proof.
  intros N Hd. cbn [part_of]. destruct (Nat.ltb_spec (length pre + length (ks_edges K (firstn q l)) + d) (c0_size c)); [lia|]. f_equal.
  rewrite <- (part_of_at K l q t d N Hd). f_equal. lia.
Qed.
Lemma part_end : part_of ss (length W) = S (length (trees_of K l)).
Proof.
  rewrite app_length. cbn [part_of]. destruct (Nat.ltb_spec (length pre + length (ks_edges K l)) (c0_size c)); [lia|]. f_equal.
  rewrite part_of_all; [apply map_length|]. rewrite sum_parts. lia.
Qed.
Lemma skipn_len_inj {X} (s : list X) i j : i <= length s -> j <= length s -> skipn i s = skipn j s -> i = j.
Proof. intros Hi Hj E. apply (f_equal (@length X)) in E. rewrite !skipn_length in E. lia. Qed.

(** The assigned iterator continues at the right place if and only if the tree it looks for next, from the _i it kept, is the tree it is in. *)
Lemma assign_tree b ib q i t d e r curr dist j : at_ b ib -> ib = mkeit c l e dist curr i -> 
  (Z.of_nat (c0_size c) <= dist)%Z -> scan K (skipn i l) i = Some q -> nth_error l q = Some (Some t) ->
  kt_edges K t = d ++ e :: r -> b = length pre + length (ks_edges K (firstn q l)) + length d ->
  nth_error curr q = Some (e :: r) -> length curr = length l ->
  (forall j, q < j -> nth_error curr j = option_map (tree_begin K) (nth_error l j)) ->
  (forall j u, j < q -> nth_error l j = Some (Some u) -> nth_error curr j = Some []) ->
  (edge_loop K (mkeit c l e dist curr j) (skipn b W) <->
    match scan K (skipn j l) j with Some q' => q' = q | None => S b = length W end).
Proof.
  intros Hb -> D Sc Nq Et Eb Nc Lc A B.
  assert (Hlt : b < length W). { rewrite Eb, app_length, (split_at K l q t Nq), Et, !app_length. cbn. lia. }
  assert (Vb := at_val K true c l pre Hl Hpre b _ Hb Hlt). cbn [ei_ptr] in Vb.
  assert (Ne : eit_at_end K (mkeit c l e dist curr j) = false).
  { unfold eit_at_end. cbn [ei_ptr]. destruct (eeqb e MAXE) eqn:Ee; auto. apply eeqb_eq in Ee. exfalso. apply NM. rewrite <- Ee. eapply nth_error_In; eauto. }
  destruct (scan K (skipn j l) j) as [q'|] eqn:Sj.
  - split.
    + intros V. rewrite (skipn_cut _ _ _ Vb) in V. inversion V as [|it0 it1 r0 A1 A2 A3]; subst. clear V.
      pose proof (scan_at K l j q' Sj) as (Ljq & (t' & Nq') & _).
      destruct (Nat.lt_trichotomy q' q) as [G|[G|G]]; [exfalso|exact G|exfalso].
      * unfold eit_next in A2. cbn [ei_c0 ei_ks ei_dist ei_curr ei_i] in A2. destruct (Z.ltb_spec dist (Z.of_nat (c0_size c))); [lia|]. rewrite Sj in A2.
        unfold get in A2. rewrite (B q' t' G Nq') in A2. cbn [obind] in A2. discriminate.
      * assert (Hne : kt_edges K t' <> []) by (apply Hfull; eapply nth_error_In; eauto). destruct (kt_edges K t') as [|e1 r1] eqn:Et'; [congruence|].
        set (p' := length pre + length (ks_edges K (firstn q' l))).
        assert (Hv : IterPos.at_ K false c l pre p' (mkeit c l e1 dist curr j)).
        { apply (fresh K false c l pre Hl Hpre p' q' t' e1 r1); auto; [intros k Hk; apply A; lia|discriminate]. }
        change (eit_next K (mkeit c l e dist curr j)) with (eit_next K (mkeit c l e1 dist curr j)) in A2.
        assert (Hp' : p' < length W). { unfold p'. rewrite app_length, (split_at K l q' t' Nq'), Et', !app_length. cbn. lia. }
        destruct (at_next K false c l pre Hl Hfull Hpre Hnode p' _ Hv Hp') as (it2 & E2 & H2). rewrite A2 in E2. injection E2 as <-.
        pose proof (at_loop K false c l pre Hl Hfull Hpre Hnode NM _ (S p') it1 (le_n _) H2) as V2.
        pose proof (visits_unique _ _ _ _ _ A3 _ V2) as U. change (skipn (S (length pre + length (ks_edges K (firstn q l)) + length d)) W = skipn (S p') W) in U. apply skipn_len_inj in U; [|lia|lia].
        assert (p' > length pre + length (ks_edges K (firstn q l)) + length d).
        { unfold p'. rewrite (split_at K (firstn q' l) q t).
          - rewrite firstn_firstn, Nat.min_l by lia. rewrite Et, !app_length. cbn. lia.
          - rewrite nth_error_firstn. rewrite (proj2 (Nat.ltb_lt _ _) G). exact Nq. }
        lia.
    + intros ->. apply (at_loop K true c l pre Hl Hfull Hpre Hnode NM (length W - b)); auto. apply (at_tree K true c l pre b q j t d e r curr dist); auto.
  - assert (En : eit_next K (mkeit c l e dist curr j) = Ok (mkeit c l MAXE dist curr (Nat.max RS j))).
    { unfold eit_next. cbn [ei_c0 ei_ks ei_dist ei_curr ei_i]. destruct (Z.ltb_spec dist (Z.of_nat (c0_size c))); [lia|]. rewrite Sj. reflexivity. }
    rewrite (skipn_cut _ _ _ Vb). split.
    + intros V. inversion V as [|it0 it1 r0 A1 A2 A3 EE ER]. rewrite En in A2. injection A2 as <-.
      assert (V0 : edge_loop K (mkeit c l MAXE dist curr (Nat.max RS j)) []) by (apply edge_end; reflexivity).
      pose proof (visits_unique _ _ _ _ _ A3 _ V0) as U. change (skipn (S b) W = []) in U. apply (f_equal (@length edge)) in U. rewrite skipn_length in U. cbn [length] in U. lia.
    + intros E. rewrite E, skipn_all. apply (visits_cons _ _ _ _ (mkeit c l MAXE dist curr (Nat.max RS j))); auto. apply edge_end. reflexivity.
Qed.

Lemma assign_at a b ia ib : at_ a ia -> at_ b ib ->
  (edge_loop K (eit_assign K ia ib) (skipn b W) <->
   b = length W \/ part_of ss b = 0 \/ part_of ss a = part_of ss b \/ (part_of ss a = 0 /\ part_of ss b = 1) \/ (a = length W /\ S b = length W)).
Proof.
  intros Ha Hb. inversion Hb as [b0 e Ne|b0 q i t d e r curr dist D Sc Nq Et Ek Nc Lc A B|b0 i curr dist Ek Sc D]; subst b0 ib.
  - unfold eit_assign. cbn [ei_c0 ei_ks ei_ptr ei_dist ei_curr]. assert (Hlt : b < length pre) by (apply nth_error_Some; congruence).
    split; [intros _; right; left; apply part_buf; auto|]. intros _.
    pose proof (ec0_loop K c l pre Hl Hfull Hpre Hnode (c0_size c - b) b e (ei_i ia) ltac:(lia) Ne) as V.
    rewrite before_max_id in V; [|intros X; apply NM; apply in_app_iff in X; apply in_app_iff; destruct X as [X|X]; [left; rewrite <- (firstn_skipn b pre); apply in_app_iff; auto|auto]].
    rewrite skipn_app. replace (b - length pre) with 0 by lia. exact V.
  - unfold eit_assign. cbn [ei_c0 ei_ks ei_ptr ei_dist ei_curr].
    rewrite (assign_tree b _ q i t d e r curr dist (ei_i ia) Hb eq_refl D Sc Nq Et Ek Nc Lc A (B eq_refl)).
    assert (Hlt : b < length W). { rewrite Ek, app_length, (split_at K l q t Nq), Et, !app_length. cbn. lia. }
    assert (Pb : part_of ss b = S (length (trees_of K (firstn q l)))). { rewrite Ek. apply (part_tree q t); auto. rewrite Et, app_length. cbn. lia. }
    inversion Ha as [a0 e1 Ne1|a0 q1 i1 t1 d1 e1 r1 curr1 dist1 D1 Sc1 Nq1 Et1 Ek1 Nc1 Lc1 A1 B1|a0 i1 curr1 dist1 Ek1 Sc1 D1]; subst a0 ia; cbn [ei_i].
    + assert (Ka : a < length pre) by (apply nth_error_Some; congruence). rewrite (part_buf a Ka), Pb.
      change (skipn 0 l) with l. destruct (scan K l 0) as [q'|] eqn:S0.
      * pose proof (scan_at K l 0 q' S0) as (_ & (t' & Nq') & Nn). split.
        -- intros ->. right; right; right; left. split; auto. f_equal.
           assert (G : forall m, m <= q -> length (trees_of K (firstn m l)) = 0).
           { induction m as [|m IH]; intros Hm; [reflexivity|]. rewrite (firstn_S _ _ None) by (apply Nn; lia). unfold trees_of. rewrite flat_map_app. cbn. rewrite app_nil_r. apply IH. lia. }
           apply G. lia.
        -- intros [X|[X|[X|[[_ X]|[X _]]]]]; try lia.
           ++ destruct (Nat.lt_trichotomy q' q) as [G|[G|G]]; auto.
              ** pose proof (trees_lt K l q' q t' G Nq'). lia.
              ** rewrite (Nn q) in Nq by lia. discriminate.
      * exfalso. pose proof (scan_end K l 0 S0 q t Nq). lia.
    + rewrite Sc1. assert (Pa : part_of ss a = S (length (trees_of K (firstn q1 l)))). { rewrite Ek1. apply (part_tree q1 t1); auto. rewrite Et1, app_length. cbn. lia. }
      rewrite Pa, Pb. assert (Ka : a < length W). { rewrite Ek1, app_length, (split_at K l q1 t1 Nq1), Et1, !app_length. cbn. lia. }
      split; [intros ->; auto|]. intros [X|[X|[X|[[X _]|[X _]]]]]; try lia.
      destruct (Nat.lt_trichotomy q1 q) as [G|[G|G]]; auto; [pose proof (trees_lt K l q1 q t1 G Nq1)|pose proof (trees_lt K l q q1 t G Nq)]; lia.
    + rewrite Sc1, Ek1, part_end, Pb. pose proof (trees_all K l q t Nq). split; [auto 6|]. intros [X|[X|[X|[[X _]|[_ X]]]]]; lia.
  - unfold eit_assign. cbn [ei_c0 ei_ks ei_ptr ei_dist ei_curr]. split; auto. intros _. rewrite Ek, skipn_all. apply edge_end. reflexivity.
Qed.
End A.

(** The positions an edge iterator goes through. *)
Lemma begin_at K (c : c0) (g : dk K) pre : nv g <> 0%N -> length (ks g) = RS -> ks_full K (ks g) -> length pre = c0_size (C0_ g) ->
  (forall i e, nth_error pre i = Some e -> node_at (C0_ g) i = Ok e) ->
  exists it, dk_edge_begin K g 0 = Ok it /\ IterPos.at_ K true (C0_ g) (ks g) pre 0 it.
Proof.
  intros Hnv Hl Hfull Hpre Hnode. unfold dk_edge_begin, eit_new. destruct (N.eqb_spec (nv g) 0) as [E|_]; [lia|].
  destruct (Nat.ltb_spec 0 (c0_size (C0_ g))) as [Hpos|Hz].
  - destruct (nth_error pre 0) as [e|] eqn:E0; [|apply nth_error_None in E0; lia]. rewrite (Hnode _ _ E0). cbn [obind ei_c0 ei_ks ei_ptr ei_dist ei_curr].
    eexists. split; [reflexivity|]. change 0%Z with (Z.of_nat 0). apply at_buf. exact E0.
  - assert (Hp0 : length pre = 0) by lia. destruct (scan K (ks g) 0) as [q|] eqn:Sc.
    + pose proof (scan_at K (ks g) 0 q Sc) as (_ & (t & Nq) & Nn). assert (Hne : kt_edges K t <> []) by (apply Hfull; eapply nth_error_In; eauto).
      destruct (kt_edges K t) as [|e' r] eqn:Et; [congruence|]. unfold tree_deref, get. rewrite curr_nth, Nq. cbn [option_map tree_begin obind]. rewrite Et.
      cbn [obind ei_c0 ei_ks ei_ptr ei_dist ei_curr]. eexists. split; [reflexivity|].
      apply (fresh K true (C0_ g) (ks g) pre Hl Hpre 0 q t e' r); auto; try lia.
      * rewrite (gap K (ks g) 0 q) by (try lia; intros; apply Nn; lia). cbn. lia.
      * apply map_length.
      * intros j _. apply curr_nth.
      * intros _ j u Hj Nj. rewrite (Nn j) in Nj by lia. discriminate.
    + cbn [obind ei_c0 ei_ks ei_ptr ei_dist ei_curr]. eexists. split; [reflexivity|]. pose proof (scan_spec K (ks g) 0) as Q. rewrite Sc in Q.
      apply at_end; [rewrite Q, app_nil_r; lia|exact Sc|right; repeat split; auto; lia].
Qed.
Lemma nexts_at K c l pre : length l = RS -> ks_full K l -> length pre = c0_size c ->
  (forall i e, nth_error pre i = Some e -> node_at c i = Ok e) ->
  forall m k it, IterPos.at_ K true c l pre k it -> exists it', nexts K m it = Ok it' /\ IterPos.at_ K true c l pre (Nat.min (k + m) (length (pre ++ ks_edges K l))) it'.
Proof.
  intros Hl Hfull Hpre Hnode. induction m as [|m IH]; intros k it H; pose proof (at_le K true c l pre Hl Hpre k it H) as Hle; cbn [nexts].
  - exists it. split; auto. rewrite Nat.add_0_r, Nat.min_l; auto.
  - destruct (Nat.eq_dec k (length (pre ++ ks_edges K l))) as [->|Nk].
    + destruct (end_next K true c l pre Hl Hfull Hpre it H) as (it1 & E1 & H1). rewrite E1. cbn [obind]. destruct (IH _ _ H1) as (it2 & E2 & H2).
      exists it2. split; auto. rewrite Nat.min_r in * by lia. exact H2.
    + destruct (at_next K true c l pre Hl Hfull Hpre Hnode k it H ltac:(lia)) as (it1 & E1 & H1). rewrite E1. cbn [obind]. destruct (IH _ _ H1) as (it2 & E2 & H2).
      exists it2. split; auto. replace (k + S m) with (S k + m) by lia. exact H2.
Qed.

(** The facts about a reached graph the theorems below need. *)
Lemma positions T K (L : k2laws K) n h g : th_real T -> (2 <= n)%N -> reached T K n h g -> ~ In (Add (9999999, 9999999)%N) h ->
  exists pre, length (ks g) = RS /\ ks_full K (ks g) /\ length pre = c0_size (C0_ g) /\ (forall i e, nth_error pre i = Some e -> node_at (C0_ g) i = Ok e) /\
    ~ In MAXE (pre ++ ks_edges K (ks g)) /\ (exists it, dk_edge_begin K g 0 = Ok it /\ IterPos.at_ K true (C0_ g) (ks g) pre 0 it).
Proof.
  intros HT Hn [HF E] HM. destruct (hist_full T HT K L n Hn h g HF E) as [sl [R Hfull]].
  pose proof (rl_inv _ _ _ _ _ _ R) as I. pose proof (inv_size _ _ (dv_c0 _ _ _ _ _ I)) as Hsz. pose proof (dead_live sl) as DL.
  set (pre := firstn (c0_size (C0_ g)) (map fst sl)).
  assert (Hpl : length pre = c0_size (C0_ g)) by (unfold pre; rewrite firstn_length, map_length; lia).
  assert (Hnode : forall i e, nth_error pre i = Some e -> node_at (C0_ g) i = Ok e).
  { intros i e He. unfold pre in He. rewrite nth_error_firstn in He. destruct (i <? c0_size (C0_ g)); [|discriminate]. rewrite nth_error_map in He.
    destruct (nth_error sl i) as [[f b]|] eqn:Ef; [|discriminate]. cbn in He. injection He as <-. eapply inv_node_at; [apply I|eauto]. }
  exists pre. split; [apply I|]. split; [exact Hfull|]. split; [exact Hpl|]. split; [exact Hnode|]. split.
  - intros X. apply HM. apply in_app_iff in X. destruct X as [X|X].
    + apply (hist_nodes T K L n Hn h g sl HF E I). rewrite <- (firstn_skipn (c0_size (C0_ g)) (map fst sl)). apply in_app_iff; auto.
    + apply present_added, espec_present, (rl_sound _ _ _ _ _ _ R). apply in_app_iff; auto.
  - apply (begin_at K (C0_ g)); auto; [|apply I]. rewrite (dv_nv _ _ _ _ _ I). lia.
Qed.

(** C84: ++ never fails, also not at the end, where it changes nothing: k times ++ from edge_begin() leaves the iterator at the k-th edge of the loop, or at
    the end. *)
Theorem C84_next_total : forall T K (L : k2laws K) n h g,
  th_real T -> (2 <= n)%N -> reached T K n h g -> ~ In (Add (9999999, 9999999)%N) h ->
  exists l it, dk_edge_begin K g 0 = Ok it /\ edge_loop K it l /\
    forall k, exists it', nexts K k it = Ok it' /\ edge_loop K it' (skipn k l).
Proof.
  intros T K L n h g HT Hn R HM. destruct (positions T K L n h g HT Hn R HM) as (pre & Hl & Hfull & Hpre & Hnode & NM & it & Eit & H0).
  exists (pre ++ ks_edges K (ks g)), it. split; auto. split; [apply (at_loop K true _ _ pre Hl Hfull Hpre Hnode NM _ 0 it (le_n _) H0)|].
  intros k. destruct (nexts_at K _ _ pre Hl Hfull Hpre Hnode k 0 it H0) as (it' & E & H). exists it'. split; auto.
  pose proof (at_loop K true _ _ pre Hl Hfull Hpre Hnode NM _ _ it' (le_n _) H) as V. cbn [plus] in V.
  destruct (Nat.min_spec k (length (pre ++ ks_edges K (ks g)))) as [[_ Em]|[X Em]]; rewrite Em in V; auto.
  rewrite skipn_all in V. rewrite skipn_all2; auto.
Qed.

(** C84: assignment, exactly.  An iterator that made a steps is assigned one that made b.  It then goes on as the other one would if and only if the latter
    is at the end or in the buffer, or both are in the same part, or the first is in the buffer and the other in the first tree, or the first is at
    the end and the other at the last edge. *)
Theorem C84_assign_exact : forall T K (L : k2laws K) n h g,
  th_real T -> (2 <= n)%N -> reached T K n h g -> ~ In (Add (9999999, 9999999)%N) h ->
  exists l it, dk_edge_begin K g 0 = Ok it /\ edge_loop K it l /\ list_sum (part_sizes K g) = length l /\
    forall a b, a <= length l -> b <= length l -> exists ia ib, nexts K a it = Ok ia /\ nexts K b it = Ok ib /\ edge_loop K ib (skipn b l) /\
      let part := part_of (part_sizes K g) in
      (edge_loop K (eit_assign K ia ib) (skipn b l) <->
       b = length l \/ part b = 0 \/ part a = part b \/ (part a = 0 /\ part b = 1) \/ (a = length l /\ S b = length l)).
Proof.
  intros T K L n h g HT Hn R HM. destruct (positions T K L n h g HT Hn R HM) as (pre & Hl & Hfull & Hpre & Hnode & NM & it & Eit & H0).
  exists (pre ++ ks_edges K (ks g)), it. split; auto. split; [apply (at_loop K true _ _ pre Hl Hfull Hpre Hnode NM _ 0 it (le_n _) H0)|]. split.
  { unfold part_sizes. cbn [list_sum fold_right]. fold (list_sum (map (fun t => length (kt_edges K t)) (trees_of K (ks g)))).
    rewrite (sum_parts K (ks g)), app_length, Hpre. reflexivity. }
  intros a b Ha Hb. destruct (nexts_at K _ _ pre Hl Hfull Hpre Hnode a 0 it H0) as (ia & Ea & HA). destruct (nexts_at K _ _ pre Hl Hfull Hpre Hnode b 0 it H0) as (ib & Eb & HB).
  cbn [plus] in HA, HB. rewrite Nat.min_l in HA, HB by auto. exists ia, ib. split; auto. split; auto. split; [apply (at_loop K true _ _ pre Hl Hfull Hpre Hnode NM _ _ _ (le_n _) HB)|].
  apply (assign_at K (C0_ g) (ks g) pre Hl Hfull Hpre Hnode NM); auto.
Qed.
(** C84: with no more than one tree assignment is right unless the iterator assigned to is at the end. *)
Theorem C84_assign_one_tree : forall T K (L : k2laws K) n h g,
  th_real T -> (2 <= n)%N -> reached T K n h g -> ~ In (Add (9999999, 9999999)%N) h -> length (trees_of K (ks g)) <= 1 ->
  exists l it, dk_edge_begin K g 0 = Ok it /\ edge_loop K it l /\
    forall a b, a < length l -> b <= length l -> exists ia ib, nexts K a it = Ok ia /\ nexts K b it = Ok ib /\ edge_loop K (eit_assign K ia ib) (skipn b l).
Proof.
  intros T K L n h g HT Hn R HM H1. destruct (C84_assign_exact T K L n h g HT Hn R HM) as (l & it & E & V & Sz & A). exists l, it. split; auto. split; auto.
  intros a b Ha Hb. destruct (A a b ltac:(lia) Hb) as (ia & ib & Ea & Eb & _ & X). exists ia, ib. split; auto. split; auto. apply X. clear - Ha Hb Sz H1.
  destruct (Nat.eq_dec b (length l)) as [|Nb]; [auto|right]. revert Sz. unfold part_sizes. destruct (trees_of K (ks g)) as [|t [|? ?]]; cbn [length] in H1; [| |lia]; cbn [map list_sum fold_right part_of];
  intros Sz; destruct (Nat.ltb_spec a (c0_size (C0_ g))), (Nat.ltb_spec b (c0_size (C0_ g))); auto; try lia;
    repeat match goal with |- context [?x <? ?y] => destruct (Nat.ltb_spec x y) end; auto; lia.
Qed.

(** C50, exactly: a program advances the graph's own iterator a times, through the reference edge_begin() returned, and calls edge_begin() again.  The new
    loop sees everything if and only if there is nothing to see, an edge is buffered, the old iterator is still in the first tree, or there is one edge
    and the old iterator is past it. *)
Theorem C50_begin_again_exact : forall T K (L : k2laws K) n h g,
  th_real T -> (2 <= n)%N -> reached T K n h g -> ~ In (Add (9999999, 9999999)%N) h ->
  exists l it, dk_edge_begin K g 0 = Ok it /\ edge_loop K it l /\
    forall a, a <= length l -> exists ia it2, nexts K a it = Ok ia /\ dk_edge_begin K g (ei_i ia) = Ok it2 /\
      let part := part_of (part_sizes K g) in
      (edge_loop K it2 l <-> l = [] \/ 0 < c0_size (C0_ g) \/ part a = part 0 \/ (a = 1 /\ length l = 1)).
Proof.
  intros T K L n h g HT Hn R HM. destruct (C84_assign_exact T K L n h g HT Hn R HM) as (l & it & E & V & Sz & A). exists l, it. split; auto. split; auto.
  intros a Ha. destruct (A a 0 Ha ltac:(lia)) as (ia & ib & Ea & Eb & _ & X). cbn [nexts] in Eb. injection Eb as <-. cbn [skipn] in X.
  exists ia, (eit_assign K ia it). split; auto. split.
  - unfold dk_edge_begin in *. destruct (eit_new K g); cbn [obind] in *; [|discriminate]. injection E as <-. reflexivity.
  - cbv zeta in X |- *. rewrite X. clear X. assert (P0 : part_of (part_sizes K g) 0 = 0 <-> 0 < c0_size (C0_ g)).
    { unfold part_sizes. cbn [part_of]. destruct (Nat.ltb_spec 0 (c0_size (C0_ g))); split; intros; auto; try discriminate; lia. }
    split.
    + intros [X|[X|[X|[[X1 X2]|[X1 X2]]]]].
      * left. destruct l; [auto|discriminate].
      * right; left. apply P0. exact X.
      * auto.
      * right; left. destruct (Nat.eq_dec (c0_size (C0_ g)) 0) as [Z|]; [|lia]. exfalso. revert X1. unfold part_sizes. cbn [part_of]. rewrite Z. cbn. discriminate.
      * right; right; right. lia.
    + intros [-> |[X|[X|[X1 X2]]]]; auto.
      * right; left. apply P0. exact X.
      * right; right; right; right. lia.
Qed.

(** C84: the specification of assignment is not met: on this graph, with a buffered edge and two trees, an iterator in the first tree that is assigned one
    in the second, or the other way round, does not go on as the latter; the same happens to one at the end that is assigned one in a tree. *)
Definition w84 : list op := map Add [(0, 1); (0, 2); (0, 3); (0, 4); (0, 5); (0, 6); (0, 7)]%N.
Lemma sizes_same n K1 L1 K2 L2 (g : dk K1) (g' : dk K2) : gsim n K1 L1 K2 L2 g g' -> part_sizes K1 g = part_sizes K2 g'.
Proof.
  intros H. unfold part_sizes. rewrite (gs_c0 _ _ _ _ _ _ _ H). f_equal. pose proof (gs_ks _ _ _ _ _ _ _ H) as S.
  induction S as [|[t|] [u|] l l' Ho Hl IH]; cbn in *; try tauto; auto. f_equal; auto. destruct Ho as [H1 H2 H3 _]. apply len_same; auto; eapply law_edges_nodup; eauto.
Qed.
Lemma w84_sizes T K (L : k2laws K) : th_real T -> adjf_is_query L -> exists g, reached T K 8 w84 g /\ part_sizes K g = [1; 2; 4].
Proof.
  intros HT Hq. assert (HF : Forall (op_in_range 8) w84) by ranges. pose proof (transfer T K L 8 w84 Hq ltac:(lia) HF) as HS.
  assert (HW : match dk_hist T K2Ref 8 w84 with Done g => part_sizes K2Ref g = [1; 2; 4] | _ => False end) by (rewrite <- (tabled_eq T HT); vm_compute; reflexivity).
  destruct (dk_hist T K2Ref 8 w84) as [gr|gr|]; try tauto. destruct (dk_hist T K 8 w84) as [g|g|] eqn:E; try tauto. exists g. split; [split; auto|].
  rewrite (sizes_same _ _ _ _ _ _ _ HS). exact HW.
Qed.
Lemma w84_max : ~ In (Add (9999999, 9999999)%N) w84.
Proof. cbn. intuition discriminate. Qed.
Theorem C84_assign_refuted : forall T K (L : k2laws K), th_real T -> adjf_is_query L ->
  exists n h g l it, reached T K n h g /\ dk_edge_begin K g 0 = Ok it /\ edge_loop K it l /\
    exists a b ia ib ie, nexts K a it = Ok ia /\ nexts K b it = Ok ib /\ nexts K (length l) it = Ok ie /\ edge_loop K ia (skipn a l) /\ edge_loop K ib (skipn b l) /\
      ~ edge_loop K (eit_assign K ia ib) (skipn b l) /\ ~ edge_loop K (eit_assign K ib ia) (skipn a l) /\ ~ edge_loop K (eit_assign K ie ib) (skipn b l).
Proof.
  intros T K L HT Hq. destruct (w84_sizes T K L HT Hq) as (g & R & Sz). pose proof w84_max as HM.
  destruct (C84_assign_exact T K L 8 w84 g HT ltac:(lia) R HM) as (l & it & E & V & Hlen & A). rewrite Sz in Hlen, A. cbn in Hlen.
  exists 8%N, w84, g, l, it. split; auto. split; auto. split; auto.
  destruct (A 1 3 ltac:(lia) ltac:(lia)) as (ia & ib & Ea & Eb & Vb & X1). destruct (A 3 1 ltac:(lia) ltac:(lia)) as (ib' & ia' & Eb' & Ea' & Va & X2).
  destruct (A (length l) 3 ltac:(lia) ltac:(lia)) as (ie & ib2 & Ee & Eb2 & _ & X3). cbv zeta in X1, X2, X3. rewrite <- Hlen in X1, X2, X3, Ee. cbn in X1, X2, X3.
  rewrite Eb in Eb', Eb2. injection Eb' as <-. injection Eb2 as <-. rewrite Ea in Ea'. injection Ea' as <-.
  exists 1, 3, ia, ib, ie. repeat split; auto; [rewrite <- Hlen; auto| | |]; intros Y; [apply X1 in Y|apply X2 in Y|apply X3 in Y]; lia.
Qed.
(** In particular C50 fails on a graph with an empty buffer and two trees. *)
Example C50_exact_example : exists g, reached th_exact K2Ref 8 (firstn 6 w84) g /\ part_sizes K2Ref g = [0; 2; 4] /\
  part_of (part_sizes K2Ref g) 1 = part_of (part_sizes K2Ref g) 0 /\ part_of (part_sizes K2Ref g) 2 <> part_of (part_sizes K2Ref g) 0.
Proof.
  unfold reached. rewrite <- (tabled_eq th_exact th_real_inhabited). eexists. split; [split; [ranges|vm_compute; reflexivity]|]. split; [vm_compute; reflexivity|].
  split; vm_compute; [reflexivity|discriminate].
Qed.

(** C84: the value of it++ is not what it was before: a program that reads *it++ at the start uses the second edge, not the first. *)
Theorem C84_post_refuted : forall T K (L : k2laws K) n h g, th_real T -> (2 <= n)%N -> reached T K n h g ->
  exists l it, dk_edge_begin K g 0 = Ok it /\ edge_loop K it l /\
    forall e1 e2 r, l = e1 :: e2 :: r ->
      (exists E, edge_prog K g [VBegin 1 tt; VGet 1] = Ok (E, [e1])) /\ exists E, edge_prog K g [VBegin 1 tt; VPost 1] = Ok (E, [e2]).
Proof.
  intros T K L n h g HT Hn R. destruct (C84_edges_partial T K L n h g HT Hn R) as (l & it & E & V & A). exists l, it. split; auto. split; auto. intros e1 e2 r ->. split.
  - destruct (A [VBegin 1 tt; VGet 1] _ _ ltac:(repeat constructor) eq_refl) as (E1 & H & _). exists E1. exact H.
  - destruct (A [VBegin 1 tt; VPost 1] _ _ ltac:(repeat constructor; discriminate) eq_refl) as (E1 & H & _). exists E1. exact H.
Qed.

(** The hypotheses are met: two copies of one iterator, advanced separately, in the graph above. *)
Example C84_example : ~ In (Add (9999999, 9999999)%N) w84 /\ exists g, reached th_exact K2Ref 8 w84 g /\ length (trees_of K2Ref (ks g)) = 2 /\
  exists E, edge_prog K2Ref g [VBegin 1 tt; VNext 1; VCopy 2 1; VNext 1; VNext 1; VGet 1; VGet 2; VBegin 3 tt; VGet 3; VPost 2; VGet 2]
              = Ok (E, [(0, 3); (0, 5); (0, 7); (0, 6); (0, 6)]%N).
Proof.
  split; [exact w84_max|]. unfold reached. rewrite <- (tabled_eq th_exact th_real_inhabited). eexists. split; [split; [ranges|vm_compute; reflexivity]|].
  split; [vm_compute; reflexivity|]. eexists. vm_compute. reflexivity.
Qed.
(** With one tree assignment works: four edges, one of them buffered. *)
Example C84_one_tree_example : exists g, reached th_exact K2Ref 8 (firstn 3 w84) g /\ length (trees_of K2Ref (ks g)) = 1 /\ part_sizes K2Ref g = [1; 2] /\
  exists E, edge_prog K2Ref g [VBegin 1 tt; VNext 1; VBegin 2 tt; VAssign 2 1; VNext 2; VGet 2; VGet 1; VAssign 1 2; VGet 1]
              = Ok (E, [(0, 2); (0, 1); (0, 2)]%N).
Proof.
  unfold reached. rewrite <- (tabled_eq th_exact th_real_inhabited). eexists. split; [split; [ranges|vm_compute; reflexivity]|].
  split; [vm_compute; reflexivity|]. split; [vm_compute; reflexivity|]. eexists. vm_compute. reflexivity.
Qed.
(** The assignment that goes wrong: the iterator at the end is assigned one at the fourth edge, and stops after that edge. *)
Example C84_lost_example : exists g E, reached th_exact K2Ref 8 w84 g /\
  edge_prog K2Ref g ([VBegin 1 tt; VNext 1; VNext 1; VNext 1; VCopy 2 1] ++ repeat (VNext 2) 4 ++ [VAssign 2 1; VGet 1; VGet 2; VNext 1; VNext 2; VGet 1; VGet 2])
    = Ok (E, [(0, 3); (0, 3); (0, 4); MAXE]%N).
Proof.
  unfold reached. rewrite <- (tabled_eq th_exact th_real_inhabited). do 2 eexists. split; [split; [ranges|vm_compute; reflexivity]|]. vm_compute. reflexivity.
Qed.
