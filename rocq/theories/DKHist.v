(** * DKHist: whole histories of DKtree calls, by induction over the history. *)
From Verif Require Import Base Spec Thresholds K2 C0 C0Proof DK DKProof.

Lemma len_remove (l : list edge) e : NoDup l -> In e l ->
  length l = S (length (filter (fun f => negb (eeqb e f)) l)).
Proof.
  induction l as [|a l IH]; intros Hnd Hin; [destruct Hin|]. inversion Hnd as [|? ? Ha Hl]; subst.
  cbn [filter]. destruct (eeqb e a) eqn:E; cbn [negb].
  - apply eeqb_eq in E; subst a. cbn [length]. f_equal.
    rewrite filter_all; auto. intros b Hb. apply negb_true_iff, eeqb_neq. intros <-; auto.
  - apply eeqb_neq in E. destruct Hin as [<-|Hin]; [congruence|]. cbn [length]. rewrite <- IH; auto.
Qed.
Lemma len_same (a b : list edge) : NoDup a -> NoDup b -> (forall e, In e a <-> In e b) -> length a = length b.
Proof. intros Ha Hb H. apply Permutation_length, NoDup_Permutation; auto. Qed.
Lemma len_add (a b : list edge) e : NoDup a -> NoDup b -> ~ In e a ->
  (forall f, In f b <-> In f a \/ f = e) -> length b = S (length a).
Proof.
  intros Ha Hb He H. rewrite (len_same b (e :: a)); auto.
  - constructor; auto.
  - intros f. rewrite H. cbn. intuition.
Qed.
Lemma len_del (a b : list edge) e : NoDup a -> NoDup b -> In e a ->
  (forall f, In f b <-> In f a /\ f <> e) -> length a = S (length b).
Proof.
  intros Ha Hb He H. rewrite (len_remove a e) by auto. f_equal. apply len_same; auto.
  - apply NoDup_filter; auto.
  - intros f. rewrite filter_In, negb_true_iff, eeqb_neq, H. intuition.
Qed.

Lemma u64_dec_pos a : (0 < a)%N -> u64_dec a = (a - 1)%N.
Proof. intros H. unfold u64_dec. destruct (N.eqb_spec a 0); lia. Qed.

(** Number of deletions in a history. *)
Definition dels (h : list op) : N := N.of_nat (length (filter (fun o => match o with Del _ => true | _ => false end) h)).

Lemma dels_app a b : dels (a ++ b) = (dels a + dels b)%N.
Proof. unfold dels. rewrite filter_app, app_length. lia. Qed.

Section DKHist.
Context (T : thresholds) (K : k2impl) (L : k2laws K) (n : N) (Hn : (2 <= n)%N).
Local Notation ktree := (kt K).
Local Notation dk := (dk K).
Local Notation dk_inv := (dk_inv K L n).
Local Notation dk_all := (dk_all K).

(** ** Completing histories with deletions *)
Record rel (g : dk) (sl : slots) (S : list edge) : Prop := {
  rl_inv : dk_inv g sl;
  rl_sound : forall e, In e (dk_all g sl) -> In e S;
  rl_compl : forall e, In e S -> e <> (1, 1)%N -> In e (dk_all g sl)
}.

Lemma rel_step g sl S o g' : rel g sl S -> op_in_range n o -> dk_op T K g o = Done g' ->
  exists sl', rel g' sl' (espec_step S o).
Proof.
  intros [H1 H2 H3] Hr E. destruct o as [[x y]|[x y]]; cbn in E.
  - pose proof (dk_add_spec T K L n Hn g sl x y H1 Hr) as HA. rewrite E in HA.
    destruct HA as [sl' [A1 [A2 _]]]. exists sl'. constructor; auto.
    + intros e He. apply espec_step_In. apply A2 in He. destruct He; auto.
    + intros e He Hne. apply espec_step_In in He. apply A2. destruct He as [->|He]; auto.
  - pose proof (dk_del_spec T K L n Hn g sl x y H1 Hr) as HD. rewrite E in HD.
    destruct HD as [sl' [rb [A1 [A2 _]]]]. exists sl'. constructor; auto.
    + intros e He. apply espec_step_In. apply A2 in He. destruct He as [G1 [G2 _]]; auto.
    + intros e He Hne. apply espec_step_In in He. apply A2. destruct He; auto.
Qed.

Lemma rel_ops h : forall g sl S g', rel g sl S -> Forall (op_in_range n) h -> dk_ops T K g h = Done g' ->
  exists sl', rel g' sl' (fold_left espec_step h S).
Proof.
  induction h as [|o h IH]; intros g sl S g' H HF E; cbn in *.
  - inversion E; subst; eauto.
  - inversion HF as [|? ? Ho Hh]; subst.
    destruct (dk_op T K g o) as [g1|g1|] eqn:Eo; try discriminate.
    destruct (rel_step g sl S o g1 H Ho Eo) as [sl1 H1]. apply (IH g1 sl1); auto.
Qed.

Lemma rel_new g : dk_new T K n = Ok g -> rel g [] [].
Proof.
  intros E. destruct (dk_new_inv T K L n Hn g E) as [H [_ [_ Hk]]]. constructor; auto.
  - intros e. unfold DKProof.dk_all. rewrite Hk. cbn. auto.
  - intros e [].
Qed.

Lemma hist_rel h g : Forall (op_in_range n) h -> dk_hist T K n h = Done g -> exists sl, rel g sl (espec h).
Proof.
  intros HF E. unfold dk_hist in E. destruct (dk_new T K n) as [g0|] eqn:E0; cbn in E; [|discriminate].
  apply (rel_ops h g0 [] []); auto. apply rel_new; auto.
Qed.

(** ** Counting *)
Lemma cnt_step g sl o g' d : adjf_is_query L -> dk_inv g sl -> op_in_range n o -> dk_op T K g o = Done g' ->
  nt g = (N.of_nat (length (dk_all g sl)) + d)%N ->
  exists sl' d', dk_inv g' sl' /\
    (forall e, In e (dk_all g' sl') -> In e (dk_all g sl) \/ o = Add e) /\
    (forall e, o <> Del e -> (In e (dk_all g sl) \/ o = Add e) -> e <> (1, 1)%N -> In e (dk_all g' sl')) /\
    (forall e, o = Del e -> ~ In e (dk_all g' sl')) /\
    nt g' = (N.of_nat (length (dk_all g' sl')) + d')%N /\ (d <= d' <= d + dels [o])%N.
Proof.
  intros Hq H1 Hr E Hnt. pose proof (dk_all_nodup K L n g sl H1) as Hnd.
  destruct o as [[x y]|[x y]]; cbn [dk_op] in E.
  - pose proof (dk_add_spec T K L n Hn g sl x y H1 Hr) as HA. rewrite E in HA.
    destruct HA as [sl' [A1 [A2 [A3 [A4 _]]]]]. pose proof (dk_all_nodup K L n g' sl' A1) as Hnd'.
    assert (Hkn : kn_all K L g sl (x, y) <-> In (x, y) (dk_all g sl)).
    { unfold kn_all, DKProof.dk_all. rewrite in_app_iff. split; intros [G|G]; auto; right.
      - destruct G as [t [G1 G2]]. pose proof (dv_wf _ _ _ _ _ H1) as W. unfold ks_wf in W. rewrite Forall_forall in W.
        apply (Hq n) in G2; [|apply (W _ G1)]. unfold ks_edges. apply in_concat. exists (kt_edges K t).
        split; auto. apply in_map_iff. exists (Some t); auto.
      - apply (ks_edges_known K L n); auto. apply (dv_wf _ _ _ _ _ H1). }
    exists sl', d. sp; auto.
    + intros e He. apply A2 in He. destruct He as [He| ->]; auto.
    + intros e _ He _. apply A2. destruct He as [He|He]; [auto|inversion He; auto].
    + discriminate.
    + destruct (in_dec edge_dec (x, y) (dk_all g sl)) as [Hin|Hin].
      * rewrite A3 by tauto. rewrite Hnt. do 2 f_equal. apply len_same; auto.
        intros e. rewrite A2. split; auto. intros [G| ->]; auto.
      * rewrite A4 by tauto. rewrite (len_add (dk_all g sl) (dk_all g' sl') (x, y)); auto. lia.
    + lia.
    + cbn. lia.
  - pose proof (dk_del_spec T K L n Hn g sl x y H1 Hr) as HD. rewrite E in HD.
    destruct HD as [sl' [rb [A1 [A2 [dd [Hdd Hnt']]]]]].
    pose proof (dk_all_nodup K L n g' sl' A1) as Hnd'.
    (* lengths *)
    set (mid := filter (fun f => negb (eeqb (x, y) f)) (dk_all g sl)).
    assert (Hmidnd : NoDup mid) by (apply NoDup_filter; auto).
    assert (Hmid : forall e, In e mid <-> In e (dk_all g sl) /\ e <> (x, y)).
    { intros e. unfold mid. rewrite filter_In, negb_true_iff, eeqb_neq. intuition. }
    assert (Hml : (N.of_nat (length mid) + d)%N = if emem (x, y) (dk_all g sl) then u64_dec (nt g) else nt g).
    { destruct (emem (x, y) (dk_all g sl)) eqn:Em.
      - apply emem_In in Em. pose proof (len_remove _ _ Hnd Em) as G. fold mid in G.
        rewrite u64_dec_pos by lia. lia.
      - apply emem_false in Em. unfold mid. rewrite filter_all; [lia|].
        intros a Ha. apply negb_true_iff, eeqb_neq. intros <-; auto. }
    rewrite <- Hml in Hnt'.
    assert (Hlost : length mid = length (dk_all g' sl') \/
                    (length mid = S (length (dk_all g' sl')) /\ In (1, 1)%N mid)).
    { destruct (in_dec edge_dec (1, 1)%N mid) as [Hin|Hin]; [destruct rb|].
      - right. split; auto. apply (len_del mid (dk_all g' sl') (1, 1)%N); auto.
        intros e. rewrite A2, Hmid. split; [intros [? [? G]]; sp; auto|intros [[? ?] ?]; sp; auto].
      - left. apply len_same; auto. intros e. rewrite A2, Hmid. intuition discriminate.
      - left. apply len_same; auto. intros e. rewrite A2. split.
        + intros He. pose proof (proj1 (Hmid e) He) as [? ?]. sp; auto. intros _ ->. auto.
        + intros [? [? _]]. apply Hmid; auto. }
    assert (Hd' : exists d', nt g' = (N.of_nat (length (dk_all g' sl')) + d')%N /\ (d <= d' <= d + 1)%N).
    { destruct Hlost as [G|[G1 G2]].
      - exists (d + dd)%N. rewrite Hnt', G. destruct Hdd as [->|[-> _]]; lia.
      - destruct Hdd as [->|[_ [_ [_ Hc]]]].
        + exists (d + 1)%N. rewrite Hnt', G1. lia.
        + exfalso. apply Hmid in G2. destruct Hc as [Hc|Hc]; tauto. }
    destruct Hd' as [d' [Hd1 Hd2]]. exists sl', d'. sp; auto.
    + intros e He. apply A2 in He. tauto.
    + intros e Hne [He|He] He11; [|discriminate]. apply A2. sp; auto. intros ->; auto.
    + intros e He G. inversion He; subst. apply A2 in G. tauto.
    + lia.
    + unfold dels. cbn. lia.
Qed.

Lemma cnt_ops h : adjf_is_query L -> forall g sl S g' d, rel g sl S -> Forall (op_in_range n) h -> dk_ops T K g h = Done g' ->
  nt g = (N.of_nat (length (dk_all g sl)) + d)%N ->
  exists sl' d', rel g' sl' (fold_left espec_step h S) /\
    nt g' = (N.of_nat (length (dk_all g' sl')) + d')%N /\ (d <= d' <= d + dels h)%N.
Proof.
  intros Hq. induction h as [|o h IH]; intros g sl S g' d H HF E Hd; cbn in E |- *.
  - inversion E; subst. exists sl, d. sp; auto; cbn; lia.
  - inversion HF as [|? ? Ho Hh]; subst.
    destruct (dk_op T K g o) as [g1|g1|] eqn:Eo; try discriminate.
    destruct H as [H1 H2 H3].
    destruct (cnt_step g sl o g1 d Hq H1 Ho Eo Hd) as [sl1 [d1 [C1 [C2 [C3 [C4 [C5 C6]]]]]]].
    assert (R1 : rel g1 sl1 (espec_step S o)).
    { constructor; auto.
      - intros e He. apply espec_step_In. pose proof (C4 e) as Q4. destruct o as [f|f].
        + destruct (C2 e He) as [G|G]; [right; auto|inversion G; auto].
        + split; [intros ->; apply Q4; auto|]. destruct (C2 e He) as [G|G]; [auto|discriminate].
      - intros e He Hne. apply espec_step_In in He. destruct o as [f|f].
        + apply C3; auto; [discriminate|]. destruct He as [->|He]; auto.
        + apply C3; auto; [|left; apply H3; tauto]. intros G; inversion G; subst; tauto. }
    destruct (IH g1 sl1 _ g' d1 R1 Hh E C5) as [sl' [d' [Q1 [Q2 Q3]]]]. exists sl', d'. sp; auto; try lia.
    change (o :: h) with ([o] ++ h). rewrite dels_app. lia.
Qed.

Lemma hist_cnt h g : adjf_is_query L -> Forall (op_in_range n) h -> dk_hist T K n h = Done g ->
  exists sl d, rel g sl (espec h) /\ nt g = (N.of_nat (length (dk_all g sl)) + d)%N /\ (d <= dels h)%N.
Proof.
  intros Hq HF E. unfold dk_hist in E. destruct (dk_new T K n) as [g0|] eqn:E0; cbn in E; [|discriminate].
  destruct (dk_new_inv T K L n Hn g0 E0) as [_ [Hz [_ Hk]]].
  destruct (cnt_ops h Hq g0 [] [] g 0%N (rel_new g0 E0) HF E) as [sl [d [Q1 [Q2 Q3]]]].
  - unfold DKProof.dk_all. rewrite Hz, Hk. reflexivity.
  - exists sl, d. sp; auto. lia.
Qed.

(** ** list_neighbour *)
Lemma ks_neigh_spec l x : ks_wf K L n l -> ks_disj K L l -> (x < n)%N ->
  NoDup (ks_neigh K l x) /\ (forall y, In y (ks_neigh K l x) <-> In (x, y) (ks_edges K l)).
Proof.
  intros H Hd Hx. induction l as [|[t|] l IH]; cbn [ks_neigh].
  - split; [constructor|]. intros y. cbn. tauto.
  - inversion H as [|? ? Ht Hl]; subst. destruct Hd as [D1 D2]. destruct (IH Hl D2) as [I1 I2].
    split.
    + apply NoDup_app. sp; auto.
      * eapply law_neigh_nodup; eauto.
      * intros y G1 G2. apply I2 in G2. apply (law_neigh L n t x y Ht Hx) in G1.
        apply (D1 (x, y)); [eapply law_known_live; eauto|apply (ks_edges_known K L n); auto].
    + intros y. rewrite in_app_iff, I2, ks_edges_cons_some, in_app_iff.
      rewrite (law_neigh L n t x y Ht Hx). reflexivity.
  - inversion H as [|? ? Ht Hl]; subst. apply IH; auto.
Qed.

Lemma ks_disj_firstn l k : ks_disj K L l -> ks_disj K L (firstn k l).
Proof. intros H. rewrite <- (firstn_skipn k l) in H. apply ks_disj_app in H. tauto. Qed.

Lemma ks_edges_firstn_sub (l : list (option ktree)) k e : In e (ks_edges K (firstn k l)) -> In e (ks_edges K l).
Proof. intros H. rewrite <- (firstn_skipn k l), ks_edges_app, in_app_iff; auto. Qed.

Lemma ks_none_edges (l : list (option ktree)) : (forall t, ~ In (Some t) l) -> ks_edges K l = [].
Proof.
  induction l as [|[t|] l IH]; intros H; auto.
  - exfalso; apply (H t); left; auto.
  - rewrite ks_edges_cons_none. apply IH. intros t Ht. apply (H t); right; auto.
Qed.

Lemma ks_below_firstn g e : ks_below K g -> In e (ks_edges K (ks g)) -> In e (ks_edges K (firstn (S (max_r g)) (ks g))).
Proof.
  intros Hb He. rewrite <- (firstn_skipn (S (max_r g)) (ks g)), ks_edges_app, in_app_iff in He.
  destruct He as [He|He]; auto. rewrite ks_none_edges in He; [destruct He|].
  intros t Ht. apply In_nth_error in Ht. destruct Ht as [i Hi]. rewrite nth_error_skipn' in Hi.
  apply Hb in Hi. lia.
Qed.

Lemma dk_neigh_spec g sl x : dk_inv g sl -> (x < n)%N ->
  exists l, dk_neigh K g x = Ok l /\ NoDup l /\ (forall y, In y l -> In (x, y) (dk_all g sl)) /\
            (ks_below K g -> forall y, In (x, y) (dk_all g sl) -> In y l).
Proof.
  intros H Hx. unfold dk_neigh. rewrite (inv_neigh _ _ _ (dv_c0 _ _ _ _ _ H)). cbn [obind].
  pose proof (dv_maxr _ _ _ _ _ H) as Hm. rewrite (dv_len _ _ _ _ _ H).
  destruct (Nat.ltb_spec (max_r g) RS) as [_|]; [|lia].
  destruct (ks_neigh_spec (firstn (S (max_r g)) (ks g)) x) as [N1 N2]; auto.
  { apply ks_wf_firstn, (dv_wf _ _ _ _ _ H). }
  { apply ks_disj_firstn, (dv_disj _ _ _ _ _ H). }
  eexists. split; [reflexivity|]. sp.
  - apply NoDup_app. sp; auto.
    + apply NoDup_rev, NoDup_succs, uniq_nodup, (inv_uniq _ _ (dv_c0 _ _ _ _ _ H)).
    + intros y G1 G2. apply in_rev in G1. apply In_succs in G1. apply N2 in G2.
      apply (dv_c0ks _ _ _ _ _ H (x, y) G1).
      apply (ks_edges_known K L n); [apply (dv_wf _ _ _ _ _ H)|]. eapply ks_edges_firstn_sub; eauto.
  - intros y G. unfold DKProof.dk_all. apply in_app_iff in G. apply in_app_iff. destruct G as [G|G].
    + left. apply in_rev in G. apply In_succs; auto.
    + right. apply N2 in G. eapply ks_edges_firstn_sub; eauto.
  - intros Hb y G. unfold DKProof.dk_all in G. apply in_app_iff in G. apply in_app_iff. destruct G as [G|G].
    + left. apply in_rev. rewrite rev_involutive. apply In_succs; auto.
    + right. apply N2. apply ks_below_firstn; auto.
Qed.

(** ** Insert-only histories *)
Record relI (g : dk) (sl : slots) (S : list edge) : Prop := {
  ri_inv : dk_inv g sl;
  ri_set : forall e, In e (dk_all g sl) <-> In e S;
  ri_live : all_live sl;
  ri_fresh : ks_fresh K L (ks g);
  ri_below : ks_below K g;
  ri_nt : nt g = N.of_nat (length (dk_all g sl))
}.

Lemma relI_step g sl S e g' : relI g sl S -> in_range n e -> dk_add T K g (fst e) (snd e) = Done g' ->
  exists sl', relI g' sl' (espec_step S (Add e)).
Proof.
  intros [H1 H2 H3 H4 H5 H6] Hr E. destruct e as [x y]. cbn [fst snd] in E.
  pose proof (dk_add_spec T K L n Hn g sl x y H1 Hr) as HA. rewrite E in HA.
  destruct HA as [sl' [A1 [A2 [A3 [A4 [A5 [A6 [A7 A8]]]]]]]]. exists sl'. constructor; auto.
  - intros e. rewrite A2, espec_step_In, H2. intuition.
  - pose proof (dk_all_nodup K L n g sl H1) as Hnd. pose proof (dk_all_nodup K L n g' sl' A1) as Hnd'.
    destruct (in_dec edge_dec (x, y) (dk_all g sl)) as [Hin|Hin].
    + rewrite A3. 2: { unfold kn_all. unfold DKProof.dk_all in Hin. apply in_app_iff in Hin.
        destruct Hin as [G|G]; auto. right. apply (ks_edges_known K L n); auto. apply (dv_wf _ _ _ _ _ H1). }
      rewrite H6. f_equal. apply len_same; auto. intros e. rewrite A2. split; auto. intros [G| ->]; auto.
    + rewrite A4. 2: { intros G. apply Hin. unfold DKProof.dk_all. apply in_app_iff. destruct G as [G|G]; auto.
        right. apply (ks_fresh_known K L); auto. }
      rewrite (len_add (dk_all g sl) (dk_all g' sl') (x, y)); auto. lia.
Qed.

Fixpoint ks_total (l : list (option ktree)) : N :=
  match l with [] => 0 | Some t :: l => kt_total K t + ks_total l | None :: l => ks_total l end%N.

Lemma ks_total_fresh l : ks_wf K L n l -> ks_fresh K L l -> ks_total l = N.of_nat (length (ks_edges K l)).
Proof.
  induction l as [|[t|] l IH]; cbn [ks_total]; intros H Hf; auto; inversion H as [|? ? Ht Hl]; subst.
  - rewrite ks_edges_cons_some, app_length, IH; auto; [|intros u Hu; apply Hf; right; auto].
    rewrite (law_total L n t Ht). destruct (Hf t (or_introl eq_refl)) as [-> _]. lia.
  - rewrite IH; auto. intros u Hu; apply Hf; right; auto.
Qed.

Lemma find_level_total m l : forall i acc, l <> [] -> i + length l = 8 ->
  (acc + ks_total l + 1 < th_max T m 8)%N -> exists j, find_level T K m l i acc = Some j.
Proof.
  induction l as [|o l IH]; intros i acc Hne Hlen Hlt; [congruence|]. cbn [find_level].
  set (acc' := match o with Some t => (acc + kt_total K t)%N | None => acc end).
  assert (Hacc : (acc' + ks_total l + 1 < th_max T m 8)%N).
  { unfold acc'. cbn [ks_total] in Hlt. destruct o; lia. }
  destruct (N.ltb_spec (acc' + 1) (th_max T m (S i))) as [G|G]; [eauto|].
  destruct l as [|o2 l]; [|apply IH; auto; [discriminate|cbn in *; lia]].
  exfalso. cbn in Hlen. assert (i = 7) by lia; subst i. cbn [ks_total] in Hacc. lia.
Qed.

Lemma all_live_edges sl : all_live sl -> length (live_edges sl) = length sl.
Proof.
  unfold live_edges. rewrite map_length. intros H.
  induction H as [|[e b] sl Hb _ IH]; auto. cbn in *. rewrite Hb. cbn. congruence.
Qed.

(** add_edge always completes when nothing was ever deleted. *)
Lemma relI_total g sl S e : th_top T -> relI g sl S -> in_range n e -> exists g', dk_add T K g (fst e) (snd e) = Done g'.
Proof.
  intros HT [H1 H2 H3 H4 H5 H6] Hr. destruct e as [x y]; cbn [fst snd].
  unfold dk_add. destruct (dk_forced_spec K L n g sl x y H1 Hr) as [b [g1 [E [G1 [Hnt [Hmr [Hb [Ht [Hf _]]]]]]]]].
  rewrite E. cbn [rbind]. destruct b; [eauto|]. specialize (Hf eq_refl). subst g1.
  assert (Hm : (2 <= dk_m K g)%N) by (unfold dk_m; rewrite (dv_nv _ _ _ _ _ H1); lia).
  unfold maxsz. destruct (N.eqb_spec (dk_m K g) 1) as [G|_]; [lia|]. cbn [rbind].
  pose proof (inv_size _ _ (dv_c0 _ _ _ _ _ H1)) as Hsz. rewrite Hsz.
  destruct (N.ltb_spec (N.of_nat (length (live_edges sl))) (th_max T (dk_m K g) 0)) as [Hlt|Hge].
  - destruct (insert_ok T (C0_ g) sl (x, y) (nt g) (dv_c0 _ _ _ _ _ H1)) as [c [Ec _]].
    + intros G. assert (false = true) by (apply Hb; auto). discriminate.
    + unfold room. rewrite (dv_c0nv _ _ _ _ _ H1), (iv_n _ _ (dv_c0 _ _ _ _ _ H1)).
      unfold dk_m in *. rewrite (dv_nv _ _ _ _ _ H1) in *. rewrite <- (all_live_edges sl H3). right. split; lia.
    + rewrite Ec. cbn [rbind]. eauto.
  - destruct (find_level_total (dk_m K g) (ks g) 0 (th_max T (dk_m K g) 0)) as [j Ej].
    + pose proof (dv_len _ _ _ _ _ H1) as G. destruct (ks g); [discriminate|discriminate].
    + rewrite (dv_len _ _ _ _ _ H1). reflexivity.
    + rewrite HT by lia. rewrite ks_total_fresh; auto; [|apply (dv_wf _ _ _ _ _ H1)].
      assert (nt g <= dk_m K g)%N by (unfold dk_m; lia).
      unfold DKProof.dk_all in H6. rewrite app_length in H6. lia.
    + rewrite Ej, (inv_converted _ _ (dv_c0 _ _ _ _ _ H1)). cbn [rbind].
      destruct (inv_clean _ _ (dv_c0 _ _ _ _ _ H1)) as [c [Ec _]]. rewrite Ec. cbn [rbind].
      destruct (merge_upto K _ (ks g) (Datatypes.S j)) as [tmp l]. eauto.
Qed.

Lemma relI_ops es : th_top T -> forall g sl S, relI g sl S -> Forall (in_range n) es ->
  exists g' sl', dk_ops T K g (map Add es) = Done g' /\ relI g' sl' (fold_left espec_step (map Add es) S).
Proof.
  intros HT. induction es as [|e es IH]; intros g sl S H HF; cbn.
  - eauto.
  - inversion HF as [|? ? He Hes]; subst.
    destruct (relI_total g sl S e HT H He) as [g1 E1].
    destruct (relI_step g sl S e g1 H He E1) as [sl1 R1].
    destruct e as [x y]; cbn [fst snd] in E1. rewrite E1. apply (IH g1 sl1); auto.
Qed.

Lemma dk_new_total : exists g, dk_new T K n = Ok g.
Proof.
  unfold dk_new, c0_new, maxsz. destruct (N.eqb_spec n 1); [lia|]. cbn. eauto.
Qed.

Lemma hist_insert es : th_top T -> Forall (in_range n) es ->
  exists g sl, dk_hist T K n (map Add es) = Done g /\ relI g sl (espec (map Add es)).
Proof.
  intros HT HF. destruct dk_new_total as [g0 E0]. unfold dk_hist. rewrite E0. cbn [rbind].
  apply (relI_ops es HT g0 [] []); auto.
  destruct (dk_new_inv T K L n Hn g0 E0) as [H [Hz [_ Hk]]]. constructor; auto.
  - intros e. unfold DKProof.dk_all. rewrite Hk. cbn. tauto.
  - constructor.
  - intros t. rewrite Hk. intros G. apply repeat_spec in G. discriminate.
  - intros i t. rewrite Hk. rewrite nth_error_repeat. destruct (i <? RS); discriminate.
  - unfold DKProof.dk_all. rewrite Hz, Hk. reflexivity.
Qed.

End DKHist.
