(** * DKGuard: two classes of histories with deletions on which DKtree is total and exact. *)
From Coq Require Import Reals Lra.
From Verif Require Import Base Spec Thresholds K2 C0 C0Proof DK DKProof DKHist.

(** ** When the rebuild test is false *)
Open Scope R_scope.
Lemma log2R_le a b : 0 < a -> a <= b -> log2R a <= log2R b.
Proof.
  intros Ha Hab. unfold log2R. pose proof ln2_pos. unfold Rdiv.
  apply Rmult_le_compat_r; [left; apply Rinv_0_lt_compat; auto|].
  destruct Hab as [Hab| ->]; [left; apply ln_increasing; auto|right; auto].
Qed.
Lemma log2R_pow k : log2R (2 ^ k) = INR k.
Proof.
  unfold log2R. pose proof ln2_pos. rewrite <- Rpower_pow by lra. unfold Rpower. rewrite ln_exp. field. lra.
Qed.
Lemma log2R_gt1 m : (3 <= m)%N -> 1 < log2R (RN m).
Proof.
  intros H. unfold log2R. pose proof ln2_pos.
  apply Rmult_lt_reg_r with (ln 2); auto. unfold Rdiv. rewrite Rmult_assoc, Rinv_l by lra.
  rewrite Rmult_1_l, Rmult_1_r. apply ln_increasing; [lra|]. rewrite <- RN_2. apply RN_lt. lia.
Qed.

Lemma th_trig_small T k m : th_real T -> (m < 2 ^ 64)%N -> (6 * k <= m)%N -> th_trig T k m = false.
Proof.
  intros HT Hm Hk. destruct HT as [_ [_ [H0 [H1 [H2 H3]]]]].
  destruct (N.eq_dec m 0) as [->|n0]; [apply H0|].
  destruct (N.eq_dec m 1) as [->|n1]; [rewrite H1; apply N.ltb_ge; lia|].
  destruct (N.eq_dec m 2) as [->|n2]; [apply H2|].
  assert (Hm3 : (3 <= m)%N) by lia.
  destruct (th_trig T k m) eqn:E; auto. exfalso.
  apply (H3 k m Hm3) in E.
  pose proof (log2R_gt1 m Hm3) as HL1.
  assert (HL : log2R (RN m) <= 2 ^ 6).
  { replace (2 ^ 6) with (INR 64) by (cbn; lra). rewrite <- log2R_pow.
    apply log2R_le.
    - rewrite <- RN_0. apply RN_lt; lia.
    - replace (2 ^ 64) with (RN (2 ^ N.of_nat 64)) by (rewrite RN_pow, RN_2; reflexivity).
      left. apply RN_lt. exact Hm. }
  assert (HLL : 0 < log2R (log2R (RN m)) <= 6).
  { split.
    - unfold log2R at 1. apply Rdiv_lt_0_compat; [|apply ln2_pos]. rewrite <- ln_1. apply ln_increasing; lra.
    - replace 6 with (INR 6) by (cbn; lra). rewrite <- log2R_pow. apply log2R_le; lra. }
  assert (Hc : RN m >= 6 * RN k).
  { replace 6 with (RN 6) by reflexivity. rewrite <- RN_mult. apply Rle_ge, RN_le; lia. }
  pose proof (RN_pos k) as Hk0.
  assert (G : RN m / log2R (log2R (RN m)) * log2R (log2R (RN m)) = RN m) by (field; lra).
  assert (RN k * log2R (log2R (RN m)) > RN m / log2R (log2R (RN m)) * log2R (log2R (RN m))).
  { apply Rmult_gt_compat_r; lra. }
  rewrite G in *. nra.
Qed.
Lemma th_trig_0 T m : th_real T -> th_trig T 0 m = false.
Proof.
  intros HT. destruct HT as [_ [_ [H0 [H1 [H2 H3]]]]].
  destruct (N.eq_dec m 0) as [->|n0]; [apply H0|].
  destruct (N.eq_dec m 1) as [->|n1]; [rewrite H1; reflexivity|].
  destruct (N.eq_dec m 2) as [->|n2]; [apply H2|].
  assert (Hm3 : (3 <= m)%N) by lia.
  destruct (th_trig T 0 m) eqn:E; auto. exfalso.
  apply (H3 0%N m Hm3) in E. pose proof (log2R_gt1 m Hm3) as HL1.
  assert (HLL : 0 < log2R (log2R (RN m))).
  { unfold log2R at 1. apply Rdiv_lt_0_compat; [|apply ln2_pos]. rewrite <- ln_1. apply ln_increasing; lra. }
  assert (0 < RN m) by (rewrite <- RN_0; apply RN_lt; lia).
  assert (0 < RN m / log2R (log2R (RN m))) by (apply Rdiv_lt_0_compat; auto).
  rewrite RN_0 in E. lra.
Qed.
Close Scope R_scope.

Section Guard.
Context (T : thresholds) (HT : th_real T) (K : k2impl) (L : k2laws K) (n : N) (Hn : (2 <= n)%N).
Local Notation ktree := (kt K).
Local Notation dk := (dk K).
Local Notation dk_inv := (dk_inv K L n).
Local Notation dk_all := (dk_all K).

(** State relation shared by both classes: everything exact. *)
Record relX (g : dk) (sl : slots) (S : list edge) : Prop := {
  rx_inv : dk_inv g sl;
  rx_set : forall e, In e (dk_all g sl) <-> In e S;
  rx_below : ks_below K g;
  rx_nt : nt g = N.of_nat (length (dk_all g sl))
}.

Lemma relX_of_relI g sl S : relI K L n g sl S -> relX g sl S.
Proof. intros [H1 H2 H3 H4 H5 H6]. constructor; auto. Qed.

Fixpoint ks_marked (l : list (option ktree)) : N :=
  match l with [] => 0 | Some t :: l => kt_marked K t + ks_marked l | None :: l => ks_marked l end%N.

Lemma ks_marked_fresh l : ks_fresh K L l -> ks_marked l = 0%N.
Proof.
  induction l as [|[t|] l IH]; cbn; intros H; auto.
  - destruct (H t (or_introl eq_refl)) as [-> _]. rewrite IH; auto. intros u Hu; apply H; right; auto.
  - apply IH. intros u Hu; apply H; right; auto.
Qed.
Lemma ks_erase_marked l x y : ks_wf K L n l -> in_range n (x, y) ->
  (ks_marked (snd (ks_erase K l x y)) <= ks_marked l + (if fst (ks_erase K l x y) then 1 else 0))%N.
Proof.
  intros H [Hx Hy]. cbn in Hx, Hy. induction l as [|[t|] l IH]; cbn [ks_erase].
  - cbn. lia.
  - inversion H as [|? ? Ht Hl]; subst. specialize (IH Hl).
    destruct (law_erase L n t x y Ht Hx Hy) as [_ [_ E3]].
    destruct (kt_erase K t x y) as [b t']. cbn [fst snd] in E3. destruct b; cbn [fst snd ks_marked].
    + lia.
    + destruct (ks_erase K l x y) as [b' l']. cbn [fst snd ks_marked] in *. lia.
  - inversion H as [|? ? Ht Hl]; subst. specialize (IH Hl). destruct (ks_erase K l x y) as [b' l']. cbn in *. lia.
Qed.
Lemma ks_sweep_marked l : (fst (ks_sweep K l) <= ks_marked l)%N /\ (ks_marked (snd (ks_sweep K l)) <= ks_marked l)%N.
Proof.
  induction l as [|[t|] l IH]; cbn [ks_sweep].
  - cbn; lia.
  - destruct (ks_sweep K l) as [k l']. cbn [fst snd] in IH.
    destruct (kt_marked K t =? kt_total K t)%N; cbn [fst snd ks_marked]; lia.
  - destruct (ks_sweep K l) as [k l']. cbn [fst snd ks_marked] in *. lia.
Qed.

(** One deletion that cannot trigger a rebuild. *)
Lemma del_quiet g sl S x y : relX g sl S -> in_range n (x, y) ->
  (forall k m, (k <= ks_marked (ks g) + (if fst (ks_erase K (ks g) x y) then 1 else 0))%N -> (nt g - 1 <= m)%N -> (m <= nt g)%N -> th_trig T k m = false) ->
  exists g' sl', dk_del T K g x y = Done g' /\ relX g' sl' (espec_step S (Del (x, y))) /\
    (ks_marked (ks g') <= ks_marked (ks g) + 1)%N /\ (nt g - 1 <= nt g' <= nt g)%N /\
    length sl' = length sl /\ (ks g = repeat None RS -> ks g' = repeat None RS) /\ c_max (C0_ g') = c_max (C0_ g).
Proof.
  intros [H1 H2 H3 H4] Hr Hq. unfold dk_del.
  destruct (erase_total _ _ (x, y) (dv_c0 _ _ _ _ _ H1)) as [b [c Ee]].
  pose proof Ee as Ee'. rewrite Ee. cbn [rbind].
  destruct (erase_inv _ _ _ _ _ (dv_c0 _ _ _ _ _ H1) Ee) as [Hb [Hcm [Hcv [sl1 [I1 [I2 [I3 I4]]]]]]].
  pose proof (dk_all_nodup K L n g sl H1) as Hnd.
  assert (Hset : forall g' sl', (forall e, In e (dk_all g' sl') <-> In e (dk_all g sl) /\ e <> (x, y)) ->
     forall e, In e (dk_all g' sl') <-> In e (espec_step S (Del (x, y)))).
  { intros g' sl' G e. rewrite G, espec_step_In, H2. tauto. }
  assert (Hcnt : forall g' sl', dk_inv g' sl' -> (forall e, In e (dk_all g' sl') <-> In e (dk_all g sl) /\ e <> (x, y)) ->
     nt g' = (if emem (x, y) (dk_all g sl) then u64_dec (nt g) else nt g) -> nt g' = N.of_nat (length (dk_all g' sl'))).
  { intros g' sl' Gi G E. rewrite E. pose proof (dk_all_nodup K L n g' sl' Gi) as Hnd'.
    destruct (emem (x, y) (dk_all g sl)) eqn:Em.
    - apply emem_In in Em. pose proof (len_del _ _ _ Hnd Hnd' Em G) as Q. rewrite u64_dec_pos by lia. lia.
    - apply emem_false in Em. rewrite H4. f_equal. apply len_same; auto. intros e. rewrite G.
      split; [|tauto]. intros Q; split; auto. intros ->; auto. }
  assert (Hdec : u64_dec (nt g) = (nt g - 1)%N \/ nt g = 0%N).
  { destruct (N.eq_dec (nt g) 0); auto. left. apply u64_dec_pos; lia. }
  destruct b.
  - symmetry in Hb. pose proof Hb as Hb'. apply emem_In in Hb.
    pose proof (dk_del_spec T K L n Hn g sl x y H1 Hr) as HD.
    assert (Hi1 : dk_inv (mkdk (max_r g) (nv g) (u64_dec (nt g)) c (ks g)) sl1).
    { destruct H1 as [h1 h2 h3 h4 h5 h6 h7 h8 h9]. constructor; cbn; auto.
      - rewrite Hcv; auto.
      - rewrite I3. apply Forall_forall. intros e He. apply filter_In in He. rewrite Forall_forall in h6. apply h6; tauto.
      - intros e He. rewrite I3 in He. apply filter_In in He. apply h9; tauto. }
    assert (Hal : forall e, In e (dk_all (mkdk (max_r g) (nv g) (u64_dec (nt g)) c (ks g)) sl1) <-> In e (dk_all g sl) /\ e <> (x, y)).
    { intros e. unfold DKProof.dk_all; cbn [ks]. rewrite I3, !in_app_iff, filter_In, negb_true_iff, eeqb_neq. split.
      - intros [[G1 G2]|G]; split; auto. intros ->. apply (dv_c0ks _ _ _ _ _ H1 (x, y) Hb).
        apply (ks_edges_known K L n); auto. apply (dv_wf _ _ _ _ _ H1).
      - intros [[G|G] G2]; [left; split; auto|right; auto]. }
    assert (Hin : In (x, y) (dk_all g sl)) by (apply in_app_iff; auto).
    assert (Hpos : (0 < nt g)%N) by (rewrite H4; destruct (dk_all g sl); [destruct Hin|cbn; lia]).
    eexists _, sl1. split; [reflexivity|]. sp; cbn [ks nt C0_]; auto; try lia.
    constructor; auto.
      apply Hcnt; auto. cbn [nt]. rewrite (proj2 (emem_In _ _) Hin). auto.
  - specialize (I4 eq_refl). subst c. symmetry in Hb. apply emem_false in Hb.
    pose proof (ks_erase_spec K L n (ks g) x y (dv_wf _ _ _ _ _ H1) (dv_disj _ _ _ _ _ H1) Hr) as [R1 [R2 [R3 [R4 [R5 [R6 R7]]]]]].
    pose proof (ks_erase_marked (ks g) x y (dv_wf _ _ _ _ _ H1) Hr) as Hem.
    assert (Hnone : ks g = repeat None RS -> snd (ks_erase K (ks g) x y) = repeat None RS) by (intros ->; reflexivity).
    destruct (ks_erase K (ks g) x y) as [eb l]. cbn [fst snd] in *.
    pose proof (ks_sweep_spec K L n Hn l R1) as [W1 [W2 [W3 [W4 [W5 [W6 W7]]]]]].
    pose proof (ks_sweep_marked l) as [M1 M2].
    assert (Hnone2 : ks g = repeat None RS -> snd (ks_sweep K l) = repeat None RS).
    { intros G. rewrite (Hnone G). reflexivity. }
    assert (Hbel : forall i t, nth_error (snd (ks_sweep K l)) i = Some (Some t) -> exists u, nth_error (ks g) i = Some (Some u)).
    { intros i t Hi. destruct (nth_error (ks g) i) as [[u|]|] eqn:Eg; eauto.
      - apply R7 in Eg. apply W6 in Eg. congruence.
      - apply nth_error_None in Eg. assert (i < length (snd (ks_sweep K l))) by (apply nth_error_Some; congruence). lia. }
    destruct (ks_sweep K l) as [marked l2]. cbn [fst snd] in *.
    set (n' := if eb then u64_dec (nt g) else nt g).
    assert (Hn' : n' = if emem (x, y) (dk_all g sl) then u64_dec (nt g) else nt g).
    { unfold n'. assert (eb = emem (x, y) (dk_all g sl)) as ->; auto.
      apply eq_true_iff_eq. rewrite emem_In, R4. unfold DKProof.dk_all. rewrite in_app_iff. tauto. }
    assert (Hnr : (nt g - 1 <= n' <= nt g)%N).
    { rewrite Hn'. destruct (emem (x, y) (dk_all g sl)) eqn:Em; [|lia]. apply emem_In in Em.
      rewrite u64_dec_pos; [lia|]. rewrite H4. destruct (dk_all g sl); [destruct Em|cbn; lia]. }
    assert (Hem2 : (ks_marked l <= ks_marked (ks g) + 1)%N) by (destruct eb; lia).
    rewrite Hq by lia.
    assert (Hi2 : dk_inv (mkdk (max_r g) (nv g) n' (C0_ g) l2) sl).
    { destruct H1 as [h1 h2 h3 h4 h5 h6 h7 h8 h9]. constructor; cbn; auto.
      - rewrite W2, R2; auto.
      - intros e G1 G2. apply (h9 e G1); auto. }
    assert (Hal : forall e, In e (dk_all (mkdk (max_r g) (nv g) n' (C0_ g) l2) sl) <-> In e (dk_all g sl) /\ e <> (x, y)).
    { intros e. unfold DKProof.dk_all; cbn [ks]. rewrite !in_app_iff, W3, R5. split; [|tauto].
      intros [G|G]; [|tauto]. split; auto. intros ->; auto. }
    eexists _, sl. split; [reflexivity|]. sp; cbn [ks nt C0_]; auto; try lia.
    constructor; auto.
    intros i t Hi. cbn [max_r ks] in *. destruct (Hbel i t Hi) as [u Hu]. apply (H3 i u Hu).
Qed.

(** ** Class 1: insertions first, then a limited number of deletions *)
Lemma del_phase ds : forall g sl S, relX g sl S -> Forall (in_range n) ds ->
  (nt g < 2 ^ 64)%N -> (6 * (ks_marked (ks g) + N.of_nat (length ds)) + N.of_nat (length ds) <= nt g)%N ->
  exists g' sl', dk_ops T K g (map Del ds) = Done g' /\ relX g' sl' (fold_left espec_step (map Del ds) S).
Proof.
  induction ds as [|[x y] ds IH]; intros g sl S H HF Hb Hlt; cbn [map dk_ops fold_left].
  - eauto.
  - inversion HF as [|? ? He Hes]; subst. cbn [length] in Hlt.
    destruct (del_quiet g sl S x y H He) as [g1 [sl1 [E1 [R1 [M1 [N1 _]]]]]].
    { intros k m Hk Hm1 Hm2. destruct (fst _); apply th_trig_small; auto; lia. }
    cbn [dk_op]. rewrite E1. apply (IH g1 sl1); auto; lia.
Qed.

Lemma hist_bulk es ds : Forall (in_range n) es -> Forall (in_range n) ds ->
  let E := N.of_nat (length (espec (map Add es))) in
  (E < 2 ^ 64)%N -> (7 * N.of_nat (length ds) <= E)%N ->
  exists g sl, dk_hist T K n (map Add es ++ map Del ds) = Done g /\ relX g sl (espec (map Add es ++ map Del ds)).
Proof.
  intros HF HD E HE Hd. destruct (hist_insert T K L n Hn es (th_real_top T HT) HF) as [g [sl [G R]]].
  pose proof (relX_of_relI _ _ _ R) as X. unfold dk_hist in G |- *.
  destruct (dk_new T K n) as [g0|]; [|discriminate]. cbn [rbind] in *.
  assert (Happ : forall a b g1, dk_ops T K g1 (a ++ b) = match dk_ops T K g1 a with Done g2 => dk_ops T K g2 b | Thrown g2 => Thrown g2 | Undefined => Undefined end).
  { induction a as [|o a IHa]; intros b g1; cbn; auto. destruct (dk_op T K g1 o); auto. }
  rewrite Happ, G, espec_app.
  assert (Hnt : nt g = E).
  { rewrite (rx_nt _ _ _ X). unfold E. f_equal. apply len_same.
    - apply (dk_all_nodup K L n g sl (rx_inv _ _ _ X)).
    - apply espec_nodup.
    - apply (rx_set _ _ _ X). }
  apply (del_phase ds g sl); auto.
  - lia.
  - rewrite (ks_marked_fresh _ (ri_fresh _ _ _ _ _ _ R)). lia.
Qed.

(** ** Class 2: histories that fit the buffer *)
Definition adds (h : list op) : nat := length (filter (fun o => match o with Add _ => true | _ => false end) h).

Record relB (g : dk) (sl : slots) (S : list edge) : Prop := {
  rb_x : relX g sl S;
  rb_none : ks g = repeat None RS;
  rb_cap : c_max (C0_ g) = N.to_nat (th_max T n 0)
}.

Lemma small_ops h : forall g sl S, relB g sl S -> Forall (op_in_range n) h ->
  (N.of_nat (length sl + adds h) <= N.min n (th_max T n 0))%N ->
  exists g' sl', dk_ops T K g h = Done g' /\ relB g' sl' (fold_left espec_step h S).
Proof.
  induction h as [|[[x y]|[x y]] h IH]; intros g sl S H HF Hc; cbn [dk_ops fold_left].
  - eauto.
  - inversion HF as [|? ? He Hh]; subst. pose proof H as HB. destruct H as [HX Hk Hcap].
    pose proof (rx_inv _ _ _ HX) as H1. change (adds (Add (x, y) :: h)) with (Datatypes.S (adds h)) in Hc.
    cbn [dk_op]. pose proof (dk_add_spec T K L n Hn g sl x y H1 He) as HA.
    assert (Hnt : (nt g <= N.of_nat (length sl))%N).
    { rewrite (rx_nt _ _ _ HX). unfold DKProof.dk_all. rewrite Hk. cbn [ks_edges repeat RS map concat].
      change (ks_edges K (repeat None RS)) with (@nil edge). rewrite app_nil_r.
      unfold live_edges. rewrite map_length. pose proof (filter_length_le snd sl). lia. }
    assert (Hm : dk_m K g = n) by (unfold dk_m; rewrite (dv_nv _ _ _ _ _ H1); lia).
    assert (Hle : (N.of_nat (length (live_edges sl)) < th_max T n 0)%N).
    { unfold live_edges. rewrite map_length. pose proof (filter_length_le snd sl). lia. }
    destruct (in_dec edge_dec (x, y) (live_edges sl)) as [Hin|Hin].
    + (* already there *)
      assert (E : dk_add T K g x y = Done g).
      { unfold dk_add, dk_contains_forced. rewrite (inv_contains _ _ _ (dv_c0 _ _ _ _ _ H1)). cbn [obind].
        rewrite (proj2 (emem_In _ _) Hin). reflexivity. }
      rewrite E. apply (IH g sl); auto; [|lia]. constructor; auto. destruct HX as [X1 X2 X3 X4]. constructor; auto.
      intros e. rewrite X2, espec_step_In. split; auto. intros [->|G]; auto. apply X2. apply in_app_iff; auto.
    + destruct (insert_ok T (C0_ g) sl (x, y) (nt g) (dv_c0 _ _ _ _ _ H1) Hin) as [c [Ec [Hci [Hcm Hcn]]]].
      { left. rewrite (iv_n _ _ (dv_c0 _ _ _ _ _ H1)), Hcap. lia. }
      assert (Hfull : c_n (C0_ g) < length (c_els (C0_ g))).
      { rewrite (iv_els_len _ _ (dv_c0 _ _ _ _ _ H1)), (iv_n _ _ (dv_c0 _ _ _ _ _ H1)), Hcap. lia. }
      assert (E : dk_add T K g x y = Done (mkdk (max_r g) (nv g) (nt g + 1) c (ks g))).
      { unfold dk_add, dk_contains_forced. rewrite (inv_contains _ _ _ (dv_c0 _ _ _ _ _ H1)). cbn [obind].
        rewrite (proj2 (emem_false _ _) Hin). rewrite Hk. cbn [ks_adjf repeat RS rbind].
        replace (mkdk (max_r g) (nv g) (nt g) (C0_ g) (None :: None :: None :: None :: None :: None :: None :: None :: nil)) with g
          by (destruct g; cbn in *; subst; reflexivity).
        rewrite Hm. unfold maxsz at 1. destruct (N.eqb_spec n 1); [lia|]. cbn [rbind].
        rewrite (inv_size _ _ (dv_c0 _ _ _ _ _ H1)). apply N.ltb_lt in Hle. rewrite Hle, Ec. cbn [rbind]. rewrite Hk. reflexivity. }
      rewrite E in HA |- *. destruct HA as [sl2 [A1 [A2 [A3 [A4 [A5 [A6 [A7 A8]]]]]]]].
      assert (Hs2 : length sl2 = Datatypes.S (length sl)).
      { rewrite <- (iv_n _ _ (dv_c0 _ _ _ _ _ A1)). cbn [C0_].
        rewrite (iv_n _ _ Hci), app_length. cbn. lia. }
      assert (Hcm2 : c_max c = c_max (C0_ g)).
      { unfold c0_insert in Ec. rewrite (proj2 (inv_find_none _ _ _ (dv_c0 _ _ _ _ _ H1)) Hin) in Ec.
        destruct (Nat.leb_spec (length (c_els (C0_ g))) (c_n (C0_ g))) as [Q|Q]; [lia|].
        cbn [obind] in Ec.
        destruct (get (c_free (C0_ g)) (c_n (C0_ g))) as [f|]; cbn [obind] in Ec; [|discriminate].
        destruct (f <? 0)%Z; [discriminate|].
        match type of Ec with obind ?X _ = _ => destruct X; cbn [obind] in Ec; [|discriminate] end.
        match type of Ec with obind ?X _ = _ => destruct X; cbn [obind] in Ec; [|discriminate] end.
        inversion Ec; subst; reflexivity. }
      apply (IH _ sl2); auto; [|lia]. constructor; cbn [ks C0_]; auto; [|lia].
      constructor; auto.
      * intros e. rewrite A2, espec_step_In, (rx_set _ _ _ HX). intuition.
      * apply A6. apply (rx_below _ _ _ HX).
      * cbn [nt]. pose proof (dk_all_nodup K L n _ _ A1) as Hnd'.
        rewrite (len_add (dk_all g sl) (dk_all {| max_r := max_r g; nv := nv g; nt := nt g + 1; C0_ := c; ks := ks g |} sl2) (x, y)); auto.
        -- rewrite (rx_nt _ _ _ HX). lia.
        -- apply (dk_all_nodup K L n g sl H1).
        -- unfold DKProof.dk_all. rewrite Hk. change (ks_edges K (repeat None RS)) with (@nil edge). rewrite app_nil_r. auto.
  - inversion HF as [|? ? He Hh]; subst. destruct H as [HX Hk Hcap].
    change (adds (Del (x, y) :: h)) with (adds h) in Hc. cbn [dk_op].
    destruct (del_quiet g sl S x y HX He) as [g1 [sl1 [E1 [R1 [M1 [N1 [S1 [K1 C1]]]]]]]].
    { intros k m Hk1 _ _. rewrite Hk in Hk1. cbn in Hk1.
      assert (k = 0)%N as -> by lia. apply th_trig_0; auto. }
    rewrite E1. apply (IH g1 sl1); auto.
    + constructor; auto. congruence.
    + lia.
Qed.

Lemma hist_small h : Forall (op_in_range n) h -> (N.of_nat (adds h) <= N.min n (th_max T n 0))%N ->
  exists g sl, dk_hist T K n h = Done g /\ relX g sl (espec h).
Proof.
  intros HF Ha. destruct (dk_new_total T K n Hn) as [g0 E0]. unfold dk_hist. rewrite E0. cbn [rbind].
  destruct (dk_new_inv T K L n Hn g0 E0) as [H [Hz [_ Hk]]].
  destruct (small_ops h g0 [] []) as [g [sl [G [R _ _]]]]; auto; [|eauto].
  constructor; auto.
  - constructor; auto.
    + intros e. unfold DKProof.dk_all. rewrite Hk. cbn. tauto.
    + intros i t. rewrite Hk, nth_error_repeat. destruct (i <? RS); discriminate.
    + unfold DKProof.dk_all. rewrite Hz, Hk. reflexivity.
  - unfold dk_new, c0_new, maxsz in E0. destruct (N.eqb_spec n 1); [lia|]. cbn in E0. inversion E0; subst. reflexivity.
Qed.
End Guard.
