(** * Prop_DKLarge: C16 on large graphs.

    C16_refuted shows add_edge throwing on 3 vertices.  Here: on 32768 vertices or more no history of additions and
    deletions, however long, ends in add_edge throwing.  The reason is the rebuild threshold: the number of marked
    edges in the trees stays below (a third of) the larger of the number of vertices and the edge count. *)
From Coq Require Import Reals Lra.
From Verif Require Import Base Spec Thresholds Table K2 C0 C0Proof DK DKProof DKHist DKGuard DKTotal Prop_DK.

Open Scope R_scope.
(** ** Values of the thresholds *)
Lemma log2R_ge k x : 2 ^ k <= x -> INR k <= log2R x.
Proof. intros H. rewrite <- log2R_pow. apply log2R_le; auto. apply pow_lt; lra. Qed.
Lemma log2R_sq x : 0 < x -> log2R (x * x) = 2 * log2R x.
Proof. intros H. unfold log2R. rewrite ln_mult by auto. field. pose proof ln2_pos. lra. Qed.
Lemma log2R_32 : 1 / 2 <= log2R (3 / 2).
Proof.
  assert (H : INR 1 <= log2R (3 / 2 * (3 / 2))) by (apply log2R_ge; cbn; lra).
  rewrite log2R_sq in H by lra. cbn [INR] in H. lra.
Qed.
Lemma log2R_3 m : (3 <= m)%N -> 3 / 2 <= log2R (RN m).
Proof.
  intros Hm. assert (H : INR 3 <= log2R (3 * 3)) by (apply log2R_ge; cbn; lra).
  rewrite log2R_sq in H by lra. cbn [INR] in H.
  assert (H2 : log2R 3 <= log2R (RN m)).
  { apply log2R_le; [lra|]. replace 3 with (RN 3) by reflexivity. apply RN_le; auto. }
  lra.
Qed.
Lemma LL_small m : (3 <= m)%N -> 1 / 2 <= log2R (log2R (RN m)).
Proof.
  intros Hm. pose proof (log2R_3 m Hm). pose proof log2R_32.
  assert (log2R (3 / 2) <= log2R (log2R (RN m))) by (apply log2R_le; lra). lra.
Qed.
Lemma LL_big m : (256 <= m)%N -> 3 <= log2R (log2R (RN m)).
Proof.
  intros Hm. assert (H : INR 8 <= log2R (RN m)).
  { apply log2R_ge. replace (2 ^ 8) with (RN 256) by (unfold RN; cbn [Z.of_N pow]; lra). apply RN_le; auto. }
  cbn [INR] in H. replace 3 with (INR 3) by (cbn; lra). apply log2R_ge. cbn [pow]. lra.
Qed.

Lemma trig_bound T k m c : th_real T -> (3 <= m)%N -> 0 < c -> c <= log2R (log2R (RN m)) -> th_trig T k m = false ->
  c * RN k <= RN m.
Proof.
  intros HT Hm Hc0 Hc E. destruct HT as [_ [_ [_ [_ [_ H3]]]]].
  assert (H : ~ RN k > RN m / log2R (log2R (RN m))) by (intros G; apply (H3 k m Hm) in G; congruence).
  apply Rnot_gt_le in H. set (l := log2R (log2R (RN m))) in *.
  assert (G : RN k * l <= RN m / l * l) by (apply Rmult_le_compat_r; lra).
  replace (RN m / l * l) with (RN m) in G by (field; lra).
  pose proof (RN_pos k). nra.
Qed.
Lemma trig_small T k m : th_real T -> (3 <= m)%N -> th_trig T k m = false -> (k <= 2 * m)%N.
Proof.
  intros HT Hm E. pose proof (trig_bound T k m (1 / 2) HT Hm ltac:(lra) (LL_small m Hm) E) as G.
  apply RN_le. rewrite RN_mult, RN_2. lra.
Qed.
Lemma trig_big T k m : th_real T -> (256 <= m)%N -> th_trig T k m = false -> (3 * k <= m)%N.
Proof.
  intros HT Hm E. pose proof (trig_bound T k m 3 HT ltac:(lia) ltac:(lra) (LL_big m Hm) E) as G.
  apply RN_le. rewrite RN_mult. replace (RN 3) with 3 by reflexivity. lra.
Qed.

Lemma pow2_3sq k : (16 <= k)%nat -> 3 * (INR k * INR k) <= 2 ^ k.
Proof.
  induction 1 as [|k Hk IH]; [cbn; lra|]. rewrite S_INR. cbn [pow].
  apply le_INR in Hk. cbn [INR] in Hk. nra.
Qed.
(** On large graphs the buffer holds between 3 and m/112 edges. *)
Lemma th_large T m : th_real T -> (32768 <= m)%N -> (3 <= th_max T m 0 /\ 112 * th_max T m 0 <= m)%N.
Proof.
  intros HT Hb. destruct HT as [HM _]. specialize (HM m 0%nat ltac:(lia) ltac:(lia)).
  assert (EM : maxsz_real m 0 = 2 * RN m / log2R (RN m) ^ 2).
  { unfold maxsz_real. replace (2 - INR 0 / 4) with (INR 2) by (cbn; lra). rewrite Rpower_pow; [reflexivity|].
    pose proof (log2R_pos m ltac:(lia)). lra. }
  rewrite EM in HM.
  assert (HL15 : 15 <= log2R (RN m)).
  { replace 15 with (INR 15) by (cbn; lra). apply log2R_ge. replace (2 ^ 15) with (RN 32768) by (unfold RN; cbn [Z.of_N pow]; lra). apply RN_le; auto. }
  set (l := log2R (RN m)) in *. set (t := th_max T m 0) in *.
  assert (HD : 2 * RN m / l ^ 2 * l ^ 2 = 2 * RN m) by (field; lra). cbn [pow] in HD. rewrite Rmult_1_r in HD. cbn [pow] in HM. rewrite Rmult_1_r in HM.
  set (q := 2 * RN m / (l * l)) in *. split.
  - set (k := N.log2 m). pose proof (N.log2_spec m ltac:(lia)) as [Hk1 Hk2]. fold k in Hk1, Hk2.
    assert (Hk3 : (15 <= k)%N) by (change 15%N with (N.log2 32768); apply N.log2_le_mono; auto).
    set (j := N.to_nat (N.succ k)). assert (Ej : N.of_nat j = N.succ k) by (unfold j; lia).
    assert (HL : l <= INR j).
    { unfold l. rewrite <- log2R_pow. apply log2R_le; [rewrite <- RN_0; apply RN_lt; lia|].
      replace (2 ^ j) with (RN (2 ^ N.of_nat j)) by (rewrite RN_pow, RN_2; reflexivity).
      rewrite Ej. left. apply RN_lt. exact Hk2. }
    assert (Hj : (16 <= j)%nat) by lia. pose proof (pow2_3sq j Hj) as Hp.
    assert (H2m : 2 ^ j <= 2 * RN m).
    { replace (2 ^ j) with (RN (2 ^ N.of_nat j)) by (rewrite RN_pow, RN_2; reflexivity).
      rewrite Ej, N.pow_succ_r', RN_mult, RN_2. apply RN_le in Hk1. lra. }
    assert (Hge : 3 <= q).
    { apply Rmult_le_reg_r with (l * l); [nra|]. rewrite HD. nra. }
    apply N.nlt_ge. intros Hlt. assert (Ht : (t <= 2)%N) by lia. apply RN_le in Ht. replace (RN 2) with 2 in Ht by reflexivity. lra.
  - apply RN_le. rewrite RN_mult. replace (RN 112) with 112 by reflexivity.
    assert (Hq0 : 0 <= q) by (pose proof (RN_pos t); lra).
    assert (H225 : 225 <= l * l) by nra.
    pose proof (Rmult_le_compat_l q _ _ Hq0 H225). lra.
Qed.
Close Scope R_scope.

(** ** The weight of the number of trees *)
Definition wgt (r : nat) : N := (3 ^ N.of_nat r * 2 ^ (8 - N.of_nat r))%N.
Ltac upto8 r := do 9 (destruct r as [|r]; [vm_compute; try split; discriminate|]); exfalso; lia.
Lemma wgt_range r : r <= 8 -> (256 <= wgt r <= 6561)%N.
Proof. intros H. upto8 r. Qed.
Lemma wgt_step r : S r <= 8 -> (3 * wgt r = 2 * wgt (S r))%N.
Proof. intros H. do 8 (destruct r as [|r]; [reflexivity|]). lia. Qed.
Lemma wgt_mono r s : r <= s -> s <= 8 -> (wgt r <= wgt s)%N.
Proof.
  induction 1 as [|s Hs IH]; intros H8; [lia|]. pose proof (wgt_step s H8). specialize (IH ltac:(lia)). lia.
Qed.
Lemma wgt_drop r s : r < s -> s <= 8 -> (3 * wgt r <= 2 * wgt s)%N.
Proof. intros Hr H8. pose proof (wgt_step r ltac:(lia)). pose proof (wgt_mono (S r) s ltac:(lia) H8). lia. Qed.

(** ** Counters of a state *)
Fixpoint trees {A} (l : list (option A)) : nat :=
  match l with [] => 0 | Some _ :: l => S (trees l) | None :: l => trees l end.
Lemma trees_le {A} (l : list (option A)) : trees l <= length l.
Proof. induction l as [|[a|] l IH]; cbn; lia. Qed.

Section Large.
Context (T : thresholds) (HT : th_real T) (K : k2impl) (L : k2laws K) (Hq : adjf_is_query L) (n : N) (Hbig : (32768 <= n)%N).
Local Notation ks_marked := (ks_marked K).

Lemma Hn2 : (2 <= n)%N. Proof using Hbig. lia. Qed.
Local Hint Resolve Hn2 : core.

Lemma sweep_count l : fst (ks_sweep K l) = ks_marked (snd (ks_sweep K l)) /\
  exists R, ks_marked l = (ks_marked (snd (ks_sweep K l)) + R)%N /\ trees (snd (ks_sweep K l)) <= trees l /\
    (R <> 0%N -> trees (snd (ks_sweep K l)) < trees l).
Proof using. clear Hbig.
  induction l as [|[t|] l IH]; cbn [ks_sweep].
  - split; [reflexivity|]. exists 0%N. cbn. lia.
  - destruct (ks_sweep K l) as [k l']. cbn [fst snd] in IH. destruct IH as [I1 [R [I2 [I3 I4]]]].
    destruct (kt_marked K t =? kt_total K t)%N; cbn [fst snd DKGuard.ks_marked trees].
    + split; [auto|]. exists (R + kt_marked K t)%N. lia.
    + split; [lia|]. exists R. sp; try lia.
  - destruct (ks_sweep K l) as [k l']. cbn [fst snd DKGuard.ks_marked trees] in *. destruct IH as [I1 [R [I2 [I3 I4]]]].
    split; [auto|]. exists R. sp; lia.
Qed.
Lemma erase_count l x y : ks_wf K L n l -> in_range n (x, y) ->
  ks_marked (snd (ks_erase K l x y)) = (ks_marked l + (if fst (ks_erase K l x y) then 1 else 0))%N /\
  trees (snd (ks_erase K l x y)) = trees l.
Proof using. clear Hbig.
  intros H [Hx Hy]. cbn in Hx, Hy. induction l as [|[t|] l IH]; cbn [ks_erase].
  - cbn. lia.
  - inversion H as [|? ? Ht Hl]; subst. specialize (IH Hl).
    destruct (law_erase L n t x y Ht Hx Hy) as [_ [_ E3]].
    destruct (kt_erase K t x y) as [b t']. cbn [fst snd] in E3. destruct b; cbn [fst snd DKGuard.ks_marked trees].
    + lia.
    + destruct (ks_erase K l x y) as [b' l']. cbn [fst snd DKGuard.ks_marked trees] in *. lia.
  - inversion H as [|? ? Ht Hl]; subst. specialize (IH Hl). destruct (ks_erase K l x y) as [b' l']. cbn in *. lia.
Qed.

(** b: edges in the buffer; tl: edges in the trees; mk: edges marked in the trees; c: the edge count. *)
Definition zz (b mk c : N) : N := N.max n (c - b + mk).
Record big (b tl mk c : N) (r : nat) : Prop := {
  g_sum : (b + tl <= c)%N;
  g_r : r <= 8;
  g_buf : (wgt r * b <= 64 * zz b mk c)%N;
  g_mk : (16 * mk <= 5 * zz b mk c + 48)%N;
  g_few : (tl <= 3 -> 16 * (mk + tl) <= 5 * zz b mk c + 48)%N
}.

Lemma big_ok b tl mk c r : big b tl mk c r -> (mk + 1 < N.max n c)%N.
Proof using Hbig. intros [H1 H2 H3 H4 H5]. unfold zz in *. lia. Qed.

Lemma big_insert b tl mk c r th : big b tl mk c r -> (b < th)%N -> (112 * th <= N.max n c)%N -> big (b + 1) tl mk (c + 1) r.
Proof using Hbig.
  intros [H1 H2 H3 H4 H5] Hb Ht. assert (E : zz (b + 1) mk (c + 1) = zz b mk c) by (unfold zz; lia).
  constructor; auto; rewrite ?E; auto; [lia|].
  pose proof (wgt_range r H2) as [_ Hw]. assert (Hz : (111 * th <= zz b mk c)%N) by (unfold zz; lia).
  pose proof (N.mul_le_mono (wgt r) 6561 (b + 1) th Hw ltac:(lia)). lia.
Qed.

Lemma big_flush b tl mk c r tl' mk' r' : big b tl mk c r -> (3 <= b)%N -> (mk' <= mk)%N -> (b + 1 <= tl')%N -> (tl' <= c + 1)%N -> r' <= 8 ->
  big 0 tl' mk' (c + 1) r'.
Proof using Hbig.
  intros [H1 H2 H3 H4 H5] Hb Hm Ht Ht2 Hr. unfold zz in *. constructor; unfold zz; try lia.
Qed.

Lemma big_unbuf b tl mk c r : big b tl mk c r -> (1 <= b)%N -> big (b - 1) tl mk (c - 1) r.
Proof using Hbig.
  intros [H1 H2 H3 H4 H5] Hb. assert (E : zz (b - 1) mk (c - 1) = zz b mk c) by (unfold zz; lia).
  constructor; auto; rewrite ?E; auto; [lia|].
  pose proof (N.mul_le_mono_l (b - 1) b (wgt r) ltac:(lia)). lia.
Qed.

Lemma big_rebuilt tl mk c r : (tl <= c)%N -> (mk <= 1)%N -> r <= 8 -> big 0 tl mk c r.
Proof using Hbig. intros H1 H2 H3. constructor; unfold zz; try lia. Qed.

(** A deletion in the trees that triggers no rebuild: [e] edges leave, [R] marked edges go away with the trees that
    hold nothing else. *)
Lemma big_tree b tl mk c r e R tl' mk' c' r' : big b tl mk c r -> (e <= 1)%N -> (tl = tl' + e)%N -> (c = c' + e)%N ->
  (mk + e = mk' + R)%N -> r' <= r -> (R <> 0%N -> r' < r) -> th_trig T mk' c' = false ->
  big b tl' mk' c' r'.
Proof using Hbig HT.
  intros [H1 H2 H3 H4 H5] He Etl Ec Em Hr1 Hr2 Htr.
  assert (HZ1 : (zz b mk c <= zz b mk' c' + R)%N) by (unfold zz; lia).
  assert (HZn : (n <= zz b mk' c')%N) by (unfold zz; lia).
  assert (HZn0 : (n <= zz b mk c)%N) by (unfold zz; lia).
  assert (HB : (wgt r' * b <= 64 * zz b mk' c')%N).
  { destruct (N.eq_dec R 0) as [->|HR].
    - pose proof (N.mul_le_mono_r _ _ b (wgt_mono r' r Hr1 H2)). lia.
    - pose proof (N.mul_le_mono_r _ _ b (wgt_drop r' r (Hr2 HR) H2)). lia. }
  assert (H4b : (4 * b <= zz b mk' c')%N).
  { pose proof (wgt_range r' ltac:(lia)) as [Hw _]. pose proof (N.mul_le_mono_r _ _ b Hw). lia. }
  assert (Hcases : (c' = 0 \/ c' = 1 \/ c' = 2 \/ (3 <= c' < 256) \/ 256 <= c')%N) by lia.
  assert (G : (c' = 0 \/ c' = 2 \/ 16 * mk' <= 5 * zz b mk' c')%N).
  { destruct Hcases as [G|[G|[G|[G|G]]]]; auto; right; right.
    - subst c'. destruct HT as [_ [_ [_ [T1 _]]]]. rewrite T1 in Htr. apply N.ltb_ge in Htr. lia.
    - pose proof (trig_small T mk' c' HT ltac:(lia) Htr). lia.
    - pose proof (trig_big T mk' c' HT ltac:(lia) Htr) as G3. unfold zz in *. lia. }
  assert (G2 : (c' = 0 \/ c' = 2 -> 16 * (mk' + tl') <= 5 * zz b mk' c' + 48)%N).
  { intros Hc. assert (Htl : (tl <= 3)%N) by lia. specialize (H5 Htl). unfold zz in *. lia. }
  constructor; auto; try lia.
Qed.

(** ** The invariant of a graph *)
Local Notation N_ l := (N.of_nat (length l)).
Definition large (g : dk K) (sl : slots) : Prop :=
  dk_inv K L n g sl /\ big (N_ (live_edges sl)) (N_ (ks_edges K (ks g))) (ks_marked (ks g)) (nt g) (trees (ks g)).

Lemma trees8 (g : dk K) sl : dk_inv K L n g sl -> trees (ks g) <= 8.
Proof. intros H. pose proof (trees_le (ks g)) as G. rewrite (dv_len _ _ _ _ _ H) in G. exact G. Qed.

Lemma large_no_throw g sl x y g' : large g sl -> in_range n (x, y) -> dk_add T K g x y <> Thrown g'.
Proof using HT Hbig.
  intros [H HB] Hr E. unfold dk_add in E.
  destruct (dk_forced_spec K L n g sl x y H Hr) as [b [g1 [E1 [G1 [_ [_ [Hb [Ht [Hf _]]]]]]]]].
  rewrite E1 in E. cbn [rbind] in E. destruct b; [discriminate|]. specialize (Hf eq_refl). subst g1.
  assert (Hm : dk_m K g = N.max n (nt g)) by (unfold dk_m; rewrite (dv_nv _ _ _ _ _ H); auto).
  unfold maxsz in E. destruct (N.eqb_spec (dk_m K g) 1); [lia|]. cbn [rbind] in E.
  rewrite (inv_size _ _ (dv_c0 _ _ _ _ _ H)) in E.
  destruct (N.ltb_spec (N_ (live_edges sl)) (th_max T (dk_m K g) 0)) as [Hlt|Hge].
  - destruct (c0_insert T (C0_ g) (x, y) (nt g)); cbn [rbind] in E; discriminate.
  - destruct (find_level_total T K n Hn2 (dk_m K g) (ks g) 0 (th_max T (dk_m K g) 0)) as [j Ej].
    + pose proof (dv_len _ _ _ _ _ H) as G. destruct (ks g); discriminate.
    + rewrite (dv_len _ _ _ _ _ H). reflexivity.
    + rewrite th_max_8 by (auto; lia). rewrite (ks_total_marked K L n Hn2 (ks g) (dv_wf _ _ _ _ _ H)).
      pose proof (big_ok _ _ _ _ _ HB). pose proof (g_sum _ _ _ _ _ HB). lia.
    + rewrite Ej in E. destruct (c0_converted (C0_ g)); cbn [rbind] in E; [|discriminate].
      destruct (c0_clean (C0_ g)); cbn [rbind] in E; [|discriminate].
      destruct (merge_upto K _ (ks g) (S j)). discriminate.
Qed.

(** The buffer of a graph determines the number of live slots. *)
Lemma slots_size (g : dk K) sl sl' : c0_inv (C0_ g) sl -> c0_inv (C0_ g) sl' -> length (live_edges sl) = length (live_edges sl').
Proof. intros H1 H2. rewrite <- (inv_size _ _ H1), <- (inv_size _ _ H2). reflexivity. Qed.

Lemma count_split (g : dk K) sl d : dk_inv K L n g sl -> nt g = (N_ (dk_all K g sl) + d)%N ->
  (N_ (live_edges sl) + N_ (ks_edges K (ks g)) <= nt g)%N.
Proof. intros H E. unfold dk_all in E. rewrite app_length in E. lia. Qed.

Lemma large_add g sl d x y g' sl' d' : large g sl -> in_range n (x, y) -> dk_add T K g x y = Done g' ->
  nt g = (N_ (dk_all K g sl) + d)%N -> dk_inv K L n g' sl' -> nt g' = (N_ (dk_all K g' sl') + d')%N -> large g' sl'.
Proof using HT Hbig Hq.
  intros [H HB] Hr E Hd H' Hd'. pose proof E as E0. split; auto.
  pose proof (add_marked T K L n Hn2 g sl x y g' Hq H Hr E) as Hmk.
  pose proof (count_split g' sl' d' H' Hd') as HS'.
  rewrite <- (inv_size _ _ (dv_c0 _ _ _ _ _ H')) in HS' |- *. rewrite <- (inv_size _ _ (dv_c0 _ _ _ _ _ H)) in HB.
  unfold dk_add in E.
  destruct (dk_forced_spec K L n g sl x y H Hr) as [b [g1 [E1 [G1 [Hnt1 [_ [Hb [Ht [Hf _]]]]]]]]].
  rewrite E1 in E. cbn [rbind] in E. destruct b.
  - injection E as <-.
    unfold dk_contains_forced in E1. rewrite (inv_contains _ _ _ (dv_c0 _ _ _ _ _ H)) in E1.
    cbn [obind] in E1. destruct (emem (x, y) (live_edges sl)); [injection E1 as <-; exact HB|].
    assert (Hs : snd (ks_adjf K (ks g) x y) = ks g).
    { pose proof (dv_wf _ _ _ _ _ H) as W. clear - W Hr Hq. destruct Hr as [Hx Hy]. cbn in Hx, Hy. induction (ks g) as [|[t|] l IH]; cbn [ks_adjf]; auto;
        inversion W as [|? ? Wt Wl]; subst; specialize (IH Wl).
      - destruct (law_adjf L n t x y Wt Hx Hy) as [A1 A2]. pose proof (law_adjf_live L n t x y Wt Hx Hy) as A3.
        destruct (kt_adjf K t x y) as [b t']. cbn [fst snd] in *. destruct b; cbn [snd].
        + rewrite A3; auto. apply (Hq n); auto. tauto.
        + subst. destruct (ks_adjf K l x y). cbn in *. congruence.
      - destruct (ks_adjf K l x y). cbn in *. congruence. }
    destruct (ks_adjf K (ks g) x y) as [b' l']. cbn in Hs. subst l'. injection E1 as _ E1. subst g1. exact HB.
  - specialize (Hf eq_refl). subst g1.
    assert (Hm : dk_m K g = N.max n (nt g)) by (unfold dk_m; rewrite (dv_nv _ _ _ _ _ H); auto).
    destruct (th_large T (dk_m K g) HT ltac:(lia)) as [T1 T2].
    unfold maxsz in E. destruct (N.eqb_spec (dk_m K g) 1); [lia|]. cbn [rbind] in E.
    destruct (N.ltb_spec (N.of_nat (c0_size (C0_ g))) (th_max T (dk_m K g) 0)) as [Hlt|Hge].
    + destruct (c0_insert T (C0_ g) (x, y) (nt g)) as [c|] eqn:Ec; cbn [rbind] in E; [|discriminate]. injection E as <-.
      destruct (insert_inv _ _ _ _ _ _ (dv_c0 _ _ _ _ _ H) Ec) as [_ [_ Hi2]]. cbn [ks nt C0_].
      assert (Hem : emem (x, y) (live_edges sl) = false).
      { apply emem_false. intros G. assert (false = true) by (apply Hb; auto). discriminate. }
      rewrite Hem in Hi2. rewrite (inv_size _ _ Hi2), live_edges_app, app_length. cbn [live_edges filter map snd fst length].
      rewrite (inv_size _ _ (dv_c0 _ _ _ _ _ H)) in *.
      rewrite Nat2N.inj_add. change (N.of_nat 1) with 1%N.
      eapply big_insert; [exact HB|exact Hlt|lia].
    + destruct (find_level T K (dk_m K g) (ks g) 0 (th_max T (dk_m K g) 0)) as [i|] eqn:Ef; [|discriminate].
      apply (find_level_range T K n Hn2) in Ef. rewrite (dv_len _ _ _ _ _ H) in Ef.
      rewrite (inv_converted _ _ (dv_c0 _ _ _ _ _ H)) in E. cbn [rbind] in E.
      destruct (inv_clean _ _ (dv_c0 _ _ _ _ _ H)) as [c [Ec [Ic _]]]. rewrite Ec in E. cbn [rbind] in E.
      destruct (merge_upto K _ (ks g) (S i)) as [tmp l] eqn:Em. injection E as Eg.
      assert (Ec0 : C0_ g' = c) by (rewrite <- Eg; reflexivity).
      assert (Ent : nt g' = (nt g + 1)%N) by (rewrite <- Eg; reflexivity).
      assert (Ez : c0_size (C0_ g') = 0) by (rewrite Ec0, (inv_size _ _ Ic); reflexivity).
      rewrite Ez in *. change (N.of_nat 0) with 0%N in *. rewrite Ent in *.
      eapply big_flush with (mk := ks_marked (ks g)); [exact HB|lia|exact Hmk| |lia|].
      2: { apply (trees8 g' sl' H'). }
      (* the new tree holds at least the buffer and the new edge *)
      pose proof (dk_add_spec T K L n Hn2 g sl x y H Hr) as HA. rewrite E0 in HA.
      destruct HA as [sl2 [A1 [A2 _]]].
      assert (Hnin : ~ In (x, y) (dk_all K g sl)).
      { intros G. assert (false = true); [|discriminate]. apply Hb. unfold dk_all in G. apply in_app_or in G. destruct G as [G|G]; auto.
        right. apply (ks_edges_known K L n); auto. apply (dv_wf _ _ _ _ _ H). }
      pose proof (len_add _ _ _ (dk_all_nodup K L n g sl H) (dk_all_nodup K L n g' sl2 A1) Hnin A2) as HL.
      unfold dk_all in HL. rewrite !app_length in HL.
      pose proof (inv_size _ _ (dv_c0 _ _ _ _ _ A1)) as Z2. rewrite Ez in Z2.
      rewrite <- (inv_size _ _ (dv_c0 _ _ _ _ _ H)) in HL. lia.
Qed.

Lemma rebuild_buffer g sl g' : dk_inv K L n g sl -> dk_rebuild T K g = Done g' -> c0_size (C0_ g') = 0.
Proof using Hbig.
  intros H E. unfold dk_rebuild in E.
  assert (H11 : in_range n (1, 1)%N) by (split; cbn; lia).
  set (i := rebuild_level T (dk_m K g) (nt g) RS 0) in *.
  rewrite (inv_size _ _ (dv_c0 _ _ _ _ _ H)) in E.
  assert (HALF : forall oo g2 sl2, dk_inv K L n g2 sl2 ->
      (let+ q := (if 0 <? c0_size (C0_ g2)
               then let* conv := c0_converted (C0_ g2) in
                    let* c := c0_clean (C0_ g2) in
                    Ok (Some (kt_build K conv (nv g2)), c)
               else Ok (None, C0_ g2)) in
       let (tmp, c) := q in
       let+ tmp := merge_all K tmp (ks g2) in
       if i <? RS then
         match oo, tmp with
         | true, _ => Done (mkdk (max_r g2) (nv g2) (nt g2) c (upd (repeat None RS) i tmp))
         | false, None => Undefined
         | false, Some t =>
           let (_, t) := kt_erase K t 1 1 in
           Done (mkdk (max_r g2) (nv g2) (nt g2) c (upd (repeat None RS) i (Some t)))
         end
       else Undefined) = Done g' -> c0_size (C0_ g') = 0).
  { intros oo g2 sl2 H2.
    assert (HC : forall q, (if 0 <? c0_size (C0_ g2)
               then let* conv := c0_converted (C0_ g2) in
                    let* c := c0_clean (C0_ g2) in
                    Ok (Some (kt_build K conv (nv g2)), c)
               else Ok (None, C0_ g2)) = Ok q -> c0_size (snd q) = 0).
    { intros q. destruct (Nat.ltb_spec 0 (c0_size (C0_ g2))) as [Hlt|Hge].
      - rewrite (inv_converted _ _ (dv_c0 _ _ _ _ _ H2)). cbn [obind].
        destruct (inv_clean _ _ (dv_c0 _ _ _ _ _ H2)) as [c [Ec [Ic _]]]. rewrite Ec. cbn [obind].
        intros G; injection G as <-. cbn [snd]. rewrite (inv_size _ _ Ic). reflexivity.
      - intros G; injection G as <-. cbn [snd]. lia. }
    destruct (if 0 <? c0_size (C0_ g2) then _ else _) as [q|]; cbn [rbind]; [|discriminate].
    specialize (HC q eq_refl). destruct q as [tmp c]. cbn [snd] in HC.
    destruct (merge_all K tmp (ks g2)) as [r|]; cbn [rbind]; [|discriminate].
    destruct (i <? RS); [|discriminate]. destruct oo.
    - intros G; injection G as <-. exact HC.
    - destruct r as [t|]; [|discriminate]. destruct (kt_erase K t 1 1) as [u t']. intros G; injection G as <-. exact HC. }
  destruct (length (live_edges sl) =? 0).
  - rewrite (dk_contains_spec K L n g sl 1 1 H H11) in E. cbn [obind rbind] in E.
    pose proof (dk_add_spec T K L n Hn2 g sl 1 1 H H11) as HS.
    destruct (dk_add T K g 1 1) as [g2|g2|]; try discriminate. destruct HS as [sl2 [S1 _]].
    apply (HALF _ g2 sl2 S1 E).
  - cbn [rbind] in E. apply (HALF false g sl H E).
Qed.

Lemma large_del g sl d x y g' sl' d' : large g sl -> in_range n (x, y) -> dk_del T K g x y = Done g' ->
  nt g = (N_ (dk_all K g sl) + d)%N -> dk_inv K L n g' sl' -> nt g' = (N_ (dk_all K g' sl') + d')%N -> large g' sl'.
Proof using HT Hbig Hq.
  intros [H HB] Hr E Hd H' Hd'. split; auto.
  pose proof (count_split g sl d H Hd) as HS. pose proof (count_split g' sl' d' H' Hd') as HS'.
  rewrite <- (inv_size _ _ (dv_c0 _ _ _ _ _ H')) in HS' |- *.
  unfold dk_del in E.
  destruct (c0_erase (C0_ g) (x, y)) as [[b c]|] eqn:Ee; cbn [rbind] in E; [|discriminate].
  destruct (erase_inv _ _ _ _ _ (dv_c0 _ _ _ _ _ H) Ee) as [Hb [Hcm [Hcv [sl1 [I1 [I2 [I3 I4]]]]]]].
  destruct b.
  - injection E as <-. cbn [ks nt C0_] in *. symmetry in Hb. apply emem_In in Hb.
    pose proof (len_remove _ _ (uniq_nodup _ (inv_uniq _ _ (dv_c0 _ _ _ _ _ H))) Hb) as HL. rewrite <- I3 in HL.
    rewrite (inv_size _ _ I1). rewrite u64_dec_pos by lia.
    replace (N_ (live_edges sl1)) with (N_ (live_edges sl) - 1)%N by lia.
    eapply big_unbuf; [exact HB|lia].
  - specialize (I4 eq_refl). subst c.
    pose proof (ks_erase_spec K L n (ks g) x y (dv_wf _ _ _ _ _ H) (dv_disj _ _ _ _ _ H) Hr) as [R1 [R2 [R3 [R4 [R5 [R6 _]]]]]].
    destruct (erase_count (ks g) x y (dv_wf _ _ _ _ _ H) Hr) as [Q1 Q2].
    assert (Hlen : N_ (ks_edges K (ks g)) = (N_ (ks_edges K (snd (ks_erase K (ks g) x y))) + (if fst (ks_erase K (ks g) x y) then 1 else 0))%N).
    { pose proof (ks_edges_nodup K L n _ (dv_wf _ _ _ _ _ H) (dv_disj _ _ _ _ _ H)) as D1.
      pose proof (ks_edges_nodup K L n _ R1 R3) as D2.
      destruct (fst (ks_erase K (ks g) x y)) eqn:Ef.
      - rewrite (len_del _ _ _ D1 D2 (proj1 R4 eq_refl) R5). lia.
      - rewrite N.add_0_r. f_equal. apply len_same; auto. intros e. rewrite R5. split; [|tauto]. intros G. split; auto.
        intros ->. apply R4 in G. discriminate. }
    destruct (ks_erase K (ks g) x y) as [eb l]. cbn [fst snd] in *.
    pose proof (ks_sweep_spec K L n Hn2 l R1) as [W1 [W2 [W3 [W4 [W5 _]]]]].
    destruct (sweep_count l) as [V1 [R [V2 [V3 V4]]]].
    destruct (ks_sweep K l) as [marked l2]. cbn [fst snd] in *.
    set (n' := if eb then u64_dec (nt g) else nt g) in *.
    assert (Hn' : nt g = (n' + (if eb then 1 else 0))%N).
    { unfold n'. destruct eb; [rewrite u64_dec_pos by lia|]; lia. }
    destruct (th_trig T marked n') eqn:Etr.
    + set (g2 := mkdk (max_r g) (nv g) n' (C0_ g) l2) in *.
      assert (H2 : dk_inv K L n g2 sl).
      { destruct H as [h1 h2 h3 h4 h5 h6 h7 h8 h9]. constructor; cbn; auto.
        - rewrite W2, R2; auto.
        - intros e Q3 Q4. apply (h9 e Q3); auto. }
      pose proof (rebuild_marked T K L n Hn2 g2 sl g' H2 E) as Hm1.
      rewrite (rebuild_buffer g2 sl g' H2 E) in *. change (N.of_nat 0) with 0%N in *.
      apply big_rebuilt; [lia|exact Hm1|apply (trees8 g' sl' H')].
    + injection E as <-. cbn [ks nt C0_] in *. rewrite (inv_size _ _ (dv_c0 _ _ _ _ _ H)), W3.
      eapply big_tree with (e := if eb then 1%N else 0%N) (R := R); [exact HB|destruct eb; lia|exact Hlen|exact Hn'| | | |].
      * destruct eb; lia.
      * lia.
      * intros G. specialize (V4 G). lia.
      * rewrite <- V1. exact Etr.
Qed.

Lemma large_ops h : forall g sl d, large g sl -> nt g = (N_ (dk_all K g sl) + d)%N -> Forall (op_in_range n) h ->
  match dk_ops T K g h with Done g' => exists sl', large g' sl' | Thrown _ => False | Undefined => True end.
Proof using HT Hbig Hq.
  induction h as [|o h IH]; intros g sl d HG Hd HF; cbn [dk_ops]; [eauto|].
  inversion HF as [|? ? Ho Hh]; subst. pose proof HG as [H HB].
  destruct (dk_op T K g o) as [g1|g1|] eqn:Eo; cbn [rbind]; auto.
  - destruct (cnt_step T K L n Hn2 g sl o g1 d Hq H Ho Eo Hd) as [sl1 [d1 [J1 [_ [_ [_ [J2 _]]]]]]].
    apply (IH g1 sl1 d1); auto. destruct o as [[x y]|[x y]]; cbn [dk_op] in Eo.
    + apply (large_add g sl d x y g1 sl1 d1); auto.
    + apply (large_del g sl d x y g1 sl1 d1); auto.
  - destruct o as [[x y]|[x y]]; cbn [dk_op] in Eo.
    + apply (large_no_throw g sl x y g1 HG Ho Eo).
    + destruct (del_total T HT K L n Hn2 g sl x y H Hq Ho) as [G _]. apply (G g1 Eo).
Qed.

Lemma large_hist h : Forall (op_in_range n) h ->
  match dk_hist T K n h with Done g => exists sl, large g sl | Thrown _ => False | Undefined => True end.
Proof using HT Hbig Hq.
  intros HF. unfold dk_hist. destruct (dk_new T K n) as [g0|] eqn:E0; cbn [rbind]; auto.
  destruct (dk_new_inv T K L n Hn2 g0 E0) as [H [Hz [_ Hk]]].
  apply (large_ops h g0 [] 0%N); auto.
  - split; auto. rewrite Hk, Hz. constructor; unfold zz; cbn; try lia.
  - unfold dk_all. rewrite Hk, Hz. reflexivity.
Qed.
End Large.

(** C16 (partial): on 32768 vertices or more, add_edge never throws, whatever the history: no history ends in a throw,
    and after a history that completed no addition throws.  Missing: small graphs, see C16_refuted. *)
Theorem C16_large_partial : forall T K (L : k2laws K) n h,
  th_real T -> adjf_is_query L -> (32768 <= n)%N -> Forall (op_in_range n) h ->
  (forall g, dk_hist T K n h <> Thrown g) /\
  (forall g u v g', dk_hist T K n h = Done g -> in_range n (u, v) -> dk_add T K g u v <> Thrown g').
Proof.
  intros T K L n h HT Hq Hn HF. pose proof (large_hist T HT K L Hq n Hn h HF) as H. split.
  - intros g E. rewrite E in H. exact H.
  - intros g u v g' E Hr. rewrite E in H. destruct H as [sl HG]. apply (large_no_throw T HT K L n Hn g sl u v g' HG Hr).
Qed.

(** The hypotheses are met: a history with deletions on 32768 vertices that completes. *)
Example C16_large_example : exists h g, reached th_exact K2Ref 32768 h g /\ length h = 5 /\ dels h = 2%N.
Proof.
  exists [a 0 1; a 1 2; d 1 2; a 6 32767; d 0 0]%N.
  set (h := [a 0 1; a 1 2; d 1 2; a 6 32767; d 0 0]%N).
  assert (HF : Forall (op_in_range 32768) h) by ranges.
  assert (HB : benign th_exact 32768 h).
  { right. destruct (th_large th_exact 32768 th_real_inhabited ltac:(lia)) as [H3 _].
    change (N.of_nat (adds h)) with 3%N. lia. }
  destruct (benign_hist th_exact K2Ref K2Ref_laws 32768 h th_real_inhabited K2Ref_query ltac:(lia) HF HB) as [g [sl [E _]]].
  exists g. split; [split; auto|]. split; reflexivity.
Qed.
