(** * DKTotal: when del_edge completes. *)
From Coq Require Import Reals Lra.
From Verif Require Import Base Spec Thresholds Table K2 C0 C0Proof DK DKProof DKHist DKGuard.

Open Scope R_scope.
Lemma pow2_sq k : (4 <= k)%nat -> INR k * INR k <= 2 ^ k.
Proof.
  induction 1 as [|k Hk IH]; [cbn; lra|]. rewrite S_INR. cbn [pow].
  apply le_INR in Hk. cbn [INR] in Hk. nra.
Qed.

(** The buffer always has room for at least one edge: MAXSZ(m,0) >= 1. *)
Lemma th_max0_pos T m : th_real T -> (2 <= m)%N -> (1 <= th_max T m 0)%N.
Proof.
  intros HT Hm. destruct (N.lt_ge_cases m 8) as [Hs|Hb].
  - rewrite <- (tabled_eq T HT).
    assert (m = 2 \/ m = 3 \/ m = 4 \/ m = 5 \/ m = 6 \/ m = 7)%N as Hc by lia.
    destruct Hc as [->|[->|[->|[->|[->| ->]]]]]; vm_compute; discriminate.
  - destruct HT as [HM _]. specialize (HM m 0%nat Hm ltac:(lia)).
    set (k := N.log2 m). pose proof (N.log2_spec m ltac:(lia)) as [Hk1 Hk2]. fold k in Hk1, Hk2.
    assert (Hk3 : (3 <= k)%N) by (change 3%N with (N.log2 8); apply N.log2_le_mono; auto).
    pose proof (log2R_pos m Hm) as HL1.
    set (j := N.to_nat (N.succ k)). assert (Ej : N.of_nat j = N.succ k) by (unfold j; lia).
    assert (HL : log2R (RN m) <= INR j).
    { rewrite <- log2R_pow. apply log2R_le; [rewrite <- RN_0; apply RN_lt; lia|].
      replace (2 ^ j) with (RN (2 ^ N.of_nat j)) by (rewrite RN_pow, RN_2; reflexivity).
      rewrite Ej. left. apply RN_lt. exact Hk2. }
    assert (Hj : (4 <= j)%nat) by lia. pose proof (pow2_sq j Hj) as Hp.
    assert (H2m : 2 ^ j <= 2 * RN m).
    { replace (2 ^ j) with (RN (2 ^ N.of_nat j)) by (rewrite RN_pow, RN_2; reflexivity).
      rewrite Ej, N.pow_succ_r', RN_mult, RN_2. apply RN_le in Hk1. lra. }
    assert (Hge : 1 <= maxsz_real m 0).
    { unfold maxsz_real. replace (2 - INR 0 / 4) with (INR 2) by (cbn; lra). rewrite Rpower_pow by lra.
      assert (0 < log2R (RN m) ^ 2) by (apply pow_lt; lra).
      apply Rmult_le_reg_r with (log2R (RN m) ^ 2); auto. unfold Rdiv.
      rewrite Rmult_assoc, Rinv_l by lra. cbn [pow]. nra. }
    apply N.nlt_ge. intros Hlt. assert (th_max T m 0 = 0)%N as E by lia. rewrite E, RN_0 in HM. lra.
Qed.
Close Scope R_scope.

Section Total.
Context (T : thresholds) (HT : th_real T) (K : k2impl) (L : k2laws K) (n : N) (Hn : (2 <= n)%N).
Local Notation dk := (dk K).
Local Notation dk_inv := (dk_inv K L n).
Local Notation dk_all := (dk_all K).

Lemma rebuild_level_lt m k : (2 <= m)%N -> (k <= m)%N -> rebuild_level T m k RS 0 < RS.
Proof using HT Hn.
  intros Hm Hk.
  assert (G : forall cnt i, cnt + i = 8 -> 0 < cnt -> rebuild_level T m k cnt i < 8).
  { induction cnt as [|cnt IH]; intros i E H; [lia|]. cbn [rebuild_level].
    destruct (N.ltb_spec k (th_max T m (S i))) as [Hl|Hl]; [lia|].
    destruct cnt as [|cnt]; [|apply IH; lia]. assert (i = 7) by lia; subst i.
    rewrite th_max_8 in Hl by (auto; lia). lia. }
  apply G; unfold RS; lia.
Qed.

Lemma merge_all_none_ub l : merge_all K None l = UB <-> exists t, In (Some t) l.
Proof.
  induction l as [|[t|] l IH]; cbn [merge_all].
  - split; [discriminate|intros [t []]].
  - split; auto. intros _. exists t; left; auto.
  - rewrite IH. split; intros [t Ht]; exists t; [right; auto|]. destruct Ht as [Ht|Ht]; [discriminate|auto].
Qed.

(** The buffer can take one more edge, possibly after growing to the current threshold. *)
Definition has_room (g : dk) : Prop := c_n (C0_ g) < Nat.max (c_max (C0_ g)) (N.to_nat (th_max T (dk_m K g) 0)).

(** On an empty buffer add_edge never reaches the search for a level. *)
Lemma add_empty g sl x y : dk_inv g sl -> in_range n (x, y) -> live_edges sl = [] ->
  (kn_all K L g sl (x, y) -> exists g', dk_add T K g x y = Done g') /\
  (~ kn_all K L g sl (x, y) -> has_room g -> exists g', dk_add T K g x y = Done g') /\
  (~ kn_all K L g sl (x, y) -> ~ has_room g -> dk_add T K g x y = Undefined).
Proof.
  intros H Hr Hz. unfold dk_add.
  destruct (dk_forced_spec K L n g sl x y H Hr) as [b [g1 [E [G1 [_ [_ [Hb [_ [Hf _]]]]]]]]].
  rewrite E. cbn [rbind]. split; [intros Hk; rewrite (proj2 Hb Hk); eauto|].
  assert (Hm : (2 <= dk_m K g)%N) by (unfold dk_m; rewrite (dv_nv _ _ _ _ _ H); lia).
  pose proof (th_max0_pos T (dk_m K g) HT Hm) as Hpos.
  assert (HR : has_room g <-> room T (C0_ g) (nt g)).
  { unfold has_room, room. rewrite (dv_c0nv _ _ _ _ _ H). unfold dk_m in *. rewrite (dv_nv _ _ _ _ _ H) in *.
    split; [intros G; destruct (Nat.lt_ge_cases (c_n (C0_ g)) (c_max (C0_ g))); [left; auto|right; split; lia]|intros [G|[_ G]]; lia]. }
  split; intros Hk Hroom.
  - destruct b; [exfalso; apply Hk, Hb; auto|]. specialize (Hf eq_refl). subst g1.
    unfold maxsz. destruct (N.eqb_spec (dk_m K g) 1); [lia|]. cbn [rbind].
    rewrite (inv_size _ _ (dv_c0 _ _ _ _ _ H)), Hz. cbn [length].
    destruct (N.ltb_spec (N.of_nat 0) (th_max T (dk_m K g) 0)) as [_|G]; [|cbn in G; lia].
    destruct (insert_ok T (C0_ g) sl (x, y) (nt g) (dv_c0 _ _ _ _ _ H)) as [c [Ec _]].
    + rewrite Hz; auto.
    + apply HR; auto.
    + rewrite Ec. cbn. eauto.
  - destruct b; [exfalso; apply Hk, Hb; auto|]. specialize (Hf eq_refl). subst g1.
    unfold maxsz. destruct (N.eqb_spec (dk_m K g) 1); [lia|]. cbn [rbind].
    rewrite (inv_size _ _ (dv_c0 _ _ _ _ _ H)), Hz. cbn [length].
    destruct (N.ltb_spec (N.of_nat 0) (th_max T (dk_m K g) 0)) as [_|G]; [|cbn in G; lia].
    destruct (c0_insert T (C0_ g) (x, y) (nt g)) as [c|] eqn:Ec; [|reflexivity].
    exfalso. apply Hroom, HR. eapply insert_room; eauto; [apply (dv_c0 _ _ _ _ _ H)|]. rewrite Hz; auto.
Qed.

(** The rebuild: it never throws, and when the buffer is empty it is undefined exactly if the
    self-loop (1,1) is an edge or the buffer has no slot left for it. *)
Lemma rebuild_total g sl : dk_inv g sl -> adjf_is_query L ->
  (live_edges sl <> [] -> exists g', dk_rebuild T K g = Done g') /\
  (live_edges sl = [] -> In (1, 1)%N (dk_all g sl) -> dk_rebuild T K g = Undefined) /\
  (live_edges sl = [] -> ~ In (1, 1)%N (dk_all g sl) -> ~ has_room g -> dk_rebuild T K g = Undefined) /\
  (live_edges sl = [] -> ~ In (1, 1)%N (dk_all g sl) -> has_room g -> exists g', dk_rebuild T K g = Done g').
Proof.
  intros H Hq. unfold dk_rebuild. assert (H11 : in_range n (1, 1)%N) by (split; cbn; lia).
  assert (Hm : (2 <= dk_m K g)%N) by (unfold dk_m; rewrite (dv_nv _ _ _ _ _ H); lia).
  assert (Hntm : (nt g <= dk_m K g)%N) by (unfold dk_m; lia).
  pose proof (rebuild_level_lt (dk_m K g) (nt g) Hm Hntm) as Hi.
  set (i := rebuild_level T (dk_m K g) (nt g) RS 0) in *. apply Nat.ltb_lt in Hi.
  rewrite (inv_size _ _ (dv_c0 _ _ _ _ _ H)).
  assert (Hkn : kn_all K L g sl (1, 1)%N <-> In (1, 1)%N (dk_all g sl)).
  { unfold kn_all, DKProof.dk_all. rewrite in_app_iff. split; intros [G|G]; auto; right.
    - destruct G as [t [G1 G2]]. pose proof (dv_wf _ _ _ _ _ H) as W. unfold ks_wf in W. rewrite Forall_forall in W.
      apply (Hq n) in G2; [|apply (W _ G1)]. unfold ks_edges. apply in_concat. exists (kt_edges K t).
      split; auto. apply in_map_iff. exists (Some t); auto.
    - apply (ks_edges_known K L n); auto. apply (dv_wf _ _ _ _ _ H). }
  assert (HALF : forall g2 sl2, dk_inv g2 sl2 -> live_edges sl2 <> [] -> exists g',
      (let+ q := (if 0 <? c0_size (C0_ g2)
               then let* conv := c0_converted (C0_ g2) in
                    let* c := c0_clean (C0_ g2) in
                    Ok (Some (kt_build K conv (nv g2)), c)
               else Ok (None, C0_ g2)) in
       let (tmp, c) := q in
       let+ tmp := merge_all K tmp (ks g2) in
       if i <? RS then
         match false, tmp with
         | true, _ => Done (mkdk (max_r g2) (nv g2) (nt g2) c (upd (repeat None RS) i tmp))
         | false, None => Undefined
         | false, Some t =>
           let (_, t) := kt_erase K t 1 1 in
           Done (mkdk (max_r g2) (nv g2) (nt g2) c (upd (repeat None RS) i (Some t)))
         end
       else Undefined) = Done g').
  { intros g2 sl2 H2 Hne. rewrite (inv_size _ _ (dv_c0 _ _ _ _ _ H2)).
    destruct (Nat.ltb_spec 0 (length (live_edges sl2))) as [Hlt|Hge].
    2: { destruct (live_edges sl2); [congruence|cbn in *; lia]. }
    rewrite (inv_converted _ _ (dv_c0 _ _ _ _ _ H2)). cbn [obind].
    destruct (inv_clean _ _ (dv_c0 _ _ _ _ _ H2)) as [c [Ec _]]. rewrite Ec. cbn [obind rbind].
    rewrite (dv_nv _ _ _ _ _ H2).
    destruct (merge_all_total K (ks g2) (kt_build K (live_edges sl2) n)) as [r Er].
    assert (exists t, r = Some t) as [t ->].
    { destruct (law_build L n (live_edges sl2) Hn Hne) as [B1 _].
      - apply uniq_nodup, (inv_uniq _ _ (dv_c0 _ _ _ _ _ H2)).
      - apply (dv_range _ _ _ _ _ H2).
      - destruct (merge_all_spec K L n _ _ _ B1 (dv_wf _ _ _ _ _ H2) Er) as [t [-> _]]. eauto. }
    rewrite Er. cbn [rbind]. rewrite Hi. destruct (kt_erase K t 1 1) as [q u]. eauto. }
  split; [|split; [|split]].
  - intros Hne. destruct (Nat.eqb_spec (length (live_edges sl)) 0) as [E|E].
    { destruct (live_edges sl); [congruence|discriminate]. }
    cbn [rbind]. apply (HALF g sl); auto.
  - intros Hz Hin. rewrite Hz. cbn [length Nat.eqb].
    rewrite (dk_contains_spec K L n g sl 1 1 H H11). cbn [obind rbind].
    rewrite (proj2 (emem_In _ _) Hin).
    unfold dk_add. destruct (dk_forced_spec K L n g sl 1 1 H H11) as [b [g1 [E [G1 [_ [_ [Hb [Ht _]]]]]]]].
    rewrite E. cbn [rbind]. rewrite (proj2 Hb (proj2 Hkn Hin)) in *.
    rewrite (inv_size _ _ (dv_c0 _ _ _ _ _ G1)), Hz. cbn [length Nat.ltb Nat.leb rbind].
    assert (Hex : exists t, In (Some t) (ks g1)).
    { assert (Hin1 : In (1, 1)%N (dk_all g1 sl)) by (apply Ht; auto).
      unfold DKProof.dk_all in Hin1. rewrite Hz in Hin1. cbn [app] in Hin1.
      assert (HK : ks_known K L (ks g1) (1, 1)%N) by (apply (ks_edges_known K L n); auto; apply (dv_wf _ _ _ _ _ G1)).
      destruct HK as [t [Ht1 _]]. eauto. }
    apply merge_all_none_ub in Hex. rewrite Hex. reflexivity.
  - intros Hz Hnin Hroom. rewrite Hz. cbn [length Nat.eqb].
    rewrite (dk_contains_spec K L n g sl 1 1 H H11). cbn [obind rbind].
    destruct (add_empty g sl 1 1 H H11 Hz) as [_ [_ A3]]. rewrite A3; auto. rewrite Hkn; auto.
  - intros Hz Hnin Hroom. rewrite Hz. cbn [length Nat.eqb].
    rewrite (dk_contains_spec K L n g sl 1 1 H H11). cbn [obind rbind].
    rewrite (proj2 (emem_false _ _) Hnin).
    destruct (add_empty g sl 1 1 H H11 Hz) as [_ [A2 _]]. destruct A2 as [g2 E2]; auto; [rewrite Hkn; auto|].
    pose proof (dk_add_spec T K L n Hn g sl 1 1 H H11) as HS. rewrite E2 in HS |- *.
    destruct HS as [sl2 [S1 [S2 [_ [_ [_ [_ [_ _]]]]]]]].
    apply (HALF g2 sl2); auto.
    (* the edge went into the buffer *)
    intros Hz2. unfold dk_add in E2.
    destruct (dk_forced_spec K L n g sl 1 1 H H11) as [b [g1 [E [G1 [_ [_ [Hb [_ [Hf _]]]]]]]]].
    rewrite E in E2. cbn [rbind] in E2.
    destruct b; [apply Hnin, Hkn, Hb; auto|]. specialize (Hf eq_refl). subst g1.
    unfold maxsz in E2. destruct (N.eqb_spec (dk_m K g) 1); [lia|]. cbn [rbind] in E2.
    rewrite (inv_size _ _ (dv_c0 _ _ _ _ _ H)), Hz in E2. cbn [length] in E2.
    pose proof (th_max0_pos T (dk_m K g) HT Hm) as Hpos.
    destruct (N.ltb_spec (N.of_nat 0) (th_max T (dk_m K g) 0)) as [_|G]; [|cbn in G; lia].
    destruct (c0_insert T (C0_ g) (1, 1)%N (nt g)) as [c|] eqn:Ec; [|discriminate]. cbn [rbind] in E2.
    destruct (insert_inv _ _ _ _ _ _ (dv_c0 _ _ _ _ _ H) Ec) as [_ [_ Hi2]].
    rewrite Hz in Hi2. cbn [emem existsb] in Hi2. inversion E2; subst g2.
    pose proof (inv_size _ _ Hi2) as Z1. pose proof (inv_size _ _ (dv_c0 _ _ _ _ _ S1)) as Z2. cbn [C0_] in Z2.
    rewrite live_edges_app, Hz in Z1. rewrite Hz2 in Z2. cbn in Z1, Z2. lia.
Qed.

(** The state del_edge is in when it decides whether to rebuild: the edge is gone from the trees. *)
Definition after_erase (g : dk) (x y : N) : dk :=
  let (eb, l) := ks_erase K (ks g) x y in
  mkdk (max_r g) (nv g) (if eb then u64_dec (nt g) else nt g) (C0_ g) (snd (ks_sweep K l)).
Definition triggers (g : dk) (x y : N) : bool :=
  let (eb, l) := ks_erase K (ks g) x y in
  th_trig T (fst (ks_sweep K l)) (if eb then u64_dec (nt g) else nt g).

Lemma del_total g sl x y : dk_inv g sl -> adjf_is_query L -> in_range n (x, y) ->
  (forall g', dk_del T K g x y <> Thrown g') /\
  (dk_del T K g x y = Undefined <->
     ~ In (x, y) (live_edges sl) /\ triggers g x y = true /\ live_edges sl = [] /\
     ((In (1, 1)%N (dk_all g sl) /\ (x, y) <> (1, 1)%N) \/ ~ has_room (after_erase g x y))).
Proof.
  intros H Hq Hr. unfold dk_del, triggers, after_erase.
  destruct (erase_total _ _ (x, y) (dv_c0 _ _ _ _ _ H)) as [b [c Ee]]. rewrite Ee. cbn [rbind].
  destruct (erase_inv _ _ _ _ _ (dv_c0 _ _ _ _ _ H) Ee) as [Hb [Hcm [Hcv [sl1 [I1 [I2 [I3 I4]]]]]]].
  destruct b.
  - symmetry in Hb. apply emem_In in Hb. split; [discriminate|]. split; [discriminate|tauto].
  - specialize (I4 eq_refl). subst c. symmetry in Hb. apply emem_false in Hb.
    pose proof (ks_erase_spec K L n (ks g) x y (dv_wf _ _ _ _ _ H) (dv_disj _ _ _ _ _ H) Hr) as [R1 [R2 [R3 [R4 [R5 [R6 _]]]]]].
    destruct (ks_erase K (ks g) x y) as [eb l]. cbn [fst snd] in *.
    pose proof (ks_sweep_spec K L n Hn l R1) as [W1 [W2 [W3 [W4 [W5 _]]]]].
    destruct (ks_sweep K l) as [marked l2]. cbn [fst snd] in *.
    set (n' := if eb then u64_dec (nt g) else nt g).
    set (g2 := mkdk (max_r g) (nv g) n' (C0_ g) l2).
    assert (H2 : dk_inv g2 sl).
    { destruct H as [h1 h2 h3 h4 h5 h6 h7 h8 h9]. constructor; cbn; auto.
      - rewrite W2, R2; auto.
      - intros e Q3 Q4. apply (h9 e Q3); auto. }
    assert (Hall : forall e, In e (dk_all g2 sl) <-> In e (dk_all g sl) /\ e <> (x, y)).
    { intros e. unfold DKProof.dk_all, g2; cbn [ks]. rewrite !in_app_iff, W3, R5. split; [|tauto].
      intros [G|G]; [|tauto]. split; auto. intros ->; auto. }
    destruct (th_trig T marked n').
    + destruct (rebuild_total g2 sl H2 Hq) as [B1 [B2 [B3 B4]]].
      destruct (live_edges sl) as [|e0 r] eqn:El.
      * destruct (in_dec edge_dec (1, 1)%N (dk_all g2 sl)) as [Hin|Hin].
        -- rewrite (B2 eq_refl Hin). split; [discriminate|]. split; auto. intros _. sp; auto.
           left. apply Hall in Hin. destruct Hin as [G1 G2]. split; auto.
        -- assert (Hdec : has_room g2 \/ ~ has_room g2) by (unfold has_room; lia). destruct Hdec as [Hro|Hro].
           ++ destruct (B4 eq_refl Hin Hro) as [g' ->]. split; [discriminate|]. split; [discriminate|].
              intros [_ [_ [_ [[G1 G2]|G]]]]; [|tauto]. exfalso. apply Hin, Hall; auto.
           ++ rewrite (B3 eq_refl Hin Hro). split; [discriminate|]. split; auto.
      * destruct (B1 ltac:(discriminate)) as [g' ->]. split; [discriminate|]. split; [discriminate|].
        intros [_ [_ [G _]]]; discriminate.
    + split; [discriminate|]. split; [discriminate|]. intros [_ [G _]]; discriminate.
Qed.

(** add_edge is undefined exactly when the edge is new, the buffer's live edges are below the threshold, and the
    slots consumed (live or dead) fill the capacity. *)
Lemma add_ub_iff g sl x y : dk_inv g sl -> in_range n (x, y) ->
  (dk_add T K g x y = Undefined <->
   ~ kn_all K L g sl (x, y) /\ (N.of_nat (length (live_edges sl)) < th_max T (dk_m K g) 0)%N /\ ~ has_room g).
Proof using Hn.
  intros H Hr. unfold dk_add.
  destruct (dk_forced_spec K L n g sl x y H Hr) as [b [g1 [E [G1 [_ [_ [Hb [_ [Hf _]]]]]]]]].
  rewrite E. cbn [rbind].
  assert (Hm : (2 <= dk_m K g)%N) by (unfold dk_m; rewrite (dv_nv _ _ _ _ _ H); lia).
  assert (HR : has_room g <-> room T (C0_ g) (nt g)).
  { unfold has_room, room. rewrite (dv_c0nv _ _ _ _ _ H). unfold dk_m in *. rewrite (dv_nv _ _ _ _ _ H) in *.
    split; [intros G; destruct (Nat.lt_ge_cases (c_n (C0_ g)) (c_max (C0_ g))); [left; auto|right; split; lia]|intros [G|[_ G]]; lia]. }
  destruct b; [split; [discriminate|]; intros [G _]; exfalso; apply G, Hb; auto|].
  specialize (Hf eq_refl). subst g1.
  assert (Hk : ~ kn_all K L g sl (x, y)) by (intros G; apply Hb in G; discriminate).
  unfold maxsz. destruct (N.eqb_spec (dk_m K g) 1); [lia|]. cbn [rbind].
  rewrite (inv_size _ _ (dv_c0 _ _ _ _ _ H)).
  destruct (N.ltb_spec (N.of_nat (length (live_edges sl))) (th_max T (dk_m K g) 0)) as [Hlt|Hge].
  - destruct (c0_insert T (C0_ g) (x, y) (nt g)) as [c|] eqn:Ec; cbn [rbind].
    + split; [discriminate|]. intros [_ [_ G]]. exfalso. apply G, HR.
      eapply insert_room; eauto; [apply (dv_c0 _ _ _ _ _ H)|]. intros G2; apply Hk; left; auto.
    + split; auto. intros _. sp; auto. intros G. apply HR in G.
      destruct (insert_ok T (C0_ g) sl (x, y) (nt g) (dv_c0 _ _ _ _ _ H)) as [c [Ec' _]]; auto; [|congruence].
      intros G2; apply Hk; left; auto.
  - split; [|intros [_ [G _]]; lia].
    destruct (find_level T K (dk_m K g) (ks g) 0 (th_max T (dk_m K g) 0)); [|discriminate].
    rewrite (inv_converted _ _ (dv_c0 _ _ _ _ _ H)). cbn [rbind].
    destruct (inv_clean _ _ (dv_c0 _ _ _ _ _ H)) as [c [Ec _]]. rewrite Ec. cbn [rbind].
    destruct (merge_upto K _ (ks g) _). discriminate.
Qed.

(** ** Marked edges and the throw *)
Local Notation ks_marked := (ks_marked K).

Lemma merge_upto_marked cnt : forall tmp l, (ks_marked (snd (merge_upto K tmp l cnt)) <= ks_marked l)%N.
Proof.
  induction cnt as [|cnt IH]; intros tmp [|o l]; cbn [merge_upto snd]; try lia.
  specialize (IH (match o with Some t => kt_union K tmp t | None => tmp end) l).
  destruct (merge_upto K _ l cnt) as [r l']. cbn [snd DKGuard.ks_marked] in *. destruct o; lia.
Qed.
Lemma ks_marked_upd l : forall i t, nth_error l i = Some None -> kt_marked K t = 0%N -> ks_marked (upd l i (Some t)) = ks_marked l.
Proof.
  induction l as [|o l IH]; intros [|i] t H Ht; cbn in *; try discriminate.
  - inversion H; subst. lia.
  - rewrite (IH i t); auto.
Qed.

Lemma add_marked g sl x y g' : adjf_is_query L -> dk_inv g sl -> in_range n (x, y) -> dk_add T K g x y = Done g' ->
  (ks_marked (ks g') <= ks_marked (ks g))%N.
Proof.
  intros Hq H Hr E. unfold dk_add in E.
  destruct (dk_forced_spec K L n g sl x y H Hr) as [b [g1 [E1 [G1 [_ [_ [Hb [Ht [Hf _]]]]]]]]].
  rewrite E1 in E. cbn [rbind] in E. destruct b.
  - inversion E; subst g'. unfold dk_contains_forced in E1. rewrite (inv_contains _ _ _ (dv_c0 _ _ _ _ _ H)) in E1.
    cbn [obind] in E1. destruct (emem (x, y) (live_edges sl)); [inversion E1; subst; lia|].
    assert (Hs : snd (ks_adjf K (ks g) x y) = ks g).
    { pose proof (dv_wf _ _ _ _ _ H) as W. clear - W Hr Hq. destruct Hr as [Hx Hy]. cbn in Hx, Hy. induction (ks g) as [|[t|] l IH]; cbn [ks_adjf]; auto;
        inversion W as [|? ? Wt Wl]; subst; specialize (IH Wl).
      - destruct (law_adjf L n t x y Wt Hx Hy) as [A1 A2]. pose proof (law_adjf_live L n t x y Wt Hx Hy) as A3.
        destruct (kt_adjf K t x y) as [b t']. cbn [fst snd] in *. destruct b; cbn [snd].
        + rewrite A3; auto. apply (Hq n); auto. tauto.
        + subst. destruct (ks_adjf K l x y). cbn in *. congruence.
      - destruct (ks_adjf K l x y). cbn in *. congruence. }
    destruct (ks_adjf K (ks g) x y) as [b' l']. cbn in Hs. subst l'. inversion E1; subst. cbn. lia.
  - specialize (Hf eq_refl). subst g1.
    destruct (maxsz T (dk_m K g) 0) as [ms|]; cbn [rbind] in E; [|discriminate].
    destruct (N.of_nat (c0_size (C0_ g)) <? ms)%N.
    + destruct (c0_insert T (C0_ g) (x, y) (nt g)); cbn [rbind] in E; [|discriminate]. inversion E; subst. cbn. lia.
    + destruct (find_level T K (dk_m K g) (ks g) 0 ms) as [i|] eqn:Ef; [|discriminate].
      apply (find_level_range T K n Hn) in Ef. rewrite (dv_len _ _ _ _ _ H) in Ef.
      rewrite (inv_converted _ _ (dv_c0 _ _ _ _ _ H)) in E. cbn [rbind] in E.
      destruct (c0_clean (C0_ g)) as [c|]; cbn [rbind] in E; [|discriminate].
      assert (Hne : live_edges sl ++ [(x, y)] <> []) by (destruct (live_edges sl); discriminate).
      destruct (law_build L n (live_edges sl ++ [(x, y)]) Hn Hne) as [B1 [B2 _]].
      { apply NoDup_app. sp.
        - apply uniq_nodup, (inv_uniq _ _ (dv_c0 _ _ _ _ _ H)).
        - repeat constructor; auto.
        - intros a Ha [<-|[]]. assert (false = true) by (apply Hb; auto). discriminate. }
      { apply Forall_app. split; [apply (dv_range _ _ _ _ _ H)|repeat constructor; apply Hr]. }
      rewrite (dv_nv _ _ _ _ _ H) in E.
      assert (Hle : S i <= length (ks g)) by (rewrite (dv_len _ _ _ _ _ H); clear - Ef; lia).
      pose proof (merge_upto_spec K L n Hn (S i) _ (ks g) B1 (dv_wf _ _ _ _ _ H) Hle) as HM.
      pose proof (merge_upto_marked (S i) (kt_build K (live_edges sl ++ [(x, y)]) n) (ks g)) as HU.
      destruct (merge_upto K (kt_build K (live_edges sl ++ [(x, y)]) n) (ks g) (S i)) as [tmp l]. cbn [fst snd] in *.
      destruct HM as [_ [M2 [_ [_ M5]]]]. inversion E; subst g'. cbn [ks].
      rewrite ks_marked_upd; auto. rewrite M2. rewrite nth_error_app1 by (rewrite repeat_length; lia).
      rewrite nth_error_repeat. destruct (Nat.ltb_spec i (S i)); [reflexivity|lia].
Qed.

Lemma rebuild_marked g sl g' : dk_inv g sl -> dk_rebuild T K g = Done g' -> (ks_marked (ks g') <= 1)%N.
Proof.
  intros H E. unfold dk_rebuild in E.
  assert (H11 : in_range n (1, 1)%N) by (split; cbn; lia).
  set (i := rebuild_level T (dk_m K g) (nt g) RS 0) in *.
  rewrite (inv_size _ _ (dv_c0 _ _ _ _ _ H)) in E.
  assert (HALF : forall oo g2 sl2, dk_inv g2 sl2 ->
      (let+ q := (if 0 <? c0_size (C0_ g2)
               then let* conv := c0_converted (C0_ g2) in
                    let* c := c0_clean (C0_ g2) in
                    Ok (Some (kt_build K conv (nv g2)), c)
               else Ok (None, C0_ g2)) in
       let (tmp, c) := q in
       let+ tmp := merge_all K tmp (ks g2) in
       if i <? RS then
         match oo, tmp with
         | true, _ => Done (mkdk (max_r g2) (nv g2) (nt g2) c (upd (repeat None RS) i tmp))
         | false, None => Undefined
         | false, Some t =>
           let (_, t) := kt_erase K t 1 1 in
           Done (mkdk (max_r g2) (nv g2) (nt g2) c (upd (repeat None RS) i (Some t)))
         end
       else Undefined) = Done g' -> (ks_marked (ks g') <= 1)%N).
  { intros oo g2 sl2 H2. rewrite (inv_size _ _ (dv_c0 _ _ _ _ _ H2)).
    assert (HU : forall j t, (ks_marked (upd (repeat None RS) j (Some t)) <= kt_marked K t)%N).
    { intros j t. do 8 (destruct j as [|j]; [cbn; lia|]). cbn; lia. }
    assert (HN : forall j, ks_marked (upd (repeat None RS) j None) = 0%N).
    { intros j. do 8 (destruct j as [|j]; [reflexivity|]). reflexivity. }
    destruct (Nat.ltb_spec 0 (length (live_edges sl2))) as [Hlt|Hge].
    - assert (Hne : live_edges sl2 <> []) by (destruct (live_edges sl2); [cbn in *; lia|discriminate]).
      rewrite (inv_converted _ _ (dv_c0 _ _ _ _ _ H2)). cbn [obind].
      destruct (c0_clean (C0_ g2)) as [c|]; cbn [obind rbind]; [|discriminate].
      rewrite (dv_nv _ _ _ _ _ H2).
      destruct (law_build L n (live_edges sl2) Hn Hne) as [B1 [B2 _]].
      { apply uniq_nodup, (inv_uniq _ _ (dv_c0 _ _ _ _ _ H2)). }
      { apply (dv_range _ _ _ _ _ H2). }
      destruct (merge_all K (Some (kt_build K (live_edges sl2) n)) (ks g2)) as [r|] eqn:Em; cbn [rbind]; [|discriminate].
      destruct (merge_all_spec K L n _ _ _ B1 (dv_wf _ _ _ _ _ H2) Em) as [t [-> [M1 [_ [_ M4]]]]].
      specialize (M4 B2). destruct (i <? RS); [|discriminate]. destruct oo.
      + intros G; injection G as G. rewrite <- G. change (ks_marked (upd (repeat None RS) i (Some t)) <= 1)%N. specialize (HU i t). rewrite M4 in HU. clear - HU. lia.
      + destruct (law_erase L n t 1 1 M1 ltac:(lia) ltac:(lia)) as [_ [_ E3]].
        destruct (kt_erase K t 1 1) as [eb t']. cbn [fst snd] in E3.
        intros G; injection G as G. rewrite <- G. change (ks_marked (upd (repeat None RS) i (Some t')) <= 1)%N. specialize (HU i t'). rewrite E3, M4 in HU. clear - HU. destruct eb; lia.
    - cbn [rbind]. destruct (merge_all K None (ks g2)) as [r|] eqn:Em; cbn [rbind]; [|discriminate].
      apply merge_all_null in Em. destruct Em as [-> _]. destruct (i <? RS); [|discriminate].
      destruct oo; [|discriminate]. intros G; injection G as G. rewrite <- G. change (ks_marked (upd (repeat None RS) i None) <= 1)%N. rewrite HN. lia. }
  destruct (length (live_edges sl) =? 0).
  - rewrite (dk_contains_spec K L n g sl 1 1 H H11) in E. cbn [obind rbind] in E.
    pose proof (dk_add_spec T K L n Hn g sl 1 1 H H11) as HS.
    destruct (dk_add T K g 1 1) as [g2|g2|]; try discriminate. destruct HS as [sl2 [S1 _]].
    apply (HALF _ g2 sl2 S1 E).
  - cbn [rbind] in E. apply (HALF false g sl H E).
Qed.

Lemma del_marked g sl x y g' : dk_inv g sl -> in_range n (x, y) -> dk_del T K g x y = Done g' ->
  (ks_marked (ks g') <= ks_marked (ks g) + 1)%N.
Proof.
  intros H Hr E. unfold dk_del in E.
  destruct (c0_erase (C0_ g) (x, y)) as [[b c]|] eqn:Ee; cbn [rbind] in E; [|discriminate].
  destruct (erase_inv _ _ _ _ _ (dv_c0 _ _ _ _ _ H) Ee) as [Hb [Hcm [Hcv [sl1 [I1 [I2 [I3 I4]]]]]]].
  destruct b; [inversion E; subst; cbn [ks]; lia|].
  specialize (I4 eq_refl). subst c.
  pose proof (ks_erase_spec K L n (ks g) x y (dv_wf _ _ _ _ _ H) (dv_disj _ _ _ _ _ H) Hr) as [R1 [R2 [R3 [R4 [R5 [R6 _]]]]]].
  pose proof (ks_erase_marked K L n Hn (ks g) x y (dv_wf _ _ _ _ _ H) Hr) as Hem.
  destruct (ks_erase K (ks g) x y) as [eb l]. cbn [fst snd] in *.
  pose proof (ks_sweep_spec K L n Hn l R1) as [W1 [W2 [W3 [W4 [W5 _]]]]].
  pose proof (ks_sweep_marked K n Hn l) as [_ Hsm].
  destruct (ks_sweep K l) as [marked l2]. cbn [fst snd] in *.
  destruct (th_trig T marked _).
  - apply rebuild_marked with (sl := sl) in E; [lia|].
    destruct H as [h1 h2 h3 h4 h5 h6 h7 h8 h9]. constructor; cbn; auto.
    + rewrite W2, R2; auto.
    + intros e Q3 Q4. apply (h9 e Q3); auto.
  - inversion E; subst. cbn [ks]. destruct eb; lia.
Qed.

Lemma ks_total_marked l : ks_wf K L n l -> ks_total K l = (N.of_nat (length (ks_edges K l)) + ks_marked l)%N.
Proof.
  induction l as [|[t|] l IH]; cbn [ks_total DKGuard.ks_marked]; intros H; auto; inversion H as [|? ? Ht Hl]; subst.
  - rewrite ks_edges_cons_some, app_length, IH, (law_total L n t Ht); auto. lia.
  - rewrite IH; auto.
Qed.

(** add_edge cannot throw while fewer than n-1 edges are marked. *)
Lemma add_no_throw g sl x y g' : dk_inv g sl -> in_range n (x, y) ->
  (N.of_nat (length (dk_all g sl)) <= nt g)%N -> (ks_marked (ks g) + 1 < n)%N ->
  dk_add T K g x y <> Thrown g'.
Proof.
  intros H Hr Hnt Hmk E. unfold dk_add in E.
  destruct (dk_forced_spec K L n g sl x y H Hr) as [b [g1 [E1 [G1 [_ [_ [Hb [Ht [Hf _]]]]]]]]].
  rewrite E1 in E. cbn [rbind] in E. destruct b; [discriminate|]. specialize (Hf eq_refl). subst g1.
  assert (Hm : (2 <= dk_m K g)%N) by (unfold dk_m; rewrite (dv_nv _ _ _ _ _ H); lia).
  unfold maxsz in E. destruct (N.eqb_spec (dk_m K g) 1); [lia|]. cbn [rbind] in E.
  rewrite (inv_size _ _ (dv_c0 _ _ _ _ _ H)) in E.
  destruct (N.ltb_spec (N.of_nat (length (live_edges sl))) (th_max T (dk_m K g) 0)) as [Hlt|Hge].
  - destruct (c0_insert T (C0_ g) (x, y) (nt g)); cbn [rbind] in E; discriminate.
  - destruct (find_level_total T K n Hn (dk_m K g) (ks g) 0 (th_max T (dk_m K g) 0)) as [j Ej].
    + pose proof (dv_len _ _ _ _ _ H) as G. destruct (ks g); discriminate.
    + rewrite (dv_len _ _ _ _ _ H). reflexivity.
    + rewrite th_max_8 by (auto; lia). rewrite ks_total_marked by (apply (dv_wf _ _ _ _ _ H)).
      unfold DKProof.dk_all in Hnt. rewrite app_length in Hnt.
      unfold dk_m in *. rewrite (dv_nv _ _ _ _ _ H) in *. lia.
    + rewrite Ej in E. destruct (c0_converted (C0_ g)); cbn [rbind] in E; [|discriminate].
      destruct (c0_clean (C0_ g)); cbn [rbind] in E; [|discriminate].
      destruct (merge_upto K _ (ks g) (S j)). discriminate.
Qed.

Lemma hist_marked h : adjf_is_query L -> forall g sl S g' d, rel K L n g sl S -> Forall (op_in_range n) h -> dk_ops T K g h = Done g' ->
  nt g = (N.of_nat (length (dk_all g sl)) + d)%N ->
  exists sl' d', rel K L n g' sl' (fold_left espec_step h S) /\
    nt g' = (N.of_nat (length (dk_all g' sl')) + d')%N /\ (ks_marked (ks g') <= ks_marked (ks g) + dels h)%N.
Proof.
  intros Hq. induction h as [|o h IH]; intros g sl S g' d H HF E Hd; cbn in E |- *.
  - inversion E; subst. exists sl, d. sp; auto. cbn; lia.
  - inversion HF as [|? ? Ho Hh]; subst.
    destruct (dk_op T K g o) as [g1|g1|] eqn:Eo; try discriminate.
    assert (Hm1 : (ks_marked (ks g1) <= ks_marked (ks g) + dels [o])%N).
    { destruct o as [[x y]|[x y]]; cbn [dk_op] in Eo; unfold dels; cbn [filter length N.of_nat].
      - pose proof (add_marked g sl x y g1 Hq (rl_inv _ _ _ _ _ _ H) Ho Eo). lia.
      - pose proof (del_marked g sl x y g1 (rl_inv _ _ _ _ _ _ H) Ho Eo). lia. }
    destruct (cnt_ops T K L n Hn [o] Hq g sl S g1 d H) as [sl1 [d1 [R1 [C1 _]]]]; auto.
    { cbn. rewrite Eo. reflexivity. }
    destruct (IH g1 sl1 _ g' d1 R1 Hh E C1) as [sl' [d' [Q1 [Q2 Q3]]]]. exists sl', d'. sp; auto.
    change (o :: h) with ([o] ++ h). rewrite dels_app. lia.
Qed.

End Total.

(** ** Histories whose deletions never trigger a rebuild *)
(** Every deletion happens while at least seven times as many edges are present as deletions have been made. *)
Fixpoint calm_from (S : list edge) (k : N) (h : list op) : Prop :=
  match h with
  | [] => True
  | Add e :: h => calm_from (espec_step S (Add e)) k h
  | Del e :: h => (7 * (k + 1) <= N.of_nat (length S))%N /\ (N.of_nat (length S) < 2 ^ 64)%N /\
                  calm_from (espec_step S (Del e)) (k + 1) h
  end.
Definition calm (h : list op) : Prop := calm_from [] 0 h.

Section Calm.
Context (T : thresholds) (HT : th_real T) (K : k2impl) (L : k2laws K) (Hq : adjf_is_query L) (n : N) (Hn : (2 <= n)%N).

Lemma relX_add g sl S x y g' : relX K L n g sl S -> NoDup S -> in_range n (x, y) -> dk_add T K g x y = Done g' ->
  exists sl', relX K L n g' sl' (espec_step S (Add (x, y))).
Proof.
  intros [H1 H2 H3 H4] HS Hr E. pose proof (dk_add_spec T K L n Hn g sl x y H1 Hr) as HA. rewrite E in HA.
  destruct HA as [sl' [A1 [A2 [A3 [A4 [_ [A6 _]]]]]]]. exists sl'. constructor; auto.
  - intros e. rewrite A2, espec_step_In, H2. intuition.
  - assert (Hk : kn_all K L g sl (x, y) <-> In (x, y) (dk_all K g sl)).
    { unfold kn_all, DKProof.dk_all. rewrite in_app_iff. split; (intros [G|G]; [left; auto|right]).
      - destruct G as [t [Ht Hkn]]. clear - Ht Hkn Hq H1. pose proof (dv_wf _ _ _ _ _ H1) as W.
        induction (ks g) as [|o l IH]; [destruct Ht|]. inversion W; subst.
        destruct Ht as [->|Ht].
        + rewrite ks_edges_cons_some, in_app_iff. left. apply (Hq n); auto.
        + destruct o; [rewrite ks_edges_cons_some, in_app_iff; right|rewrite ks_edges_cons_none]; auto.
      - apply (ks_edges_known K L n); auto. apply (dv_wf _ _ _ _ _ H1). }
    pose proof (dk_all_nodup K L n g sl H1) as D1. pose proof (dk_all_nodup K L n g' sl' A1) as D2.
    destruct (in_dec edge_dec (x, y) (dk_all K g sl)) as [Hin|Hin].
    + rewrite A3 by (apply Hk; auto). rewrite H4. f_equal. apply len_same; auto.
      intros e. rewrite A2. intuition; subst; auto.
    + rewrite A4 by (intros G; apply Hin, Hk; auto). rewrite H4.
      rewrite (len_add (dk_all K g sl) (dk_all K g' sl') (x, y)); auto. rewrite Nat2N.inj_succ. apply N.add_1_r.
Qed.

Lemma calm_ops h : forall g sl S k g', relX K L n g sl S -> NoDup S -> (ks_marked K (ks g) <= k)%N ->
  Forall (op_in_range n) h -> calm_from S k h -> dk_ops T K g h = Done g' ->
  exists sl', relX K L n g' sl' (fold_left espec_step h S).
Proof.
  induction h as [|o h IH]; intros g sl S k g' R HS Hk HF HC E; cbn [dk_ops fold_left] in *.
  - inversion E; subst; eauto.
  - inversion HF as [|? ? Ho Hh]; subst. destruct (dk_op T K g o) as [g1|g1|] eqn:Eo; try discriminate.
    pose proof (espec_step_nodup S o HS) as HS'.
    destruct o as [[x y]|[x y]]; cbn [dk_op calm_from] in *.
    + destruct (relX_add g sl S x y g1 R HS Ho Eo) as [sl1 R1].
      pose proof (add_marked T K L n Hn g sl x y g1 Hq (rx_inv _ _ _ _ _ _ R) Ho Eo) as Hm.
      apply (IH g1 sl1 _ k g'); auto. lia.
    + destruct HC as [C1 [C2 C3]].
      assert (Hnt : nt g = N.of_nat (length S)).
      { rewrite (rx_nt _ _ _ _ _ _ R). f_equal. apply len_same; auto.
        - apply (dk_all_nodup K L n g sl (rx_inv _ _ _ _ _ _ R)).
        - apply (rx_set _ _ _ _ _ _ R). }
      destruct (del_quiet T K L n Hn g sl S x y R Ho) as [g2 [sl2 [E2 [R2 [M2 _]]]]].
      { intros a b Ha Hb1 Hb2. destruct (fst _); apply th_trig_small; auto; rewrite Hnt in *; lia. }
      rewrite E2 in Eo. injection Eo as <-. apply (IH g2 sl2 _ (k + 1)%N g'); auto. lia.
Qed.

Lemma hist_calm h g : Forall (op_in_range n) h -> calm h -> dk_hist T K n h = Done g ->
  exists sl, relX K L n g sl (espec h).
Proof.
  intros HF HC E. unfold dk_hist in E. destruct (dk_new T K n) as [g0|] eqn:E0; cbn in E; [|discriminate].
  destruct (dk_new_inv T K L n Hn g0 E0) as [H [Hz [_ Hk]]].
  apply (calm_ops h g0 [] [] 0%N g); auto.
  - constructor; auto.
    + intros e. unfold DKProof.dk_all. rewrite Hk. cbn. tauto.
    + intros i t Hi. rewrite Hk, nth_error_repeat in Hi. destruct (i <? RS); discriminate.
    + unfold DKProof.dk_all. rewrite Hz, Hk. reflexivity.
  - constructor.
  - rewrite Hk. vm_compute. discriminate.
Qed.
End Calm.
