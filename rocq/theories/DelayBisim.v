(** * DelayBisim: which compressed tree DKtree_delay uses cannot be observed.

    Unlike DKtree, DKtree_delay calls unionOp on trees that have marked (erased) edges; the contract does not say how many
    marked edges the result has.  [unions_clean] says it has none.  Histories without deletions need no such assumption. *)
From Verif Require Import Base Spec Thresholds K2 C0 C0Proof DK DKProof DKHist DKBisim Delay DelayProof.

(** unionOp leaves no marked edges. *)
Definition unions_clean {K} (L : k2laws K) : Prop := forall n a b, wf L n a -> wf L n b -> kt_marked K (kt_union K a b) = 0%N.
Lemma K2Ref_clean : unions_clean K2Ref_laws.
Proof. intros n a b _ _. reflexivity. Qed.

Section Bisim.
Context (T : thresholds) (n : N) (Hn : (2 <= n)%N).
Context (K1 : k2impl) (L1 : k2laws K1) (K2 : k2impl) (L2 : k2laws K2).
(** [UC]: deletions are allowed *)
Context (UC : Prop) (HU1 : UC -> unions_clean L1) (HU2 : UC -> unions_clean L2).
Local Notation tsim := (tsim n K1 L1 K2 L2).

Definition psm (a : kt K1) (b : kt K2) : Prop := tsim a b /\ (UC \/ kt_marked K1 a = 0%N).
Definition osm (a : option (kt K1)) (b : option (kt K2)) : Prop :=
  match a, b with None, None => True | Some a, Some b => psm a b | _, _ => False end.
Definition lsm := Forall2 osm.

Lemma lsm_lsim l1 l2 : lsm l1 l2 -> lsim n K1 L1 K2 L2 l1 l2.
Proof. intros H. induction H as [|[a|] [b|] l1 l2 Ho Hl IH]; constructor; auto; cbn in *; try tauto. apply Ho. Qed.

Lemma psm_union a b c d : psm a b -> psm c d -> psm (kt_union K1 a c) (kt_union K2 b d).
Proof.
  intros [[H1 H2 H3 H4] H5] [[G1 G2 G3 G4] G5].
  destruct (law_union L1 n a c H1 G1) as [U1 [U2 U3]]. destruct (law_union L2 n b d H2 G2) as [V1 [V2 V3]].
  split.
  - constructor; auto.
    + intros e. rewrite U2, V2, H3, G3. tauto.
    + destruct H5 as [H5|H5].
      * rewrite (HU1 H5 n a c H1 G1), (HU2 H5 n b d H2 G2). reflexivity.
      * rewrite U3, V3; congruence.
  - destruct H5 as [H5|H5]; auto.
Qed.

Record dsm (d : dl K1) (e : dl K2) : Prop := {
  sm_maxr : max_r (d_g d) = max_r (d_g e);
  sm_nv : nv (d_g d) = nv (d_g e);
  sm_nt : nt (d_g d) = nt (d_g e);
  sm_c0 : C0_ (d_g d) = C0_ (d_g e);
  sm_ks : lsm (ks (d_g d)) (ks (d_g e));
  sm_i : u_i d = u_i e;
  sm_prev : u_prev d = u_prev e;
  sm_final : u_final d = u_final e;
  sm_tmp : osm (d_tmp d) (d_tmp e)
}.
Definition osmr (a : out (dl K1)) (b : out (dl K2)) : Prop :=
  match a, b with Ok a, Ok b => dsm a b | UB, UB => True | _, _ => False end.
Definition rsm (a : res (dl K1)) (b : res (dl K2)) : Prop :=
  match a, b with
  | Done a, Done b => dsm a b
  | Thrown a, Thrown b => dsm a b
  | Undefined, Undefined => True
  | _, _ => False
  end.

Lemma lsm_len l1 l2 : lsm l1 l2 -> length l1 = length l2.
Proof. intros H. induction H; cbn; auto. Qed.
Lemma lsm_nth l1 l2 : lsm l1 l2 -> forall i,
  match nth_error l1 i, nth_error l2 i with Some a, Some b => osm a b | None, None => True | _, _ => False end.
Proof. intros H. induction H; intros [|i]; cbn; auto. apply IHForall2. Qed.
Lemma lsm_upd l1 l2 : lsm l1 l2 -> forall i a b, osm a b -> lsm (upd l1 i a) (upd l2 i b).
Proof. intros H. induction H; intros [|i] a b Hab; cbn; constructor; auto. apply IHForall2; auto. Qed.
Lemma lsm_next l1 l2 : lsm l1 l2 -> forall cnt i, next_tree K1 l1 i cnt = next_tree K2 l2 i cnt.
Proof.
  intros H. induction cnt as [|c IH]; intros i; cbn; auto. pose proof (lsm_nth _ _ H i) as G.
  destruct (nth_error l1 i) as [[a|]|], (nth_error l2 i) as [[b|]|]; cbn in G; try tauto; auto.
Qed.

Lemma sm_union d e : dsm d e -> osmr (union_delay K1 d) (union_delay K2 e).
Proof.
  intros [H1 H2 H3 H4 H5 H6 H7 H8 H9]. unfold union_delay.
  rewrite <- H6, <- H7, <- H8, <- (lsm_len _ _ H5), (lsm_next _ _ H5).
  destruct (u_final d <? length (ks (d_g d))); [|exact I].
  destruct (next_tree K2 (ks (d_g e)) (u_i d) (S (u_final d) - u_i d)) as [j|].
  - pose proof (lsm_nth _ _ H5 j) as G.
    destruct (nth_error (ks (d_g d)) j) as [[a|]|], (nth_error (ks (d_g e)) j) as [[b|]|]; cbn in G; try tauto; try exact I.
    destruct (u_prev d <? RS).
    + pose proof (lsm_nth _ _ H5 (u_prev d)) as Q.
      destruct (nth_error (ks (d_g d)) (u_prev d)) as [[s|]|], (nth_error (ks (d_g e)) (u_prev d)) as [[t|]|]; cbn in Q; try tauto; try exact I.
      constructor; cbn; auto. apply lsm_upd; [apply lsm_upd; auto|exact I]. cbn. apply psm_union; auto.
    + destruct (d_tmp d) as [s|], (d_tmp e) as [t|]; cbn in H9; try tauto; try exact I.
      constructor; cbn; auto. apply lsm_upd; auto. cbn. apply psm_union; auto.
  - destruct (u_prev d <? RS).
    + pose proof (lsm_nth _ _ H5 (u_prev d)) as Q.
      destruct (nth_error (ks (d_g d)) (u_prev d)) as [s|], (nth_error (ks (d_g e)) (u_prev d)) as [t|]; try tauto; try exact I.
      constructor; cbn; auto. apply lsm_upd; [apply lsm_upd; auto|exact I].
    + constructor; cbn; auto. apply lsm_upd; auto.
Qed.

Lemma sm_contains d e x y : dsm d e -> in_range n (x, y) -> dl_contains K1 d x y = dl_contains K2 e x y.
Proof.
  intros [H1 H2 H3 H4 H5 H6 H7 H8 H9] Hr. unfold dl_contains, dk_contains. rewrite H4.
  destruct (c0_contains (C0_ (d_g e)) (x, y)) as [b|]; cbn [obind]; auto.
  rewrite (ls_adj n K1 L1 K2 L2 _ _ x y (lsm_lsim _ _ H5) Hr). reflexivity.
Qed.
Lemma sm_neigh d e x : dsm d e -> (x < n)%N ->
  match dl_neigh K1 d x, dl_neigh K2 e x with
  | Ok l1, Ok l2 => forall y, In y l1 <-> In y l2
  | UB, UB => True
  | _, _ => False
  end.
Proof.
  intros [H1 H2 H3 H4 H5 H6 H7 H8 H9] Hx. apply (sim_neigh n K1 L1 K2 L2); auto. constructor; auto. apply lsm_lsim; auto.
Qed.
Lemma psm_build es : es <> [] -> NoDup es -> Forall (in_range n) es -> psm (kt_build K1 es n) (kt_build K2 es n).
Proof. intros A B C. destruct (ps_build n Hn K1 L1 K2 L2 es A B C) as [G1 G2]. split; auto. Qed.

Lemma sm_add d e sl x y : dsm d e -> dl_inv K1 L1 n d sl -> in_range n (x, y) -> rsm (dl_add T K1 d x y) (dl_add T K2 e x y).
Proof.
  intros HS HI Hr. unfold dl_add.
  assert (Hw : work_done K1 d = work_done K2 e) by (unfold work_done; rewrite (sm_i _ _ HS), (sm_final _ _ HS); reflexivity).
  assert (H1 : osmr (if work_done K1 d then Ok d else union_delay K1 d) (if work_done K2 e then Ok e else union_delay K2 e)).
  { rewrite Hw. destruct (work_done K2 e); [exact HS|apply sm_union; auto]. }
  destruct (if work_done K1 d then Ok d else union_delay K1 d) as [d1|] eqn:E1;
    destruct (if work_done K2 e then Ok e else union_delay K2 e) as [e1|] eqn:E2; cbn in H1; try tauto; cbn [rbind]; try exact I.
  destruct (step_union K1 L1 n d sl d1 HI E1) as (A1&_). clear HS Hw E1 E2 HI d e.
  pose proof (dl_contains_spec K1 L1 n d1 sl x y A1 Hr) as [b [Eb Hb]].
  rewrite <- (sm_contains _ _ x y H1 Hr), Eb. cbn [rbind]. destruct b; [exact H1|].
  assert (Hnl : ~ In (x, y) (live_edges sl)).
  { intros G. assert (false = true) by (apply Hb; left; auto). discriminate. }
  destruct H1 as [h1 h2 h3 h4 h5 h6 h7 h8 h9].
  assert (Hm : dk_m K1 (d_g d1) = dk_m K2 (d_g e1)) by (unfold dk_m; congruence).
  rewrite <- Hm, <- h4, <- h3, <- h2, <- h1.
  destruct (maxsz T (dk_m K1 (d_g d1)) 0) as [ms|]; cbn [rbind]; [|exact I].
  destruct (N.of_nat (c0_size (C0_ (d_g d1))) <? ms)%N.
  - destruct (c0_insert T (C0_ (d_g d1)) (x, y) (nt (d_g d1))) as [c|]; cbn [rbind]; [|exact I]. constructor; cbn; auto.
  - assert (Hw : work_done K1 d1 = work_done K2 e1) by (unfold work_done; congruence). rewrite <- Hw.
    destruct (work_done K1 d1); [|exact I].
    rewrite <- (ls_find T n K1 L1 K2 L2 _ _ _ (lsm_lsim _ _ h5)).
    destruct (find_level T K1 (dk_m K1 (d_g d1)) (ks (d_g d1)) 0 ms) as [i|]; [|constructor; cbn; auto].
    rewrite (inv_converted _ _ (dn_c0 _ _ _ _ _ A1)). cbn [rbind].
    destruct (c0_clean (C0_ (d_g d1))) as [c|]; cbn [rbind]; [|exact I].
    rewrite (dn_nv _ _ _ _ _ A1).
    assert (Hp : psm (kt_build K1 (live_edges sl ++ [(x, y)]) n) (kt_build K2 (live_edges sl ++ [(x, y)]) n)).
    { apply psm_build.
      - destruct (live_edges sl); discriminate.
      - apply NoDup_app. sp.
        + apply uniq_nodup, (inv_uniq _ _ (dn_c0 _ _ _ _ _ A1)).
        + repeat constructor; auto.
        + intros a Ha [<-|[]]. auto.
      - apply Forall_app. split; [apply (dn_range _ _ _ _ _ A1)|repeat constructor; apply Hr]. }
    pose proof (fun P => sm_union (mkdl (mkdk (Nat.max i (max_r (d_g d1))) n (nt (d_g d1)) c (ks (d_g d1))) 0 RS i (Some (kt_build K1 (live_edges sl ++ [(x, y)]) n)))
      (mkdl (mkdk (Nat.max i (max_r (d_g d1))) n (nt (d_g d1)) c (ks (d_g e1))) 0 RS i (Some (kt_build K2 (live_edges sl ++ [(x, y)]) n))) P) as HU.
    assert (HU' := HU ltac:(constructor; cbn; auto)). clear HU.
    destruct (union_delay K1 _) as [d3|], (union_delay K2 _) as [e3|]; cbn in HU'; try tauto; cbn [rbind]; try exact I.
    destruct HU' as [k1 k2 k3 k4 k5 k6 k7 k8 k9]. constructor; cbn; auto. congruence.
Qed.

Lemma sm_erase l1 l2 x y : lsm l1 l2 -> UC -> in_range n (x, y) ->
  let '(b1, k1, m1) := dl_erase K1 l1 x y in let '(b2, k2, m2) := dl_erase K2 l2 x y in b1 = b2 /\ k1 = k2 /\ lsm m1 m2.
Proof.
  intros H HC Hr. induction H as [|[a|] [b|] l1 l2 Ho Hl IH]; cbn [dl_erase]; try (cbn in Ho; tauto).
  - sp; auto. constructor.
  - destruct Ho as [Ho _]. destruct (ts_erase n K1 L1 K2 L2 a b x y Ho Hr) as [E1 E2].
    destruct (kt_erase K1 a x y) as [b1 t1]. destruct (kt_erase K2 b x y) as [b2 t2]. cbn [fst snd] in *. subst b2.
    assert (Hp : psm t1 t2) by (split; auto).
    destruct b1.
    + rewrite (ts_total _ _ _ _ _ _ _ E2), (ts_marked _ _ _ _ _ _ _ E2).
      destruct (kt_marked K2 t2 =? kt_total K2 t2)%N; sp; auto; constructor; cbn; auto.
    + destruct (dl_erase K1 l1 x y) as [[c1 k1] m1]. destruct (dl_erase K2 l2 x y) as [[c2 k2] m2].
      destruct IH as [-> [-> IH]]. sp; auto. constructor; cbn; auto.
  - destruct (dl_erase K1 l1 x y) as [[c1 k1] m1]. destruct (dl_erase K2 l2 x y) as [[c2 k2] m2].
    destruct IH as [-> [-> IH]]. sp; auto. constructor; cbn; auto.
Qed.
Lemma sm_merge l1 l2 : lsm l1 l2 -> forall cnt a b, psm a b ->
  psm (fst (merge_upto K1 a l1 cnt)) (fst (merge_upto K2 b l2 cnt)) /\
  lsm (snd (merge_upto K1 a l1 cnt)) (snd (merge_upto K2 b l2 cnt)).
Proof.
  intros H. induction H as [|o1 o2 l1 l2 Ho Hl IH]; intros [|cnt] a b Hp; cbn [merge_upto]; auto.
  - split; auto; constructor.
  - split; auto; constructor.
  - split; auto. cbn. constructor; auto.
  - assert (Hu : psm (match o1 with Some t => kt_union K1 a t | None => a end)
                      (match o2 with Some t => kt_union K2 b t | None => b end)).
    { destruct o1, o2; try (cbn in Ho; tauto). apply psm_union; auto. }
    specialize (IH cnt _ _ Hu).
    destruct (merge_upto K1 _ l1 cnt) as [r1 m1]. destruct (merge_upto K2 _ l2 cnt) as [r2 m2].
    cbn [fst snd] in *. destruct IH. split; auto. constructor; cbn; auto.
Qed.
Lemma psm_new : psm (kt_new K1 n) (kt_new K2 n).
Proof.
  destruct (law_new L1 n Hn) as [A1 [A2 A3]]. destruct (law_new L2 n Hn) as [B1 [B2 B3]]. split; auto.
  constructor; auto; [|congruence]. intros e. rewrite A3, B3. tauto.
Qed.

Lemma sm_del d e sl x y : UC -> dsm d e -> dl_inv K1 L1 n d sl -> in_range n (x, y) -> rsm (dl_del T K1 d x y) (dl_del T K2 e x y).
Proof.
  intros HC [h1 h2 h3 h4 h5 h6 h7 h8 h9] HI Hr. unfold dl_del.
  rewrite <- h4. destruct (c0_erase (C0_ (d_g d)) (x, y)) as [[b c]|] eqn:Ee; cbn [rbind]; [|exact I].
  destruct (erase_inv _ _ _ _ _ (dn_c0 _ _ _ _ _ HI) Ee) as [Hb [_ [Hcv [sl' [Hc' [_ [Hlive Hsame]]]]]]].
  destruct b; [constructor; cbn; auto; congruence|].
  specialize (Hsame eq_refl). subst c.
  pose proof (sm_erase _ _ x y h5 HC Hr) as HE.
  destruct (dl_erase K1 (ks (d_g d)) x y) as [[b1 k1] m1], (dl_erase K2 (ks (d_g e)) x y) as [[b2 k2] m2].
  destruct HE as [-> [-> HE]]. rewrite <- h3, <- h2, <- h1, <- h6, <- h7, <- h8.
  set (n' := if b2 then u64_dec (nt (d_g d)) else nt (d_g d)).
  destruct (th_trig T k2 n'); [|constructor; cbn; auto].
  unfold dk_m. cbn [nv nt max_r C0_].
  destruct (maxsz T (N.max (nv (d_g d)) n') 0) as [ms|]; cbn [rbind]; [|exact I].
  rewrite <- (ls_find T n K1 L1 K2 L2 _ _ _ (lsm_lsim _ _ HE)).
  destruct (find_level T K1 (N.max (nv (d_g d)) n') m1 0 ms) as [i|]; [|exact I].
  rewrite (dn_nv _ _ _ _ _ HI), (inv_size _ _ (dn_c0 _ _ _ _ _ HI)), (inv_converted _ _ (dn_c0 _ _ _ _ _ HI)).
  assert (HM : forall c2 t1 t2, psm t1 t2 ->
     rsm (let (t, l) := merge_upto K1 t1 m1 (S i) in
          Done (mkdl (mkdk (max_r (d_g d)) n n' c2 (upd l i (Some t))) (u_i d) (u_prev d) (u_final d) (d_tmp d)))
         (let (t, l) := merge_upto K2 t2 m2 (S i) in
          Done (mkdl (mkdk (max_r (d_g d)) n n' c2 (upd l i (Some t))) (u_i d) (u_prev d) (u_final d) (d_tmp e)))).
  { intros c2 t1 t2 Ht. destruct (sm_merge _ _ HE (S i) _ _ Ht) as [M1 M2].
    destruct (merge_upto K1 t1 m1 (S i)) as [r1 q1], (merge_upto K2 t2 m2 (S i)) as [r2 q2]. cbn [fst snd] in *.
    constructor; cbn; auto. apply lsm_upd; auto. }
  destruct (Nat.eqb_spec (length (live_edges sl)) 0) as [Ez|Ez]; cbn [rbind].
  - apply HM, psm_new.
  - cbn [obind]. destruct (c0_clean (C0_ (d_g d))) as [c2|]; cbn [rbind obind]; [|exact I].
    apply HM, psm_build.
    + intros G. rewrite G in Ez. apply Ez. reflexivity.
    + apply uniq_nodup, (inv_uniq _ _ (dn_c0 _ _ _ _ _ HI)).
    + apply (dn_range _ _ _ _ _ HI).
Qed.

Definition adds_only (o : op) : Prop := match o with Add _ => True | Del _ => False end.
Lemma sm_ops hs : Forall (fun o => UC \/ adds_only o) hs -> forall d e sl S, dsm d e -> relD K1 L1 n d sl S -> Forall (op_in_range n) hs ->
  rsm (dl_ops T K1 d hs) (dl_ops T K2 e hs).
Proof.
  induction hs as [|o hs IH]; intros HA d e sl S HG HI HF; cbn [dl_ops]; [exact HG|].
  inversion HF as [|? ? Ho Hh]; subst. inversion HA as [|? ? Ao Ah]; subst.
  pose proof (rd_inv _ _ _ _ _ _ HI) as HI0.
  assert (HS : rsm (dl_op T K1 d o) (dl_op T K2 e o)).
  { destruct o as [[x y]|[x y]]; cbn [dl_op]; [eapply sm_add; eauto|]. destruct Ao as [Ao|[]]. eapply sm_del; eauto. }
  assert (HI' : forall d', dl_op T K1 d o = Done d' -> exists sl', relD K1 L1 n d' sl' (espec_step S o)).
  { intros d' E. destruct o as [[x y]|[x y]]; cbn [dl_op] in E.
    - destruct (relD_add T K1 L1 n Hn d sl S x y d' HI Ho E) as [sl' [A1 _]]; eauto.
    - destruct (relD_del T K1 L1 n Hn d sl S x y d' HI Ho E) as [sl' [A1 _]]; eauto. }
  destruct (dl_op T K1 d o) as [d1|d1|]; destruct (dl_op T K2 e o) as [e1|e1|]; cbn in HS; try tauto.
  destruct (HI' d1 eq_refl) as [sl' HI1]. apply (IH Ah d1 e1 sl' (espec_step S o)); auto.
Qed.
Lemma lsm_none k : lsm (repeat None k) (repeat None k).
Proof. induction k; cbn; constructor; auto; exact I. Qed.

Theorem sm_hist hs : Forall (fun o => UC \/ adds_only o) hs -> Forall (op_in_range n) hs -> rsm (dl_hist T K1 n hs) (dl_hist T K2 n hs).
Proof.
  intros HA HF. destruct (dk_new_total T K1 n Hn) as [g E1]. destruct (dk_new_total T K2 n Hn) as [h E2].
  assert (E1' : dl_new T K1 n = Ok (mkdl g 0 RS 1 None)) by (unfold dl_new; rewrite E1; reflexivity).
  assert (E2' : dl_new T K2 n = Ok (mkdl h 0 RS 1 None)) by (unfold dl_new; rewrite E2; reflexivity).
  unfold dl_hist. rewrite E1', E2'. cbn [rbind].
  destruct (relD_new T K1 L1 n Hn _ E1') as [R _].
  apply (sm_ops hs HA _ _ [] []); auto.
  unfold dk_new in E1, E2. destruct (c0_new T n) as [c|]; cbn in E1, E2; [|discriminate].
  injection E1 as <-. injection E2 as <-. constructor; cbn [d_g max_r nv nt C0_ ks u_i u_prev u_final d_tmp]; auto.
  - exact (lsm_none RS).
  - exact I.
Qed.

End Bisim.
