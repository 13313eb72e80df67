(** * DKBisim: which implementation of the compressed tree is used cannot be observed.

    Two implementations that meet the contract, and whose adj_forced is a query, give graphs that
    complete, throw and go wrong on the same histories and answer alike.  Concrete counterexamples run
    on the reference implementation therefore hold for every implementation. *)
From Verif Require Import Base Spec Thresholds K2 C0 C0Proof DK DKProof DKHist.

Section Bisim.
Context (T : thresholds) (n : N) (Hn : (2 <= n)%N).
Context (K1 : k2impl) (L1 : k2laws K1) (Q1 : adjf_is_query L1).
Context (K2 : k2impl) (L2 : k2laws K2) (Q2 : adjf_is_query L2).

Record tsim (a : kt K1) (b : kt K2) : Prop := {
  ts_wf1 : wf L1 n a;
  ts_wf2 : wf L2 n b;
  ts_edges : forall e, In e (kt_edges K1 a) <-> In e (kt_edges K2 b);
  ts_marked : kt_marked K1 a = kt_marked K2 b
}.
Definition osim (a : option (kt K1)) (b : option (kt K2)) : Prop :=
  match a, b with None, None => True | Some a, Some b => tsim a b | _, _ => False end.
Definition lsim := Forall2 osim.

Lemma ts_total a b : tsim a b -> kt_total K1 a = kt_total K2 b.
Proof.
  intros [H1 H2 H3 H4]. rewrite (law_total L1 n a H1), (law_total L2 n b H2), H4. do 2 f_equal.
  apply len_same; auto; eapply law_edges_nodup; eauto.
Qed.

Lemma adjf_query K (L : k2laws K) (Q : adjf_is_query L) t x y : wf L n t -> in_range n (x, y) ->
  snd (kt_adjf K t x y) = t /\ (fst (kt_adjf K t x y) = true <-> In (x, y) (kt_edges K t)).
Proof using Type.
  intros Hw [Hx Hy]. cbn in Hx, Hy. destruct (law_adjf L n t x y Hw Hx Hy) as [H1 H2].
  pose proof (law_adjf_live L n t x y Hw Hx Hy) as H3.
  assert (Hk : known L t (x, y) <-> In (x, y) (kt_edges K t)).
  { split; intros G; [eapply Q; eauto|eapply law_known_live; eauto]. }
  rewrite Hk in H1. destruct (kt_adjf K t x y) as [b t']; cbn [fst snd] in *. split; auto.
  destruct b; auto. apply H3, H1; auto.
Qed.

Lemma ts_adj a b x y : tsim a b -> in_range n (x, y) -> kt_adj K1 a x y = kt_adj K2 b x y.
Proof.
  intros [H1 H2 H3 H4] [Hx Hy]. apply eq_true_iff_eq.
  rewrite (law_adj L1 n a x y H1 Hx Hy), (law_adj L2 n b x y H2 Hx Hy). apply H3.
Qed.

Lemma ls_adj l1 l2 x y : lsim l1 l2 -> in_range n (x, y) -> ks_adj K1 l1 x y = ks_adj K2 l2 x y.
Proof.
  intros H Hr. induction H as [|[a|] [b|] l1 l2 Ho Hl IH]; cbn in *; try tauto.
  rewrite (ts_adj _ _ x y Ho Hr), IH. reflexivity.
Qed.

Lemma ls_adjf l1 l2 x y : lsim l1 l2 -> in_range n (x, y) ->
  fst (ks_adjf K1 l1 x y) = fst (ks_adjf K2 l2 x y) /\ snd (ks_adjf K1 l1 x y) = l1 /\ snd (ks_adjf K2 l2 x y) = l2.
Proof.
  intros H Hr. induction H as [|[a|] [b|] l1 l2 Ho Hl IH]; cbn [ks_adjf]; try (cbn in Ho; tauto).
  - cbn; auto.
  - pose proof Ho as [H1 H2 H3 H4].
    destruct (adjf_query K1 L1 Q1 a x y H1 Hr) as [A1 A2]. destruct (adjf_query K2 L2 Q2 b x y H2 Hr) as [B1 B2].
    destruct (kt_adjf K1 a x y) as [b1 t1]. destruct (kt_adjf K2 b x y) as [b2 t2]. cbn [fst snd] in *.
    assert (b1 = b2) as -> by (apply eq_true_iff_eq; rewrite A2, B2; apply H3). subst.
    destruct b2; cbn; auto.
    destruct (ks_adjf K1 l1 x y) as [c1 m1]. destruct (ks_adjf K2 l2 x y) as [c2 m2]. cbn in *.
    destruct IH as [-> [-> ->]]. auto.
  - destruct (ks_adjf K1 l1 x y) as [c1 m1]. destruct (ks_adjf K2 l2 x y) as [c2 m2]. cbn in *.
    destruct IH as [-> [-> ->]]. auto.
Qed.

Lemma ls_find m l1 l2 : lsim l1 l2 -> forall i acc, find_level T K1 m l1 i acc = find_level T K2 m l2 i acc.
Proof.
  intros H. induction H as [|[a|] [b|] l1 l2 Ho Hl IH]; cbn in *; try tauto; intros i acc.
  - rewrite (ts_total _ _ Ho). destruct (_ <? _)%N; auto.
  - destruct (_ <? _)%N; auto.
Qed.

Definition psim (a : kt K1) (b : kt K2) : Prop := tsim a b /\ kt_marked K1 a = 0%N.

Lemma ps_union a b c d : psim a b -> tsim c d -> psim (kt_union K1 a c) (kt_union K2 b d).
Proof.
  intros [[H1 H2 H3 H4] H5] [G1 G2 G3 G4].
  destruct (law_union L1 n a c H1 G1) as [U1 [U2 U3]]. destruct (law_union L2 n b d H2 G2) as [V1 [V2 V3]].
  split; auto. constructor; auto.
  - intros e. rewrite U2, V2, H3, G3. tauto.
  - rewrite U3, V3; congruence.
Qed.

Lemma ls_merge l1 l2 : lsim l1 l2 -> forall cnt a b, psim a b ->
  psim (fst (merge_upto K1 a l1 cnt)) (fst (merge_upto K2 b l2 cnt)) /\
  lsim (snd (merge_upto K1 a l1 cnt)) (snd (merge_upto K2 b l2 cnt)).
Proof.
  intros H. induction H as [|o1 o2 l1 l2 Ho Hl IH]; intros [|cnt] a b Hp; cbn [merge_upto]; auto.
  - split; auto; constructor.
  - split; auto; constructor.
  - split; auto. cbn. constructor; auto.
  - assert (Hu : psim (match o1 with Some t => kt_union K1 a t | None => a end)
                      (match o2 with Some t => kt_union K2 b t | None => b end)).
    { destruct o1, o2; try (cbn in Ho; tauto). apply ps_union; auto. }
    specialize (IH cnt _ _ Hu).
    destruct (merge_upto K1 _ l1 cnt) as [r1 m1]. destruct (merge_upto K2 _ l2 cnt) as [r2 m2].
    cbn [fst snd] in *. destruct IH. split; auto. constructor; cbn; auto.
Qed.

Lemma ls_upd l1 l2 : lsim l1 l2 -> forall i a b, osim a b -> lsim (upd l1 i a) (upd l2 i b).
Proof. intros H. induction H; intros [|i] a b Hab; cbn; constructor; auto. apply IHForall2; auto. Qed.

Lemma ts_erase a b x y : tsim a b -> in_range n (x, y) ->
  fst (kt_erase K1 a x y) = fst (kt_erase K2 b x y) /\ tsim (snd (kt_erase K1 a x y)) (snd (kt_erase K2 b x y)).
Proof.
  intros [H1 H2 H3 H4] [Hx Hy].
  assert (Hb : fst (kt_erase K1 a x y) = fst (kt_erase K2 b x y)).
  { apply eq_true_iff_eq. rewrite (law_erase_res L1 n a x y H1 Hx Hy), (law_erase_res L2 n b x y H2 Hx Hy). apply H3. }
  split; auto.
  destruct (law_erase L1 n a x y H1 Hx Hy) as [U1 [U2 U3]]. destruct (law_erase L2 n b x y H2 Hx Hy) as [V1 [V2 V3]].
  constructor; auto.
  - intros e. rewrite U2, V2, H3. tauto.
  - rewrite U3, V3, Hb. congruence.
Qed.

Lemma ls_erase l1 l2 x y : lsim l1 l2 -> in_range n (x, y) ->
  fst (ks_erase K1 l1 x y) = fst (ks_erase K2 l2 x y) /\ lsim (snd (ks_erase K1 l1 x y)) (snd (ks_erase K2 l2 x y)).
Proof.
  intros H Hr. induction H as [|[a|] [b|] l1 l2 Ho Hl IH]; cbn [ks_erase]; try (cbn in Ho; tauto).
  - split; auto; constructor.
  - destruct (ts_erase a b x y Ho Hr) as [E1 E2].
    destruct (kt_erase K1 a x y) as [b1 t1]. destruct (kt_erase K2 b x y) as [b2 t2]. cbn [fst snd] in *. subst b2.
    destruct b1; cbn [fst snd].
    + split; auto. constructor; cbn; auto.
    + destruct (ks_erase K1 l1 x y) as [c1 m1]. destruct (ks_erase K2 l2 x y) as [c2 m2]. cbn [fst snd] in *.
      destruct IH. split; auto. constructor; cbn; auto.
  - destruct (ks_erase K1 l1 x y) as [c1 m1]. destruct (ks_erase K2 l2 x y) as [c2 m2]. cbn [fst snd] in *.
    destruct IH. split; auto. constructor; cbn; auto.
Qed.

Lemma ls_sweep l1 l2 : lsim l1 l2 ->
  fst (ks_sweep K1 l1) = fst (ks_sweep K2 l2) /\ lsim (snd (ks_sweep K1 l1)) (snd (ks_sweep K2 l2)).
Proof.
  intros H. induction H as [|[a|] [b|] l1 l2 Ho Hl IH]; cbn [ks_sweep]; try (cbn in Ho; tauto).
  - split; auto; constructor.
  - rewrite (ts_total _ _ Ho), (ts_marked _ _ Ho).
    destruct (ks_sweep K1 l1) as [c1 m1]. destruct (ks_sweep K2 l2) as [c2 m2]. cbn [fst snd] in *. destruct IH as [-> IH].
    destruct (kt_marked K2 b =? kt_total K2 b)%N; cbn [fst snd]; split; auto; constructor; cbn; auto.
  - destruct (ks_sweep K1 l1) as [c1 m1]. destruct (ks_sweep K2 l2) as [c2 m2]. cbn [fst snd] in *. destruct IH as [-> IH].
    split; auto. constructor; cbn; auto.
Qed.

Definition oosim (a : out (option (kt K1))) (b : out (option (kt K2))) : Prop :=
  match a, b with
  | UB, UB => True
  | Ok None, Ok None => True
  | Ok (Some a), Ok (Some b) => psim a b
  | _, _ => False
  end.
Lemma ls_merge_all l1 l2 : lsim l1 l2 -> forall a b, oosim (Ok a) (Ok b) ->
  oosim (merge_all K1 a l1) (merge_all K2 b l2).
Proof.
  intros H. induction H as [|[a|] [b|] l1 l2 Ho Hl IH]; cbn [merge_all]; try (cbn in Ho; tauto); intros u v Huv; auto.
  destruct u, v; cbn in Huv; try tauto; try exact I. apply IH. cbn. apply ps_union; auto.
Qed.

Record gsim (g : dk K1) (h : dk K2) : Prop := {
  gs_maxr : max_r g = max_r h;
  gs_nv : nv g = nv h;
  gs_nt : nt g = nt h;
  gs_c0 : C0_ g = C0_ h;
  gs_ks : lsim (ks g) (ks h)
}.
Definition rsim (a : res (dk K1)) (b : res (dk K2)) : Prop :=
  match a, b with
  | Done a, Done b => gsim a b
  | Thrown a, Thrown b => gsim a b
  | Undefined, Undefined => True
  | _, _ => False
  end.

Lemma gsim_m g h : gsim g h -> dk_m K1 g = dk_m K2 h.
Proof. intros [H1 H2 H3 H4 H5]. unfold dk_m. congruence. Qed.

Lemma ps_build es : es <> [] -> NoDup es -> Forall (in_range n) es -> psim (kt_build K1 es n) (kt_build K2 es n).
Proof.
  intros H1 H2 H3. destruct (law_build L1 n es Hn H1 H2 H3) as [A1 [A2 A3]]. destruct (law_build L2 n es Hn H1 H2 H3) as [B1 [B2 B3]].
  split; auto. constructor; auto.
  - intros e. rewrite A3, B3. tauto.
  - congruence.
Qed.

Lemma dk_eta K (g : dk K) : mkdk (max_r g) (nv g) (nt g) (C0_ g) (ks g) = g.
Proof. destruct g; reflexivity. Qed.

Lemma sim_forced g h x y : gsim g h -> in_range n (x, y) ->
  match dk_contains_forced K1 g x y, dk_contains_forced K2 h x y with
  | Ok (b1, g1), Ok (b2, h1) => b1 = b2 /\ g1 = g /\ h1 = h
  | UB, UB => True
  | _, _ => False
  end.
Proof.
  intros [G1 G2 G3 G4 G5] Hr. unfold dk_contains_forced. rewrite G4.
  destruct (c0_contains (C0_ h) (x, y)) as [[|]|]; cbn [obind]; auto.
  destruct (ls_adjf _ _ x y G5 Hr) as [E1 [E2 E3]].
  destruct (ks_adjf K1 (ks g) x y) as [b1 l1]. destruct (ks_adjf K2 (ks h) x y) as [b2 l2]. cbn [fst snd] in *. subst.
  sp; auto.
  - rewrite <- G4. apply dk_eta.
  - apply dk_eta.
Qed.

Lemma sim_contains g h x y : gsim g h -> in_range n (x, y) -> dk_contains K1 g x y = dk_contains K2 h x y.
Proof.
  intros [G1 G2 G3 G4 G5] Hr. unfold dk_contains. rewrite G4.
  destruct (c0_contains (C0_ h) (x, y)) as [b|]; cbn [obind]; auto. rewrite (ls_adj _ _ x y G5 Hr). reflexivity.
Qed.

Lemma sim_add g h sl x y : gsim g h -> dk_inv K1 L1 n g sl -> in_range n (x, y) ->
  rsim (dk_add T K1 g x y) (dk_add T K2 h x y).
Proof.
  intros HG HI Hr. unfold dk_add. pose proof (sim_forced g h x y HG Hr) as HF.
  pose proof (dk_forced_spec K1 L1 n g sl x y HI Hr) as [b0 [g0 [E0 [_ [_ [_ [Hb _]]]]]]].
  destruct (dk_contains_forced K1 g x y) as [[b1 g1]|]; destruct (dk_contains_forced K2 h x y) as [[b2 h1]|]; try tauto; cbn [rbind].
  destruct HF as [-> [-> ->]]. inversion E0; subst b0 g0. destruct b2; [exact HG|].
  rewrite <- (gsim_m g h HG). destruct HG as [G1 G2 G3 G4 G5].
  unfold maxsz. destruct (N.eqb_spec (dk_m K1 g) 1); cbn [rbind]; [exact I|].
  rewrite <- G4, <- G3, <- G2, <- G1.
  destruct (N.of_nat (c0_size (C0_ g)) <? th_max T (dk_m K1 g) 0)%N.
  - destruct (c0_insert T (C0_ g) (x, y) (nt g)) as [c|]; cbn; [|exact I]. constructor; auto.
  - rewrite <- (ls_find _ _ _ G5). destruct (find_level T K1 (dk_m K1 g) (ks g) 0 _) as [i|].
    + rewrite (inv_converted _ _ (dv_c0 _ _ _ _ _ HI)). cbn [rbind].
      destruct (c0_clean (C0_ g)) as [c|]; cbn [rbind]; [|exact I].
      rewrite (dv_nv _ _ _ _ _ HI).
      assert (Hp : psim (kt_build K1 (live_edges sl ++ [(x, y)]) n) (kt_build K2 (live_edges sl ++ [(x, y)]) n)).
      { apply ps_build.
        - destruct (live_edges sl); discriminate.
        - apply NoDup_app. sp.
          + apply uniq_nodup, (inv_uniq _ _ (dv_c0 _ _ _ _ _ HI)).
          + repeat constructor; auto.
          + intros a Ha [<-|[]]. assert (false = true) by (apply Hb; auto). discriminate.
        - apply Forall_app. split; [apply (dv_range _ _ _ _ _ HI)|repeat constructor; apply Hr]. }
      destruct (ls_merge _ _ G5 (S i) _ _ Hp) as [M1 M2].
      destruct (merge_upto K1 _ (ks g) (S i)) as [t1 l1]. destruct (merge_upto K2 _ (ks h) (S i)) as [t2 l2].
      cbn [fst snd rsim] in *. constructor; cbn; auto. apply ls_upd; auto. apply M1.
    + cbn. constructor; auto.
Qed.

Lemma ls_none k : lsim (repeat None k) (repeat None k).
Proof. induction k; cbn; constructor; auto; exact I. Qed.

Lemma sim_rebuild g h sl : gsim g h -> dk_inv K1 L1 n g sl -> rsim (dk_rebuild T K1 g) (dk_rebuild T K2 h).
Proof.
  intros HG HI. unfold dk_rebuild.
  assert (H11 : in_range n (1, 1)%N) by (split; cbn; lia).
  rewrite <- (gsim_m g h HG), <- (sim_contains g h 1 1 HG H11). pose proof (sim_add g h sl 1 1 HG HI H11) as HA.
  pose proof (dk_add_spec T K1 L1 n Hn g sl 1 1 HI H11) as HS.
  rewrite <- (gs_nt _ _ HG), <- (gs_c0 _ _ HG). set (i := rebuild_level T (dk_m K1 g) (nt g) RS 0).
  assert (HALF : forall oo g2 h2 sl2, gsim g2 h2 -> dk_inv K1 L1 n g2 sl2 ->
    rsim
      (let+ q := (if 0 <? c0_size (C0_ g2)
               then let* conv := c0_converted (C0_ g2) in
                    let* c := c0_clean (C0_ g2) in
                    Ok (Some (kt_build K1 conv (nv g2)), c)
               else Ok (None, C0_ g2)) in
       let (tmp, c) := q in
       let+ tmp := merge_all K1 tmp (ks g2) in
       if i <? RS then
         match oo, tmp with
         | true, _ => Done (mkdk (max_r g2) (nv g2) (nt g2) c (upd (repeat None RS) i tmp))
         | false, None => Undefined
         | false, Some t =>
           let (_, t) := kt_erase K1 t 1 1 in
           Done (mkdk (max_r g2) (nv g2) (nt g2) c (upd (repeat None RS) i (Some t)))
         end
       else Undefined)
      (let+ q := (if 0 <? c0_size (C0_ h2)
               then let* conv := c0_converted (C0_ h2) in
                    let* c := c0_clean (C0_ h2) in
                    Ok (Some (kt_build K2 conv (nv h2)), c)
               else Ok (None, C0_ h2)) in
       let (tmp, c) := q in
       let+ tmp := merge_all K2 tmp (ks h2) in
       if i <? RS then
         match oo, tmp with
         | true, _ => Done (mkdk (max_r h2) (nv h2) (nt h2) c (upd (repeat None RS) i tmp))
         | false, None => Undefined
         | false, Some t =>
           let (_, t) := kt_erase K2 t 1 1 in
           Done (mkdk (max_r h2) (nv h2) (nt h2) c (upd (repeat None RS) i (Some t)))
         end
       else Undefined)).
  { intros oo g2 h2 sl2 [G1 G2 G3 G4 G5] H2. rewrite <- G4, <- G2, <- G1, <- G3.
    rewrite (inv_converted _ _ (dv_c0 _ _ _ _ _ H2)), (inv_size _ _ (dv_c0 _ _ _ _ _ H2)).
    assert (HM : forall c a b, oosim (Ok a) (Ok b) ->
      rsim
       (let+ tmp := merge_all K1 a (ks g2) in
        if i <? RS then
         match oo, tmp with
         | true, _ => Done (mkdk (max_r g2) (nv g2) (nt g2) c (upd (repeat None RS) i tmp))
         | false, None => Undefined
         | false, Some t =>
           let (_, t) := kt_erase K1 t 1 1 in
           Done (mkdk (max_r g2) (nv g2) (nt g2) c (upd (repeat None RS) i (Some t)))
         end
        else Undefined)
       (let+ tmp := merge_all K2 b (ks h2) in
        if i <? RS then
         match oo, tmp with
         | true, _ => Done (mkdk (max_r g2) (nv g2) (nt g2) c (upd (repeat None RS) i tmp))
         | false, None => Undefined
         | false, Some t =>
           let (_, t) := kt_erase K2 t 1 1 in
           Done (mkdk (max_r g2) (nv g2) (nt g2) c (upd (repeat None RS) i (Some t)))
         end
        else Undefined)).
    { intros c a b Hab. pose proof (ls_merge_all _ _ G5 a b Hab) as HM.
      destruct (merge_all K1 a (ks g2)) as [[r1|]|]; destruct (merge_all K2 b (ks h2)) as [[r2|]|]; cbn in HM; try tauto; cbn [rbind].
      - destruct (i <? RS); [|exact I]. destruct oo.
        + cbn [rsim]. constructor; cbn [max_r nv nt C0_ ks]; auto. apply ls_upd; [apply ls_none|apply HM].
        + destruct (ts_erase r1 r2 1 1 (proj1 HM) H11) as [E1 E2].
          destruct (kt_erase K1 r1 1 1) as [b1 t1]. destruct (kt_erase K2 r2 1 1) as [b2 t2]. cbn [fst snd] in *.
          cbn [rsim]. constructor; cbn [max_r nv nt C0_ ks]; auto. apply ls_upd; [apply ls_none|exact E2].
      - destruct (i <? RS); [|exact I]. destruct oo; [|exact I].
        cbn [rsim]. constructor; cbn [max_r nv nt C0_ ks]; auto. apply ls_upd; [apply ls_none|exact I]. }
    destruct (Nat.ltb_spec 0 (length (live_edges sl2))) as [Hlt|Hge].
    - cbn [obind]. destruct (c0_clean (C0_ g2)) as [c|]; cbn [obind rbind]; [|exact I].
      apply HM. cbn. rewrite (dv_nv _ _ _ _ _ H2). apply ps_build.
      + destruct (live_edges sl2); [cbn in Hlt; lia|discriminate].
      + apply uniq_nodup, (inv_uniq _ _ (dv_c0 _ _ _ _ _ H2)).
      + apply (dv_range _ _ _ _ _ H2).
    - cbn [rbind]. apply HM. exact I. }
  destruct (c0_size (C0_ g) =? 0).
  - destruct (dk_contains K1 g 1 1) as [oo|]; cbn [obind rbind]; [|exact I].
    destruct (dk_add T K1 g 1 1) as [g2|g2|]; destruct (dk_add T K2 h 1 1) as [h2|h2|]; cbn in HA; try tauto.
    destruct HS as [sl2 [A1 _]]. apply (HALF oo g2 h2 sl2); auto.
  - cbn [rbind]. apply (HALF false g h sl); auto.
Qed.

Lemma sim_del g h sl x y : gsim g h -> dk_inv K1 L1 n g sl -> in_range n (x, y) ->
  rsim (dk_del T K1 g x y) (dk_del T K2 h x y).
Proof.
  intros HG HI Hr. unfold dk_del. pose proof HG as [G1 G2 G3 G4 G5]. rewrite <- G4, <- G3, <- G2, <- G1.
  destruct (c0_erase (C0_ g) (x, y)) as [[b c]|] eqn:Ee; cbn [rbind]; [|exact I].
  destruct b; [cbn; constructor; auto|].
  destruct (erase_inv _ _ _ _ _ (dv_c0 _ _ _ _ _ HI) Ee) as [Hb [Hcm [Hcv [sl1 [I1 [I2 [I3 I4]]]]]]].
  specialize (I4 eq_refl). subst c.
  destruct (ls_erase _ _ x y G5 Hr) as [E1 E2].
  pose proof (ks_erase_spec K1 L1 n (ks g) x y (dv_wf _ _ _ _ _ HI) (dv_disj _ _ _ _ _ HI) Hr) as [R1 [R2 [R3 [R4 [R5 [R6 _]]]]]].
  destruct (ks_erase K1 (ks g) x y) as [eb l1]. destruct (ks_erase K2 (ks h) x y) as [eb2 l2]. cbn [fst snd] in *. subst eb2.
  destruct (ls_sweep _ _ E2) as [W1 W2].
  pose proof (ks_sweep_spec K1 L1 n Hn l1 R1) as [V1 [V2 [V3 [V4 [V5 _]]]]].
  destruct (ks_sweep K1 l1) as [mk l3]. destruct (ks_sweep K2 l2) as [mk2 l4]. cbn [fst snd] in *. subst mk2.
  set (n' := if eb then u64_dec (nt g) else nt g).
  assert (HG2 : gsim (mkdk (max_r g) (nv g) n' (C0_ g) l3) (mkdk (max_r g) (nv g) n' (C0_ g) l4)).
  { constructor; auto. }
  destruct (th_trig T mk n'); [|exact HG2].
  apply (sim_rebuild _ _ sl); auto.
  destruct HI as [h1 h2 h3 h4 h5 h6 h7 h8 h9]. constructor; cbn; auto.
  - rewrite V2, R2; auto.
  - intros e Q3 Q4. apply (h9 e Q3); auto.
Qed.

Lemma sim_ops hs : forall g h sl, gsim g h -> dk_inv K1 L1 n g sl -> Forall (op_in_range n) hs ->
  rsim (dk_ops T K1 g hs) (dk_ops T K2 h hs).
Proof.
  induction hs as [|o hs IH]; intros g h sl HG HI HF; cbn [dk_ops]; [exact HG|].
  inversion HF as [|? ? Ho Hh]; subst.
  assert (HS : rsim (dk_op T K1 g o) (dk_op T K2 h o)).
  { destruct o as [[x y]|[x y]]; cbn [dk_op]; [eapply sim_add|eapply sim_del]; eauto. }
  assert (HI' : forall g', dk_op T K1 g o = Done g' -> exists sl', dk_inv K1 L1 n g' sl').
  { intros g' E. destruct o as [[x y]|[x y]]; cbn [dk_op] in E.
    - pose proof (dk_add_spec T K1 L1 n Hn g sl x y HI Ho) as HA. rewrite E in HA. destruct HA as [sl' [A1 _]]; eauto.
    - pose proof (dk_del_spec T K1 L1 n Hn g sl x y HI Ho) as HA. rewrite E in HA. destruct HA as [sl' [rb [A1 _]]]; eauto. }
  destruct (dk_op T K1 g o) as [g1|g1|]; destruct (dk_op T K2 h o) as [h1|h1|]; cbn in HS; try tauto.
  - destruct (HI' g1 eq_refl) as [sl' HI1]. apply (IH g1 h1 sl'); auto.
Qed.

Theorem sim_hist hs : Forall (op_in_range n) hs -> rsim (dk_hist T K1 n hs) (dk_hist T K2 n hs).
Proof.
  intros HF. destruct (dk_new_total T K1 n Hn) as [g E1]. destruct (dk_new_total T K2 n Hn) as [h E2].
  unfold dk_hist. rewrite E1, E2. cbn [rbind].
  destruct (dk_new_inv T K1 L1 n Hn g E1) as [HI _].
  apply (sim_ops hs g h []); auto.
  unfold dk_new in E1, E2. destruct (c0_new T n) as [c|]; cbn in E1, E2; [|discriminate].
  inversion E1; inversion E2; subst. constructor; auto. exact (ls_none RS).
Qed.

Lemma sim_neigh g h x : gsim g h -> (x < n)%N ->
  match dk_neigh K1 g x, dk_neigh K2 h x with
  | Ok l1, Ok l2 => forall y, In y l1 <-> In y l2
  | UB, UB => True
  | _, _ => False
  end.
Proof.
  intros [G1 G2 G3 G4 G5] Hx. unfold dk_neigh. rewrite G4, G1.
  destruct (c0_neigh (C0_ h) x) as [l|]; cbn [obind]; [|exact I].
  assert (Hlen : length (ks g) = length (ks h)) by (clear - G5; induction G5; cbn; auto). rewrite Hlen.
  destruct (max_r h <? length (ks h)); [|exact I]. intros y. rewrite !in_app_iff.
  assert (HH : forall k, In y (ks_neigh K1 (firstn k (ks g)) x) <-> In y (ks_neigh K2 (firstn k (ks h)) x)).
  { intros k. revert k. induction G5 as [|[a|] [b|] l1 l2 Ho Hl IH]; intros [|k]; cbn in *; try tauto.
    - rewrite !in_app_iff, IH by (auto). rewrite (law_neigh L1 n a x y (ts_wf1 _ _ Ho) Hx), (law_neigh L2 n b x y (ts_wf2 _ _ Ho) Hx).
      rewrite (ts_edges _ _ Ho). tauto.
    - apply IH; auto. }
  rewrite HH. tauto.
Qed.

End Bisim.
