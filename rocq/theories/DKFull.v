(** * DKFull: in every reached graph each compressed tree has at least one live edge. *)
From Verif Require Import Base Spec Thresholds K2 C0 C0Proof DK DKProof DKHist DKGuard DKTotal Iter IterProof.

Section DKFull.
Context (T : thresholds) (HT : th_real T) (K : k2impl) (L : k2laws K) (n : N) (Hn : (2 <= n)%N).
Local Notation dk := (dk K).
Local Notation ktree := (kt K).
Local Notation dk_inv := (dk_inv K L n).
Local Notation ks_full := (ks_full K).

Lemma adjf_full l x y : ks_wf K L n l -> in_range n (x, y) -> ks_full l -> ks_full (snd (ks_adjf K l x y)).
Proof.
  intros W [Hx Hy]. cbn in Hx, Hy. induction l as [|[t|] l IH]; cbn [ks_adjf]; auto; intros HF;
    inversion W as [|? ? Wt Wl]; subst; assert (HFl : ks_full l) by (intros u Hu; apply HF; right; auto);
    specialize (IH Wl HFl).
  - destruct (law_adjf L n t x y Wt Hx Hy) as [A1 A2].
    destruct (kt_adjf K t x y) as [b t']. cbn [fst snd] in *. destruct b; cbn [snd].
    + destruct A2 as [_ [A2 _]]. intros u [Hu|Hu]; [|apply HFl; auto]. inversion Hu; subst u.
      intros G. assert (Hin : In (x, y) (kt_edges K t')) by (apply A2; auto). rewrite G in Hin. destruct Hin.
    + subst t'. destruct (ks_adjf K l x y) as [b' l']. cbn in *. intros u [Hu|Hu]; [apply HF; left; auto|apply IH; auto].
  - destruct (ks_adjf K l x y) as [b' l']. cbn in *. intros u [Hu|Hu]; [discriminate|apply IH; auto].
Qed.

Lemma add_full g sl x y g' : dk_inv g sl -> in_range n (x, y) -> ks_full (ks g) -> dk_add T K g x y = Done g' -> ks_full (ks g').
Proof.
  intros H Hr HF E. unfold dk_add in E.
  destruct (dk_forced_spec K L n g sl x y H Hr) as [b [g1 [E1 [G1 [_ [_ [Hb [Ht [Hf _]]]]]]]]].
  rewrite E1 in E. cbn [rbind] in E. destruct b.
  - inversion E; subst g'. unfold dk_contains_forced in E1. rewrite (inv_contains _ _ _ (dv_c0 _ _ _ _ _ H)) in E1.
    cbn [obind] in E1. destruct (emem (x, y) (live_edges sl)); [inversion E1; subst; auto|].
    pose proof (adjf_full (ks g) x y (dv_wf _ _ _ _ _ H) Hr HF) as G.
    destruct (ks_adjf K (ks g) x y) as [b' l']. inversion E1; subst. cbn. auto.
  - specialize (Hf eq_refl). subst g1.
    assert (Hnk : ~ kn_all K L g sl (x, y)) by (intros G; apply Hb in G; discriminate).
    destruct (maxsz T (dk_m K g) 0) as [ms|]; cbn [rbind] in E; [|discriminate].
    destruct (N.of_nat (c0_size (C0_ g)) <? ms)%N.
    + destruct (c0_insert T (C0_ g) (x, y) (nt g)); cbn [rbind] in E; [|discriminate]. inversion E; subst. cbn. auto.
    + destruct (find_level T K (dk_m K g) (ks g) 0 ms) as [i|] eqn:Ef; [|discriminate].
      apply (find_level_range T K n Hn) in Ef. rewrite (dv_len _ _ _ _ _ H) in Ef.
      rewrite (inv_converted _ _ (dv_c0 _ _ _ _ _ H)) in E. cbn [rbind] in E.
      destruct (inv_clean _ _ (dv_c0 _ _ _ _ _ H)) as [c [Ec [Hc [_ Hcv]]]]. rewrite Ec in E. cbn [rbind] in E.
      assert (Hcv2 : c_nv c = n) by (rewrite Hcv; apply (dv_c0nv _ _ _ _ _ H)).
      assert (Hi8 : i < RS) by (clear - Ef; lia).
      assert (Hmr8 : Nat.max i (max_r g) < RS) by (pose proof (dv_maxr _ _ _ _ _ H); lia).
      destruct (flush_inv K L n Hn g sl x y i c H Hr Hnk Hi8 Hc Hcv2 (nt g + 1)%N (Nat.max i (max_r g)) Hmr8)
        as [F1 [F2 [F3 F4]]].
      assert (Hne : live_edges sl ++ [(x, y)] <> []) by (destruct (live_edges sl); discriminate).
      destruct (law_build L n (live_edges sl ++ [(x, y)]) Hn Hne) as [B1 [B2 B3]].
      { apply NoDup_app. sp.
        - apply uniq_nodup, (inv_uniq _ _ (dv_c0 _ _ _ _ _ H)).
        - repeat constructor; auto.
        - intros a Ha [<-|[]]. assert (false = true) by (apply Hb; auto). discriminate. }
      { apply Forall_app. split; [apply (dv_range _ _ _ _ _ H)|repeat constructor; apply Hr]. }
      rewrite (dv_nv _ _ _ _ _ H) in *.
      assert (Hle : S i <= length (ks g)) by (rewrite (dv_len _ _ _ _ _ H); clear - Ef; lia).
      pose proof (merge_upto_spec K L n Hn (S i) _ (ks g) B1 (dv_wf _ _ _ _ _ H) Hle) as HM.
      destruct (merge_upto K (kt_build K (live_edges sl ++ [(x, y)]) n) (ks g) (S i)) as [tmp l]. cbn [fst snd] in *.
      destruct HM as [_ [_ [M3 _]]]. inversion E; subst g'. cbn [ks] in *. rewrite F4.
      intros t Hin. apply in_app_iff in Hin. destruct Hin as [Hin|[Hin|Hin]].
      * apply repeat_spec in Hin; discriminate.
      * inversion Hin; subst t. intros G. assert (X : In (x, y) (kt_edges K tmp)).
        { apply M3. left. apply B3. apply in_app_iff. right; left; auto. }
        rewrite G in X. destruct X.
      * apply HF. rewrite <- (firstn_skipn (S i) (ks g)). apply in_app_iff; auto.
Qed.

(** The shape of the result of the rebuild. *)
Lemma rebuild_shape g g' : dk_rebuild T K g = Done g' ->
  c0_size (C0_ g') = 0 /\ exists i o, ks g' = upd (repeat None RS) i o.
Proof.
  unfold dk_rebuild. set (i := rebuild_level T (dk_m K g) (nt g) RS 0). clearbody i.
  match goal with |- (rbind ?p _) = _ -> _ => destruct p as [[oo dummy]|] end; cbn [rbind]; [|discriminate].
  destruct (if dummy then dk_add T K g 1 1 else Done g) as [g2|g2|]; try discriminate.
  destruct (Nat.ltb_spec 0 (c0_size (C0_ g2))) as [Hs|Hs].
  - destruct (c0_converted (C0_ g2)) as [conv|]; cbn [obind rbind]; [|discriminate].
    destruct (c0_clean (C0_ g2)) as [c|] eqn:Ec; cbn [obind rbind]; [|discriminate].
    assert (Hc0 : c0_size c = 0).
    { unfold c0_clean in Ec. destruct (length (c_free (C0_ g2)) <? c_max (C0_ g2)); [discriminate|].
      injection Ec as Ec. rewrite <- Ec. reflexivity. }
    destruct (merge_all K _ (ks g2)) as [tmp|]; cbn [rbind]; [|discriminate].
    destruct (i <? RS); [|discriminate]. destruct oo.
    + intros G; injection G as G; rewrite <- G. split; [exact Hc0|]. exists i, tmp. reflexivity.
    + destruct tmp as [t|]; [|discriminate]. destruct (kt_erase K t 1 1) as [eb t'].
      intros G; injection G as G; rewrite <- G. split; [exact Hc0|]. exists i, (Some t'). reflexivity.
  - assert (Hc0 : c0_size (C0_ g2) = 0) by lia. cbn [rbind].
    destruct (merge_all K _ (ks g2)) as [tmp|]; cbn [rbind]; [|discriminate].
    destruct (i <? RS); [|discriminate]. destruct oo.
    + intros G; injection G as G; rewrite <- G. split; [exact Hc0|]. exists i, tmp. reflexivity.
    + destruct tmp as [t|]; [|discriminate]. destruct (kt_erase K t 1 1) as [eb t'].
      intros G; injection G as G; rewrite <- G. split; [exact Hc0|]. exists i, (Some t'). reflexivity.
Qed.

Lemma upd_none_edges k : forall i (o : option ktree) t, In (Some t) (upd (repeat None k) i o) ->
  ks_edges K (upd (repeat None k) i o) = kt_edges K t.
Proof.
  induction k as [|k IH]; intros i o t; cbn [repeat upd]; [intros []|].
  destruct i as [|i].
  - intros [->|G]; [|apply repeat_spec in G; discriminate]. rewrite ks_edges_cons_some, ks_edges_none, app_nil_r. auto.
  - intros [G|G]; [discriminate|]. rewrite ks_edges_cons_none. apply IH; auto.
Qed.

Lemma sweep_full l : ks_wf K L n l -> ks_full (snd (ks_sweep K l)).
Proof.
  induction l as [|[t|] l IH]; cbn [ks_sweep]; intros W; [intros t []| |]; inversion W as [|? ? Wt Wl]; subst; specialize (IH Wl);
    destruct (ks_sweep K l) as [k l']; cbn [snd] in *.
  - destruct (N.eqb_spec (kt_marked K t) (kt_total K t)) as [E|E]; cbn [snd].
    + intros u [G|G]; [discriminate|apply IH; auto].
    + intros u [G|G]; [|apply IH; auto]. inversion G; subst u. intros F. apply E.
      rewrite (law_total L n t Wt), F. reflexivity.
  - intros u [G|G]; [discriminate|apply IH; auto].
Qed.

Lemma sweep_pos l : fst (ks_sweep K l) <> 0%N -> exists t, In (Some t) (snd (ks_sweep K l)).
Proof.
  induction l as [|[t|] l IH]; cbn [ks_sweep]; [cbn; tauto| |]; destruct (ks_sweep K l) as [k l']; cbn [fst snd] in *.
  - destruct (kt_marked K t =? kt_total K t)%N; cbn [fst snd].
    + intros G. destruct (IH G) as [u Hu]. exists u; right; auto.
    + intros _. exists t; left; auto.
  - intros G. destruct (IH G) as [u Hu]. exists u; right; auto.
Qed.

Lemma del_full g sl x y g' : dk_inv g sl -> in_range n (x, y) -> ks_full (ks g) -> dk_del T K g x y = Done g' -> ks_full (ks g').
Proof.
  intros H Hr HF E. unfold dk_del in E.
  destruct (c0_erase (C0_ g) (x, y)) as [[b c]|] eqn:Ee; cbn [rbind] in E; [|discriminate].
  destruct (erase_inv _ _ _ _ _ (dv_c0 _ _ _ _ _ H) Ee) as [Hb [Hcm [Hcv [sl1 [I1 [I2 [I3 I4]]]]]]].
  destruct b; [inversion E; subst; cbn [ks]; auto|].
  specialize (I4 eq_refl). subst c.
  pose proof (ks_erase_spec K L n (ks g) x y (dv_wf _ _ _ _ _ H) (dv_disj _ _ _ _ _ H) Hr) as [R1 [R2 [R3 [R4 [R5 [R6 _]]]]]].
  destruct (ks_erase K (ks g) x y) as [eb l]. cbn [fst snd] in *.
  pose proof (ks_sweep_spec K L n Hn l R1) as [W1 [W2 [W3 [W4 [W5 _]]]]].
  pose proof (sweep_full l R1) as WF. pose proof (sweep_pos l) as WP.
  destruct (ks_sweep K l) as [marked l2]. cbn [fst snd] in *.
  set (n' := if eb then u64_dec (nt g) else nt g) in *.
  destruct (th_trig T marked n') eqn:Etr.
  - assert (Hm0 : marked <> 0%N) by (intros ->; rewrite th_trig_0 in Etr; auto; discriminate).
    destruct (WP Hm0) as [t0 Ht0].
    set (g1 := mkdk (max_r g) (nv g) n' (C0_ g) l2) in *.
    assert (H1 : dk_inv g1 sl).
    { destruct H as [h1 h2 h3 h4 h5 h6 h7 h8 h9]. constructor; cbn; auto.
      + rewrite W2, R2; auto.
      + intros e Q3 Q4. apply (h9 e Q3); auto. }
    pose proof (dk_rebuild_spec T K L n Hn g1 sl H1) as HR. rewrite E in HR.
    destruct HR as [sl' [H' [HS [_ Hz]]]].
    destruct (rebuild_shape _ _ E) as [Hc0 [i [o Eks]]].
    assert (Hsl' : live_edges sl' = []).
    { rewrite (inv_size _ _ (dv_c0 _ _ _ _ _ H')) in Hc0. destruct (live_edges sl'); [auto|discriminate]. }
    intros t Ht F. rewrite Eks in Ht. pose proof (upd_none_edges _ _ _ _ Ht) as Ek.
    assert (Hempty : forall e, ~ In e (DKProof.dk_all K g' sl')).
    { intros e. unfold DKProof.dk_all. rewrite Hsl', Eks, Ek, F. auto. }
    assert (Hone : forall e, In e (DKProof.dk_all K g1 sl) -> e = (1, 1)%N).
    { intros e He. destruct (edge_dec e (1, 1)%N); auto. exfalso. apply (Hempty e). apply HS; auto. }
    pose proof (WF t0 Ht0) as Hne0. destruct (kt_edges K t0) as [|e0 r0] eqn:E0; [congruence|].
    assert (Hin0 : In e0 (ks_edges K l2)).
    { unfold ks_edges. apply in_concat. exists (kt_edges K t0). split; [|rewrite E0; left; auto].
      apply in_map_iff. exists (Some t0). auto. }
    assert (E11 : e0 = (1, 1)%N) by (apply Hone; unfold DKProof.dk_all; apply in_app_iff; right; auto).
    destruct (live_edges sl) as [|e1 r1] eqn:El.
    + destruct (Hz eq_refl) as [_ Hno]. apply Hno. unfold DKProof.dk_all. apply in_app_iff. right. cbn [ks g1]. congruence.
    + assert (E1 : e1 = (1, 1)%N) by (apply Hone; unfold DKProof.dk_all; rewrite El; left; auto).
      apply (dv_c0ks _ _ _ _ _ H1 e1); [rewrite El; left; auto|]. apply (ks_edges_known K L n); [apply (dv_wf _ _ _ _ _ H1)|].
      cbn [ks g1]. congruence.
  - inversion E; subst. cbn [ks]. auto.
Qed.

Lemma full_ops h : forall g sl S g', rel K L n g sl S -> Forall (op_in_range n) h -> dk_ops T K g h = Done g' ->
  ks_full (ks g) -> ks_full (ks g').
Proof.
  induction h as [|o h IH]; cbn [dk_ops]; intros g sl S g' R HF E Hfull.
  - inversion E; subst; auto.
  - inversion HF as [|? ? Ho Hh]; subst.
    destruct (dk_op T K g o) as [g1|g1|] eqn:E1; try discriminate.
    destruct (rel_step T K L n Hn g sl S o g1 R Ho E1) as [sl1 R1].
    apply (IH g1 sl1 (espec_step S o)); auto.
    destruct o as [[x y]|[x y]]; cbn [dk_op] in E1.
    + apply (add_full g sl x y g1 (rl_inv _ _ _ _ _ _ R) Ho Hfull E1).
    + apply (del_full g sl x y g1 (rl_inv _ _ _ _ _ _ R) Ho Hfull E1).
Qed.

Lemma hist_full h g : Forall (op_in_range n) h -> dk_hist T K n h = Done g ->
  exists sl, rel K L n g sl (espec h) /\ ks_full (ks g).
Proof.
  intros HF E. destruct (hist_rel T K L n Hn h g HF E) as [sl R]. exists sl. split; auto.
  unfold dk_hist in E. destruct (dk_new T K n) as [g0|] eqn:E0; cbn [rbind] in E; [|discriminate].
  pose proof (rel_new T K L n Hn g0 E0) as R0. apply (full_ops h g0 [] [] g R0 HF E).
  destruct (dk_new_inv T K L n Hn g0 E0) as [_ [_ [_ Hk]]]. rewrite Hk.
  intros t G. apply repeat_spec in G. discriminate.
Qed.

(** Every edge in a buffer slot, deleted or not, was added. *)
Definition nodes_in (P : edge -> Prop) (c : c0) : Prop := forall e, In (Some e) (c_nodes c) -> P e.

Lemma in_upd {A} (l : list A) i a b : In b (upd l i a) -> b = a \/ In b l.
Proof.
  revert i; induction l as [|c l IH]; intros [|i]; cbn; auto.
  - intros [G|G]; auto.
  - intros [G|G]; auto. apply IH in G. tauto.
Qed.

Lemma insert_nodes P c e ne c' : nodes_in P c -> P e -> c0_insert T c e ne = Ok c' -> nodes_in P c'.
Proof.
  intros H He E. unfold c0_insert in E. destruct (eget e (c_lst c)); [inversion E; subst; auto|].
  match type of E with obind ?q _ = _ => destruct q as [c1|] eqn:E1 end; cbn [obind] in E; [|discriminate].
  assert (H1 : nodes_in P c1).
  { destruct (length (c_els c) <=? c_n c); [|inversion E1; subst; auto].
    destruct (maxsz T (N.max (c_nv c) ne) 0); cbn [obind] in E1; [|discriminate]. inversion E1; subst.
    unfold c0_resize. destruct (c_max c <? N.to_nat a); auto. intros f. cbn [c_nodes]. unfold vresize.
    intros G. apply in_app_iff in G. destruct G as [G|G].
    - apply H. rewrite <- (firstn_skipn (N.to_nat a) (c_nodes c)). apply in_app_iff; auto.
    - apply repeat_spec in G. discriminate. }
  destruct (get (c_free c1) (c_n c1)) as [f|]; cbn [obind] in E; [|discriminate].
  destruct (f <? 0)%Z; [discriminate|].
  destruct (set (c_nodes c1) (Z.to_nat f) (Some e)) as [nodes|] eqn:En; cbn [obind] in E; [|discriminate].
  apply set_inv in En. destruct En as [_ En].
  match type of E with obind ?q _ = _ => destruct q as [els|] end; cbn [obind] in E; [|discriminate].
  inversion E; subst. intros u G. cbn [c_nodes] in G. apply in_upd in G. destruct G as [G|G]; [inversion G; subst; auto|auto].
Qed.

Lemma clean_nodes P c c' : c0_clean c = Ok c' -> nodes_in P c'.
Proof.
  unfold c0_clean. destruct (length (c_free c) <? c_max c); [discriminate|]. intros E; injection E as <-.
  intros e G. cbn [c_nodes] in G. apply repeat_spec in G. discriminate.
Qed.

Lemma erase_nodes c e b c' : c0_erase c e = Ok (b, c') -> c_nodes c' = c_nodes c.
Proof.
  unfold c0_erase. destruct (eget e (c_lst c)); [|intros E; inversion E; auto].
  destruct (get (c_els c) n0); cbn [obind]; [|discriminate].
  match goal with |- obind ?q _ = _ -> _ => destruct q end; cbn [obind]; [|discriminate].
  destruct (set (c_free c) n0 (-1)%Z); cbn [obind]; [|discriminate]. intros E; inversion E; auto.
Qed.

Lemma add_nodes P g x y g' : nodes_in P (C0_ g) -> P (x, y) -> dk_add T K g x y = Done g' -> nodes_in P (C0_ g').
Proof.
  intros H He E. unfold dk_add in E.
  destruct (dk_contains_forced K g x y) as [[b g1]|] eqn:E1; cbn [rbind] in E; [|discriminate].
  assert (Hc : C0_ g1 = C0_ g).
  { unfold dk_contains_forced in E1. destruct (c0_contains (C0_ g) (x, y)) as [[|]|]; cbn [obind] in E1; [| |discriminate].
    - inversion E1; auto.
    - destruct (ks_adjf K (ks g) x y). inversion E1; auto. }
  rewrite <- Hc in H. destruct b; [inversion E; subst; auto|].
  destruct (maxsz T (dk_m K g1) 0) as [ms|]; cbn [rbind] in E; [|discriminate].
  destruct (N.of_nat (c0_size (C0_ g1)) <? ms)%N.
  - destruct (c0_insert T (C0_ g1) (x, y) (nt g1)) as [c|] eqn:Ei; cbn [rbind] in E; [|discriminate].
    inversion E; subst. cbn [C0_]. eapply insert_nodes; eauto.
  - destruct (find_level T K (dk_m K g1) (ks g1) 0 ms) as [i|]; [|discriminate].
    destruct (c0_converted (C0_ g1)); cbn [rbind] in E; [|discriminate].
    destruct (c0_clean (C0_ g1)) as [c|] eqn:Ec; cbn [rbind] in E; [|discriminate].
    destruct (merge_upto K _ (ks g1) (S i)). inversion E; subst. cbn [C0_]. eapply clean_nodes; eauto.
Qed.

Lemma rebuild_nodes P g sl g' : dk_inv g sl -> nodes_in P (C0_ g) -> dk_rebuild T K g = Done g' -> nodes_in P (C0_ g').
Proof.
  intros HI H. unfold dk_rebuild. set (i := rebuild_level T (dk_m K g) (nt g) RS 0). clearbody i.
  assert (H11 : in_range n (1, 1)%N) by (split; cbn; lia).
  assert (HALF : forall (oo : bool) g2, (c0_size (C0_ g2) = 0 -> nodes_in P (C0_ g2)) ->
      (let+ q := (if 0 <? c0_size (C0_ g2)
               then let* conv := c0_converted (C0_ g2) in
                    let* c := c0_clean (C0_ g2) in
                    Ok (Some (kt_build K conv (nv g2)), c)
               else Ok (None, C0_ g2)) in
       let (tmp, c) := q in
       let+ tmp := merge_all K tmp (ks g2) in
       if i <? RS then
         match oo, tmp with
         | true, _ => Done (mkdk (max_r g2) (nv g2) (nt g2) c (upd (repeat None RS) i tmp))
         | false, None => Undefined
         | false, Some t =>
           let (_, t) := kt_erase K t 1 1 in
           Done (mkdk (max_r g2) (nv g2) (nt g2) c (upd (repeat None RS) i (Some t)))
         end
       else Undefined) = Done g' -> nodes_in P (C0_ g')).
  { intros oo g2 Hz.
    match goal with |- (rbind ?q _) = _ -> _ => assert (Hq : forall t c, q = Ok (t, c) -> nodes_in P c); [|destruct q as [[tmp c]|]] end.
    { intros t c. destruct (Nat.ltb_spec 0 (c0_size (C0_ g2))) as [Hs|Hs].
      - destruct (c0_converted (C0_ g2)) as [conv|]; cbn [obind rbind]; [|discriminate].
        destruct (c0_clean (C0_ g2)) as [c1|] eqn:Ec; cbn [obind rbind]; [|discriminate].
        intros G; injection G as _ <-. eapply clean_nodes; eauto.
      - intros G; injection G as _ <-. apply Hz. lia. }
    2: { cbn [rbind]; discriminate. }
    specialize (Hq tmp c eq_refl). cbn [rbind].
    destruct (merge_all K tmp (ks g2)) as [tmp'|]; cbn [rbind]; [|discriminate].
    destruct (i <? RS); [|discriminate]. destruct oo.
    - intros G; injection G as G; rewrite <- G. exact Hq.
    - destruct tmp' as [t|]; [|discriminate]. destruct (kt_erase K t 1 1) as [eb t'].
      intros G; injection G as G; rewrite <- G. exact Hq. }
  destruct (Nat.eqb_spec (c0_size (C0_ g)) 0) as [Ez|Ez].
  - destruct (dk_contains K g 1 1) as [oo|]; cbn [obind rbind]; [|discriminate].
    destruct (dk_add T K g 1 1) as [g2|g2|] eqn:Ea; try discriminate. apply HALF. intros Hz.
    unfold dk_add in Ea.
    destruct (dk_forced_spec K L n g sl 1 1 HI H11) as [b [g1 [E1 [G1 [_ [_ [Hb [_ [Hf _]]]]]]]]].
    rewrite E1 in Ea. cbn [rbind] in Ea.
    assert (Hcc : C0_ g1 = C0_ g).
    { unfold dk_contains_forced in E1. destruct (c0_contains (C0_ g) (1, 1)%N) as [[|]|]; cbn [obind] in E1; [| |discriminate].
      - inversion E1; auto.
      - destruct (ks_adjf K (ks g) 1 1). inversion E1; auto. }
    destruct b; [inversion Ea; subst; rewrite Hcc; auto|].
    assert (Hnl : ~ In (1, 1)%N (live_edges sl)) by (intros G; assert (false = true) by (apply Hb; auto); discriminate).
    destruct (maxsz T (dk_m K g1) 0) as [ms|]; cbn [rbind] in Ea; [|discriminate].
    destruct (N.of_nat (c0_size (C0_ g1)) <? ms)%N.
    + exfalso. destruct (c0_insert T (C0_ g1) (1, 1)%N (nt g1)) as [c|] eqn:Ei; cbn [rbind] in Ea; [|discriminate].
      assert (Hg2 : C0_ g2 = c) by (inversion Ea; auto). rewrite Hg2 in Hz.
      destruct (insert_inv _ _ _ _ _ _ (dv_c0 _ _ _ _ _ G1) Ei) as [_ [_ Hi]].
      rewrite (proj2 (emem_false _ _) Hnl) in Hi. rewrite (inv_size _ _ Hi), live_edges_app, app_length in Hz. cbn in Hz. lia.
    + destruct (find_level T K (dk_m K g1) (ks g1) 0 ms) as [j|]; [|discriminate].
      destruct (c0_converted (C0_ g1)); cbn [rbind] in Ea; [|discriminate].
      destruct (c0_clean (C0_ g1)) as [c|] eqn:Ec; cbn [rbind] in Ea; [|discriminate].
      destruct (merge_upto K _ (ks g1) (S j)).
      assert (Hg2 : C0_ g2 = c) by (inversion Ea; auto). rewrite Hg2. eapply clean_nodes; eauto.
  - cbn [rbind]. intros E. exact (HALF false g (fun _ => H) E).
Qed.

Lemma nodes_ops (P : edge -> Prop) h : (forall e, In (Add e) h -> P e) -> forall g sl S g', rel K L n g sl S -> Forall (op_in_range n) h ->
  dk_ops T K g h = Done g' -> nodes_in P (C0_ g) -> nodes_in P (C0_ g').
Proof.
  intros HP. induction h as [|o h IH]; cbn [dk_ops]; intros g sl S g' R HF E Hg.
  - inversion E; subst; auto.
  - inversion HF as [|? ? Ho Hh]; subst.
    destruct (dk_op T K g o) as [g1|g1|] eqn:E1; try discriminate.
    destruct (rel_step T K L n Hn g sl S o g1 R Ho E1) as [sl1 R1].
    apply (IH (fun e He => HP e (or_intror He)) g1 sl1 (espec_step S o)); auto.
    destruct o as [[x y]|[x y]]; cbn [dk_op] in E1.
    + eapply add_nodes; eauto. apply HP. left; auto.
    + unfold dk_del in E1. destruct (c0_erase (C0_ g) (x, y)) as [[b c]|] eqn:Ee; cbn [rbind] in E1; [|discriminate].
      pose proof (rl_inv _ _ _ _ _ _ R) as I.
      assert (Hc : nodes_in P c) by (unfold nodes_in; rewrite (erase_nodes _ _ _ _ Ee); exact Hg).
      destruct (erase_inv _ _ _ _ _ (dv_c0 _ _ _ _ _ I) Ee) as [_ [_ [_ [sl2 [_ [_ [_ I4]]]]]]].
      destruct b; [inversion E1; subst; exact Hc|]. specialize (I4 eq_refl). subst c.
      pose proof (ks_erase_spec K L n (ks g) x y (dv_wf _ _ _ _ _ I) (dv_disj _ _ _ _ _ I) Ho) as [R2 [R3 [R4 [R5 [R6 [R7 _]]]]]].
      destruct (ks_erase K (ks g) x y) as [eb l]. cbn [fst snd] in *.
      pose proof (ks_sweep_spec K L n Hn l R2) as [W1 [W2 [W3 [W4 [W5 _]]]]].
      destruct (ks_sweep K l) as [marked l2]. cbn [fst snd] in *.
      destruct (th_trig T marked _); [|inversion E1; subst; exact Hc].
      refine (rebuild_nodes P _ sl _ _ _ E1); [|exact Hc].
      destruct I as [h1 h2 h3 h4 h5 h6 h7 h8 h9]. constructor; cbn; auto.
      * rewrite W2, R3; auto.
      * intros e Q3 Q4. apply (h9 e Q3); auto.
Qed.

Lemma hist_nodes h g sl : Forall (op_in_range n) h -> dk_hist T K n h = Done g -> dk_inv g sl ->
  forall e, In e (map fst sl) -> In (Add e) h.
Proof.
  intros HF E I e He. unfold dk_hist in E. destruct (dk_new T K n) as [g0|] eqn:E0; cbn [rbind] in E; [|discriminate].
  pose proof (rel_new T K L n Hn g0 E0) as R0.
  pose proof (nodes_ops (fun e => In (Add e) h) h (fun e He => He) g0 [] [] g R0 HF E) as G.
  apply G.
  - unfold dk_new, c0_new, maxsz in E0. destruct (N.eqb n 1); cbn [obind] in E0; [discriminate|].
    injection E0 as <-. intros f Hf. cbn [C0_ c_nodes] in Hf. apply repeat_spec in Hf. discriminate.
  - apply in_map_iff in He. destruct He as [[f b] [<- Hf]]. apply In_nth_error in Hf. destruct Hf as [i Hi].
    apply (iv_nodes _ _ (dv_c0 _ _ _ _ _ I)) in Hi. eapply nth_error_In; eauto.
Qed.
End DKFull.
