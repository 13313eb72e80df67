(** * DKProof: invariants of DKtree and what add_edge / del_edge do to them. *)
From Verif Require Import Base Spec Thresholds K2 C0 C0Proof DK.

Lemma nth_error_skipn' {A} (l : list A) : forall a b, nth_error (skipn a l) b = nth_error l (a + b).
Proof. induction l as [|x l IH]; intros [|a] b; cbn; auto. destruct b; auto. Qed.

Section DKProof.
Context (T : thresholds) (K : k2impl) (L : k2laws K) (n : N) (Hn : (2 <= n)%N).
Local Notation ktree := (kt K).
Local Notation dk := (dk K).

(** ** The array of trees as a set of edges *)
Definition ks_edges (l : list (option ktree)) : list edge :=
  concat (map (fun o => match o with Some t => kt_edges K t | None => [] end) l).
Definition ks_wf (l : list (option ktree)) : Prop :=
  Forall (fun o => match o with Some t => wf L n t | None => True end) l.
Definition ks_known (l : list (option ktree)) (e : edge) : Prop :=
  exists t, In (Some t) l /\ known L t e.
Fixpoint ks_disj (l : list (option ktree)) : Prop :=
  match l with
  | [] => True
  | Some t :: l => (forall e, known L t e -> ~ ks_known l e) /\ ks_disj l
  | None :: l => ks_disj l
  end.

Lemma ks_edges_cons_some t l : ks_edges (Some t :: l) = kt_edges K t ++ ks_edges l.
Proof. reflexivity. Qed.
Lemma ks_edges_cons_none l : ks_edges (None :: l) = ks_edges l.
Proof. reflexivity. Qed.
Lemma ks_edges_app a b : ks_edges (a ++ b) = ks_edges a ++ ks_edges b.
Proof. unfold ks_edges. rewrite map_app, concat_app. reflexivity. Qed.
Lemma ks_edges_none k : ks_edges (repeat None k) = [].
Proof. induction k; cbn; auto. Qed.
Lemma ks_known_cons_some t l e : ks_known (Some t :: l) e <-> known L t e \/ ks_known l e.
Proof.
  split.
  - intros [u [[E|Hu] Hk]]; [inversion E; subst; auto|right; exists u; auto].
  - intros [H|[u [Hu Hk]]]; [exists t; cbn; auto|exists u; cbn; auto].
Qed.
Lemma ks_known_cons_none l e : ks_known (None :: l) e <-> ks_known l e.
Proof.
  split; intros [u [Hu Hk]]; exists u; cbn in *; intuition congruence.
Qed.
Lemma ks_known_nil e : ~ ks_known [] e.
Proof. intros [t [[] _]]. Qed.
Lemma ks_known_app a b e : ks_known (a ++ b) e <-> ks_known a e \/ ks_known b e.
Proof.
  split.
  - intros [t [Ht Hk]]. apply in_app_iff in Ht. destruct Ht; [left|right]; exists t; auto.
  - intros [[t [Ht Hk]]|[t [Ht Hk]]]; exists t; rewrite in_app_iff; auto.
Qed.
Lemma ks_known_none k e : ~ ks_known (repeat None k) e.
Proof. intros [t [Ht _]]. apply repeat_spec in Ht. discriminate. Qed.

Lemma ks_edges_known l e : ks_wf l -> In e (ks_edges l) -> ks_known l e.
Proof.
  induction l as [|[t|] l IH]; intros H He; [destruct He| |]; inversion H as [|? ? Ht Hl]; subst.
  - rewrite ks_edges_cons_some, in_app_iff in He. apply ks_known_cons_some.
    destruct He as [He|He]; [left; eapply law_known_live; eauto|right; auto].
  - apply ks_known_cons_none; auto.
Qed.

Lemma ks_edges_range l e : ks_wf l -> In e (ks_edges l) -> in_range n e.
Proof.
  induction l as [|[t|] l IH]; intros H He; [destruct He| |]; inversion H as [|? ? Ht Hl]; subst; auto.
  rewrite ks_edges_cons_some, in_app_iff in He. destruct He as [He|He]; auto.
  apply (law_edges_range L n t e Ht He).
Qed.

Lemma ks_edges_nodup l : ks_wf l -> ks_disj l -> NoDup (ks_edges l).
Proof.
  induction l as [|[t|] l IH]; intros H Hd; [constructor| |]; inversion H as [|? ? Ht Hl]; subst.
  - destruct Hd as [Hd1 Hd2]. rewrite ks_edges_cons_some. apply NoDup_app. sp; auto.
    + eapply law_edges_nodup; eauto.
    + intros e He1 He2. apply (Hd1 e); [eapply law_known_live; eauto|apply ks_edges_known; auto].
  - apply IH; auto.
Qed.

(** No tree of the array has ever had an edge erased. *)
Definition fresh_t (t : ktree) : Prop := kt_marked K t = 0%N /\ forall e, known L t e -> In e (kt_edges K t).
Definition ks_fresh (l : list (option ktree)) : Prop := forall t, In (Some t) l -> fresh_t t.

(** ** Queries on the array *)
Lemma ks_adj_spec l x y : ks_wf l -> in_range n (x, y) -> (ks_adj K l x y = true <-> In (x, y) (ks_edges l)).
Proof.
  intros H [Hx Hy]. induction l as [|[t|] l IH]; cbn [ks_adj]; [cbn; split; [discriminate|tauto]| |];
    inversion H as [|? ? Ht Hl]; subst.
  - rewrite ks_edges_cons_some, in_app_iff, orb_true_iff, IH by auto.
    rewrite (law_adj L n t x y Ht Hx Hy). reflexivity.
  - apply IH; auto.
Qed.

Lemma ks_adjf_spec l x y : ks_wf l -> in_range n (x, y) ->
  let r := ks_adjf K l x y in
  (fst r = true <-> ks_known l (x, y)) /\
  if fst r
  then ks_wf (snd r) /\ length (snd r) = length l /\
       (forall e, In e (ks_edges (snd r)) <-> In e (ks_edges l) \/ e = (x, y)) /\
       (forall e, ks_known (snd r) e -> ks_known l e) /\
       (ks_disj l -> ks_disj (snd r)) /\
       (forall i, nth_error (snd r) i = Some None <-> nth_error l i = Some None)
  else snd r = l.
Proof.
  intros H [Hx Hy]. cbn in Hx, Hy. induction l as [|[t|] l IH]; cbn [ks_adjf].
  - cbn. split; auto. split; [discriminate|]. intros Hk; apply ks_known_nil in Hk; tauto.
  - inversion H as [|? ? Ht Hl]; subst. specialize (IH Hl).
    destruct (law_adjf L n t x y Ht Hx Hy) as [Hb Hr].
    destruct (kt_adjf K t x y) as [b t']. cbn [fst snd] in *. rewrite ks_known_cons_some, <- Hb.
    destruct b; cbn [fst snd].
    + destruct Hr as [Hw [He Hk]]. sp.
      * tauto.
      * constructor; auto.
      * cbn; auto.
      * intros e. rewrite !ks_edges_cons_some, !in_app_iff, He. tauto.
      * intros e. rewrite !ks_known_cons_some. intros [G|G]; auto.
      * intros [D1 D2]. split; auto.
      * intros [|i]; cbn; [split; discriminate|tauto].
    + subst t'. destruct (ks_adjf K l x y) as [b' l']. cbn [fst snd] in *.
      destruct IH as [IH1 IH2]. split; [rewrite IH1; intuition discriminate|].
      destruct b'; [|congruence]. destruct IH2 as [I1 [I2 [I3 [I4 [I5 I6]]]]]. sp.
      * constructor; auto.
      * cbn; auto.
      * intros e. rewrite !ks_edges_cons_some, !in_app_iff, I3. tauto.
      * intros e. rewrite !ks_known_cons_some. intros [G|G]; auto.
      * intros [D1 D2]. split; auto. intros e G1 G2. apply (D1 e); auto.
      * intros [|i]; cbn; [split; discriminate|apply I6].
  - inversion H as [|? ? Ht Hl]; subst. specialize (IH Hl).
    destruct (ks_adjf K l x y) as [b' l']. cbn [fst snd] in *. destruct IH as [IH1 IH2].
    rewrite ks_known_cons_none. split; auto.
    destruct b'; [|congruence]. destruct IH2 as [I1 [I2 [I3 [I4 [I5 I6]]]]]. sp; auto.
    + constructor; auto.
    + cbn; auto.
    + intros e. rewrite !ks_known_cons_none. auto.
    + intros [|i]; cbn; [tauto|apply I6].
Qed.

Lemma ks_adjf_fresh l x y : ks_wf l -> ks_fresh l -> in_range n (x, y) -> snd (ks_adjf K l x y) = l.
Proof.
  intros H Hf [Hx Hy]. cbn in Hx, Hy. induction l as [|[t|] l IH]; cbn [ks_adjf]; auto.
  - inversion H as [|? ? Ht Hl]; subst.
    assert (IH' : snd (ks_adjf K l x y) = l) by (apply IH; auto; intros u Hu; apply Hf; right; auto).
    destruct (law_adjf L n t x y Ht Hx Hy) as [Hb Hr].
    pose proof (law_adjf_live L n t x y Ht Hx Hy) as Hlv.
    destruct (kt_adjf K t x y) as [b t']. cbn [fst snd] in *. destruct b; cbn [snd].
    + rewrite Hlv; auto. apply (Hf t); [left; auto|tauto].
    + subst. destruct (ks_adjf K l x y) as [b' l']. cbn in *. congruence.
  - inversion H as [|? ? Ht Hl]; subst.
    assert (IH' : snd (ks_adjf K l x y) = l) by (apply IH; auto; intros u Hu; apply Hf; right; auto).
    destruct (ks_adjf K l x y) as [b' l']. cbn in *. congruence.
Qed.

Lemma ks_fresh_known l e : ks_fresh l -> ks_known l e -> In e (ks_edges l).
Proof.
  intros H [t [Ht Hk]]. apply (H t Ht) in Hk. unfold ks_edges. apply in_concat.
  exists (kt_edges K t). split; auto. apply in_map_iff. exists (Some t). auto.
Qed.
Lemma ks_fresh_firstn l k : ks_fresh l -> ks_fresh (firstn k l).
Proof. intros H t Ht. apply H. rewrite <- (firstn_skipn k l). apply in_app_iff; auto. Qed.

Lemma merge_upto_spec cnt : forall tmp l, wf L n tmp -> ks_wf l -> cnt <= length l ->
  let r := merge_upto K tmp l cnt in
  wf L n (fst r) /\ snd r = repeat None cnt ++ skipn cnt l /\
  (forall e, In e (kt_edges K (fst r)) <-> In e (kt_edges K tmp) \/ In e (ks_edges (firstn cnt l))) /\
  (forall e, known L (fst r) e -> known L tmp e \/ ks_known (firstn cnt l) e) /\
  (kt_marked K tmp = 0%N -> kt_marked K (fst r) = 0%N).
Proof.
  induction cnt as [|cnt IH]; intros tmp l Ht Hl Hc.
  - replace (merge_upto K tmp l 0) with (tmp, l) by (destruct l; reflexivity). cbn. sp; auto.
    intros e; tauto.
  - destruct l as [|o l]; [cbn in Hc; lia|]. cbn [merge_upto]. inversion Hl as [|? ? Ho Hl']; subst.
    cbn in Hc. destruct o as [t|].
    + destruct (law_union L n tmp t Ht Ho) as [U1 [U2 U3]].
      specialize (IH (kt_union K tmp t) l U1 Hl' ltac:(lia)).
      destruct (merge_upto K (kt_union K tmp t) l cnt) as [r l']. cbn [fst snd] in *.
      destruct IH as [I1 [I2 [I3 [I4 I5]]]]. sp; auto.
      * cbn. rewrite I2; auto.
      * intros e. rewrite I3, U2. cbn [firstn]. rewrite ks_edges_cons_some, in_app_iff. tauto.
      * intros e He. cbn [firstn]. rewrite ks_known_cons_some.
        destruct (I4 e He) as [G|G]; auto.
        apply (law_known_union L n) in G; auto. tauto.
    + specialize (IH tmp l Ht Hl' ltac:(lia)). destruct (merge_upto K tmp l cnt) as [r l']. cbn [fst snd] in *.
      destruct IH as [I1 [I2 [I3 [I4 I5]]]]. sp; auto.
      * cbn. rewrite I2; auto.
      * intros e He. cbn [firstn]. rewrite ks_known_cons_none. auto.
Qed.

(** Shape of the array after a flush into level i. *)
Lemma upd_flush (l : list (option ktree)) i t : i < length l ->
  upd (repeat None (S i) ++ skipn (S i) l) i (Some t) = repeat None i ++ Some t :: skipn (S i) l.
Proof.
  revert l; induction i as [|i IH]; intros [|o l] H; cbn in H; try lia; cbn; auto.
  f_equal. apply IH; lia.
Qed.

Lemma ks_wf_app a b : ks_wf (a ++ b) <-> ks_wf a /\ ks_wf b.
Proof. unfold ks_wf. rewrite Forall_app. tauto. Qed.
Lemma ks_wf_none k : ks_wf (repeat None k).
Proof. apply Forall_forall. intros o Ho. apply repeat_spec in Ho. subst; auto. Qed.
Lemma ks_wf_skipn l k : ks_wf l -> ks_wf (skipn k l).
Proof. intros H. rewrite <- (firstn_skipn k l) in H. apply ks_wf_app in H. tauto. Qed.
Lemma ks_wf_firstn l k : ks_wf l -> ks_wf (firstn k l).
Proof. intros H. rewrite <- (firstn_skipn k l) in H. apply ks_wf_app in H. tauto. Qed.

Lemma ks_disj_app a b : ks_disj (a ++ b) <->
  ks_disj a /\ ks_disj b /\ (forall e, ks_known a e -> ~ ks_known b e).
Proof.
  induction a as [|[t|] a IH]; cbn [app ks_disj].
  - split; [|tauto]. intros H; sp; auto. intros e He; apply ks_known_nil in He; tauto.
  - rewrite IH. split.
    + intros [H1 [H2 [H3 H4]]]. sp; auto.
      * intros e G1 G2. apply (H1 e G1). apply ks_known_app; auto.
      * intros e G1 G2. apply ks_known_cons_some in G1. destruct G1 as [G1|G1].
        -- apply (H1 e G1). apply ks_known_app; auto.
        -- apply (H4 e); auto.
    + intros [[H1 H2] [H3 H4]]. sp; auto.
      * intros e G1 G2. apply ks_known_app in G2. destruct G2 as [G2|G2].
        -- apply (H1 e); auto.
        -- apply (H4 e); auto. apply ks_known_cons_some; auto.
      * intros e G1. apply H4. apply ks_known_cons_some; auto.
  - rewrite IH. split; intros [H1 [H2 H3]]; sp; auto; intros e G; apply H3.
    + rewrite ks_known_cons_none in G; exact G.
    + apply ks_known_cons_none; auto.
Qed.
Lemma ks_disj_none k : ks_disj (repeat None k).
Proof. induction k; cbn; auto. Qed.

(** ** Erase, sweep, merge_all *)
Lemma ks_erase_spec l x y : ks_wf l -> ks_disj l -> in_range n (x, y) ->
  let r := ks_erase K l x y in
  ks_wf (snd r) /\ length (snd r) = length l /\ ks_disj (snd r) /\
  (fst r = true <-> In (x, y) (ks_edges l)) /\
  (forall e, In e (ks_edges (snd r)) <-> In e (ks_edges l) /\ e <> (x, y)) /\
  (forall e, ks_known (snd r) e -> ks_known l e) /\
  (forall i, nth_error (snd r) i = Some None <-> nth_error l i = Some None).
Proof.
  intros H Hd [Hx Hy]. cbn in Hx, Hy. induction l as [|[t|] l IH]; cbn [ks_erase].
  - cbn. sp; auto; try (intros; tauto). split; [discriminate|tauto].
  - inversion H as [|? ? Ht Hl]; subst. destruct Hd as [D1 D2]. specialize (IH Hl D2).
    pose proof (law_erase_res L n t x y Ht Hx Hy) as Hb.
    destruct (law_erase L n t x y Ht Hx Hy) as [E1 [E2 E3]].
    pose proof (fun e => law_known_erase L n t x y e Ht Hx Hy) as Hk.
    destruct (kt_erase K t x y) as [b t']. cbn [fst snd] in *. destruct b.
    + cbn [fst snd]. assert (Hin : In (x, y) (kt_edges K t)) by tauto.
      assert (Hnl : ~ In (x, y) (ks_edges l)).
      { intros G. apply (D1 (x, y)); [eapply law_known_live; eauto|apply ks_edges_known; auto]. }
      sp; auto.
      * constructor; auto.
      * split; auto.
      * rewrite ks_edges_cons_some, in_app_iff. tauto.
      * intros e. rewrite !ks_edges_cons_some, !in_app_iff, E2.
        split; [intros [G|G]; [tauto|split; [tauto|intros ->; tauto]]|tauto].
      * intros e. rewrite !ks_known_cons_some. intros [G|G]; auto.
      * intros [|i]; cbn; [split; discriminate|tauto].
    + destruct (ks_erase K l x y) as [b' l']. cbn [fst snd] in *.
      destruct IH as [I1 [I2 [I3 [I4 [I5 [I6 I7]]]]]].
      assert (Hnt : ~ In (x, y) (kt_edges K t)) by (intros G; apply Hb in G; discriminate).
      sp.
      * constructor; auto.
      * cbn; auto.
      * split; auto. intros e G1 G2. apply (D1 e); auto.
      * rewrite ks_edges_cons_some, in_app_iff. tauto.
      * intros e. rewrite !ks_edges_cons_some, !in_app_iff, E2, I5. tauto.
      * intros e. rewrite !ks_known_cons_some. intros [G|G]; auto.
      * intros [|i]; cbn; [split; discriminate|apply I7].
  - inversion H as [|? ? Ht Hl]; subst. specialize (IH Hl Hd).
    destruct (ks_erase K l x y) as [b' l']. cbn [fst snd] in *.
    destruct IH as [I1 [I2 [I3 [I4 [I5 [I6 I7]]]]]]. sp; auto.
    + constructor; auto.
    + cbn; auto.
    + intros e. rewrite !ks_known_cons_none. auto.
    + intros [|i]; cbn; [tauto|apply I7].
Qed.

Lemma ks_sweep_spec l : ks_wf l ->
  let r := ks_sweep K l in
  ks_wf (snd r) /\ length (snd r) = length l /\ ks_edges (snd r) = ks_edges l /\
  (forall e, ks_known (snd r) e -> ks_known l e) /\ (ks_disj l -> ks_disj (snd r)) /\
  (forall i, nth_error l i = Some None -> nth_error (snd r) i = Some None) /\
  (forall t, In (Some t) (snd r) -> In (Some t) l).
Proof.
  induction l as [|[t|] l IH]; cbn [ks_sweep]; intros H.
  - cbn. sp; auto; intros; tauto.
  - inversion H as [|? ? Ht Hl]; subst. specialize (IH Hl).
    destruct (ks_sweep K l) as [k l']. cbn [fst snd] in *.
    destruct IH as [I1 [I2 [I3 [I4 [I5 [I6 I7]]]]]].
    destruct (N.eqb_spec (kt_marked K t) (kt_total K t)) as [E|E]; cbn [fst snd].
    + rewrite (law_total L n t Ht) in E.
      assert (Hz : kt_edges K t = []) by (destruct (kt_edges K t); auto; cbn [length] in E; lia).
      sp.
      * constructor; auto.
      * cbn; auto.
      * rewrite ks_edges_cons_some, ks_edges_cons_none, Hz. auto.
      * intros e G. rewrite ks_known_cons_none in G. apply ks_known_cons_some; auto.
      * intros [D1 D2]. apply I5; auto.
      * intros [|i]; cbn; [discriminate|auto].
      * intros u [G|G]; [discriminate|right; auto].
    + sp.
      * constructor; auto.
      * cbn; auto.
      * rewrite !ks_edges_cons_some, I3. auto.
      * intros e G. rewrite ks_known_cons_some in G. apply ks_known_cons_some. destruct G; auto.
      * intros [D1 D2]. split; auto. intros e G1 G2. apply (D1 e); auto.
      * intros [|i]; cbn; [discriminate|auto].
      * intros u [G|G]; [left; auto|right; auto].
  - inversion H as [|? ? Ht Hl]; subst. specialize (IH Hl).
    destruct (ks_sweep K l) as [k l']. cbn [fst snd] in *.
    destruct IH as [I1 [I2 [I3 [I4 [I5 [I6 I7]]]]]]. sp; auto.
    + constructor; auto.
    + cbn; auto.
    + intros e G. rewrite ks_known_cons_none in G. apply ks_known_cons_none; auto.
    + intros [|i]; cbn; auto.
    + intros u [G|G]; [discriminate|right; auto].
Qed.

Lemma merge_all_spec l : forall a r, wf L n a -> ks_wf l -> merge_all K (Some a) l = Ok r ->
  exists t, r = Some t /\ wf L n t /\
  (forall e, In e (kt_edges K t) <-> In e (kt_edges K a) \/ In e (ks_edges l)) /\
  (forall e, known L t e -> known L a e \/ ks_known l e) /\
  (kt_marked K a = 0%N -> kt_marked K t = 0%N).
Proof.
  induction l as [|[u|] l IH]; cbn [merge_all]; intros a r Ha Hl E; inversion Hl as [|? ? Hu Hl']; subst.
  - inversion E; subst. exists a. cbn. sp; auto. intros; tauto.
  - destruct (law_union L n a u Ha Hu) as [U1 [U2 U3]].
    destruct (IH _ _ U1 Hl' E) as [t [-> [I1 [I2 [I3 I4]]]]]. exists t. sp; auto.
    + intros e. rewrite I2, U2, ks_edges_cons_some, in_app_iff. tauto.
    + intros e G. rewrite ks_known_cons_some. destruct (I3 e G) as [G'|G']; auto.
      apply (law_known_union L n) in G'; auto. tauto.
  - destruct (IH _ _ Ha Hl' E) as [t [-> [I1 [I2 [I3 I4]]]]]. exists t. sp; auto.
    intros e G. rewrite ks_known_cons_none. auto.
Qed.

Lemma merge_all_total l : forall a, exists r, merge_all K (Some a) l = Ok r.
Proof. induction l as [|[u|] l IH]; cbn; eauto. Qed.
Lemma merge_all_null l r : merge_all K None l = Ok r -> r = None /\ ks_edges l = [].
Proof.
  induction l as [|[u|] l IH]; cbn [merge_all]; intros E; [inversion E; auto|discriminate|auto].
Qed.

(** ** The invariant *)
Record dk_inv (g : dk) (sl : slots) : Prop := {
  dv_nv : nv g = n;
  dv_len : length (ks g) = RS;
  dv_maxr : max_r g < RS;
  dv_c0 : c0_inv (C0_ g) sl;
  dv_c0nv : c_nv (C0_ g) = n;
  dv_range : Forall (in_range n) (live_edges sl);
  dv_wf : ks_wf (ks g);
  dv_disj : ks_disj (ks g);
  dv_c0ks : forall e, In e (live_edges sl) -> ~ ks_known (ks g) e
}.

(** All live edges of the graph, buffer first. *)
Definition dk_all (g : dk) (sl : slots) : list edge := live_edges sl ++ ks_edges (ks g).

Lemma dk_all_range g sl e : dk_inv g sl -> In e (dk_all g sl) -> in_range n e.
Proof.
  intros H He. apply in_app_iff in He. destruct He as [He|He].
  - pose proof (dv_range _ _ H) as Hr. rewrite Forall_forall in Hr; auto.
  - apply (ks_edges_range (ks g)); auto. apply (dv_wf _ _ H).
Qed.
Lemma dk_all_nodup g sl : dk_inv g sl -> NoDup (dk_all g sl).
Proof.
  intros H. apply NoDup_app. sp.
  - apply uniq_nodup, (inv_uniq _ _ (dv_c0 _ _ H)).
  - apply ks_edges_nodup; [apply (dv_wf _ _ H)|apply (dv_disj _ _ H)].
  - intros e H1 H2. apply (dv_c0ks _ _ H e H1). apply ks_edges_known; auto. apply (dv_wf _ _ H).
Qed.

Lemma dk_contains_spec g sl x y : dk_inv g sl -> in_range n (x, y) ->
  dk_contains K g x y = Ok (emem (x, y) (dk_all g sl)).
Proof.
  intros H Hr. unfold dk_contains. rewrite (inv_contains _ _ _ (dv_c0 _ _ H)). cbn. f_equal.
  apply eq_true_iff_eq. rewrite emem_In. unfold dk_all. rewrite in_app_iff, <- emem_In.
  rewrite <- (ks_adj_spec _ _ _ (dv_wf _ _ H) Hr).
  destruct (emem (x, y) (live_edges sl)); intuition.
Qed.

(** contains_forced: true makes the edge live, false means unknown and unchanged. *)
Lemma dk_forced_spec g sl x y : dk_inv g sl -> in_range n (x, y) ->
  exists b g', dk_contains_forced K g x y = Ok (b, g') /\ dk_inv g' sl /\
    nt g' = nt g /\ max_r g' = max_r g /\
    (b = true <-> In (x, y) (live_edges sl) \/ ks_known (ks g) (x, y)) /\
    (b = true -> forall e, In e (dk_all g' sl) <-> In e (dk_all g sl) \/ e = (x, y)) /\
    (b = false -> g' = g) /\
    (forall i, nth_error (ks g') i = Some None <-> nth_error (ks g) i = Some None).
Proof.
  intros H Hr. unfold dk_contains_forced. rewrite (inv_contains _ _ _ (dv_c0 _ _ H)). cbn [obind].
  destruct (emem (x, y) (live_edges sl)) eqn:Em.
  - apply emem_In in Em. exists true, g. sp; auto.
    + tauto.
    + intros _ e. split; auto. intros [G| ->]; auto. apply in_app_iff; auto.
    + intros i; tauto.
  - apply emem_false in Em. destruct (ks_adjf_spec (ks g) x y (dv_wf _ _ H) Hr) as [Hb Hr2].
    destruct (ks_adjf K (ks g) x y) as [b l']. cbn [fst snd] in *.
    eexists b, _. split; [reflexivity|]. cbn [nt max_r ks].
    destruct b.
    + destruct Hr2 as [R1 [R2 [R3 [R4 [R5 R6]]]]]. sp; auto.
      * destruct H as [h1 h2 h3 h4 h5 h6 h7 h8 h9]. constructor; cbn; auto.
        -- rewrite R2. apply h2.
        -- intros e G1 G2. apply (h9 e G1); auto.
      * tauto.
      * intros _ e. unfold dk_all; cbn. rewrite !in_app_iff, R3. tauto.
      * discriminate.
    + subst l'. assert (Eg : mkdk (max_r g) (nv g) (nt g) (C0_ g) (ks g) = g) by (destruct g; auto).
      rewrite Eg. sp; auto.
      * rewrite <- Hb. intuition.
      * discriminate.
      * intros i; tauto.
Qed.

Lemma find_level_range m l : forall i acc j, find_level T K m l i acc = Some j -> i <= j < i + length l.
Proof.
  induction l as [|o l IH]; cbn [find_level]; intros i acc j E; [discriminate|].
  destruct (_ <? _)%N; [inversion E; subst; cbn; lia|]. apply IH in E. cbn. lia.
Qed.

(** ** add_edge *)
Definition kn_all (g : dk) (sl : slots) (e : edge) : Prop := In e (live_edges sl) \/ ks_known (ks g) e.

(** The flush of the buffer plus the new edge into level i. *)
Lemma flush_inv g sl x y i c : dk_inv g sl -> in_range n (x, y) -> ~ kn_all g sl (x, y) ->
  i < RS -> c0_inv c [] -> c_nv c = n -> forall cnt mr, mr < RS ->
  let p := merge_upto K (kt_build K (live_edges sl ++ [(x, y)]) n) (ks g) (S i) in
  let g' := mkdk mr (nv g) cnt c (upd (snd p) i (Some (fst p))) in
  dk_inv g' [] /\ (forall e, In e (dk_all g' []) <-> In e (dk_all g sl) \/ e = (x, y)) /\
  (ks_fresh (ks g) -> fresh_t (fst p)) /\
  ks g' = repeat None i ++ Some (fst p) :: skipn (S i) (ks g).
Proof.
  intros H Hr Hk Hi Hc Hcn cnt mr Hmr p g'.
  assert (Hnin : ~ In (x, y) (live_edges sl)) by (intros G; apply Hk; left; auto).
  assert (Hnd : NoDup (live_edges sl ++ [(x, y)])).
  { apply NoDup_app. sp.
    - apply uniq_nodup, (inv_uniq _ _ (dv_c0 _ _ H)).
    - repeat constructor; auto.
    - intros a Ha [<-|[]]; auto. }
  assert (Hrg : Forall (fun e => fst e < n /\ snd e < n)%N (live_edges sl ++ [(x, y)])).
  { apply Forall_app. split; [apply (dv_range _ _ H)|repeat constructor; apply Hr]. }
  assert (Hne : live_edges sl ++ [(x, y)] <> []) by (destruct (live_edges sl); discriminate).
  destruct (law_build L n _ Hn Hne Hnd Hrg) as [B1 [B2 B3]].
  pose proof (fun e => law_known_build L n _ e Hn Hne Hnd Hrg) as B4.
  pose proof (dv_len _ _ H) as Hlen.
  destruct (merge_upto_spec (S i) _ (ks g) B1 (dv_wf _ _ H) ltac:(lia)) as [M1 [M2 [M3 [M4 M5]]]].
  fold p in M1, M2, M3, M4, M5.
  assert (Hks : ks g' = repeat None i ++ Some (fst p) :: skipn (S i) (ks g)).
  { cbn. rewrite M2. apply upd_flush. lia. }
  assert (Hsplit : ks g = firstn (S i) (ks g) ++ skipn (S i) (ks g)) by (symmetry; apply firstn_skipn).
  pose proof (dv_disj _ _ H) as Hd. rewrite Hsplit in Hd. apply ks_disj_app in Hd. destruct Hd as [Hd1 [Hd2 Hd3]].
  assert (Hall : forall e, In e (dk_all g' []) <-> In e (dk_all g sl) \/ e = (x, y)).
  { intros e. unfold dk_all. rewrite Hks, ks_edges_app, ks_edges_none, ks_edges_cons_some. cbn [app live_edges filter map].
    rewrite !in_app_iff, M3, B3, in_app_iff.
    assert (Hs : In e (ks_edges (ks g)) <-> In e (ks_edges (firstn (S i) (ks g))) \/ In e (ks_edges (skipn (S i) (ks g)))).
    { rewrite Hsplit at 1. rewrite ks_edges_app, in_app_iff. reflexivity. }
    rewrite Hs. cbn. split; [intros [|]; intuition|intuition]. }
  sp; auto; cycle 1.
  { intros Hfr. split; auto. intros e G. apply M3. destruct (M4 e G) as [G'|G']; [left; apply B3; auto|right].
    apply ks_fresh_known; auto. apply ks_fresh_firstn; auto. }
  constructor; cbn [nv nt max_r C0_].
  - apply H.
  - rewrite Hks, app_length, repeat_length. cbn [length]. rewrite skipn_length, Hlen. lia.
  - auto.
  - auto.
  - auto.
  - constructor.
  - rewrite Hks. apply ks_wf_app. split; [apply ks_wf_none|]. constructor; auto.
    apply ks_wf_skipn, (dv_wf _ _ H).
  - rewrite Hks. apply ks_disj_app. sp.
    + apply ks_disj_none.
    + cbn [ks_disj]. split; auto. intros e G1 G2. destruct (M4 e G1) as [G|G].
      * apply B4 in G. apply in_app_iff in G. destruct G as [G|[G|[]]].
        -- apply (dv_c0ks _ _ H e G). rewrite Hsplit. apply ks_known_app; auto.
        -- subst e. apply Hk. right. rewrite Hsplit. apply ks_known_app; auto.
      * apply (Hd3 e); auto.
    + intros e G. apply ks_known_none in G. tauto.
  - intros e [].
Qed.

(** Every tree sits at a level that list_neighbour looks at. *)
Definition ks_below (g : dk) : Prop := forall i t, nth_error (ks g) i = Some (Some t) -> i <= max_r g.
(** No buffer slot was freed. *)
Definition all_live (sl : slots) : Prop := Forall (fun p => snd p = true) sl.

(** One statement for the membership level; the count and structure facts that the insert-only theorems
    need come along. *)
Lemma dk_add_spec g sl x y : dk_inv g sl -> in_range n (x, y) ->
  match dk_add T K g x y with
  | Undefined => True
  | Thrown g' => g' = g
  | Done g' => exists sl', dk_inv g' sl' /\
      (forall e, In e (dk_all g' sl') <-> In e (dk_all g sl) \/ e = (x, y)) /\
      (kn_all g sl (x, y) -> nt g' = nt g) /\
      (~ kn_all g sl (x, y) -> nt g' = (nt g + 1)%N) /\
      (ks_fresh (ks g) -> ks_fresh (ks g')) /\
      (ks_below g -> ks_below g') /\ max_r g <= max_r g' /\
      (all_live sl -> all_live sl')
  end.
Proof.
  intros H Hr. unfold dk_add.
  destruct (dk_forced_spec g sl x y H Hr) as [b [g1 [E [H1 [Hnt [Hmr [Hb [Ht [Hf Hnone]]]]]]]]].
  rewrite E. cbn [rbind]. destruct b.
  - exists sl. sp; auto.
    + intros Hnk. exfalso; apply Hnk. apply Hb; auto.
    + intros Hfr. unfold dk_contains_forced in E. rewrite (inv_contains _ _ _ (dv_c0 _ _ H)) in E.
      cbn [obind] in E. destruct (emem (x, y) (live_edges sl)) eqn:Em; [inversion E; subst; auto|].
      pose proof (ks_adjf_fresh (ks g) x y (dv_wf _ _ H) Hfr Hr) as G.
      destruct (ks_adjf K (ks g) x y) as [b' l']. cbn in G. subst l'. inversion E; subst; auto.
    + intros Hbl i t Hi. rewrite Hmr.
      destruct (nth_error (ks g) i) as [[u|]|] eqn:Eg.
      * apply (Hbl i u); auto.
      * apply Hnone in Eg. congruence.
      * apply nth_error_None in Eg. rewrite (dv_len _ _ H) in Eg.
        assert (i < length (ks g1)) by (apply nth_error_Some; congruence). rewrite (dv_len _ _ H1) in *. lia.
    + lia.
  - specialize (Hf eq_refl). subst g1.
    assert (Hnk : ~ kn_all g sl (x, y)) by (intros G; apply Hb in G; discriminate).
    assert (Hnl : ~ In (x, y) (live_edges sl)) by (intros G; apply Hnk; left; auto).
    destruct (maxsz T (dk_m K g) 0) as [ms|]; cbn [rbind]; auto.
    destruct (N.of_nat (c0_size (C0_ g)) <? ms)%N.
    + destruct (c0_insert T (C0_ g) (x, y) (nt g)) as [c|] eqn:Ei; cbn [rbind]; auto.
      destruct (insert_inv _ _ _ _ _ _ (dv_c0 _ _ H) Ei) as [Hv [_ Hi]].
      rewrite (proj2 (emem_false _ _) Hnl) in Hi.
      exists (sl ++ [((x, y), true)]). sp.
      * constructor; cbn; auto; try apply H.
        -- rewrite Hv. apply H.
        -- rewrite live_edges_app. cbn. apply Forall_app. split; [apply H|repeat constructor; apply Hr].
        -- intros e. rewrite live_edges_app, in_app_iff. cbn. intros [G|[G|[]]]; [apply (dv_c0ks _ _ H e G)|].
           subst e. intros G. apply Hnk. right; auto.
      * intros e. unfold dk_all; cbn. rewrite live_edges_app, !in_app_iff. cbn. intuition.
      * intros G; tauto.
      * reflexivity.
      * cbn. auto.
      * cbn. auto.
      * cbn. auto.
      * intros G. apply Forall_app. split; auto.
    + destruct (find_level T K (dk_m K g) (ks g) 0 ms) as [i|] eqn:Ef; auto.
      apply find_level_range in Ef. rewrite (dv_len _ _ H) in Ef.
      assert (Hi8 : i < RS) by (clear - Ef; lia).
      assert (Hmr8 : Nat.max i (max_r g) < RS) by (pose proof (dv_maxr _ _ H); lia).
      rewrite (inv_converted _ _ (dv_c0 _ _ H)). cbn [rbind].
      destruct (inv_clean _ _ (dv_c0 _ _ H)) as [c [Ec [Hc [_ Hcv]]]]. rewrite Ec. cbn [rbind].
      assert (Hcv2 : c_nv c = n) by (rewrite Hcv; apply (dv_c0nv _ _ H)).
      destruct (flush_inv g sl x y i c H Hr Hnk Hi8 Hc Hcv2 (nt g + 1)%N (Nat.max i (max_r g)) Hmr8)
        as [F1 [F2 [F3 F4]]].
      rewrite (dv_nv _ _ H) in *.
      destruct (merge_upto K (kt_build K (live_edges sl ++ [(x, y)]) n) (ks g) (S i)) as [tmp l].
      cbn [fst snd] in *. exists []. sp; auto.
      * intros G; tauto.
      * intros Hfr t Hin. rewrite F4 in Hin. apply in_app_iff in Hin.
        destruct Hin as [Hin|[Hin|Hin]].
        -- apply repeat_spec in Hin; discriminate.
        -- inversion Hin; subst; auto.
        -- apply Hfr. rewrite <- (firstn_skipn (S i) (ks g)). apply in_app_iff; auto.
      * intros Hbl j t Hj. rewrite F4 in Hj. cbn [max_r].
        destruct (Nat.lt_ge_cases i j) as [Hij|Hij]; [|lia].
        rewrite nth_error_app2 in Hj by (rewrite repeat_length; lia). rewrite repeat_length in Hj.
        replace (j - i) with (S (j - S i)) in Hj by lia. cbn [nth_error] in Hj. rewrite nth_error_skipn' in Hj.
        replace (S i + (j - S i)) with j in Hj by lia. apply Hbl in Hj. lia.
      * cbn [max_r]. lia.
      * intros _. constructor.
Qed.

(** ** del_edge *)
(** Rebuild: every edge except (1,1) survives, nothing appears; the count may be one too high. *)
Lemma dk_rebuild_spec g sl : dk_inv g sl ->
  match dk_rebuild T K g with
  | Undefined => True
  | Thrown _ => True
  | Done g' => exists sl', dk_inv g' sl' /\
      (forall e, In e (dk_all g' sl') <-> In e (dk_all g sl) /\ e <> (1, 1)%N) /\
      (live_edges sl <> [] -> nt g' = nt g) /\
      (live_edges sl = [] -> nt g' = (nt g + 1)%N /\ ~ In (1, 1)%N (dk_all g sl))
  end.
Proof.
  intros H. unfold dk_rebuild.
  assert (H11 : in_range n (1, 1)%N) by (split; cbn; lia).
  set (i := rebuild_level T (dk_m K g) (nt g) RS 0).
  rewrite (inv_size _ _ (dv_c0 _ _ H)).
  (* the second half, for a state g2 with the buffer contents sl2 *)
  assert (HALF : forall oo g2 sl2, dk_inv g2 sl2 ->
    (oo = true -> live_edges sl2 = [] /\ In (1, 1)%N (ks_edges (ks g2))) ->
    match
      (let+ q := (if 0 <? c0_size (C0_ g2)
               then let* conv := c0_converted (C0_ g2) in
                    let* c := c0_clean (C0_ g2) in
                    Ok (Some (kt_build K conv (nv g2)), c)
               else Ok (None, C0_ g2)) in
       let (tmp, c) := q in
       let+ tmp := merge_all K tmp (ks g2) in
       if i <? RS then
         match oo, tmp with
         | true, _ => Done (mkdk (max_r g2) (nv g2) (nt g2) c (upd (repeat None RS) i tmp))
         | false, None => Undefined
         | false, Some t =>
           let (_, t) := kt_erase K t 1 1 in
           Done (mkdk (max_r g2) (nv g2) (nt g2) c (upd (repeat None RS) i (Some t)))
         end
       else Undefined)
    with
    | Undefined => True | Thrown _ => True
    | Done g' => exists sl', dk_inv g' sl' /\ live_edges sl2 <> [] /\ nt g' = nt g2 /\
        (forall e, In e (dk_all g' sl') <-> In e (dk_all g2 sl2) /\ e <> (1, 1)%N)
    end).
  { intros oo g2 sl2 H2 Hoo. rewrite (inv_size _ _ (dv_c0 _ _ H2)).
    destruct (Nat.ltb_spec 0 (length (live_edges sl2))) as [Hlt|Hge].
    - assert (Hne : live_edges sl2 <> []) by (destruct (live_edges sl2); [cbn in *; lia|discriminate]).
      destruct oo; [destruct (Hoo eq_refl); tauto|].
      rewrite (inv_converted _ _ (dv_c0 _ _ H2)). cbn [obind].
      destruct (inv_clean _ _ (dv_c0 _ _ H2)) as [c [Ec [Hc [_ Hcv]]]]. rewrite Ec. cbn [obind rbind].
      rewrite (dv_nv _ _ H2).
      assert (Hnd : NoDup (live_edges sl2)) by (apply uniq_nodup, (inv_uniq _ _ (dv_c0 _ _ H2))).
      destruct (law_build L n _ Hn Hne Hnd (dv_range _ _ H2)) as [B1 [B2 B3]].
      pose proof (fun e => law_known_build L n _ e Hn Hne Hnd (dv_range _ _ H2)) as B4.
      destruct (merge_all K (Some (kt_build K (live_edges sl2) n)) (ks g2)) as [r|] eqn:Em; cbn [rbind]; auto.
      destruct (merge_all_spec _ _ _ B1 (dv_wf _ _ H2) Em) as [t [-> [M1 [M2 [M3 M4]]]]].
      destruct (Nat.ltb_spec i RS) as [Hi|Hi]; auto.
      destruct (law_erase L n t 1 1 M1 ltac:(lia) ltac:(lia)) as [E1 [E2 E3]].
      pose proof (fun e => law_known_erase L n t 1 1 e M1 ltac:(lia) ltac:(lia)) as E4.
      destruct (kt_erase K t 1 1) as [eb t']. cbn [fst snd] in *.
      assert (Hks : upd (repeat None RS) i (Some t') = repeat None i ++ Some t' :: repeat None (RS - S i)).
      { pose proof (upd_flush (repeat None RS) i t' ltac:(rewrite repeat_length; auto)) as G.
        replace (skipn (S i) (repeat (@None ktree) RS)) with (repeat (@None ktree) (RS - S i)) in G.
        - rewrite <- G. f_equal. rewrite <- repeat_app. f_equal. unfold RS in *; lia.
        - assert (G2 : forall a b, skipn a (repeat (@None ktree) b) = repeat None (b - a)).
          { induction a as [|a IHa]; intros [|b]; cbn; auto. }
          rewrite G2; auto. }
      exists []. sp; auto.
      + constructor; cbn [nv nt max_r C0_ ks]; auto.
        * rewrite length_upd, repeat_length; auto.
        * apply (dv_maxr _ _ H2).
        * rewrite Hcv. apply (dv_c0nv _ _ H2).
        * constructor.
        * rewrite Hks. apply ks_wf_app. split; [apply ks_wf_none|]. constructor; auto. apply ks_wf_none.
        * rewrite Hks. apply ks_disj_app. sp; [apply ks_disj_none| |intros e G; apply ks_known_none in G; tauto].
          cbn [ks_disj]. split; [|apply ks_disj_none]. intros e _ G. apply ks_known_none in G; auto.
      + intros e. unfold dk_all at 1. cbn [ks]. rewrite Hks, ks_edges_app, ks_edges_none, ks_edges_cons_some, ks_edges_none.
        cbn [app live_edges filter map]. rewrite app_nil_r, E2, M2, B3. unfold dk_all. rewrite in_app_iff. tauto.
    - cbn [rbind]. destruct (merge_all K None (ks g2)) as [r|] eqn:Em; cbn [rbind]; auto.
      apply merge_all_null in Em. destruct Em as [-> Em].
      destruct (i <? RS); auto. destruct oo; auto.
      destruct (Hoo eq_refl) as [_ G]. rewrite Em in G. destruct G. }
  destruct (Nat.eqb_spec (length (live_edges sl)) 0) as [Hz|Hz].
  - assert (Hnil : live_edges sl = []) by (destruct (live_edges sl); [auto|discriminate]).
    rewrite (dk_contains_spec g sl 1 1 H H11). cbn [rbind obind].
    pose proof (dk_add_spec g sl 1 1 H H11) as HA.
    set (oo := emem (1, 1)%N (dk_all g sl)).
    destruct (dk_add T K g 1 1) as [g2|g2|] eqn:EA; auto.
    destruct HA as [sl2 [A1 [A2 [A3 [A4 _]]]]].
    specialize (HALF oo g2 sl2 A1).
    assert (Hoo : oo = true -> live_edges sl2 = [] /\ In (1, 1)%N (ks_edges (ks g2))).
    { intros Ho. unfold oo in Ho. apply emem_In in Ho.
      (* contained: add_edge leaves the buffer empty *)
      unfold dk_add in EA. destruct (dk_forced_spec g sl 1 1 H H11) as [b [g1 [E [H1 [_ [_ [Hb [Ht _]]]]]]]].
      rewrite E in EA. cbn [rbind] in EA.
      assert (b = true) as ->.
      { apply Hb. unfold dk_all in Ho. rewrite Hnil in Ho. cbn in Ho. right.
        apply ks_edges_known; auto. apply (dv_wf _ _ H). }
      inversion EA; subst g2.
      pose proof (iv_n _ _ (dv_c0 _ _ H1)) as N1. pose proof (iv_n _ _ (dv_c0 _ _ A1)) as N2.
      pose proof (inv_size _ _ (dv_c0 _ _ H1)) as S1. pose proof (inv_size _ _ (dv_c0 _ _ A1)) as S2.
      assert (Hl2 : live_edges sl2 = []) by (destruct (live_edges sl2); auto; rewrite Hnil in S1; cbn in *; lia).
      split; auto. assert (In (1, 1)%N (dk_all g1 sl2)) as G by (apply A2; auto).
      unfold dk_all in G. rewrite Hl2 in G. exact G. }
    specialize (HALF Hoo).
    match type of HALF with match ?X with _ => _ end => destruct X as [g'|g'|] end; auto.
    destruct HALF as [sl' [B1 [B2 [B3 B4]]]]. exists sl'. sp; auto.
    + intros e. rewrite B4, A2. split; [|tauto]. intros [[G|G] G2]; [auto|tauto].
    + rewrite Hnil; tauto.
    + intros _. split; cycle 1.
      { intros G. destruct (Hoo (proj2 (emem_In _ _) G)); tauto. }
      rewrite B3. apply A4. intros [G|G]; [rewrite Hnil in G; destruct G|].
      (* known but then the add returned without inserting and the buffer stays empty *)
      unfold dk_add in EA. destruct (dk_forced_spec g sl 1 1 H H11) as [b [g1 [E [H1 [_ [_ [Hb _]]]]]]].
      rewrite E in EA. cbn [rbind] in EA. assert (b = true) as -> by (apply Hb; auto).
      inversion EA; subst g2.
      pose proof (inv_size _ _ (dv_c0 _ _ H1)) as S1. pose proof (inv_size _ _ (dv_c0 _ _ A1)) as S2.
      apply B2. destruct (live_edges sl2); auto. rewrite Hnil in S1; cbn in *; lia.
  - cbn [rbind]. specialize (HALF false g sl H ltac:(discriminate)).
    match type of HALF with match ?X with _ => _ end => destruct X as [g'|g'|] end; auto.
    destruct HALF as [sl' [B1 [B2 [B3 B4]]]]. exists sl'. sp; auto. intros G; rewrite G in Hz; cbn in Hz; lia.
Qed.

(** del_edge, membership and count.  [d] is 1 when the deletion rebuilt on an empty buffer. *)
Lemma dk_del_spec g sl x y : dk_inv g sl -> in_range n (x, y) ->
  match dk_del T K g x y with
  | Undefined => True
  | Thrown _ => True
  | Done g' => exists sl' rb, dk_inv g' sl' /\
      (forall e, In e (dk_all g' sl') <-> In e (dk_all g sl) /\ e <> (x, y) /\ (rb = true -> e <> (1, 1)%N)) /\
      exists d, (d = 0 \/ (d = 1 /\ rb = true /\ live_edges sl = [] /\ ((1, 1) = (x, y) \/ ~ In (1, 1) (dk_all g sl))))%N /\
        nt g' = ((if emem (x, y) (dk_all g sl) then u64_dec (nt g) else nt g) + d)%N
  end.
Proof.
  intros H Hr. unfold dk_del.
  destruct (c0_erase (C0_ g) (x, y)) as [[b c]|] eqn:Ee; cbn [rbind]; auto.
  destruct (erase_inv _ _ _ _ _ (dv_c0 _ _ H) Ee) as [Hb [Hcm [Hcv [sl1 [I1 [I2 [I3 I4]]]]]]].
  destruct b.
  - symmetry in Hb. pose proof Hb as Hb'. apply emem_In in Hb. exists sl1, false. sp.
    + constructor; cbn; try apply H; auto.
      * rewrite Hcv; apply H.
      * rewrite I3. apply Forall_forall. intros e He. apply filter_In in He.
        pose proof (dv_range _ _ H) as G. rewrite Forall_forall in G. apply G; tauto.
      * intros e He. rewrite I3 in He. apply filter_In in He. apply (dv_c0ks _ _ H e); tauto.
    + intros e. unfold dk_all; cbn. rewrite I3, !in_app_iff, filter_In, negb_true_iff, eeqb_neq.
      split.
      * intros [[G1 G2]|G]; sp; auto; try discriminate.
        intros ->. apply (dv_c0ks _ _ H (x, y) Hb). apply ks_edges_known; auto. apply (dv_wf _ _ H).
      * intros [[G|G] [G2 _]]; [left; split; auto|right; auto].
    + exists 0%N. split; auto. cbn [nt].
      assert (emem (x, y) (dk_all g sl) = true) as -> by (apply emem_In, in_app_iff; auto). lia.
  - specialize (I4 eq_refl). subst c.
    assert (Hsl : live_edges sl1 = live_edges sl).
    { rewrite I3. apply filter_all. intros a Ha. apply negb_true_iff, eeqb_neq. intros <-.
      symmetry in Hb. apply emem_false in Hb. auto. }
    symmetry in Hb. apply emem_false in Hb.
    destruct (ks_erase_spec (ks g) x y (dv_wf _ _ H) (dv_disj _ _ H) Hr) as [R1 [R2 [R3 [R4 [R5 [R6 _]]]]]].
    destruct (ks_erase K (ks g) x y) as [eb l]. cbn [fst snd] in *.
    destruct (ks_sweep_spec l R1) as [W1 [W2 [W3 [W4 [W5 _]]]]].
    destruct (ks_sweep K l) as [marked l2]. cbn [fst snd] in *.
    set (n' := if eb then u64_dec (nt g) else nt g).
    set (g2 := mkdk (max_r g) (nv g) n' (C0_ g) l2).
    assert (H2 : dk_inv g2 sl).
    { constructor; cbn; try apply H; auto.
      - rewrite W2, R2. apply H.
      - intros e G1 G2. apply (dv_c0ks _ _ H e G1). auto. }
    assert (Hall : forall e, In e (dk_all g2 sl) <-> In e (dk_all g sl) /\ e <> (x, y)).
    { intros e. unfold dk_all, g2; cbn [ks]. rewrite !in_app_iff, W3, R5. split; [|tauto].
      intros [G|G]; [|tauto]. split; auto. intros ->; auto. }
    assert (Hn' : n' = if emem (x, y) (dk_all g sl) then u64_dec (nt g) else nt g).
    { unfold n'. assert (eb = emem (x, y) (dk_all g sl)) as ->; auto.
      apply eq_true_iff_eq. rewrite emem_In, R4. unfold dk_all. rewrite in_app_iff. tauto. }
    destruct (th_trig T marked n').
    + pose proof (dk_rebuild_spec g2 sl H2) as HR. destruct (dk_rebuild T K g2) as [g'|g'|]; auto.
      destruct HR as [sl' [A1 [A2 [A3 A4]]]]. exists sl', true. sp; auto.
      * intros e. rewrite A2, Hall. split; [intros [[? ?] ?]; sp; auto|intros [? [? G]]; sp; auto].
      * rewrite <- Hn'. destruct (live_edges sl) as [|e0 r] eqn:El.
        -- exists 1%N. destruct (A4 eq_refl) as [A5 A6]. split; [right; sp; auto|rewrite A5; auto].
           destruct (edge_dec (1, 1)%N (x, y)) as [Ex|Ex]; [left; auto|right].
           intros G. apply A6. apply Hall. auto.
        -- exists 0%N. split; auto. rewrite A3 by discriminate. cbn. lia.
    + exists sl, false. sp; auto.
      * intros e. rewrite Hall. intuition discriminate.
      * exists 0%N. split; auto. cbn [nt g2]. rewrite Hn'. lia.
Qed.

(** ** Initial state *)
Lemma dk_new_inv g : dk_new T K n = Ok g -> dk_inv g [] /\ nt g = 0%N /\ max_r g = 0 /\ ks g = repeat None RS.
Proof.
  unfold dk_new. destruct (c0_new T n) as [c|] eqn:E; cbn; [|discriminate]. intros G; inversion G; subst.
  unfold c0_new in E. destruct (maxsz T n 0) as [m|]; cbn in E; [|discriminate]. inversion E; subst.
  sp; auto. constructor; cbn [nv nt max_r C0_ ks]; auto.
  - unfold RS; lia.
  - apply inv_empty.
  - constructor.
  - change (ks_wf (repeat None RS)). apply ks_wf_none.
  - change (ks_disj (repeat None RS)). apply ks_disj_none.
Qed.

End DKProof.
