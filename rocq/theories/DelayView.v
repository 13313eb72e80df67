(** * DelayView: iterators and algorithms on the delayed-union graph. *)
From Verif Require Import Base Spec AlgoSpec Thresholds K2 C0 C0Proof DK DKProof DKHist DKGuard Iter IterProof Prop_Iter Algo AlgoProof TriProof Prop_Algo ViewProof DKTotal Delay DelayProof.

Section DV.
Context (T : thresholds) (K : k2impl) (L : k2laws K) (n : N) (Hn : (2 <= n)%N).

Lemma union_full a b : wf L n a -> wf L n b -> kt_edges K a <> [] -> kt_edges K (kt_union K a b) <> [].
Proof using.
  intros Wa Wb H G. destruct (law_union L n a b Wa Wb) as [_ [U _]]. destruct (kt_edges K a) as [|e l] eqn:E; [congruence|].
  assert (X : In e (kt_edges K (kt_union K a b))) by (apply U; left; left; auto). rewrite G in X. destruct X.
Qed.
Lemma full_nth l : ks_full K l <-> forall i t, nth_error l i = Some (Some t) -> kt_edges K t <> [].
Proof using.
  split; intros H.
  - intros i t G. apply H. eapply nth_error_In; eauto.
  - intros t G. apply In_nth_error in G. destruct G as [i G]. eauto.
Qed.

Lemma ud_full d d' : union_delay K d = Ok d' -> lwf K L n (ks (d_g d)) -> ks_full K (ks (d_g d)) ->
  (forall t, d_tmp d = Some t -> wf L n t /\ kt_edges K t <> []) -> ks_full K (ks (d_g d')).
Proof using.
  intros E W F Ft. apply full_nth. rewrite full_nth in F. intros i t' Hi.
  destruct (ud_trees K d d' i t' E Hi) as [[t [Ht [->|[s [-> Hs]]]]]|[_ [[_ Hp]|[_ Hp]]]].
  - eauto.
  - apply union_full; eauto. destruct Hs as [[j Hj]|Hs]; [eauto|apply Ft; auto].
  - eauto.
  - apply Ft; auto.
Qed.

Lemma dl_add_full d sl x y d' : dl_inv K L n d sl -> in_range n (x, y) -> ks_full K (ks (d_g d)) -> dl_add T K d x y = Done d' ->
  ks_full K (ks (d_g d')).
Proof using Hn.
  intros H Hr F E. unfold dl_add in E.
  destruct (if work_done K d then Ok d else union_delay K d) as [d1|] eqn:E1; cbn [rbind] in E; [|discriminate].
  destruct (step_union K L n d sl d1 H E1) as (A1&A2&A3&A4&A5&A6&A7&A8&A9).
  assert (F1 : ks_full K (ks (d_g d1))).
  { destruct (work_done K d); [injection E1 as <-; exact F|]. apply (ud_full d d1); auto; [apply H|]. rewrite (dn_tmp _ _ _ _ _ H). discriminate. }
  destruct (dl_contains_spec K L n d1 sl x y A1 Hr) as [b [Eb Hb]]. rewrite Eb in E. cbn [rbind] in E.
  destruct b; [injection E as <-; exact F1|].
  destruct (maxsz T (dk_m K (d_g d1)) 0) as [ms|]; cbn [rbind] in E; [|discriminate].
  destruct (N.of_nat (c0_size (C0_ (d_g d1))) <? ms)%N.
  - destruct (c0_insert T (C0_ (d_g d1)) (x, y) (nt (d_g d1))) as [c|]; cbn [rbind] in E; [|discriminate]. injection E as <-. exact F1.
  - destruct (work_done K d1); [|discriminate].
    destruct (find_level T K (dk_m K (d_g d1)) (ks (d_g d1)) 0 ms) as [i|]; [|discriminate].
    rewrite (inv_converted _ _ (dn_c0 _ _ _ _ _ A1)) in E. cbn [rbind] in E.
    destruct (inv_clean _ _ (dn_c0 _ _ _ _ _ A1)) as [c [Ec _]]. rewrite Ec in E. cbn [rbind] in E.
    rewrite (dn_nv _ _ _ _ _ A1) in E.
    match goal with H : rbind (union_delay K ?d2) _ = _ |- _ => set (d2' := d2) in *; destruct (union_delay K d2') as [d3|] eqn:E3 end; cbn [rbind] in E; [|discriminate].
    injection E as <-. cbn [d_g ks]. apply (ud_full d2' d3); auto; [apply A1|].
    intros t Ht. cbn [d2' d_tmp] in Ht. injection Ht as <-.
    assert (Hnl : ~ In (x, y) (live_edges sl)) by (intros G; assert (false = true) by (apply Hb; left; auto); discriminate).
    destruct (law_build L n (live_edges sl ++ [(x, y)])) as [B1 [B2 B3]]; auto.
    { destruct (live_edges sl); discriminate. }
    { apply NoDup_app. sp; [apply uniq_nodup, (inv_uniq _ _ (dn_c0 _ _ _ _ _ A1))|repeat constructor; auto|intros e He [<-|[]]; auto]. }
    { apply Forall_app. split; [apply (dn_range _ _ _ _ _ A1)|repeat constructor; apply Hr]. }
    split; [exact B1|]. intros G. assert (X : In (x, y) (kt_edges K (kt_build K (live_edges sl ++ [(x, y)]) n))) by (apply B3; apply in_app_iff; right; left; auto).
    rewrite G in X. destruct X.
Qed.

Lemma insert_full_dl es : forall d sl S d', relDI K L n d sl S -> ks_full K (ks (d_g d)) -> Forall (in_range n) es ->
  dl_ops T K d (map Add es) = Done d' -> ks_full K (ks (d_g d')).
Proof using Hn.
  induction es as [|e es IH]; intros d sl S d' R F HF E; cbn [map dl_ops] in *; [injection E as <-; auto|].
  inversion HF as [|? ? He HF']; subst. destruct e as [x y]. cbn [dl_op] in E. destruct (dl_add T K d x y) as [d1|d1|] eqn:E1; try discriminate.
  destruct (relDI_add T K L n Hn d sl S (x, y) d1 R He E1) as [sl1 R1]. apply (IH d1 sl1 _ d' R1); auto.
  apply (dl_add_full d sl x y d1); auto. apply (ei_rel _ _ _ _ _ _ R).
Qed.

Lemma relDI_holds d sl S : relDI K L n d sl S -> ks_full K (ks (d_g d)) -> holds K L n (d_g d) sl.
Proof using.
  intros R F. pose proof (rd_inv _ _ _ _ _ _ (ei_rel _ _ _ _ _ _ R)) as I. constructor; auto; try apply I; try apply R.
  apply lwf_ks, I.
Qed.
Lemma inks_dk d sl e : in_dl K d sl e <-> In e (dk_all K (d_g d) sl).
Proof using. unfold in_dl, DKProof.dk_all. rewrite in_app_iff, inks_edges. tauto. Qed.
Lemma dl_all_nodup d sl : dl_inv K L n d sl -> NoDup (dk_all K (d_g d) sl).
Proof using.
  intros I. apply NoDup_app. sp.
  - apply uniq_nodup, (inv_uniq _ _ (dn_c0 _ _ _ _ _ I)).
  - apply (edges_nodup K L n); apply I.
  - intros e He G. apply (dn_c0ks _ _ _ _ _ I e He). apply inks_edges; auto.
Qed.

Theorem inserts_view_dl es d : (n <= 2 ^ 31)%N -> Forall (in_range n) es -> ~ In MAXE es -> dl_hist T K n (map Add es) = Done d ->
  view K (d_g d) n (of_list es).
Proof using Hn L.
  intros Hn2 HF M E. destruct (hist_insert_dl T K L n Hn es d HF E) as [sl R].
  assert (F : ks_full K (ks (d_g d))).
  { unfold dl_hist in E. destruct (dl_new T K n) as [d0|] eqn:E0; cbn [rbind] in E; [|discriminate].
    destruct (relD_new T K L n Hn d0 E0) as (A & B & C & D & _). apply (insert_full_dl es d0 [] [] d); auto.
    - constructor; auto. constructor.
    - rewrite D. intros t G. apply repeat_spec in G. discriminate. }
  assert (S : forall e, In e (dk_all K (d_g d) sl) <-> In e es).
  { intros e. rewrite <- inks_dk, (rd_set _ _ _ _ _ _ (ei_rel _ _ _ _ _ _ R)). apply espec_adds. }
  pose proof (holds_view K L n (d_g d) sl ltac:(lia) (relDI_holds d sl _ R F)) as V.
  assert (V' : view K (d_g d) n (fun x y => In (x, y) (dk_all K (d_g d) sl))).
  { apply V; [apply dl_all_nodup, (ei_rel _ _ _ _ _ _ R)|rewrite S; exact M]. }
  destruct V' as [V1 V2 V3 V4 V5]. unfold of_list. constructor; auto.
  - intros x y G. apply V2, S, G.
  - destruct V3 as (l & W & D & X). exists l. sp; auto. intros x y. rewrite X. apply S.
  - intros x Hx. destruct (V4 x Hx) as (l & W & D & X & Y). exists l. sp; auto. intros y. rewrite Y. apply S.
  - intros x y Hx Hy. destruct (V5 x y Hx Hy) as (b & W & X). exists b. split; auto. rewrite X. apply S.
Qed.

(** ** Calm deletions *)
Lemma dl_erase_full l x y : lwf K L n l -> ldisj K l -> in_range n (x, y) -> ks_full K l -> ks_full K (snd (dl_erase K l x y)).
Proof using.
  intros Hw Hd Hr F. induction l as [|[t|] l IH]; cbn [dl_erase]; auto.
  - apply lwf_cons in Hw. destruct Hw as [Wt Wl]. specialize (Wt t eq_refl). apply ldisj_cons in Hd. destruct Hd as [Dl _].
    assert (Fl : ks_full K l) by (intros u Hu; apply F; right; auto). specialize (IH Wl Dl Fl).
    destruct Hr as [Hx Hy]. cbn in Hx, Hy. pose proof (law_erase_res L n t x y Wt Hx Hy) as E1. pose proof (law_erase L n t x y Wt Hx Hy) as E2. cbn zeta in E2.
    destruct (kt_erase K t x y) as [b t']. cbn [fst snd] in *. destruct E2 as [W [S _]]. destruct b.
    + destruct (N.eqb_spec (kt_marked K t') (kt_total K t')) as [Em|Em]; cbn [snd].
      * intros u [G|G]; [discriminate|auto].
      * intros u [G|G]; [|auto]. injection G as <-. intros G. apply Em. rewrite (law_total L n t' W), G. reflexivity.
    + destruct (dl_erase K l x y) as [[b' k] l']. cbn [snd] in *. intros u [G|G]; [|auto]. injection G as <-. intros G.
      assert (Ft : kt_edges K t <> []) by (apply F; left; auto). destruct (kt_edges K t) as [|e r] eqn:Ee; [congruence|].
      assert (X : In e (kt_edges K t')). { apply S. split; [left; auto|]. intros ->. assert (false = true) by (apply E1; left; auto). discriminate. }
      rewrite G in X. destruct X.
  - apply lwf_cons in Hw. destruct Hw as [_ Wl]. apply ldisj_cons in Hd. destruct Hd as [Dl _].
    assert (Fl : ks_full K l) by (intros u Hu; apply F; right; auto). specialize (IH Wl Dl Fl).
    destruct (dl_erase K l x y) as [[b' k] l']. cbn [snd] in *. intros u [G|G]; [discriminate|auto].
Qed.
Lemma dl_del_full d sl x y d' : dl_inv K L n d sl -> in_range n (x, y) -> ks_full K (ks (d_g d)) -> dl_del T K d x y = Done d' ->
  (forall k, (k <= ks_marked K (ks (d_g d)) + 1)%N -> th_trig T k (nt (d_g d')) = false) -> ks_full K (ks (d_g d')).
Proof using Hn.
  intros I Hr F E Q. unfold dl_del in E. destruct (c0_erase (C0_ (d_g d)) (x, y)) as [[b c]|]; cbn [rbind] in E; [|discriminate].
  destruct b; [injection E as <-; exact F|].
  pose proof (dl_erase_full (ks (d_g d)) x y ltac:(apply I) ltac:(apply I) Hr F) as Fe.
  pose proof (dl_erase_spec K L n (ks (d_g d)) x y ltac:(apply I) ltac:(apply I) Hr) as Se.
  destruct (dl_erase K (ks (d_g d)) x y) as [[eb mk] l]. destruct Se as (_&_&_&_&_&_&M1&M2). cbn [snd] in Fe.
  set (n' := if eb then u64_dec (nt (d_g d)) else nt (d_g d)) in *.
  destruct (th_trig T mk n') eqn:Et; [|injection E as <-; exact Fe]. exfalso.
  unfold dk_m in E. cbn [nv nt ks] in E.
  destruct (maxsz T _ 0) as [ms|]; cbn [rbind] in E; [|discriminate]. destruct (find_level T K _ l 0 ms) as [i|]; [|discriminate].
  match goal with H : rbind ?q _ = _ |- _ => destruct q as [[t2 c2]|]; cbn [rbind] in H; [|discriminate] end.
  destruct (merge_upto K t2 l (S i)) as [t3 l3]. injection E as <-. cbn [d_g nt] in Q. rewrite Q in Et; [discriminate|lia].
Qed.

Lemma calm_full (HT : th_real T) (HU : union_marks K L) h : forall d sl S k d', relD K L n d sl S -> below K d -> ks_full K (ks (d_g d)) ->
  (ks_marked K (ks (d_g d)) <= k)%N -> Forall (op_in_range n) h -> calm_from S k h -> dl_ops T K d h = Done d' -> ks_full K (ks (d_g d')).
Proof using Hn.
  induction h as [|o h IH]; intros d sl S k d' R B F Hk HF HC E; cbn [dl_ops] in *.
  - injection E as <-; eauto.
  - inversion HF as [|? ? Ho Hh]; subst. destruct (dl_op T K d o) as [d1|d1|] eqn:Eo; try discriminate.
    destruct o as [[x y]|[x y]]; cbn [dl_op calm_from] in *.
    + destruct (relD_add T K L n Hn d sl S x y d1 R Ho Eo) as [sl1 [R1 [B1 _]]].
      pose proof (dl_add_marked T K L n Hn d sl x y d1 HU (rd_inv _ _ _ _ _ _ R) Ho Eo) as Hm.
      apply (IH d1 sl1 _ k d' R1); auto; [|lia]. apply (dl_add_full d sl x y d1); auto. apply (rd_inv _ _ _ _ _ _ R).
    + destruct HC as [C1 [C2 C3]].
      destruct (relD_del T K L n Hn d sl S x y d1 R Ho Eo) as [sl1 [R1 Q]].
      assert (X : forall j, (j <= ks_marked K (ks (d_g d)) + 1)%N -> th_trig T j (N.of_nat (length (espec_step S (Del (x, y))))) = false).
      { intros j Hj. cbn [espec_step].
        assert (G : length (filter (fun f => negb (eeqb (x, y) f)) S) <= length S /\
                    length S <= 1 + length (filter (fun f => negb (eeqb (x, y) f)) S)).
        { destruct (in_dec edge_dec (x, y) S) as [Hin|Hin].
          - pose proof (len_remove S (x, y) (rd_nodup _ _ _ _ _ _ R) Hin). lia.
          - rewrite filter_all; [lia|]. intros a Ha. apply negb_true_iff, eeqb_neq. intros <-; auto. }
        apply th_trig_small; auto; lia. }
      destruct (Q X) as [Q1 Q2].
      apply (IH d1 sl1 _ (k + 1)%N d' R1); auto; [|lia].
      apply (dl_del_full d sl x y d1); auto; [apply (rd_inv _ _ _ _ _ _ R)|]. rewrite (rd_nt _ _ _ _ _ _ R1). exact X.
Qed.
Lemma hist_calm_full (HT : th_real T) (HU : union_marks K L) h d : Forall (op_in_range n) h -> calm h ->
  dl_hist T K n h = Done d -> exists sl, relD K L n d sl (espec h) /\ below K d /\ ks_full K (ks (d_g d)).
Proof using Hn.
  intros HF HC E. destruct (hist_calm_dl T K L n Hn HT HU h d HF HC E) as [sl [R B]]. exists sl. split; [exact R|]. split; [exact B|].
  unfold dl_hist in E. destruct (dl_new T K n) as [d0|] eqn:E0; cbn [rbind] in E; [|discriminate].
  destruct (relD_new T K L n Hn d0 E0) as (R0 & B0 & F0 & Hk & _).
  apply (calm_full HT HU h d0 [] [] 0%N d); auto.
  - rewrite Hk. intros t G. apply repeat_spec in G. discriminate.
  - rewrite (marked_fresh K) by auto. lia.
Qed.
Theorem calm_view_dl (HT : th_real T) (HU : union_marks K L) h d : (n <= 2 ^ 31)%N -> Forall (op_in_range n) h -> calm h ->
  dl_hist T K n h = Done d -> c_marked (C0_ (d_g d)) = 0 -> present h MAXE = false ->
  view K (d_g d) n (fun x y => present h (x, y) = true).
Proof using Hn L.
  intros Hn2 HF HC E Hm M. destruct (hist_calm_full HT HU h d HF HC E) as (sl & R & B & F).
  pose proof (rd_inv _ _ _ _ _ _ R) as I.
  assert (Hal : all_live sl).
  { pose proof (iv_marked _ _ (dn_c0 _ _ _ _ _ I)) as Hd. rewrite Hm in Hd. clear - Hd.
    induction sl as [|[e b] sl IH]; [constructor|]. unfold dead_count in *. cbn [filter snd] in Hd.
    destruct b; cbn [negb] in Hd; [|discriminate]. constructor; auto. apply IH; auto. }
  assert (H : holds K L n (d_g d) sl) by (constructor; auto; try apply I; [apply lwf_ks, I|apply B]).
  assert (S : forall e, In e (dk_all K (d_g d) sl) <-> present h e = true).
  { intros e. rewrite <- inks_dk, (rd_set _ _ _ _ _ _ R). apply espec_present. }
  assert (V' : view K (d_g d) n (fun x y => In (x, y) (dk_all K (d_g d) sl))).
  { apply (holds_view K L n (d_g d) sl ltac:(lia) H); [apply dl_all_nodup, I|rewrite S; congruence]. }
  destruct V' as [V1 V2 V3 V4 V5]. constructor; auto.
  - intros x y G. apply V2, S, G.
  - destruct V3 as (l & W & D & X). exists l. sp; auto. intros x y. rewrite X. apply S.
  - intros x Hx. destruct (V4 x Hx) as (l & W & D & X & Y). exists l. sp; auto. intros y. rewrite Y. apply S.
  - intros x y Hx Hy. destruct (V5 x y Hx Hy) as (b & W & X). exists b. split; auto. rewrite X. apply S.
Qed.
End DV.
