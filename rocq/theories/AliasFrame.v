(** * AliasFrame: what a call on one object does to the trees other objects see. *)
From Verif Require Import Base Spec Thresholds K2 C0 C0Proof DK DKProof DKHist Alias AliasProof.

Section AF.
Context (T : thresholds) (K : k2impl) (L : k2laws K) (n : N) (Hn : (2 <= n)%N).
Local Notation ktree := (kt K).
Local Notation heap := (heap K).

Definition heap_wf (hp : heap) : Prop := Forall (wf L n) hp.
(** adj_forced answers true only for live edges: always when it is a query, or as long as nothing has been erased. *)
Definition heap_pure (hp : heap) : Prop := forall t e, In t hp -> known L t e -> In e (kt_edges K t).
Lemma query_pure hp : adjf_is_query L -> heap_wf hp -> heap_pure hp.
Proof. intros Q W t e It Kn. unfold heap_wf in W. rewrite Forall_forall in W. eapply Q; eauto. Qed.
Record obj_ok (hp : heap) (d : obj) : Prop := {
  ob_nv : o_nv d = n;
  ob_cnv : c_nv (o_c0 d) = n;
  ob_len : length (o_ks d) = RS;
  ob_refs : refs_ok (length hp) (o_ks d);
  ob_c0 : exists sl, c0_inv (o_c0 d) sl /\ Forall (in_range n) (live_edges sl)
}.

(** Every tree of the old heap still exists; live edges outside P are the same, edges outside Q have not come to life. *)
Definition hle (P Q : edge -> Prop) (hp hp' : heap) : Prop :=
  forall r t, nth_error hp r = Some t -> exists t', nth_error hp' r = Some t' /\
    forall e, (~ P e -> In e (kt_edges K t) -> In e (kt_edges K t')) /\ (In e (kt_edges K t') -> In e (kt_edges K t) \/ Q e).

Lemma hle_refl P Q hp : hle P Q hp hp.
Proof. intros r t E. exists t. split; [auto|]. intros e. auto. Qed.
Lemma hle_trans P Q a b c : hle P Q a b -> hle P Q b c -> hle P Q a c.
Proof.
  intros H1 H2 r t E. destruct (H1 r t E) as (t1 & E1 & A1). destruct (H2 r t1 E1) as (t2 & E2 & A2). exists t2. split; [auto|].
  intros e. destruct (A1 e) as [X1 X2]. destruct (A2 e) as [Y1 Y2]. split; [auto|]. intros G. destruct (Y2 G); auto.
Qed.
Lemma hle_weak (P Q P' Q' : edge -> Prop) a b : (forall e, P e -> P' e) -> (forall e, Q e -> Q' e) -> hle P Q a b -> hle P' Q' a b.
Proof.
  intros H1 H2 H r t E. destruct (H r t E) as (t' & E' & A). exists t'. split; [auto|]. intros e. destruct (A e) as [X Y]. split; [auto|].
  intros G. destruct (Y G); auto.
Qed.
Lemma hle_app P Q hp s : hle P Q hp (hp ++ s).
Proof. intros r t E. exists t. split; [|intros e; auto]. rewrite nth_error_app1; auto. apply nth_error_Some. congruence. Qed.
Lemma hle_len P Q hp hp' : hle P Q hp hp' -> length hp <= length hp'.
Proof.
  intros H. destruct (Nat.le_gt_cases (length hp) (length hp')) as [|G]; auto.
  destruct (nth_error hp (length hp')) as [t|] eqn:E; [|apply nth_error_None in E; lia].
  destruct (H _ _ E) as (t' & E' & _). assert (length hp' < length hp') by (apply nth_error_Some; congruence). lia.
Qed.
Lemma hle_upd (P Q : edge -> Prop) hp r t t' : nth_error hp r = Some t ->
  (forall e, (~ P e -> In e (kt_edges K t) -> In e (kt_edges K t')) /\ (In e (kt_edges K t') -> In e (kt_edges K t) \/ Q e)) ->
  hle P Q hp (upd hp r t').
Proof.
  intros E H q u Eq. rewrite nth_error_upd. destruct (Nat.eqb_spec r q) as [-> |N].
  - assert (X : q < length hp) by (apply nth_error_Some; congruence). rewrite (proj2 (Nat.ltb_lt _ _) X).
    rewrite E in Eq. injection Eq as <-. exists t'. auto.
  - exists u. split; [auto|]. intros e; auto.
Qed.
Lemma wf_upd hp r t : heap_wf hp -> wf L n t -> heap_wf (upd hp r t).
Proof.
  intros H W. unfold heap_wf. revert r. induction H as [|a l Ha Hl IH]; intros [|r]; cbn; constructor; auto.
Qed.
Lemma upd_same (hp : heap) : forall r t, nth_error hp r = Some t -> upd hp r t = hp.
Proof. induction hp as [|a l IH]; intros [|r] t E; cbn in *; try congruence. f_equal; auto. Qed.
Lemma wf_nth hp r t : heap_wf hp -> nth_error hp r = Some t -> wf L n t.
Proof. intros H E. apply nth_error_In in E. unfold heap_wf in H. rewrite Forall_forall in H. auto. Qed.
Lemma wf_deref hp l : heap_wf hp -> ks_wf K L n (map (deref K hp) l).
Proof.
  intros H. apply Forall_forall. intros o Ho. apply in_map_iff in Ho. destruct Ho as [[r|] [<- _]]; cbn; auto.
  destruct (nth_error hp r) eqn:E; auto. eapply wf_nth; eauto.
Qed.

(** *** adj_forced *)
Lemma o_adjf_frame2 l x y : in_range n (x, y) -> forall hp, heap_wf hp ->
  heap_wf (snd (o_adjf K hp l x y)) /\ hle (eq (x, y)) (eq (x, y)) hp (snd (o_adjf K hp l x y)) /\
  (fst (o_adjf K hp l x y) = false -> snd (o_adjf K hp l x y) = hp) /\
  (heap_pure hp -> snd (o_adjf K hp l x y) = hp).
Proof.
  intros [Rx Ry]. cbn in Rx, Ry. induction l as [|[r|] l IH]; intros hp W; cbn [o_adjf].
  - split; [auto|]. split; [apply hle_refl|auto].
  - destruct (nth_error hp r) as [t|] eqn:E; [|apply IH; auto].
    pose proof (wf_nth _ _ _ W E) as Wt. destruct (law_adjf L n t x y Wt Rx Ry) as [A B].
    pose proof (fun I => law_adjf_live L n t x y Wt Rx Ry I) as Lv.
    destruct (kt_adjf K t x y) as [b t']. cbn [fst snd] in A, B, Lv. destruct b; cbn [fst snd].
    + destruct B as [B1 [B2 B3]]. split; [apply wf_upd; auto|]. split.
      { eapply hle_upd; eauto. intros e. rewrite B2. split; [auto|]. intros [G| ->]; auto. }
      split; [discriminate|]. intros Q. rewrite (Lv (Q t (x, y) (nth_error_In _ _ E) (proj1 A eq_refl))). apply upd_same; auto.
    + subst t'. rewrite (upd_same hp r t E). apply IH; auto.
  - apply IH; auto.
Qed.
(** *** erase *)
Lemma o_erase_frame2 l x y : in_range n (x, y) -> forall hp, heap_wf hp ->
  heap_wf (snd (o_erase K hp l x y)) /\ hle (eq (x, y)) (fun _ => False) hp (snd (o_erase K hp l x y)).
Proof.
  intros [Rx Ry]. cbn in Rx, Ry. induction l as [|[r|] l IH]; intros hp W; cbn [o_erase].
  - split; [auto|apply hle_refl].
  - destruct (nth_error hp r) as [t|] eqn:E; [|apply IH; auto].
    pose proof (wf_nth _ _ _ W E) as Wt. destruct (law_erase L n t x y Wt Rx Ry) as [A [B _]].
    destruct (kt_erase K t x y) as [b t']. cbn [fst snd] in A, B.
    assert (W' : heap_wf (upd hp r t')) by (apply wf_upd; auto).
    assert (H' : hle (eq (x, y)) (fun _ => False) hp (upd hp r t')).
    { eapply hle_upd; eauto. intros e. rewrite B. split; [intros G1 G2; split; auto|tauto]. }
    destruct b; cbn [fst snd]; [auto|]. destruct (IH _ W') as [I1 I2]. split; [auto|]. eapply hle_trans; eauto.
  - apply IH; auto.
Qed.

Lemma obj_mono hp hp' d : length hp <= length hp' -> obj_ok hp d -> obj_ok hp' d.
Proof. intros H []. constructor; auto. eapply refs_le; eauto. Qed.

Definition frame (Q : edge -> Prop) (hp : heap) (r : res (heap * obj)) : Prop :=
  match r with
  | Done (hp', d') | Thrown (hp', d') => heap_wf hp' /\ obj_ok hp' d' /\ hle Q Q hp hp' /\ (heap_pure hp -> exists s, hp' = hp ++ s)
  | Undefined => True
  end.

Lemma in_range_iff l : Forall (in_range n) l <-> Forall (fun e => fst e < n /\ snd e < n)%N l.
Proof. reflexivity. Qed.

Lemma o_add_frame (hp : heap) d x y : heap_wf hp -> obj_ok hp d -> in_range n (x, y) -> frame (eq (x, y)) hp (o_add T K hp d x y).
Proof.
  intros W O R. pose proof (o_add_view T K hp d x y (ob_refs _ _ O)) as [_ SO]. revert SO. unfold o_add.
  destruct (ob_c0 _ _ O) as [sl [Hc Hr]]. rewrite (inv_contains _ _ _ Hc). cbn [rbind].
  destruct (emem (x, y) (live_edges sl)) eqn:Em.
  { intros _. split; [auto|]. split; [auto|]. split; [apply hle_refl|]. intros _. exists []. rewrite app_nil_r. auto. }
  apply emem_false in Em.
  destruct (o_adjf_frame2 (o_ks d) x y R hp W) as [A [B [C D]]].
  pose proof (o_adjf_len K (o_ks d) x y hp) as Len.
  destruct (o_adjf K hp (o_ks d) x y) as [b hp1]. cbn [fst snd] in *. destruct b.
  { intros _. split; [auto|]. split; [eapply obj_mono; [|eauto]; lia|]. split; [auto|]. intros Q. exists []. rewrite app_nil_r. auto. }
  rewrite (C eq_refl) in *. clear A B C D Len hp1.
  destruct (maxsz T (N.max (o_nv d) (o_nt d)) 0) as [ms|]; cbn [rbind]; [|exact (fun _ => I)].
  destruct (N.of_nat (c0_size (o_c0 d)) <? ms)%N.
  - destruct (c0_insert T (o_c0 d) (x, y) (o_nt d)) as [c|] eqn:Ei; cbn [rbind]; [|exact (fun _ => I)]. intros _.
    destruct (insert_inv _ _ _ _ _ _ Hc Ei) as [Hv [_ Hi]]. rewrite (proj2 (emem_false _ _) Em) in Hi.
    split; [auto|]. split; [|split; [apply hle_refl|intros _; exists []; rewrite app_nil_r; auto]].
    constructor; cbn; try apply O.
    + rewrite Hv. apply O.
    + eexists. split; [exact Hi|]. rewrite live_edges_app. apply Forall_app. split; [auto|]. repeat constructor; apply R.
  - destruct (find_level T K (N.max (o_nv d) (o_nt d)) (map (deref K hp) (o_ks d)) 0 ms) as [i|] eqn:F.
    2: { intros _. split; [auto|]. split; [auto|]. split; [apply hle_refl|]. intros _. exists []. rewrite app_nil_r. auto. }
    apply (find_level_range T K n Hn) in F. rewrite map_length, (ob_len _ _ O) in F.
    rewrite (inv_converted _ _ Hc). cbn [rbind].
    destruct (inv_clean _ _ Hc) as [c [Ec [Hc' [_ Hcv]]]]. rewrite Ec. cbn [rbind].
    intros [S1 S2]. rewrite (ob_nv _ _ O).
    assert (ND : NoDup (live_edges sl ++ [(x, y)])).
    { apply NoDup_app. split; [apply uniq_nodup, (inv_uniq _ _ Hc)|]. split; [repeat constructor; intros []|].
      intros e He [<-|[]]. auto. }
    assert (RG : Forall (fun e => fst e < n /\ snd e < n)%N (live_edges sl ++ [(x, y)])).
    { apply in_range_iff, Forall_app. split; [auto|]. repeat constructor; apply R. }
    destruct (law_build L n (live_edges sl ++ [(x, y)]) Hn ltac:(destruct (live_edges sl); discriminate) ND RG) as [B1 _].
    destruct (merge_upto_spec K L n Hn (S i) _ _ B1 (wf_deref hp (o_ks d) W)) as [M1 _].
    { rewrite map_length, (ob_len _ _ O). lia. }
    split; [|split; [|split; [apply hle_app|intros _; eexists; reflexivity]]].
    + apply Forall_app. split; [exact W|]. constructor; [exact M1|constructor].
    + constructor; cbn [o_nv o_c0 o_ks] in *.
      * auto.
      * rewrite Hcv. apply O.
      * rewrite length_upd, reset_length. apply O.
      * rewrite app_length in *. exact S1.
      * eexists. split; [exact Hc'|constructor].
Qed.

Lemma o_add_pure (hp : heap) d x y : heap_wf hp -> obj_ok hp d -> in_range n (x, y) -> heap_pure hp ->
  match o_add T K hp d x y with Done (hp', d') | Thrown (hp', d') => heap_pure hp' | Undefined => True end.
Proof.
  intros W O R P. unfold o_add.
  destruct (ob_c0 _ _ O) as [sl [Hc Hr]]. rewrite (inv_contains _ _ _ Hc). cbn [rbind].
  destruct (emem (x, y) (live_edges sl)) eqn:Em; [exact P|]. apply emem_false in Em.
  destruct (o_adjf_frame2 (o_ks d) x y R hp W) as [_ [_ [_ D]]].
  destruct (o_adjf K hp (o_ks d) x y) as [b hp1]. cbn [fst snd] in *. rewrite (D P). clear D hp1. destruct b; [exact P|].
  destruct (maxsz T (N.max (o_nv d) (o_nt d)) 0) as [ms|]; cbn [rbind]; [|exact I].
  destruct (N.of_nat (c0_size (o_c0 d)) <? ms)%N; [destruct (c0_insert T (o_c0 d) (x, y) (o_nt d)); cbn [rbind]; [exact P|exact I]|].
  destruct (find_level T K (N.max (o_nv d) (o_nt d)) (map (deref K hp) (o_ks d)) 0 ms) as [i|] eqn:F; [|exact P].
  apply (find_level_range T K n Hn) in F. rewrite map_length, (ob_len _ _ O) in F.
  rewrite (inv_converted _ _ Hc). cbn [rbind].
  destruct (inv_clean _ _ Hc) as [c [Ec [Hc' [_ Hcv]]]]. rewrite Ec. cbn [rbind]. rewrite (ob_nv _ _ O).
  assert (ND : NoDup (live_edges sl ++ [(x, y)])).
  { apply NoDup_app. split; [apply uniq_nodup, (inv_uniq _ _ Hc)|]. split; [repeat constructor; intros []|].
    intros e He [<-|[]]. auto. }
  assert (RG : Forall (fun e => fst e < n /\ snd e < n)%N (live_edges sl ++ [(x, y)])).
  { apply in_range_iff, Forall_app. split; [auto|]. repeat constructor; apply R. }
  assert (NE : live_edges sl ++ [(x, y)] <> []) by (destruct (live_edges sl); discriminate).
  destruct (law_build L n (live_edges sl ++ [(x, y)]) Hn NE ND RG) as [B1 [_ B2]].
  pose proof (fun e => law_known_build L n _ e Hn NE ND RG) as B3.
  destruct (merge_upto_spec K L n Hn (S i) _ _ B1 (wf_deref hp (o_ks d) W)) as [M1 [_ [M2 [M3 _]]]].
  { rewrite map_length, (ob_len _ _ O). lia. }
  intros t e It Kn. apply in_app_iff in It. destruct It as [It|[<-|[]]]; [apply P; auto|].
  apply M2. destruct (M3 e Kn) as [G|[u [Iu Ku]]]; [left; apply B2, B3, G|right].
  unfold ks_edges. apply in_concat. exists (kt_edges K u). split; [apply in_map_iff; exists (Some u); auto|].
  apply P; auto. assert (X : In (Some u) (map (deref K hp) (o_ks d))) by (rewrite <- (firstn_skipn (S i)); apply in_app_iff; auto).
  apply in_map_iff in X. destruct X as [[r|] [X _]]; cbn in X; [eapply nth_error_In; eauto|discriminate].
Qed.

Lemma o_rebuild_frame (hp : heap) d : heap_wf hp -> obj_ok hp d -> frame (eq (1, 1)%N) hp (o_rebuild T K hp d).
Proof.
  intros W O. assert (R11 : in_range n (1, 1)%N) by (split; cbn; lia).
  pose proof (o_rebuild_view T K hp d (ob_refs _ _ O) (ob_len _ _ O)) as [_ SO]. revert SO. unfold o_rebuild.
  set (i := rebuild_level T (N.max (o_nv d) (o_nt d)) (o_nt d) RS 0).
  destruct (if c0_size (o_c0 d) =? 0 then let* oo := dk_contains K (view K hp d) 1 1 in Ok (oo, true) else Ok (false, false)) as [[oo dummy]|];
    cbn [rbind]; [|exact (fun _ => I)].
  assert (A : frame (eq (1, 1)%N) hp (if dummy then o_add T K hp d 1 1 else Done (hp, d))).
  { destruct dummy; [apply o_add_frame; auto|]. split; [auto|]. split; [auto|]. split; [apply hle_refl|intros _; exists []; rewrite app_nil_r; auto]. }
  destruct (if dummy then o_add T K hp d 1 1 else Done (hp, d)) as [[hp1 d1]|[hp1 d1]|]; [|intros _; exact A|exact (fun _ => I)].
  destruct A as [W1 [O1 [H1 Q1]]]. clear W O. destruct (ob_c0 _ _ O1) as [sl [Hc Hr]].
  assert (Wt : forall tmp c, (if 0 <? c0_size (o_c0 d1) then let* conv := c0_converted (o_c0 d1) in let* c := c0_clean (o_c0 d1) in Ok (Some (kt_build K conv (o_nv d1)), c) else Ok (None, o_c0 d1)) = Ok (tmp, c) ->
     (match tmp with Some t => wf L n t | None => True end) /\ c_nv c = n /\ exists sl', c0_inv c sl' /\ Forall (in_range n) (live_edges sl')).
  { intros tmp c. rewrite (inv_size _ _ Hc). destruct (Nat.ltb_spec 0 (length (live_edges sl))) as [Lt|Ge].
    - rewrite (inv_converted _ _ Hc). cbn [obind]. destruct (inv_clean _ _ Hc) as [c' [Ec [Hc' [_ Hcv]]]]. rewrite Ec. cbn [obind].
      intros E. injection E as <- <-. rewrite (ob_nv _ _ O1). split.
      + apply (law_build L n _ Hn); [destruct (live_edges sl); [cbn in Lt; lia|discriminate]|apply uniq_nodup, (inv_uniq _ _ Hc)|apply in_range_iff; auto].
      + split; [rewrite Hcv; apply O1|]. exists []. split; [auto|constructor].
    - intros E. injection E as <- <-. split; [exact I|]. split; [apply O1|]. eauto. }
  destruct (if 0 <? c0_size (o_c0 d1) then _ else _) as [[tmp c]|]; cbn [rbind]; [|exact (fun _ => I)].
  destruct (Wt tmp c eq_refl) as [Wtmp [Hcv Hsl]]. clear Wt.
  destruct (merge_all K tmp (map (deref K hp1) (o_ks d1))) as [r|] eqn:Em; cbn [rbind]; [|exact (fun _ => I)].
  assert (Wr : match r with Some t => wf L n t | None => True end).
  { destruct tmp as [t|].
    - destruct (merge_all_spec K L n _ _ _ Wtmp (wf_deref hp1 (o_ks d1) W1) Em) as [t' [-> [X _]]]. auto.
    - apply merge_all_null in Em. destruct Em as [-> _]. exact I. }
  destruct (i <? RS); [|exact (fun _ => I)].
  assert (FIN : forall t d', wf L n t -> o_nv d' = n -> o_c0 d' = c -> refs_ok (length (hp1 ++ [t])) (o_ks d') -> length (o_ks d') = RS ->
     frame (eq (1, 1)%N) hp (Done (hp1 ++ [t], d'))).
  { intros t d' Wt E1 E2 E3 E4. split; [|split; [|split]].
    - apply Forall_app. split; [auto|]. constructor; [auto|constructor].
    - constructor; auto; rewrite E2; auto.
    - eapply hle_trans; [exact H1|apply hle_app].
    - intros Q. destruct (Q1 Q) as [s ->]. exists (s ++ [t]). rewrite app_assoc. auto. }
  destruct oo.
  - destruct r as [t|]; intros [S1 S2].
    + apply FIN; auto; try apply O1. cbn [o_ks]. rewrite length_upd, repeat_length; auto.
    + split; [auto|]. split; [|auto]. constructor; cbn [o_nv o_c0 o_ks]; auto; try apply O1.
  - destruct r as [t|]; [|exact (fun _ => I)].
    destruct (law_erase L n t 1 1 Wr) as [X _]; [lia|lia|]. destruct (kt_erase K t 1 1) as [eb t']. cbn [fst snd] in X. intros [S1 S2].
    apply FIN; auto; try apply O1. cbn [o_ks]. rewrite length_upd, repeat_length; auto.
Qed.

(** del_edge: outside (x,y) and (1,1) nothing; with a pure adj_forced only (x,y), and nothing comes to life. *)
Definition frame_del (x y : N) (hp : heap) (r : res (heap * obj)) : Prop :=
  match r with
  | Done (hp', d') | Thrown (hp', d') => heap_wf hp' /\ obj_ok hp' d' /\ hle (fun e => e = (x, y) \/ e = (1, 1)%N) (eq (1, 1)%N) hp hp' /\
      (adjf_is_query L -> hle (eq (x, y)) (fun _ => False) hp hp')
  | Undefined => True
  end.
Lemma o_del_frame (hp : heap) d x y : heap_wf hp -> obj_ok hp d -> in_range n (x, y) -> frame_del x y hp (o_del T K hp d x y).
Proof.
  intros W O R. unfold o_del. destruct (ob_c0 _ _ O) as [sl [Hc Hr]].
  destruct (c0_erase (o_c0 d) (x, y)) as [[b c]|] eqn:Ee; cbn [rbind]; [|exact I].
  destruct (erase_inv _ _ _ _ _ Hc Ee) as [Hb [_ [Hcv [sl1 [I1 [I2 [I3 I4]]]]]]].
  assert (Hr1 : Forall (in_range n) (live_edges sl1)).
  { rewrite I3. rewrite Forall_forall in *. intros e He. apply filter_In in He. apply Hr; tauto. }
  destruct b.
  { split; [auto|]. split; [|split; [apply hle_refl|intros _; apply hle_refl]]. constructor; cbn; try apply O; [rewrite Hcv; apply O|eauto]. }
  destruct (o_erase_frame2 (o_ks d) x y R hp W) as [W1 H1]. pose proof (o_erase_len K (o_ks d) x y hp) as Len.
  destruct (o_erase K hp (o_ks d) x y) as [eb hp1]. cbn [fst snd] in *.
  destruct (o_sweep_refs K (length hp1) (o_ks d) hp1 ltac:(rewrite Len; apply O)) as [V1 [V2 _]].
  destruct (o_sweep K hp1 (o_ks d)) as [marked l]. cbn [fst snd] in *.
  set (n' := if eb then u64_dec (o_nt d) else o_nt d). set (d1 := mkobj (o_r d) (o_nv d) n' c l).
  assert (O1 : obj_ok hp1 d1). { constructor; cbn; try apply O; [rewrite Hcv; apply O|rewrite V2; apply O|auto|eauto]. }
  assert (H1' : hle (fun e => e = (x, y) \/ e = (1, 1)%N) (eq (1, 1)%N) hp hp1) by (apply (hle_weak (eq (x, y)) (fun _ => False)); [intros e <-; auto|intros e []|exact H1]).
  destruct (th_trig T marked n'); [|split; [auto|split; [auto|split; auto]]].
  pose proof (o_rebuild_frame hp1 d1 W1 O1) as FR. unfold frame_del, frame in *.
  assert (G : forall hp2, hle (eq (1, 1)%N) (eq (1, 1)%N) hp1 hp2 -> (heap_pure hp1 -> exists s, hp2 = hp1 ++ s) ->
    hle (fun e => e = (x, y) \/ e = (1, 1)%N) (eq (1, 1)%N) hp hp2 /\ (adjf_is_query L -> hle (eq (x, y)) (fun _ => False) hp hp2)).
  { intros hp2 A B. split.
    - eapply hle_trans; [exact H1'|]. apply (hle_weak (eq (1, 1)%N) (eq (1, 1)%N)); [intros e <-; auto|auto|exact A].
    - intros Q. destruct (B (query_pure _ Q W1)) as [s ->]. eapply hle_trans; [exact H1|apply hle_app]. }
  destruct (o_rebuild T K hp1 d1) as [[hp2 d2]|[hp2 d2]|]; auto; destruct FR as [F1 [F2 [F3 F4]]]; (split; [auto|split; [auto|apply G; auto]]).
Qed.

(** ** What another object answers *)
Lemma other_adj P Q hp hp' l x y : heap_wf hp -> heap_wf hp' -> refs_ok (length hp) l -> hle P Q hp hp' -> in_range n (x, y) ->
  (~ P (x, y) -> ks_adj K (map (deref K hp) l) x y = true -> ks_adj K (map (deref K hp') l) x y = true) /\
  (ks_adj K (map (deref K hp') l) x y = true -> ks_adj K (map (deref K hp) l) x y = true \/ Q (x, y)).
Proof.
  intros W W' R H [Rx Ry]. cbn in Rx, Ry. induction l as [|[r|] l IH]; cbn [map deref ks_adj].
  - split; [auto|auto].
  - destruct R as [R1 [R2 R3]]. destruct (IH R3) as [A B].
    destruct (nth_error hp r) as [t|] eqn:E; [|apply nth_error_None in E; lia].
    destruct (H _ _ E) as (t' & E' & F). rewrite E'. destruct (F (x, y)) as [F1 F2].
    pose proof (law_adj L n t x y (wf_nth _ _ _ W E) Rx Ry) as J. pose proof (law_adj L n t' x y (wf_nth _ _ _ W' E') Rx Ry) as J'.
    rewrite !orb_true_iff, J, J'. split.
    + intros NP [G|G]; auto.
    + intros [G|G]; [destruct (F2 G); auto|destruct (B G); auto].
  - apply IH; auto.
Qed.
Lemma other_neigh P Q hp hp' l x : heap_wf hp -> heap_wf hp' -> refs_ok (length hp) l -> hle P Q hp hp' -> (x < n)%N ->
  forall y, (~ P (x, y) -> In y (ks_neigh K (map (deref K hp) l) x) -> In y (ks_neigh K (map (deref K hp') l) x)) /\
            (In y (ks_neigh K (map (deref K hp') l) x) -> In y (ks_neigh K (map (deref K hp) l) x) \/ Q (x, y)).
Proof.
  intros W W' R H Rx y. induction l as [|[r|] l IH]; cbn [map deref ks_neigh].
  - split; auto.
  - destruct R as [R1 [R2 R3]]. destruct (IH R3) as [A B].
    destruct (nth_error hp r) as [t|] eqn:E; [|apply nth_error_None in E; lia].
    destruct (H _ _ E) as (t' & E' & F). rewrite E'. destruct (F (x, y)) as [F1 F2].
    rewrite !in_app_iff, (law_neigh L n t x y (wf_nth _ _ _ W E) Rx), (law_neigh L n t' x y (wf_nth _ _ _ W' E') Rx). split.
    + intros NP [G|G]; auto.
    + intros [G|G]; [destruct (F2 G); auto|destruct (B G); auto].
  - apply IH; auto.
Qed.

(** ** Worlds *)
Definition world_ok (w : world K) : Prop := heap_wf (w_hp w) /\ Forall (obj_ok (w_hp w)) (w_os w).
Definition wop_in (o : wop) : Prop := match o with WOp _ o => op_in_range n o | _ => True end.

Lemma world_upd w hp i d : world_ok w -> heap_wf hp -> length (w_hp w) <= length hp -> obj_ok hp d -> world_ok (mkw hp (upd (w_os w) i d)).
Proof.
  intros [A B] W Le O. split; [auto|]. cbn. assert (B' : Forall (obj_ok hp) (w_os w)) by (eapply Forall_impl; [|exact B]; intros; eapply obj_mono; eauto).
  clear B. revert i. induction B' as [|a l Ha Hl IH]; intros [|i]; cbn; constructor; auto.
Qed.
Lemma wstep_ok w o : world_ok w -> wop_in o ->
  match wstep T K w o with Done w' | Thrown w' => world_ok w' | Undefined => True end.
Proof.
  intros W R. destruct W as [A B]. destruct o as [i o|i|i j]; cbn [wstep].
  - destruct (nth_error (w_os w) i) as [d|] eqn:E; [|exact I].
    assert (O : obj_ok (w_hp w) d) by (rewrite Forall_forall in B; eapply B, nth_error_In; eauto).
    destruct o as [[x y]|[x y]]; cbn [o_op].
    + pose proof (o_add_frame (w_hp w) d x y A O R) as F. unfold frame in F.
      destruct (o_add T K (w_hp w) d x y) as [[hp d']|[hp d']|]; auto; destruct F as [F1 [F2 [F3 F4]]]; (apply world_upd; [split; auto|auto|eapply hle_len; eauto|auto]).
    + pose proof (o_del_frame (w_hp w) d x y A O R) as F. unfold frame_del in F.
      destruct (o_del T K (w_hp w) d x y) as [[hp d']|[hp d']|]; auto; destruct F as [F1 [F2 [F3 F4]]]; (apply world_upd; [split; auto|auto|eapply hle_len; eauto|auto]).
  - destruct (nth_error (w_os w) i) as [d|] eqn:E; [|exact I]. split; [auto|]. cbn. apply Forall_app. split; [auto|].
    constructor; [rewrite Forall_forall in B; eapply B, nth_error_In; eauto|constructor].
  - destruct (nth_error (w_os w) i) as [d1|] eqn:E1; [|exact I]. destruct (nth_error (w_os w) j) as [d|] eqn:E; [|exact I].
    apply world_upd; auto; [split; auto|]. rewrite Forall_forall in B; eapply B, nth_error_In; eauto.
Qed.
Lemma wrun_ok h : forall w w', world_ok w -> Forall wop_in h -> wrun T K w h = Done w' -> world_ok w'.
Proof.
  induction h as [|o h IH]; intros w w' W F E; cbn [wrun] in E; [injection E as <-; auto|].
  inversion F as [|? ? Fo Fh]; subst. pose proof (wstep_ok w o W Fo) as S. destruct (wstep T K w o) as [w1|w1|]; try discriminate. eapply IH; eauto.
Qed.
Lemma o_new_ok d : o_new T n = Ok d -> world_ok (mkw [] [d]).
Proof.
  unfold o_new, c0_new. destruct (maxsz T n 0) as [m|]; cbn [obind]; intros E; [|discriminate]. injection E as <-.
  split; [constructor|]. cbn [w_os w_hp]. constructor; [|constructor]. constructor; cbn [o_nv o_c0 o_ks c_nv]; auto.
  - exact I.
  - exists []. split; [apply inv_empty|constructor].
Qed.
Lemma whist_ok h w : Forall wop_in h -> whist T K n h = Done w -> world_ok w.
Proof.
  unfold whist. intros F E. destruct (o_new T n) as [d|] eqn:N; cbn [rbind] in E; [|discriminate].
  eapply wrun_ok; eauto. apply o_new_ok; auto.
Qed.
Lemma wrun_app h1 : forall h2 w, wrun T K w (h1 ++ h2) = match wrun T K w h1 with Done w' => wrun T K w' h2 | Thrown w' => Thrown w' | Undefined => Undefined end.
Proof. induction h1 as [|o h1 IH]; intros h2 w; cbn [wrun app]; auto. destruct (wstep T K w o); auto. Qed.
End AF.
