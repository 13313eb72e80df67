(** * Prop_Alias: graphs that are copies of one another (C42, C43).

    [whist T K n h]: a process creates a graph on n vertices and then makes the calls of [h] on it and on copies of it (Alias.v);
    [own h j]: the calls object j has received, those received by the object it was copied from before the copy included;
    [view K (w_hp w) d]: object d of world w as its methods see it. *)
From Verif Require Import Base Spec Thresholds Table K2 C0 C0Proof DK DKProof DKHist Prop_DK Alias AliasProof AliasFrame.

Definition no_del (h : list wop) : Prop := forall i e, ~ In (WOp i (Del e)) h.
(** Every call is on an object that exists. *)
Fixpoint known_objs (k : nat) (h : list wop) : Prop :=
  match h with
  | [] => True
  | WOp i _ :: h => i < k /\ known_objs k h
  | WCopy i :: h => i < k /\ known_objs (S k) h
  | WAssign i j :: h => i < k /\ j < k /\ known_objs k h
  end.

Lemma hist_snoc T K n h o g : dk_hist T K n h = Done g -> dk_hist T K n (h ++ [o]) = dk_op T K g o.
Proof.
  unfold dk_hist. destruct (dk_new T K n) as [g0|]; cbn [rbind]; [|discriminate]. revert g0.
  induction h as [|a h IH]; intros g0 E; cbn [dk_ops app] in *.
  - injection E as ->. destruct (dk_op T K g o); reflexivity.
  - destruct (dk_op T K g0 a); try discriminate. auto.
Qed.
Lemma nth_own {A} (s : list (list A)) : forall i j v, i < length s -> nth j (upd s i v) [] = if i =? j then v else nth j s [].
Proof.
  induction s as [|a s IH]; intros i j v H; [cbn in H; lia|]. destruct i as [|i], j as [|j]; cbn; auto. apply IH. cbn in H. lia.
Qed.

Section S.
Context (T : thresholds) (K : k2impl) (L : k2laws K).

(** The invariant: each object is the graph that its own calls, alone, produce. *)
Definition indep (n : N) (w : world K) (s : list (list op)) : Prop :=
  world_ok K L n w /\ length (w_os w) = length s /\
  forall j d, nth_error (w_os w) j = Some d -> dk_hist T K n (nth j s []) = Done (view K (w_hp w) d).

Lemma indep_step n w s o : (2 <= n)%N -> indep n w s -> wop_in n o ->
  (heap_pure K L (w_hp w) \/ length (w_os w) = 1) -> (forall i e, o = WOp i (Del e) -> length (w_os w) = 1) ->
  match wstep T K w o with
  | Done w' => indep n w' (own_step s o)
  | Thrown w' => exists i d e, o = WOp i e /\ nth_error (w_os w) i = Some d /\ exists g, dk_op T K (view K (w_hp w) d) e = Thrown g
  | Undefined => match o with
                 | WOp i e => forall d, nth_error (w_os w) i = Some d -> dk_op T K (view K (w_hp w) d) e = Undefined
                 | WCopy i => length (w_os w) <= i
                 | WAssign i j => length (w_os w) <= i \/ length (w_os w) <= j
                 end
  end.
Proof using L.
  intros Hn [W [Len A]] R P D. pose proof (wstep_ok T K L n Hn w o W R) as W'. destruct o as [i o|i|i j]; cbn [wstep own_step] in *.
  - destruct (nth_error (w_os w) i) as [d|] eqn:E; [|intros d Ed; congruence].
    assert (O : obj_ok K n (w_hp w) d) by (destruct W as [_ B]; rewrite Forall_forall in B; eapply B, nth_error_In; eauto).
    destruct (o_op_view T K (w_hp w) d o (ob_refs _ _ _ _ O) (ob_len _ _ _ _ O)) as [V S].
    assert (Li : i < length (w_os w)) by (apply nth_error_Some; congruence).
    assert (FR : forall hp d', o_op T K (w_hp w) d o = Done (hp, d') -> length (w_os w) = 1 \/ exists sf, hp = w_hp w ++ sf).
    { intros hp d' Eo. destruct o as [[x y]|[x y]]; [|left; eapply D; eauto]. cbn [o_op] in Eo. destruct P as [P|P]; [|auto].
      pose proof (o_add_frame T K L n Hn (w_hp w) d x y (proj1 W) O R) as F. rewrite Eo in F. destruct F as [_ [_ [_ F]]]. right. auto. }
    destruct (o_op T K (w_hp w) d o) as [[hp d']|[hp d']|] eqn:Eo; cbn [res_map fst snd] in V.
    + specialize (FR hp d' eq_refl). split; [exact W'|]. split; [cbn [w_os]; rewrite !length_upd; auto|].
      intros j dj Ej. cbn [w_os w_hp] in *. rewrite nth_own by lia. rewrite nth_error_upd in Ej. destruct (Nat.eqb_spec i j) as [->|Nij].
      * rewrite (proj2 (Nat.ltb_lt _ _) Li) in Ej. injection Ej as <-.
        rewrite (hist_snoc T K n _ o _ (A j d E)). symmetry. exact V.
      * destruct FR as [FR|[sf ->]].
        { exfalso. assert (Hj : j < length (w_os w)) by (apply nth_error_Some; congruence). lia. }
        rewrite (A j dj Ej). f_equal. unfold view. f_equal. symmetry. apply deref_app.
        destruct W as [_ B]. rewrite Forall_forall in B. apply (B dj). eapply nth_error_In; eauto.
    + exists i, d, o. split; [auto|]. split; [auto|]. eauto.
    + intros d0 Ed. injection Ed as <-. auto.
  - destruct (nth_error (w_os w) i) as [d|] eqn:E; [|apply nth_error_None in E; exact E].
    split; [exact W'|]. split; [cbn [w_os]; rewrite !app_length; cbn; lia|].
    intros j dj Ej. cbn [w_os w_hp] in *. destruct (Nat.lt_ge_cases j (length (w_os w))) as [Lt|Ge].
    + rewrite nth_error_app1 in Ej by auto. rewrite app_nth1 by lia. auto.
    + rewrite nth_error_app2 in Ej by auto. rewrite app_nth2 by lia. rewrite <- Len.
      destruct (j - length (w_os w)) as [|q]; cbn in *; [injection Ej as <-; auto|destruct q; discriminate].
  - destruct (nth_error (w_os w) i) as [d1|] eqn:E1; [|apply nth_error_None in E1; auto].
    destruct (nth_error (w_os w) j) as [d|] eqn:E; [|apply nth_error_None in E; auto].
    assert (Li : i < length (w_os w)) by (apply nth_error_Some; congruence).
    split; [exact W'|]. split; [cbn [w_os]; rewrite !length_upd; auto|].
    intros q dq Eq. cbn [w_os w_hp] in *. rewrite nth_own by lia. rewrite nth_error_upd in Eq. destruct (Nat.eqb_spec i q) as [->|Nq].
    + rewrite (proj2 (Nat.ltb_lt _ _) Li) in Eq. injection Eq as <-. auto.
    + auto.
Qed.

Lemma indep_new n d : (2 <= n)%N -> o_new T n = Ok d -> indep n (mkw [] [d]) [[]].
Proof using L.
  intros Hn E. split; [eapply o_new_ok; eauto|]. split; [reflexivity|]. intros j dj Ej. destruct j as [|[|]]; cbn in Ej; try discriminate.
  injection Ej as <-. unfold dk_hist, dk_new. unfold o_new in E. destruct (c0_new T n) as [c|]; cbn [obind rbind] in *; [|discriminate].
  injection E as <-. reflexivity.
Qed.

Lemma solo_run n h : (2 <= n)%N -> Forall (op_in_range n) h -> forall w s w', indep n w s -> length (w_os w) = 1 ->
  wrun T K w (map (WOp 0) h) = Done w' -> indep n w' (fold_left own_step (map (WOp 0) h) s) /\ length (w_os w') = 1.
Proof using L.
  intros Hn F. induction F as [|o h Fo Fh IH]; intros w s w' I L1 E; cbn [map wrun fold_left] in *; [injection E as <-; auto|].
  pose proof (indep_step n w s (WOp 0 o) Hn I Fo (or_intror L1) (fun _ _ _ => L1)) as ST.
  destruct (wstep T K w (WOp 0 o)) as [w1|w1|] eqn:Ew; try discriminate. eapply IH; eauto.
  cbn [wstep] in Ew. destruct (nth_error (w_os w) 0) as [d|]; [|discriminate]. destruct (o_op T K (w_hp w) d o) as [[hp d']|[hp d']|]; try discriminate.
  injection Ew as <-. cbn. rewrite length_upd. auto.
Qed.
Lemma free_run n h : (2 <= n)%N -> adjf_is_query L -> Forall (wop_in n) h -> no_del h -> forall w s w', indep n w s ->
  wrun T K w h = Done w' -> indep n w' (fold_left own_step h s).
Proof using L.
  intros Hn Q F. induction F as [|o h Fo Fh IH]; intros ND w s w' I E; cbn [wrun fold_left] in *; [injection E as <-; auto|].
  assert (X : forall i e, o = WOp i (Del e) -> length (w_os w) = 1) by (intros i e ->; exfalso; apply (ND i e); left; auto).
  pose proof (indep_step n w s o Hn I Fo (or_introl (query_pure K L n _ Q (proj1 (proj1 I)))) X) as ST.
  destruct (wstep T K w o) as [w1|w1|] eqn:Ew; try discriminate. eapply IH; eauto. intros i e H. apply (ND i e). right; auto.
Qed.
End S.

(** ** C42: copies do not feel each other's insertions *)
(** A graph receives any calls, is then copied and assigned any number of times, and the copies receive insertions in any order: every
    object is, field by field and tree by tree, the graph its own calls alone would have produced. *)
Theorem C42_copies_independent : forall T K (L : k2laws K) n h0 h w, adjf_is_query L -> (2 <= n)%N ->
  Forall (op_in_range n) h0 -> Forall (wop_in n) h -> no_del h -> whist T K n (map (WOp 0) h0 ++ h) = Done w ->
  forall j d, nth_error (w_os w) j = Some d -> dk_hist T K n (own (map (WOp 0) h0 ++ h) j) = Done (view K (w_hp w) d).
Proof.
  intros T K L n h0 h w Q Hn F0 F ND E j d Ej. unfold whist in E. destruct (o_new T n) as [d0|] eqn:E0; cbn [rbind] in E; [|discriminate].
  rewrite wrun_app in E. destruct (wrun T K (mkw [] [d0]) (map (WOp 0) h0)) as [w1|w1|] eqn:E1; try discriminate.
  destruct (solo_run T K L n h0 Hn F0 _ _ _ (indep_new T K L n d0 Hn E0) eq_refl E1) as [I1 _].
  pose proof (free_run T K L n h Hn Q F ND _ _ _ I1 E) as I2. unfold own, owns. rewrite fold_left_app. apply I2. auto.
Qed.

(** At any time, whatever happened before (shared trees with erased edges included), one insertion leaves every other object with the
    same fields and the same trees. *)
Theorem C42_insertion_local : forall T K (L : k2laws K) n h w i e w', adjf_is_query L -> (2 <= n)%N ->
  Forall (wop_in n) (h ++ [WOp i (Add e)]) -> whist T K n h = Done w -> wstep T K w (WOp i (Add e)) = Done w' ->
  forall j d, j <> i -> nth_error (w_os w) j = Some d -> nth_error (w_os w') j = Some d /\ view K (w_hp w') d = view K (w_hp w) d.
Proof.
  intros T K L n h w i e w' Q Hn F E Ew j d Ne Ej. apply Forall_app in F. destruct F as [F1 F2]. inversion F2 as [|? ? Fe _]; subst.
  destruct (whist_ok T K L n Hn h w F1 E) as [W B]. cbn [wstep] in Ew. destruct (nth_error (w_os w) i) as [di|] eqn:Ei; [|discriminate].
  destruct e as [x y]. cbn [o_op] in Ew.
  assert (O : forall q dq, nth_error (w_os w) q = Some dq -> obj_ok K n (w_hp w) dq) by (intros q dq Eq; rewrite Forall_forall in B; eapply B, nth_error_In; eauto).
  pose proof (o_add_frame T K L n Hn (w_hp w) di x y W (O i di Ei) Fe) as FR.
  destruct (o_add T K (w_hp w) di x y) as [[hp d']|[hp d']|]; try discriminate. injection Ew as <-. cbn [w_os w_hp].
  destruct FR as [_ [_ [_ FR]]]. destruct (FR (query_pure K L n _ Q W)) as [s ->].
  rewrite nth_error_upd_neq by auto. split; [auto|]. unfold view. f_equal. apply deref_app. apply (O j d Ej).
Qed.

Definition adds_only (n : N) (l : list op) : Prop := exists es, Forall (in_range n) es /\ l = map Add es.
Lemma inserts_indep T K (L : k2laws K) n h : th_top T -> (2 <= n)%N -> Forall (wop_in n) h -> no_del h -> known_objs 1 h ->
  exists w, whist T K n h = Done w /\ indep T K L n w (owns h) /\ Forall (adds_only n) (owns h).
Proof.
  intros HT Hn F ND KO.
  destruct (dk_new_total T K n Hn) as [g0 G0].
  assert (E0 : exists d0, o_new T n = Ok d0).
  { unfold dk_new in G0. unfold o_new. destruct (c0_new T n) as [c|]; cbn [obind] in *; [eauto|discriminate]. }
  destruct E0 as [d0 E0]. unfold whist. rewrite E0. cbn [rbind].
  assert (AD : forall s i, Forall (fun l => exists es, Forall (in_range n) es /\ l = map Add es) s -> exists es, Forall (in_range n) es /\ nth i s [] = map Add es).
  { intros s i H. destruct (nth_in_or_default i s []) as [X|X]; [rewrite Forall_forall in H; auto|]. exists []. split; [constructor|auto]. }
  assert (UP : forall s i l, Forall (fun l => exists es, Forall (in_range n) es /\ l = map Add es) s -> (exists es, Forall (in_range n) es /\ l = map Add es) ->
             Forall (fun l => exists es, Forall (in_range n) es /\ l = map Add es) (upd s i l)).
  { clear. intros s i l H G. revert i. induction H as [|a s Ha Hs IH]; intros [|i]; cbn; constructor; auto. }
  (* generalise over the state *)
  assert (G : forall h w s, Forall (wop_in n) h -> no_del h -> known_objs (length (w_os w)) h -> indep T K L n w s -> heap_pure K L (w_hp w) ->
     Forall (fun l => exists es, Forall (in_range n) es /\ l = map Add es) s ->
     exists w', wrun T K w h = Done w' /\ indep T K L n w' (fold_left own_step h s) /\
       Forall (fun l => exists es, Forall (in_range n) es /\ l = map Add es) (fold_left own_step h s)).
  { clear h F ND KO d0 E0 g0 G0. induction h as [|o h IH]; intros w s F ND KO I P A; cbn [wrun fold_left]; [eauto|].
    inversion F as [|? ? Fo Fh]; subst.
    assert (ND' : no_del h) by (intros i e H; apply (ND i e); right; auto).
    assert (X : forall i e, o = WOp i (Del e) -> length (w_os w) = 1) by (intros i e ->; exfalso; apply (ND i e); left; auto).
    pose proof (indep_step T K L n w s o Hn I Fo (or_introl P) X) as ST.
    destruct I as [[W B] [Len V]].
    destruct o as [i [e|e]|i|i j].
    - destruct KO as [Ki KO]. destruct (nth_error (w_os w) i) as [d|] eqn:Ei; [|apply nth_error_None in Ei; lia].
      destruct (AD s i A) as [es [Fes Es]].
      pose proof (V i d Ei) as Hi. rewrite Es in Hi.
      destruct (hist_insert T K L n Hn (es ++ [e]) HT) as [g [sl [Hg _]]]; [apply Forall_app; split; [auto|repeat constructor; apply Fo]|].
      rewrite map_app in Hg. cbn [map] in Hg. rewrite (hist_snoc T K n _ (Add e) _ Hi) in Hg.
      destruct e as [x y].
      assert (O : obj_ok K n (w_hp w) d) by (rewrite Forall_forall in B; eapply B, nth_error_In; eauto).
      pose proof (o_add_pure T K L n Hn (w_hp w) d x y W O Fo P) as PP.
      cbn [wstep] in ST |- *. rewrite Ei in *. cbn [o_op] in *.
      destruct (o_add_view T K (w_hp w) d x y (ob_refs _ _ _ _ O)) as [VV _]. cbn [dk_op] in Hg. rewrite Hg in VV.
      destruct (o_add T K (w_hp w) d x y) as [[hp d']|[hp d']|]; cbn [res_map] in VV; try discriminate.
      apply IH; auto.
      + cbn [w_os]. rewrite length_upd. auto.
      + cbn [own_step]. apply UP; auto. exists (es ++ [(x, y)]). rewrite Es, map_app. split; [|auto]. apply Forall_app. split; [auto|]. repeat constructor; apply Fo.
    - exfalso. apply (ND i e). left; auto.
    - destruct KO as [Ki KO]. cbn [wstep] in ST |- *. destruct (nth_error (w_os w) i) as [d|] eqn:Ei; [|apply nth_error_None in Ei; lia].
      apply IH; auto.
      + cbn [w_os]. rewrite app_length. cbn. rewrite Nat.add_1_r. auto.
      + cbn [own_step]. apply Forall_app. split; [auto|]. constructor; [apply AD; auto|constructor].
    - destruct KO as [Ki [Kj KO]]. cbn [wstep] in ST |- *. destruct (nth_error (w_os w) i) as [d1|] eqn:Ei; [|apply nth_error_None in Ei; lia].
      destruct (nth_error (w_os w) j) as [d|] eqn:Ej; [|apply nth_error_None in Ej; lia].
      apply IH; auto.
      + cbn [w_os]. rewrite length_upd. auto.
      + cbn [own_step]. apply UP; auto. }
  destruct (G h (mkw [] [d0]) [[]] F ND KO (indep_new T K L n d0 Hn E0)) as (w & E & [W [Len V]] & A).
  { intros t e []. }
  { constructor; [|constructor]. exists []. split; [constructor|reflexivity]. }
  exists w. split; [auto|]. split; [split; [exact W|split; [exact Len|exact V]]|exact A].
Qed.
Lemma adds_nth n s i : Forall (adds_only n) s -> adds_only n (nth i s []).
Proof. intros H. destruct (nth_in_or_default i s []) as [X|X]; [rewrite Forall_forall in H; apply H; auto|]. exists []. split; [constructor|auto]. Qed.

(** Insertions only: nothing is assumed of adj_forced, all calls complete, and each object answers for the edges it received. *)
Theorem C42_inserts : forall T K (L : k2laws K) n h, th_top T -> (2 <= n)%N -> Forall (wop_in n) h -> no_del h -> known_objs 1 h ->
  exists w, whist T K n h = Done w /\ length (w_os w) = length (owns h) /\
    forall j d, nth_error (w_os w) j = Some d ->
      (forall x y, in_range n (x, y) -> dk_contains K (view K (w_hp w) d) x y = Ok (emem (x, y) (espec (own h j)))) /\
      dk_edges K (view K (w_hp w) d) = N.of_nat (length (espec (own h j))) /\
      (forall x, (x < n)%N -> exists l, dk_neigh K (view K (w_hp w) d) x = Ok l /\ NoDup l /\ forall y, In y l <-> In (x, y) (espec (own h j))).
Proof.
  intros T K L n h HT Hn F ND KO. destruct (inserts_indep T K L n h HT Hn F ND KO) as (w & E & [W [Len V]] & A).
  exists w. split; [auto|]. split; [auto|]. intros j d Ej. pose proof (V j d Ej) as Hj. fold (own h j) in Hj.
  destruct (adds_nth n (owns h) j A) as [es [Fes Es]]. fold (own h j) in Es. rewrite Es in *.
  destruct (C01_contains_after_inserts T K L n es HT Hn Fes) as (g1 & X1 & Y1).
  destruct (C02_count_after_inserts T K L n es HT Hn Fes) as (g2 & X2 & Y2).
  rewrite Hj in X1, X2. injection X1 as <-. injection X2 as <-. split; [|split].
  - intros x y Rx. rewrite (Y1 x y Rx). f_equal. apply eq_true_iff_eq. rewrite !emem_In. symmetry. apply espec_adds.
  - rewrite Y2. f_equal. apply len_same; [apply NoDup_nodup|apply espec_nodup|]. intros e. rewrite nodup_In. symmetry. apply espec_adds.
  - intros x Hx. destruct (C04_neighbours_after_inserts T K L n es x HT Hn Fes Hx) as (g3 & l & X3 & Y3 & Z3 & U3).
    rewrite Hj in X3. injection X3 as <-. exists l. split; [auto|]. split; [auto|]. intros y. rewrite U3. symmetry. apply espec_adds.
Qed.

(** Without the assumption on adj_forced: an insertion may bring an erased edge back to life in a tree that a copy shares, and does
    nothing else to the copy. *)
Theorem C42_insertion_frame : forall T K (L : k2laws K) n h w i e w', (2 <= n)%N ->
  Forall (wop_in n) (h ++ [WOp i (Add e)]) -> whist T K n h = Done w -> wstep T K w (WOp i (Add e)) = Done w' ->
  forall j d x y, j <> i -> nth_error (w_os w) j = Some d -> in_range n (x, y) -> (x, y) <> e ->
    nth_error (w_os w') j = Some d /\
    dk_contains K (view K (w_hp w') d) x y = dk_contains K (view K (w_hp w) d) x y /\
    dk_edges K (view K (w_hp w') d) = dk_edges K (view K (w_hp w) d).
Proof.
  intros T K L n h w i e w' Hn F E Ew j d u v Ne Ej Ruv Nuv. apply Forall_app in F. destruct F as [F1 F2]. inversion F2 as [|? ? Fe _]; subst.
  destruct (whist_ok T K L n Hn h w F1 E) as [W B]. cbn [wstep] in Ew. destruct (nth_error (w_os w) i) as [di|] eqn:Ei; [|discriminate].
  destruct e as [x y]. cbn [o_op] in Ew.
  assert (O : forall q dq, nth_error (w_os w) q = Some dq -> obj_ok K n (w_hp w) dq) by (intros q dq Eq; rewrite Forall_forall in B; eapply B, nth_error_In; eauto).
  pose proof (o_add_frame T K L n Hn (w_hp w) di x y W (O i di Ei) Fe) as FR.
  destruct (o_add T K (w_hp w) di x y) as [[hp d']|[hp d']|]; try discriminate. injection Ew as <-. cbn [w_os w_hp].
  destruct FR as [W' [_ [HL _]]]. rewrite nth_error_upd_neq by auto. split; [auto|]. split; [|reflexivity].
  unfold dk_contains. cbn [view C0_ DK.ks]. destruct (c0_contains (o_c0 d) (u, v)) as [b|]; cbn [obind]; [|reflexivity]. f_equal. destruct b; [reflexivity|].
  destruct (other_adj K L n Hn _ _ _ _ (o_ks d) u v W W' (ob_refs _ _ _ _ (O j d Ej)) HL Ruv) as [A1 A2].
  apply eq_true_iff_eq. split; [intros X; destruct (A2 X); [auto|congruence]|apply A1; congruence].
Qed.

(** ** C43: deletions do reach copies *)
(** What a deletion in one object can do to another one, at any time: the deleted edge may disappear there too; nothing else changes,
    and the other object's edge count does not follow. *)
Theorem C43_deletion_frame_partial : forall T K (L : k2laws K) n h w i e w', adjf_is_query L -> (2 <= n)%N ->
  Forall (wop_in n) (h ++ [WOp i (Del e)]) -> whist T K n h = Done w -> wstep T K w (WOp i (Del e)) = Done w' ->
  forall j d, j <> i -> nth_error (w_os w) j = Some d ->
    nth_error (w_os w') j = Some d /\
    dk_edges K (view K (w_hp w') d) = dk_edges K (view K (w_hp w) d) /\
    (forall x y, in_range n (x, y) -> (x, y) <> e -> dk_contains K (view K (w_hp w') d) x y = dk_contains K (view K (w_hp w) d) x y) /\
    (dk_contains K (view K (w_hp w') d) (fst e) (snd e) = Ok true -> dk_contains K (view K (w_hp w) d) (fst e) (snd e) = Ok true) /\
    (forall x l, (x < n)%N -> dk_neigh K (view K (w_hp w) d) x = Ok l ->
       exists l', dk_neigh K (view K (w_hp w') d) x = Ok l' /\ (forall y, In y l' -> In y l) /\ (forall y, (x, y) <> e -> In y l -> In y l')).
Proof.
  intros T K L n h w i e w' Q Hn F E Ew j d Ne Ej. apply Forall_app in F. destruct F as [F1 F2]. inversion F2 as [|? ? Fe _]; subst.
  destruct (whist_ok T K L n Hn h w F1 E) as [W B]. cbn [wstep] in Ew. destruct (nth_error (w_os w) i) as [di|] eqn:Ei; [|discriminate].
  destruct e as [x y]. cbn [o_op] in Ew.
  assert (O : forall q dq, nth_error (w_os w) q = Some dq -> obj_ok K n (w_hp w) dq) by (intros q dq Eq; rewrite Forall_forall in B; eapply B, nth_error_In; eauto).
  pose proof (o_del_frame T K L n Hn (w_hp w) di x y W (O i di Ei) Fe) as FR.
  destruct (o_del T K (w_hp w) di x y) as [[hp d']|[hp d']|]; try discriminate. injection Ew as <-. cbn [w_os w_hp].
  destruct FR as [W' [_ [_ FR]]]. specialize (FR Q). rewrite nth_error_upd_neq by auto. split; [auto|]. split; [reflexivity|].
  pose proof (ob_refs _ _ _ _ (O j d Ej)) as RF.
  assert (CT : forall u v, in_range n (u, v) ->
    ((u, v) <> (x, y) -> dk_contains K (view K (w_hp w) d) u v = Ok true -> dk_contains K (view K hp d) u v = Ok true) /\
    (dk_contains K (view K hp d) u v = Ok true -> dk_contains K (view K (w_hp w) d) u v = Ok true) /\
    (dk_contains K (view K hp d) u v = UB <-> dk_contains K (view K (w_hp w) d) u v = UB)).
  { intros u v Ruv. unfold dk_contains. cbn [view C0_ DK.ks]. destruct (c0_contains (o_c0 d) (u, v)) as [b|]; cbn [obind]; [|split; [discriminate|split; [discriminate|tauto]]].
    destruct b; [split; [auto|split; [auto|split; discriminate]]|].
    destruct (other_adj K L n Hn _ _ _ _ (o_ks d) u v W W' RF FR Ruv) as [A1 A2]. split; [|split; [|split; discriminate]].
    - intros Nuv G. injection G as G. f_equal. apply A1; [congruence|auto].
    - intros G. injection G as G. f_equal. destruct (A2 G); [auto|tauto]. }
  split; [|split].
  - intros u v Ruv Nuv. destruct (CT u v Ruv) as [C1 [C2 C3]].
    destruct (dk_contains K (view K hp d) u v) as [[|]|]; destruct (dk_contains K (view K (w_hp w) d) u v) as [[|]|]; auto;
      try (discriminate (C1 Nuv eq_refl)); try (discriminate (C2 eq_refl)); try (discriminate (proj1 C3 eq_refl)); try (discriminate (proj2 C3 eq_refl)).
  - cbn [fst snd]. apply (CT x y Fe).
  - intros u l Ru. unfold dk_neigh. cbn [view C0_ DK.ks max_r]. destruct (c0_neigh (o_c0 d) u) as [l0|]; cbn [obind]; [|discriminate].
    rewrite !map_length. destruct (o_r d <? length (o_ks d)); [|discriminate]. intros G. injection G as <-.
    eexists. split; [reflexivity|].
    assert (RF' : refs_ok (length (w_hp w)) (firstn (S (o_r d)) (o_ks d))) by (rewrite <- (firstn_skipn (S (o_r d)) (o_ks d)) in RF; apply refs_app in RF; tauto).
    pose proof (other_neigh K L n Hn _ _ _ _ _ u W W' RF' FR Ru) as NB. split; intros v; specialize (NB v); rewrite <- !firstn_map in NB.
    + rewrite !in_app_iff. intros [G|G]; [auto|]. destruct (proj2 NB G) as [X|X]; [right; exact X|tauto].
    + intros Nv. rewrite !in_app_iff. intros [G|G]; [auto|]. right. apply (proj1 NB); [congruence|auto].
Qed.

(** Exactly when: a graph (with any past) is copied and one of its edges is deleted from the original.  If the edge is in the original's
    uncompressed buffer, the copy is unchanged, tree by tree; if not, the copy has lost the edge as well. *)
Theorem C43_leak_exact : forall T K (L : k2laws K) n h0 e w w' d, adjf_is_query L -> (2 <= n)%N ->
  Forall (op_in_range n) (h0 ++ [Del e]) -> whist T K n (map (WOp 0) h0 ++ [WCopy 0]) = Done w ->
  wstep T K w (WOp 0 (Del e)) = Done w' -> nth_error (w_os w) 1 = Some d ->
  (c0_contains (o_c0 d) e = Ok true -> view K (w_hp w') d = view K (w_hp w) d) /\
  (c0_contains (o_c0 d) e = Ok false -> dk_contains K (view K (w_hp w') d) (fst e) (snd e) = Ok false).
Proof.
  intros T K L n h0 e w w' d Q Hn F E Ew Ed. apply Forall_app in F. destruct F as [F0 F2]. inversion F2 as [|? ? Fe _]; subst.
  unfold whist in E. destruct (o_new T n) as [d0|] eqn:E0; cbn [rbind] in E; [|discriminate].
  rewrite wrun_app in E. destruct (wrun T K (mkw [] [d0]) (map (WOp 0) h0)) as [w1|w1|] eqn:E1; try discriminate.
  destruct (solo_run T K L n h0 Hn F0 _ _ _ (indep_new T K L n d0 Hn E0) eq_refl E1) as [[[W B] [Len V]] L1].
  destruct (w_os w1) as [|a [|]] eqn:Os; cbn in L1; try discriminate. cbn [wrun wstep] in E. rewrite Os in E. cbn in E. injection E as <-.
  cbn in Ed. injection Ed as ->. cbn [wstep w_os w_hp nth_error app] in Ew.
  specialize (V 0 d eq_refl). set (s0 := nth 0 (fold_left own_step (map (WOp 0) h0) [[]]) []) in V.
  assert (OW : forall h s, fold_left own_step (map (WOp 0) h) [s] = [s ++ h]).
  { clear. induction h as [|o h IH]; intros s; cbn [map fold_left own_step upd nth]; [rewrite app_nil_r; auto|]. rewrite IH, <- app_assoc. reflexivity. }
  assert (s0 = h0) as X by (unfold s0; rewrite OW; reflexivity). rewrite X in V. clear X s0.
  destruct (hist_rel T K L n Hn h0 _ F0 V) as [sl R]. pose proof (rl_inv _ _ _ _ _ _ R) as I. clear R.
  destruct e as [x y]. cbn [o_op fst snd] in *. unfold o_del in Ew.
  inversion B as [|? ? O _]; subst.
  pose proof (dv_c0 _ _ _ _ _ I) as Hc. cbn [view C0_] in Hc.
  rewrite (inv_contains _ _ _ Hc).
  destruct (c0_erase (o_c0 d) (x, y)) as [[b c]|] eqn:Ee; cbn [rbind] in Ew; [|discriminate].
  destruct (erase_inv _ _ _ _ _ Hc Ee) as [Hb _]. destruct b.
  { injection Ew as <-. cbn [w_hp]. split; [auto|]. rewrite <- Hb. discriminate. }
  split; [rewrite <- Hb; discriminate|]. intros _.
  pose proof (o_erase_view K (o_ks d) x y (w_hp w1) (ob_refs _ _ _ _ O)) as EV.
  destruct (o_erase_frame2 K L n (o_ks d) x y Fe (w_hp w1) W) as [W2 _]. pose proof (o_erase_len K (o_ks d) x y (w_hp w1)) as Len2.
  destruct (o_erase K (w_hp w1) (o_ks d) x y) as [eb hp2]. cbn [fst snd] in *.
  destruct (o_sweep_refs K (length hp2) (o_ks d) hp2 ltac:(rewrite Len2; apply O)) as [V1 [V2 _]].
  destruct (o_sweep K hp2 (o_ks d)) as [marked l]. cbn [fst snd] in *.
  set (n' := if eb then u64_dec (o_nt d) else o_nt d) in *. set (d1 := mkobj (o_r d) (o_nv d) n' c l) in *.
  assert (HS : exists s, w_hp w' = hp2 ++ s).
  { destruct (th_trig T marked n'); [|injection Ew as <-; exists []; rewrite app_nil_r; auto].
    assert (O1 : obj_ok K n hp2 d1).
    { destruct (erase_inv _ _ _ _ _ Hc Ee) as [_ [_ [Hcv [sl1 [I1 [I2 [I3 _]]]]]]].
      constructor; cbn [d1 o_nv o_c0 o_ks]; try apply O; [rewrite Hcv; apply O|rewrite V2; apply O|auto|]. exists sl1. split; [auto|]. rewrite I3.
      pose proof (dv_range _ _ _ _ _ I) as G. rewrite Forall_forall in *. intros e He. apply filter_In in He. apply G. tauto. }
    pose proof (o_rebuild_frame T K L n Hn hp2 d1 W2 O1) as FR.
    destruct (o_rebuild T K hp2 d1) as [[hp3 d3]|[hp3 d3]|]; try discriminate. injection Ew as <-. cbn [w_hp].
    destruct FR as [_ [_ [_ FR]]]. apply FR. apply (query_pure K L n _ Q W2). }
  destruct HS as [s ->]. unfold dk_contains. cbn [view C0_ DK.ks]. rewrite (inv_contains _ _ _ Hc), <- Hb. cbn [obind]. f_equal.
  rewrite deref_app by (rewrite Len2; apply O).
  pose proof (dv_wf _ _ _ _ _ I) as Wk. pose proof (dv_disj _ _ _ _ _ I) as Dk. cbn [view DK.ks] in Wk, Dk.
  destruct (ks_erase_spec K L n _ x y Wk Dk Fe) as [R1 [_ [_ [_ [R5 _]]]]]. rewrite EV in R1, R5. cbn [snd] in R1, R5.
  apply not_true_is_false. intros G. apply (ks_adj_spec K L n _ x y R1 Fe) in G. apply R5 in G. tauto.
Qed.

(** On 8 vertices: two insertions (the second moves both edges to a tree), a copy, and del_edge(6,7) on the original.  The copy, which
    never received a deletion, has lost the edge and still reports two edges. *)
Theorem C43_refuted : forall T K (L : k2laws K), th_real T -> adjf_is_query L ->
  exists n h i j e w w' d, (2 <= n)%N /\ i <> j /\ Forall (wop_in n) (h ++ [WOp i (Del e)]) /\ no_del h /\
    whist T K n h = Done w /\ wstep T K w (WOp i (Del e)) = Done w' /\
    nth_error (w_os w) j = Some d /\ nth_error (w_os w') j = Some d /\
    dk_contains K (view K (w_hp w) d) (fst e) (snd e) = Ok true /\ dk_contains K (view K (w_hp w') d) (fst e) (snd e) = Ok false /\
    dk_edges K (view K (w_hp w) d) = 2%N /\ dk_edges K (view K (w_hp w') d) = 2%N.
Proof.
  intros T K L HT Q. set (h0 := [Add (6, 7); Add (0, 7)]%N). set (h := map (WOp 0) h0 ++ [WCopy 0]).
  assert (F : Forall (wop_in 8) (h ++ [WOp 0 (Del (6, 7)%N)])) by (repeat constructor; cbn; lia).
  assert (F1 : Forall (wop_in 8) h) by (repeat constructor; cbn; lia).
  assert (F0 : Forall (op_in_range 8) (h0 ++ [Del (6, 7)%N])) by (repeat constructor; cbn; lia).
  assert (ND : no_del h) by (intros i e [X|[X|[X|[]]]]; discriminate).
  destruct (C42_inserts T K L 8 h (th_real_top T HT) ltac:(lia) F1 ND) as (w & E & Len & A); [cbn; lia|].
  assert (Ed : exists d0 d, w_os w = [d0; d]) by (destruct (w_os w) as [|d0 [|d [|]]]; try discriminate Len; eauto).
  destruct Ed as (d0 & d & Os).
  assert (E0 : nth_error (w_os w) 0 = Some d0) by (rewrite Os; auto). assert (E1 : nth_error (w_os w) 1 = Some d) by (rewrite Os; auto).
  assert (V : forall j dj, nth_error (w_os w) j = Some dj -> dk_hist T K 8 (own h j) = Done (view K (w_hp w) dj)).
  { apply (C42_copies_independent T K L 8 h0 [WCopy 0] w Q); [lia|apply Forall_app in F0; tauto|repeat constructor|intros i e [X|[]]; discriminate|exact E]. }
  pose proof (V 0 d0 E0) as V0. pose proof (V 1 d E1) as V1. change (own h 0) with h0 in V0. change (own h 1) with h0 in V1.
  assert (WO : world_ok K L 8 w) by (eapply whist_ok; eauto; lia).
  assert (O0 : obj_ok K 8 (w_hp w) d0) by (destruct WO as [_ B]; rewrite Forall_forall in B; eapply B, nth_error_In; eauto).
  destruct (o_op_view T K (w_hp w) d0 (Del (6, 7)%N) (ob_refs _ _ _ _ O0) (ob_len _ _ _ _ O0)) as [VV _].
  rewrite <- (hist_snoc T K 8 h0 (Del (6, 7)%N) _ V0) in VV.
  pose proof (transfer T K L 8 _ Q ltac:(lia) F0) as HS.
  assert (HW : match dk_hist T K2Ref 8 (h0 ++ [Del (6, 7)%N]) with Done g => True | _ => False end) by (rewrite <- (tabled_eq T HT); vm_compute; exact I).
  destruct (dk_hist T K2Ref 8 (h0 ++ [Del (6, 7)%N])) as [gr|gr|]; try tauto.
  destruct (dk_hist T K 8 (h0 ++ [Del (6, 7)%N])) as [g|g|]; try tauto.
  destruct (o_op T K (w_hp w) d0 (Del (6, 7)%N)) as [[hp d']|[hp d']|] eqn:Eo; try discriminate.
  assert (Ew : wstep T K w (WOp 0 (Del (6, 7)%N)) = Done (mkw hp (upd (w_os w) 0 d'))) by (cbn [wstep]; rewrite E0, Eo; reflexivity).
  exists 8%N, h, 0, 1, (6, 7)%N, w, (mkw hp (upd (w_os w) 0 d')), d.
  destruct (A 1 d E1) as [A1 [A2 _]]. change (own h 1) with h0 in A1, A2.
  destruct (C43_leak_exact T K L 8 h0 (6, 7)%N w _ d Q ltac:(lia) F0 E Ew E1) as [_ LK].
  split; [lia|]. split; [discriminate|]. split; [exact F|]. split; [exact ND|]. split; [exact E|]. split; [exact Ew|]. split; [exact E1|].
  split; [rewrite Os; reflexivity|]. split; [apply (A1 6 7)%N; split; cbn; lia|]. split; [|split; [exact A2|exact A2]].
  apply LK. assert (BF : match dk_hist T K 8 h0 with Done g => c0_contains (C0_ g) (6, 7)%N = Ok false | _ => False end).
  { rewrite <- (tabled_eq T HT). vm_compute. reflexivity. }
  rewrite V1 in BF. exact BF.
Qed.

(** Non-trivial cases of the hypotheses above: three objects, two of them copies, insertions interleaved. *)
Definition w42 : list wop := map (WOp 0) [Add (6, 7); Add (0, 7); Del (0, 7)]%N ++ [WCopy 0; WOp 1 (Add (2, 3)); WCopy 1; WOp 0 (Add (2, 3)); WOp 2 (Add (4, 4)); WAssign 1 2; WOp 1 (Add (0, 7))]%N.
Example w42_case : forall T, th_real T ->
  match whist T K2Ref 8 w42 with
  | Done w => length (w_os w) = 3 /\ length (w_hp w) > 2 /\ own w42 0 = [Add (6, 7); Add (0, 7); Del (0, 7); Add (2, 3)]%N /\
              Forall (fun d => dk_contains K2Ref (view K2Ref (w_hp w) d) 6 7 = Ok true) (w_os w)
  | _ => False
  end.
Proof. intros T HT. rewrite <- (tabled_eq T HT). vm_compute. repeat constructor. Qed.
