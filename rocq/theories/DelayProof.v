(** * DelayProof: the delayed-union graph over arbitrary histories. *)
From Verif Require Import Base Spec Thresholds Table K2 C0 C0Proof DK DKProof DKHist DKGuard DKTotal Delay.

Ltac dltb H := match type of H with context [?a <? ?b] => destruct (a <? b) end.

Lemma nth_firstn_lt {A} (l : list A) : forall k i, i < k -> nth_error (firstn k l) i = nth_error l i.
Proof. induction l as [|a l IH]; intros [|k] [|i] H; cbn; auto; try lia. apply IH; lia. Qed.

Section DelayProof.
Context (T : thresholds) (K : k2impl) (L : k2laws K) (n : N).
Local Notation ktree := (kt K).
Local Notation dl := (dl K).

(** ** The array of trees, position by position *)
Definition oin (o : option ktree) (e : edge) : Prop := match o with Some t => In e (kt_edges K t) | None => False end.
Definition inks (l : list (option ktree)) (e : edge) : Prop := exists i o, nth_error l i = Some o /\ oin o e.
Definition inks1 (l : list (option ktree)) (j : nat) (e : edge) : Prop :=
  exists i o, i <> j /\ nth_error l i = Some o /\ oin o e.
Definition inks2 (l : list (option ktree)) (j p : nat) (e : edge) : Prop :=
  exists i o, i <> j /\ i <> p /\ nth_error l i = Some o /\ oin o e.
Definition ldisj (l : list (option ktree)) : Prop :=
  forall i j a b e, i <> j -> nth_error l i = Some a -> nth_error l j = Some b -> oin a e -> ~ oin b e.
Definition lwf (l : list (option ktree)) : Prop := forall i t, nth_error l i = Some (Some t) -> wf L n t.

Lemma lwf_ks l : lwf l <-> ks_wf K L n l.
Proof.
  unfold lwf, ks_wf. rewrite Forall_forall. split.
  - intros H [t|] Ht; auto. apply In_nth_error in Ht. destruct Ht as [i Hi]. eapply H; eauto.
  - intros H i t Hi. apply nth_error_In in Hi. apply (H _ Hi).
Qed.
Lemma inks_edges l e : inks l e <-> In e (ks_edges K l).
Proof.
  unfold ks_edges. rewrite in_concat. split.
  - intros [i [[t|] [H1 H2]]]; [|destruct H2]. exists (kt_edges K t). split; auto.
    apply in_map_iff. exists (Some t). split; auto. eapply nth_error_In; eauto.
  - intros [x [H1 H2]]. apply in_map_iff in H1. destruct H1 as [[t|] [<- H1]]; [|destruct H2].
    apply In_nth_error in H1. destruct H1 as [i Hi]. exists i, (Some t). auto.
Qed.
Lemma inks_split l j o e : nth_error l j = Some o -> (inks l e <-> oin o e \/ inks1 l j e).
Proof.
  intros H. split.
  - intros [i [p [H1 H2]]]. destruct (Nat.eq_dec i j) as [->|Hne]; [left; congruence|right; exists i, p; auto].
  - intros [H1|[i [p [_ [H1 H2]]]]]; [exists j, o; auto|exists i, p; auto].
Qed.
Lemma inks1_split l j p o e : p <> j -> nth_error l p = Some o -> (inks1 l j e <-> oin o e \/ inks2 l j p e).
Proof.
  intros Hp H. split.
  - intros [i [q [H0 [H1 H2]]]]. destruct (Nat.eq_dec i p) as [->|Hne]; [left; congruence|right; exists i, q; auto].
  - intros [H1|[i [q [H0 [H3 [H1 H2]]]]]]; [exists p, o; auto|exists i, q; auto].
Qed.
Lemma inks1_upd l j o e : inks1 (upd l j o) j e <-> inks1 l j e.
Proof. split; intros [i [q [H0 [H1 H2]]]]; exists i, q; sp; auto; rewrite nth_error_upd_neq in *; auto. Qed.
Lemma inks2_upd l j p o e : inks2 (upd l p o) j p e <-> inks2 l j p e.
Proof. split; intros [i [q [H0 [H3 [H1 H2]]]]]; exists i, q; sp; auto; rewrite nth_error_upd_neq in *; auto. Qed.
Lemma inks_upd l j o e : j < length l -> (inks (upd l j o) e <-> oin o e \/ inks1 l j e).
Proof.
  intros H. rewrite (inks_split _ j o) by (apply nth_error_upd_eq; auto). rewrite inks1_upd. tauto.
Qed.
Lemma ldisj1 l j o e : ldisj l -> nth_error l j = Some o -> oin o e -> ~ inks1 l j e.
Proof. intros H H1 H2 [i [q [H3 [H4 H5]]]]. apply (H i j q o e); auto. Qed.
Lemma ldisj_upd l j o : ldisj l -> (forall e, oin o e -> ~ inks1 l j e) -> ldisj (upd l j o).
Proof.
  intros H Ho i i' a b e Hne Ha Hb Hea Heb. rewrite nth_error_upd in Ha, Hb.
  destruct (Nat.eqb_spec j i) as [Hi|Hi], (Nat.eqb_spec j i') as [Hi'|Hi']; subst; try congruence.
  - destruct (i <? length l); [|discriminate]. injection Ha as <-. apply (Ho e Hea). exists i', b. auto.
  - destruct (i' <? length l); [|discriminate]. injection Hb as <-. apply (Ho e Heb). exists i, a. auto.
  - apply (H i i' a b e); auto.
Qed.
Lemma lwf_upd l j o : lwf l -> (forall t, o = Some t -> wf L n t) -> lwf (upd l j o).
Proof.
  intros H Ho i t Hi. rewrite nth_error_upd in Hi. destruct (Nat.eqb_spec j i) as [->|_]; [|eapply H; eauto].
  destruct (i <? length l); [|discriminate]. apply Ho. congruence.
Qed.
Lemma upd_comm {A} (l : list A) i j a b : i <> j -> upd (upd l i a) j b = upd (upd l j b) i a.
Proof.
  intros H. apply list_ext. intros k. rewrite !nth_error_upd, !length_upd.
  destruct (Nat.eqb_spec j k), (Nat.eqb_spec i k); subst; try congruence; reflexivity.
Qed.
Lemma nth_lt {A} (l : list A) i a : nth_error l i = Some a -> i < length l.
Proof. intros H. apply nth_error_Some. congruence. Qed.

(** The contents of slot p move into slot j. *)
Lemma slot_merge l j p oj op o' : nth_error l j = Some oj -> nth_error l p = Some op -> j <> p ->
  (forall e, oin o' e <-> oin oj e \/ oin op e) -> ldisj l ->
  ldisj (upd (upd l j o') p None) /\ (forall e, inks (upd (upd l j o') p None) e <-> inks l e).
Proof.
  intros Hj Hp Hne Ho H. rewrite upd_comm by auto.
  pose proof (nth_lt _ _ _ Hj) as Lj. pose proof (nth_lt _ _ _ Hp) as Lp.
  assert (Hu : nth_error (upd l p None) p = Some None) by (apply nth_error_upd_eq; auto).
  assert (H0 : ldisj (upd l p None)) by (apply ldisj_upd; auto; intros e []).
  assert (H1 : forall e, inks1 (upd l p None) j e <-> inks2 l j p e).
  { intros e. rewrite (inks1_split _ j p None e) by auto. rewrite inks2_upd. cbn. tauto. }
  split.
  - apply ldisj_upd; auto. intros e He. rewrite H1. intros G. apply Ho in He. destruct He as [He|He].
    + apply (ldisj1 l j oj e H Hj He). apply (inks1_split l j p op); auto.
    + apply (ldisj1 l p op e H Hp He). destruct G as [i [q [G1 [G2 [G3 G4]]]]]. exists i, q. auto.
  - intros e. rewrite inks_upd by (rewrite length_upd; auto). rewrite H1, (inks_split l j oj e Hj), (inks1_split l j p op e) by auto.
    rewrite Ho. tauto.
Qed.
(** A tree from outside moves into slot j. *)
Lemma slot_put l j oj o' (P : edge -> Prop) : nth_error l j = Some oj -> (forall e, oin o' e <-> oin oj e \/ P e) ->
  (forall e, P e -> ~ inks l e) -> ldisj l ->
  ldisj (upd l j o') /\ (forall e, inks (upd l j o') e <-> inks l e \/ P e).
Proof.
  intros Hj Ho HP H. pose proof (nth_lt _ _ _ Hj) as Lj. split.
  - apply ldisj_upd; auto. intros e He G. apply Ho in He. destruct He as [He|He].
    + apply (ldisj1 l j oj e H Hj He G).
    + apply (HP e He). apply (inks_split l j oj); auto.
  - intros e. rewrite inks_upd, (inks_split l j oj), Ho by auto. tauto.
Qed.

Lemma next_tree_some l : forall cnt i j, next_tree K l i cnt = Some j ->
  i <= j < i + cnt /\ (exists t, nth_error l j = Some (Some t)) /\ forall k t, i <= k < j -> nth_error l k <> Some (Some t).
Proof.
  induction cnt as [|c IH]; intros i j H; cbn in H; [discriminate|].
  destruct (nth_error l i) as [[t|]|] eqn:E.
  - injection H as <-. sp; try lia; eauto.
  - apply IH in H. destruct H as [H1 [H2 H3]]. sp; try lia; auto. intros k u Hk.
    destruct (Nat.eq_dec k i) as [->|]; [congruence|apply H3; lia].
  - apply IH in H. destruct H as [H1 [H2 H3]]. sp; try lia; auto. intros k u Hk.
    destruct (Nat.eq_dec k i) as [->|]; [congruence|apply H3; lia].
Qed.
Lemma next_tree_none l : forall cnt i, next_tree K l i cnt = None -> forall k t, i <= k < i + cnt -> nth_error l k <> Some (Some t).
Proof.
  induction cnt as [|c IH]; intros i H k t Hk; [lia|]. cbn in H.
  destruct (nth_error l i) as [[u|]|] eqn:E; [discriminate| |];
    (destruct (Nat.eq_dec k i) as [->|]; [congruence|apply (IH _ H); lia]).
Qed.

(** ** One call of union_delay *)
Definition tmp_in (d : dl) (e : edge) : Prop := RS <= u_prev d /\ oin (d_tmp d) e.
Lemma ud_spec d d' : let l := ks (d_g d) in let l' := ks (d_g d') in
  length l = RS -> u_final d < RS -> lwf l -> ldisj l ->
  (forall t, d_tmp d = Some t -> wf L n t) -> (forall e, tmp_in d e -> ~ inks l e) ->
  (u_prev d < RS -> u_prev d < u_i d) -> u_i d <= u_final d -> union_delay K d = Ok d' ->
  length l' = RS /\ lwf l' /\ ldisj l' /\ u_final d' = u_final d /\ S (u_i d) <= u_i d' /\
  (u_prev d' < RS -> u_prev d' < u_i d') /\ d_tmp d' = (if u_prev d <? RS then d_tmp d else None) /\
  (forall e, inks l' e <-> inks l e \/ tmp_in d e) /\
  max_r (d_g d') = max_r (d_g d) /\ nv (d_g d') = nv (d_g d) /\ nt (d_g d') = nt (d_g d) /\ C0_ (d_g d') = C0_ (d_g d).
Proof.
  intros l l' Hl Hf Hw Hd Ht Htd Hp Hi E. subst l l'. unfold union_delay in E.
  destruct (Nat.ltb_spec (u_final d) (length (ks (d_g d)))) as [_|]; [|lia].
  destruct (next_tree K (ks (d_g d)) (u_i d) (S (u_final d) - u_i d)) as [j|] eqn:Ej.
  - apply next_tree_some in Ej. destruct Ej as [Hj [[t Et] _]]. rewrite Et in E.
    destruct (Nat.ltb_spec (u_prev d) RS) as [Hpr|Hpr].
    + destruct (nth_error (ks (d_g d)) (u_prev d)) as [[s|]|] eqn:Es; try discriminate. injection E as <-. cbn [d_g ks max_r nv nt C0_ u_final u_i u_prev d_tmp].
      destruct (law_union L n t s (Hw _ _ Et) (Hw _ _ Es)) as [U1 [U2 _]].
      destruct (slot_merge _ j (u_prev d) (Some t) (Some s) (Some (kt_union K t s)) Et Es) as [M1 M2]; auto; [lia|].
      sp; auto; try lia.
      * rewrite !length_upd. auto.
      * apply lwf_upd; [apply lwf_upd; auto; congruence|discriminate].
      * intros e. rewrite M2. unfold tmp_in. split; [auto|]. intros [G|[G _]]; [auto|lia].
    + destruct (d_tmp d) as [s|] eqn:Es; [|discriminate]. injection E as <-. cbn [d_g ks max_r nv nt C0_ u_final u_i u_prev d_tmp].
      destruct (law_union L n t s (Hw _ _ Et) (Ht _ eq_refl)) as [U1 [U2 _]].
      destruct (slot_put (ks (d_g d)) j (Some t) (Some (kt_union K t s)) (tmp_in d) Et) as [M1 M2]; auto.
      { intros e. unfold tmp_in. rewrite Es. cbn. rewrite U2. intuition. }
      sp; auto; try lia.
      * rewrite !length_upd. auto.
      * apply lwf_upd; auto; congruence.
  - pose proof (next_tree_none _ _ _ Ej) as Hn'.
    assert (Hfin : nth_error (ks (d_g d)) (u_final d) = Some None).
    { destruct (nth_error (ks (d_g d)) (u_final d)) as [[t|]|] eqn:Ef; auto.
      - elim (Hn' (u_final d) t); auto. lia.
      - apply nth_error_None in Ef. lia. }
    destruct (Nat.ltb_spec (u_prev d) RS) as [Hpr|Hpr].
    + destruct (nth_error (ks (d_g d)) (u_prev d)) as [o|] eqn:Es; [|discriminate]. injection E as <-. cbn [d_g ks max_r nv nt C0_ u_final u_i u_prev d_tmp].
      destruct (slot_merge _ (u_final d) (u_prev d) None o o Hfin Es) as [M1 M2]; auto; [lia|cbn; tauto|].
      sp; auto; try lia.
      * rewrite !length_upd. auto.
      * apply lwf_upd; [apply lwf_upd; auto|discriminate]. intros t ->. eapply Hw; eauto.
      * intros e. rewrite M2. unfold tmp_in. split; [auto|]. intros [G|[G _]]; [auto|lia].
    + injection E as <-. cbn [d_g ks max_r nv nt C0_ u_final u_i u_prev d_tmp].
      destruct (slot_put (ks (d_g d)) (u_final d) None (d_tmp d) (tmp_in d) Hfin) as [M1 M2]; auto.
      { intros e. unfold tmp_in. cbn. intuition. }
      sp; auto; try lia.
      * rewrite !length_upd. auto.
      * apply lwf_upd; auto.
Qed.

(** ** The invariant *)
Record dl_inv (d : dl) (sl : slots) : Prop := {
  dn_nv : nv (d_g d) = n;
  dn_len : length (ks (d_g d)) = RS;
  dn_maxr : max_r (d_g d) < RS;
  dn_c0 : c0_inv (C0_ (d_g d)) sl;
  dn_c0nv : c_nv (C0_ (d_g d)) = n;
  dn_range : Forall (in_range n) (live_edges sl);
  dn_wf : lwf (ks (d_g d));
  dn_disj : ldisj (ks (d_g d));
  dn_c0ks : forall e, In e (live_edges sl) -> ~ inks (ks (d_g d)) e;
  dn_tmp : d_tmp d = None;
  dn_final : u_final d < RS;
  dn_prev : u_prev d < RS -> u_prev d < u_i d
}.
Definition in_dl (d : dl) (sl : slots) (e : edge) : Prop := In e (live_edges sl) \/ inks (ks (d_g d)) e.

Lemma lwf_adj l x y : lwf l -> in_range n (x, y) -> (ks_adj K l x y = true <-> inks l (x, y)).
Proof. intros H Hr. rewrite inks_edges. apply (ks_adj_spec K L n); auto. apply lwf_ks; auto. Qed.

Lemma dl_contains_spec d sl x y : dl_inv d sl -> in_range n (x, y) ->
  exists b, dl_contains K d x y = Ok b /\ (b = true <-> in_dl d sl (x, y)).
Proof.
  intros H Hr. unfold dl_contains, dk_contains. rewrite (inv_contains _ _ _ (dn_c0 _ _ H)). cbn [obind].
  eexists. split; [reflexivity|]. unfold in_dl. rewrite <- emem_In, <- (lwf_adj _ _ _ (dn_wf _ _ H) Hr).
  destruct (emem (x, y) (live_edges sl)); intuition.
Qed.

Lemma inks_range l e : lwf l -> inks l e -> in_range n e.
Proof. intros H [i [[t|] [H1 H2]]]; [|destruct H2]. apply (law_edges_range L n t e (H _ _ H1) H2). Qed.

(** union_delay inside add_edge *)
Lemma ud_inv d sl d' : dl_inv d sl -> u_i d <= u_final d -> union_delay K d = Ok d' ->
  dl_inv d' sl /\ (forall e, inks (ks (d_g d')) e <-> inks (ks (d_g d)) e) /\ nt (d_g d') = nt (d_g d) /\
  S (u_i d) <= u_i d' /\ C0_ (d_g d') = C0_ (d_g d) /\ u_final d' = u_final d /\ max_r (d_g d') = max_r (d_g d).
Proof.
  intros H Hi E.
  destruct (ud_spec d d' (dn_len _ _ H) (dn_final _ _ H) (dn_wf _ _ H) (dn_disj _ _ H)) as (A1&A2&A3&A4&A5&A6&A7&A8&A9&A10&A11&A12); auto.
  { rewrite (dn_tmp _ _ H). discriminate. }
  { intros e [_ G]. rewrite (dn_tmp _ _ H) in G. destruct G. }
  { apply (dn_prev _ _ H). }
  assert (A8' : forall e, inks (ks (d_g d')) e <-> inks (ks (d_g d)) e).
  { intros e. rewrite A8. unfold tmp_in. rewrite (dn_tmp _ _ H). cbn. tauto. }
  sp; auto. constructor; auto; try (rewrite ?A9, ?A10, ?A12; apply H).
  - intros e He. rewrite A8'. apply (dn_c0ks _ _ H); auto.
  - rewrite A7, (dn_tmp _ _ H). destruct (u_prev d <? RS); reflexivity.
  - rewrite A4. apply H.
Qed.


(** What union_delay does to each tree. *)
Lemma ud_trees d d' i t' : union_delay K d = Ok d' -> nth_error (ks (d_g d')) i = Some (Some t') ->
  (exists t, nth_error (ks (d_g d)) i = Some (Some t) /\
     (t' = t \/ exists s, t' = kt_union K t s /\ ((exists j, nth_error (ks (d_g d)) j = Some (Some s)) \/ d_tmp d = Some s))) \/
  (i = u_final d /\ ((u_prev d < RS /\ nth_error (ks (d_g d)) (u_prev d) = Some (Some t')) \/
                     (RS <= u_prev d /\ d_tmp d = Some t'))).
Proof.
  intros E H. unfold union_delay in E. destruct (u_final d <? length (ks (d_g d))); [|discriminate].
  destruct (next_tree K (ks (d_g d)) (u_i d) (S (u_final d) - u_i d)) as [j|].
  - destruct (nth_error (ks (d_g d)) j) as [[t|]|] eqn:Et; try discriminate.
    destruct (Nat.ltb_spec (u_prev d) RS) as [Hp|Hp].
    + destruct (nth_error (ks (d_g d)) (u_prev d)) as [[s|]|] eqn:Es; try discriminate. injection E as <-.
      cbn [d_g ks] in H. rewrite !nth_error_upd, !length_upd in H.
      destruct (Nat.eqb_spec (u_prev d) i).
      { dltb H; discriminate. }
      destruct (Nat.eqb_spec j i) as [->|].
      * dltb H; [|discriminate]. injection H as <-. left. exists t. split; [auto|]. right. exists s. split; [reflexivity|]. eauto.
      * left. eauto.
    + destruct (d_tmp d) as [s|] eqn:Es; [|discriminate]. injection E as <-.
      cbn [d_g ks] in H. rewrite !nth_error_upd in H. destruct (Nat.eqb_spec j i) as [->|].
      * dltb H; [|discriminate]. injection H as <-. left. exists t. split; [auto|]. right. exists s. split; [reflexivity|]. eauto.
      * left. eauto.
  - destruct (Nat.ltb_spec (u_prev d) RS) as [Hp|Hp].
    + destruct (nth_error (ks (d_g d)) (u_prev d)) as [o|] eqn:Es; [|discriminate]. injection E as <-.
      cbn [d_g ks] in H. rewrite !nth_error_upd, !length_upd in H.
      destruct (Nat.eqb_spec (u_prev d) i).
      { dltb H; discriminate. }
      destruct (Nat.eqb_spec (u_final d) i) as [<-|].
      * dltb H; [|discriminate]. right. split; [auto|]. left. split; [auto|congruence].
      * left. eauto.
    + injection E as <-. cbn [d_g ks] in H. rewrite !nth_error_upd in H.
      destruct (Nat.eqb_spec (u_final d) i) as [<-|].
      * dltb H; [|discriminate]. right. split; [auto|]. right. split; [auto|congruence].
      * left. eauto.
Qed.
Lemma ud_prev d d' : union_delay K d = Ok d' -> u_prev d' < RS -> u_prev d < RS \/ d_tmp d <> None.
Proof.
  intros E H. unfold union_delay in E. destruct (u_final d <? length (ks (d_g d))); [|discriminate].
  destruct (next_tree K (ks (d_g d)) (u_i d) (S (u_final d) - u_i d)) as [j|].
  - destruct (nth_error (ks (d_g d)) j) as [[t|]|] eqn:Et; try discriminate.
    destruct (Nat.ltb_spec (u_prev d) RS) as [Hp|Hp]; [auto|].
    destruct (d_tmp d) as [s|] eqn:Es; [|discriminate]. right. congruence.
  - destruct (Nat.ltb_spec (u_prev d) RS) as [Hp|Hp]; [auto|]. injection E as <-. cbn [u_prev] in H. lia.
Qed.

Definition below (d : dl) : Prop := ks_below K (d_g d) /\ (u_prev d < RS -> u_final d <= max_r (d_g d)).
Definition fresh (l : list (option ktree)) : Prop := forall i t, nth_error l i = Some (Some t) -> kt_marked K t = 0%N.

Lemma ud_below d d' : union_delay K d = Ok d' -> u_final d' = u_final d -> max_r (d_g d') = max_r (d_g d) ->
  ks_below K (d_g d) -> (u_prev d < RS \/ d_tmp d <> None -> u_final d <= max_r (d_g d)) -> below d'.
Proof.
  intros E Ef Em H1 H2. split.
  - intros i t Hi. rewrite Em. destruct (ud_trees _ _ _ _ E Hi) as [[u [G _]]|[-> [[G1 G2]|[G1 G2]]]].
    + eapply H1; eauto.
    + apply H2. auto.
    + apply H2. right. congruence.
  - rewrite Ef, Em. intros G. apply H2. eapply ud_prev; eauto.
Qed.
Lemma ud_fresh d d' : union_delay K d = Ok d' -> lwf (ks (d_g d)) -> (forall t, d_tmp d = Some t -> wf L n t) ->
  fresh (ks (d_g d)) -> (forall t, d_tmp d = Some t -> kt_marked K t = 0%N) -> fresh (ks (d_g d')).
Proof.
  intros E Hw Htw H1 H2 i t Hi. destruct (ud_trees _ _ _ _ E Hi) as [[u [G1 [->|[s [-> G2]]]]]|[-> [[G1 G2]|[G1 G2]]]].
  - eapply H1; eauto.
  - assert (Ws : wf L n s) by (destruct G2 as [[j G2]|G2]; eauto).
    apply (law_union L n u s (Hw _ _ G1) Ws). eapply H1; eauto.
  - eapply H1; eauto.
  - auto.
Qed.

(** ** add_edge *)
Definition dl_m (d : dl) : N := dk_m K (d_g d).

Lemma step_union d sl d1 : dl_inv d sl -> (if work_done K d then Ok d else union_delay K d) = Ok d1 ->
  dl_inv d1 sl /\ (forall e, inks (ks (d_g d1)) e <-> inks (ks (d_g d)) e) /\ nt (d_g d1) = nt (d_g d) /\
  C0_ (d_g d1) = C0_ (d_g d) /\ u_final d1 = u_final d /\ max_r (d_g d1) = max_r (d_g d) /\
  (u_i d1 <= u_final d1 -> S (u_i d) <= u_i d1) /\
  (below d -> below d1) /\ (fresh (ks (d_g d)) -> fresh (ks (d_g d1))).
Proof.
  intros H E. unfold work_done in E. destruct (Nat.ltb_spec (u_final d) (u_i d)) as [G|G].
  - injection E as <-. sp; auto. 1: tauto. lia.
  - destruct (ud_inv d sl d1 H G E) as (A1&A2&A3&A4&A5&A6&A7). sp; auto.
    + intros [B1 B2]. apply (ud_below d d1); auto. intros [B|B]; [auto|]. elim B. apply (dn_tmp _ _ H).
    + intros B. apply (ud_fresh d d1); auto.
      * apply (dn_wf _ _ H).
      * rewrite (dn_tmp _ _ H). discriminate.
      * rewrite (dn_tmp _ _ H). discriminate.
Qed.

Lemma dl_add_spec (Hn : (2 <= n)%N) d sl x y : dl_inv d sl -> in_range n (x, y) ->
  match dl_add T K d x y with
  | Undefined => True
  | Thrown d' => dl_inv d' sl /\ (forall e, in_dl d' sl e <-> in_dl d sl e) /\ nt (d_g d') = nt (d_g d)
  | Done d' => exists sl', dl_inv d' sl' /\ (forall e, in_dl d' sl' e <-> in_dl d sl e \/ e = (x, y)) /\
      (in_dl d sl (x, y) -> nt (d_g d') = nt (d_g d)) /\
      (~ in_dl d sl (x, y) -> nt (d_g d') = (nt (d_g d) + 1)%N) /\
      (below d -> below d') /\ (fresh (ks (d_g d)) -> fresh (ks (d_g d'))) /\
      (all_live sl -> all_live sl')
  end.
Proof.
  intros H Hr. unfold dl_add.
  destruct (if work_done K d then Ok d else union_delay K d) as [d1|] eqn:E1; cbn [rbind]; auto.
  destruct (step_union d sl d1 H E1) as (A1&A2&A3&A4&A5&A6&A7&A8&A9).
  assert (Ain : forall e, in_dl d1 sl e <-> in_dl d sl e) by (intros e; unfold in_dl; rewrite A2; tauto).
  destruct (dl_contains_spec d1 sl x y A1 Hr) as [b [Eb Hb]]. rewrite Eb. cbn [rbind].
  destruct b.
  { assert (Hin : in_dl d sl (x, y)) by (apply Ain, Hb; auto). exists sl. sp; auto.
    - intros e. rewrite Ain. split; auto. intros [G| ->]; auto.
    - intros G. tauto. }
  assert (Hni : ~ in_dl d1 sl (x, y)) by (intros G; apply Hb in G; discriminate).
  destruct (maxsz T (dk_m K (d_g d1)) 0) as [ms|]; cbn [rbind]; auto.
  destruct (N.of_nat (c0_size (C0_ (d_g d1))) <? ms)%N.
  - destruct (c0_insert T (C0_ (d_g d1)) (x, y) (nt (d_g d1))) as [c|] eqn:Ei; cbn [rbind]; auto.
    assert (Hnl : ~ In (x, y) (live_edges sl)) by (intros G; apply Hni; left; auto).
    destruct (insert_inv _ _ _ _ _ _ (dn_c0 _ _ A1) Ei) as [Hv [_ Hi]].
    rewrite (proj2 (emem_false _ _) Hnl) in Hi.
    assert (HIN : forall e, In e (live_edges (sl ++ [((x, y), true)])) <-> In e (live_edges sl) \/ e = (x, y)).
    { intros e. rewrite live_edges_app, in_app_iff. cbn. intuition. }
    exists (sl ++ [((x, y), true)]). sp; auto.
    + constructor; cbn [d_g nv ks max_r C0_ d_tmp u_final u_prev u_i]; auto; try apply A1.
      * rewrite Hv. apply A1.
      * rewrite Forall_forall. intros e He. apply HIN in He. destruct He as [He| ->]; auto.
        apply (proj1 (Forall_forall _ _) (dn_range _ _ A1)). auto.
      * intros e He. apply HIN in He. destruct He as [He| ->]; [apply (dn_c0ks _ _ A1); auto|].
        intros G. apply Hni. right; auto.
    + intros e. rewrite <- Ain. unfold in_dl. cbn [d_g ks]. rewrite HIN. tauto.
    + intros G. apply Ain in G. tauto.
    + intros _. cbn [d_g nt]. lia.
    + intros G. apply Forall_app. split; auto.
  - destruct (work_done K d1); auto.
    destruct (find_level T K (dk_m K (d_g d1)) (ks (d_g d1)) 0 ms) as [i|] eqn:Ef; auto.
    apply (find_level_range T K n Hn) in Ef. rewrite (dn_len _ _ A1) in Ef.
    rewrite (inv_converted _ _ (dn_c0 _ _ A1)). cbn [rbind].
    destruct (inv_clean _ _ (dn_c0 _ _ A1)) as [c [Ec [Hc [_ Hcv]]]]. rewrite Ec. cbn [rbind].
    rewrite (dn_nv _ _ A1).
    set (tmp := kt_build K (live_edges sl ++ [(x, y)]) n).
    set (d2 := mkdl (mkdk (Nat.max i (max_r (d_g d1))) n (nt (d_g d1)) c (ks (d_g d1))) 0 RS i (Some tmp)).
    assert (Hnl : ~ In (x, y) (live_edges sl)) by (intros G; apply Hni; left; auto).
    destruct (law_build L n (live_edges sl ++ [(x, y)])) as [B1 [B2 B3]]; auto.
    { destruct (live_edges sl); discriminate. }
    { apply NoDup_app. sp.
      - apply uniq_nodup, (inv_uniq _ _ (dn_c0 _ _ A1)).
      - repeat constructor; auto.
      - intros e He [<-|[]]. auto. }
    { apply Forall_app. split; [apply (dn_range _ _ A1)|repeat constructor; apply Hr]. }
    fold tmp in B1, B2, B3.
    destruct (union_delay K d2) as [d3|] eqn:E3; cbn [rbind]; auto.
    assert (Ht2 : forall e, tmp_in d2 e <-> In e (live_edges sl) \/ e = (x, y)).
    { intros e. unfold tmp_in, d2. cbn [u_prev d_tmp oin]. rewrite B3, in_app_iff. cbn. intuition. }
    destruct (ud_spec d2 d3) as (U1&U2&U3&U4&U5&U6&U7&U8&U9&U10&U11&U12); auto;
      try (cbn [d2 d_g ks u_final u_i u_prev d_tmp]; first [apply A1 | lia]).
    { intros t Ht. cbn [d2 d_tmp] in Ht. injection Ht as <-. auto. }
    { intros e He. apply Ht2 in He. cbn [d2 d_g ks]. destruct He as [He| ->]; [apply (dn_c0ks _ _ A1); auto|].
      intros G. apply Hni. right; auto. }
    assert (HS : forall e, inks (ks (d_g d3)) e <-> in_dl d sl e \/ e = (x, y)).
    { intros e. rewrite U8, Ht2, <- Ain. unfold in_dl. cbn [d2 d_g ks]. tauto. }
    exists []. sp.
    + constructor; cbn [d_g nv ks max_r C0_ d_tmp u_final u_prev u_i]; auto.
      * rewrite U9. cbn [d2 d_g max_r]. pose proof (dn_maxr _ _ A1). unfold RS in *. lia.
      * rewrite U12. auto.
      * rewrite U12. cbn [d2 d_g C0_]. rewrite Hcv. apply A1.
      * constructor.
      * rewrite U4. cbn. lia.
    + intros e. rewrite <- HS. unfold in_dl. cbn [d_g ks]. cbn. tauto.
    + intros G. apply Ain in G. tauto.
    + intros _. cbn [d_g nt]. rewrite U11. cbn. lia.
    + intros HB. apply A8 in HB. destruct HB as [HB1 HB2].
      destruct (ud_below d2 d3) as [G1 G2]; auto.
      { intros j t Hj. cbn [d2 d_g ks max_r] in *. apply HB1 in Hj. lia. }
      { cbn [d2 d_g max_r u_final]. lia. }
      split; [exact G1|exact G2].
    + intros HF. cbn [d_g ks]. apply (ud_fresh d2 d3); auto.
      * apply (dn_wf _ _ A1).
      * intros t Ht. cbn [d2 d_tmp] in Ht. injection Ht as <-. auto.
      * intros t Ht. cbn [d2 d_tmp] in Ht. injection Ht as <-. auto.
    + constructor.
Qed.


(** ** del_edge *)
Lemma ldisj_cons o l : ldisj (o :: l) <-> ldisj l /\ forall e, oin o e -> ~ inks l e.
Proof.
  split.
  - intros H. split.
    + intros i j a b e Hne Ha Hb. apply (H (S i) (S j)); auto.
    + intros e He [i [q [H1 H2]]]. apply (H 0 (S i) o q e); auto.
  - intros [H1 H2] i j a b e Hne Ha Hb Hea Heb. destruct i as [|i], j as [|j]; [congruence| | |].
    + cbn in Ha. injection Ha as <-. apply (H2 e Hea). exists j, b. auto.
    + cbn in Hb. injection Hb as <-. apply (H2 e Heb). exists i, a. auto.
    + apply (H1 i j a b e); auto.
Qed.
Lemma lwf_cons o l : lwf (o :: l) <-> (forall t, o = Some t -> wf L n t) /\ lwf l.
Proof.
  split.
  - intros H. split.
    + intros t ->. apply (H 0 t). reflexivity.
    + intros i t Hi. apply (H (S i) t Hi).
  - intros [H1 H2] [|i] t Hi; cbn in Hi; [apply H1; congruence|apply (H2 i t Hi)].
Qed.
Lemma inks_cons o l e : inks (o :: l) e <-> oin o e \/ inks l e.
Proof.
  split.
  - intros [[|i] [q [H1 H2]]]; cbn in H1; [left; congruence|right; exists i, q; auto].
  - intros [H|[i [q [H1 H2]]]]; [exists 0, o; auto|exists (S i), q; auto].
Qed.

Lemma dl_erase_spec l x y : lwf l -> ldisj l -> in_range n (x, y) ->
  let '(b, k, l') := dl_erase K l x y in
  length l' = length l /\ lwf l' /\ ldisj l' /\ (b = true <-> inks l (x, y)) /\
  (forall e, inks l' e <-> inks l e /\ e <> (x, y)) /\
  (forall i t', nth_error l' i = Some (Some t') -> exists t, nth_error l i = Some (Some t)) /\
  (k <= ks_marked K l')%N /\ (ks_marked K l' <= ks_marked K l + 1)%N.
Proof.
  intros Hw Hd [Hx Hy]. cbn in Hx, Hy. induction l as [|o l IH].
  - assert (Hno : forall e, ~ inks [] e) by (intros e [[|i] [q [G _]]]; discriminate).
    cbn [dl_erase length ks_marked]. sp; auto; try lia.
    + split; [discriminate|]. intros G. elim (Hno _ G).
    + intros e. pose proof (Hno e). tauto.
    + intros [|i] t' G; discriminate.
  - apply lwf_cons in Hw. destruct Hw as [Hwo Hwl]. apply ldisj_cons in Hd. destruct Hd as [Hdl Hdo].
    specialize (IH Hwl Hdl). cbn [dl_erase].
    destruct o as [t|].
    + specialize (Hwo t eq_refl). pose proof (law_erase_res L n t x y Hwo Hx Hy) as E1.
      pose proof (law_erase L n t x y Hwo Hx Hy) as E2. cbn zeta in E2.
      destruct (kt_erase K t x y) as [b t']. cbn [fst snd] in *. destruct E2 as [W [S M]]. destruct b.
      * assert (Hin : In (x, y) (kt_edges K t)) by (apply E1; auto).
        assert (Hnl : ~ inks l (x, y)) by (apply (Hdo (x, y)); auto).
        assert (Hne : forall e, inks l e -> e <> (x, y)) by (intros e G ->; auto).
        destruct (N.eqb_spec (kt_marked K t') (kt_total K t')) as [Em|Em].
        -- rewrite (law_total L n t' W) in Em.
           assert (Ez : kt_edges K t' = []) by (apply length_zero_iff_nil; lia).
           sp; auto.
           ++ apply lwf_cons. split; auto; try discriminate.
           ++ apply ldisj_cons. split; auto; try (intros e []; fail).
           ++ split; auto. intros _. apply inks_cons. auto.
           ++ intros e. rewrite !inks_cons. cbn [oin]. split.
              ** intros [[]|G]. split; auto.
              ** intros [[G|G] Gne]; [|auto]. assert (Q : In e (kt_edges K t')) by (apply S; auto). rewrite Ez in Q. destruct Q.
           ++ intros [|i] u Hu; cbn in Hu; [discriminate|]. exists u. auto.
           ++ apply N.le_0_l.
           ++ cbn [ks_marked]. lia.
        -- sp; auto.
           ++ apply lwf_cons. split; auto; try congruence.
           ++ apply ldisj_cons. split; auto. intros e He. apply Hdo. apply S in He. apply He.
           ++ split; auto. intros _. apply inks_cons. auto.
           ++ intros e. rewrite !inks_cons. cbn [oin]. rewrite S. pose proof (Hne e). tauto.
           ++ intros [|i] u Hu; cbn in Hu |- *; eauto.
           ++ cbn [ks_marked]. lia.
           ++ cbn [ks_marked]. lia.
      * assert (Hni : ~ In (x, y) (kt_edges K t)) by (intros G; apply E1 in G; discriminate).
        destruct (dl_erase K l x y) as [[b' k] l']. destruct IH as (I1&I2&I3&I4&I5&I6&I7&I8).
        assert (Ht : forall e, In e (kt_edges K t) -> e <> (x, y)) by (intros e G ->; auto).
        sp; auto.
        -- cbn. auto.
        -- apply lwf_cons. split; auto; try congruence.
        -- apply ldisj_cons. split; auto. intros e He G. apply I5 in G. apply S in He. apply (Hdo e); tauto.
        -- rewrite I4, inks_cons. cbn [oin]. tauto.
        -- intros e. rewrite !inks_cons, I5. cbn [oin]. rewrite S. pose proof (Ht e). tauto.
        -- intros [|i] u Hu; cbn in Hu |- *; eauto.
        -- cbn [ks_marked]. lia.
        -- cbn [ks_marked]. lia.
    + destruct (dl_erase K l x y) as [[b' k] l']. destruct IH as (I1&I2&I3&I4&I5&I6&I7&I8). sp; auto.
      * cbn; auto.
      * apply lwf_cons. split; auto; try discriminate.
      * apply ldisj_cons. split; auto; try (intros e []; fail).
      * rewrite I4, inks_cons. cbn [oin]. tauto.
      * intros e. rewrite !inks_cons, I5. cbn [oin]. tauto.
      * intros [|i] u Hu; cbn in Hu |- *; eauto.
Qed.

Lemma inks_app a b e : inks (a ++ b) e <-> inks a e \/ inks b e.
Proof. rewrite !inks_edges, ks_edges_app, in_app_iff. tauto. Qed.
Lemma inks_none k e : ~ inks (repeat None k) e.
Proof. intros [i [o [H1 H2]]]. apply nth_error_In, repeat_spec in H1. subst. destruct H2. Qed.
Lemma ldisj_app a b : ldisj (a ++ b) <-> ldisj a /\ ldisj b /\ forall e, inks a e -> ~ inks b e.
Proof.
  induction a as [|o a IH]; cbn [app].
  - split; [intros H; sp; auto|tauto].
    + intros [|i] j p q e _ G; discriminate.
    + intros e [[|i] [o [G _]]]; discriminate.
  - rewrite !ldisj_cons, IH. split.
    + intros [[H1 [H2 H3]] H4]. sp; auto.
      * intros e He G. apply (H4 e He). apply inks_app. auto.
      * intros e He. apply inks_cons in He. destruct He as [He|He]; auto.
        intros G. apply (H4 e He). apply inks_app; auto.
    + intros [[H1 H2] [H3 H4]]. sp; auto.
      * intros e He. apply H4. apply inks_cons. auto.
      * intros e He G. apply inks_app in G. destruct G as [G|G]; [apply (H2 e He G)|]. apply (H4 e); auto. apply inks_cons; auto.
Qed.

(** the rebuild inside del_edge: everything buffered and all trees up to level i move into level i *)
Lemma dl_rebuild_spec (Hn : (2 <= n)%N) l tmp i (P : edge -> Prop) : length l = RS -> lwf l -> ldisj l -> wf L n tmp ->
  (forall e, In e (kt_edges K tmp) <-> P e) -> (forall e, P e -> ~ inks l e) -> i < RS ->
  let r := merge_upto K tmp l (S i) in
  let l' := upd (snd r) i (Some (fst r)) in
  length l' = RS /\ lwf l' /\ ldisj l' /\ (forall e, inks l' e <-> inks l e \/ P e).
Proof.
  intros Hl Hw Hd Ht HP Hdj Hi r l'.
  destruct (merge_upto_spec K L n Hn (S i) tmp l Ht (proj1 (lwf_ks l) Hw)) as [M1 [M2 [M3 _]]]; [lia|].
  assert (El : l' = repeat None i ++ Some (fst r) :: skipn (S i) l).
  { unfold l', r. rewrite M2. apply (upd_flush K n Hn). lia. }
  clearbody l'. subst l'. fold r in M1, M2, M3.
  assert (Hsplit : forall e, inks l e <-> inks (firstn (S i) l) e \/ inks (skipn (S i) l) e).
  { intros e. rewrite <- inks_app, firstn_skipn. tauto. }
  pose proof Hd as Hd'. rewrite <- (firstn_skipn (S i) l) in Hd'. apply ldisj_app in Hd'. destruct Hd' as [D1 [D2 D3]].
  assert (HR : forall e, In e (kt_edges K (fst r)) <-> P e \/ inks (firstn (S i) l) e).
  { intros e. rewrite M3, HP, inks_edges. tauto. }
  sp.
  - rewrite app_length, repeat_length. cbn [length]. rewrite skipn_length, Hl. unfold RS in *. lia.
  - apply lwf_ks. apply ks_wf_app. split; [apply ks_wf_none|]. constructor; auto.
    apply ks_wf_skipn. apply lwf_ks. auto.
  - apply ldisj_app. sp.
    + intros a b p q e _ Ha Hb G. apply nth_error_In, repeat_spec in Ha. subst. destruct G.
    + apply ldisj_cons. split; auto. intros e He G. cbn [oin] in He. apply HR in He. destruct He as [He|He].
      * apply (Hdj e He). apply Hsplit. auto.
      * apply (D3 e He G).
    + intros e G. elim (inks_none _ _ G).
  - intros e. rewrite inks_app, inks_cons, Hsplit. cbn [oin]. rewrite HR. pose proof (inks_none i e). tauto.
Qed.

Lemma dl_del_spec (Hn : (2 <= n)%N) d sl x y : dl_inv d sl -> in_range n (x, y) ->
  (in_dl d sl (x, y) -> (0 < nt (d_g d))%N) ->
  match dl_del T K d x y with
  | Undefined => True
  | Thrown d' => False
  | Done d' => exists sl', dl_inv d' sl' /\ (forall e, in_dl d' sl' e <-> in_dl d sl e /\ e <> (x, y)) /\
      (in_dl d sl (x, y) -> nt (d_g d) = (nt (d_g d') + 1)%N) /\
      (~ in_dl d sl (x, y) -> nt (d_g d') = nt (d_g d)) /\
      ((forall k, (k <= ks_marked K (ks (d_g d)) + 1)%N -> th_trig T k (nt (d_g d')) = false) ->
        (below d -> below d') /\ (ks_marked K (ks (d_g d')) <= ks_marked K (ks (d_g d)) + 1)%N)
  end.
Proof.
  intros H Hr Hpos. unfold dl_del.
  destruct (erase_total _ _ (x, y) (dn_c0 _ _ H)) as [b [c Ee]]. rewrite Ee. cbn [rbind].
  destruct (erase_inv _ _ _ _ _ (dn_c0 _ _ H) Ee) as [Hb [_ [Hcv [sl' [Hc' [_ [Hlive Hsame]]]]]]].
  destruct b.
  - symmetry in Hb. apply emem_In in Hb.
    assert (Hin : in_dl d sl (x, y)) by (left; auto). specialize (Hpos Hin).
    assert (HL : forall e, In e (live_edges sl') <-> In e (live_edges sl) /\ e <> (x, y)).
    { intros e. rewrite Hlive, filter_In, negb_true_iff, eeqb_neq. intuition. }
    assert (Hnk : ~ inks (ks (d_g d)) (x, y)) by (apply (dn_c0ks _ _ H); auto).
    exists sl'. cbn [d_g nt]. sp; auto.
    + constructor; cbn [d_g nv ks max_r C0_ d_tmp u_final u_prev u_i]; auto; try apply H.
      * rewrite Hcv. apply H.
      * rewrite Forall_forall. intros e He. apply HL in He. apply (proj1 (Forall_forall _ _) (dn_range _ _ H)). tauto.
      * intros e He. apply (dn_c0ks _ _ H). apply HL in He. tauto.
    + intros e. unfold in_dl. cbn [d_g ks]. rewrite HL. split; [|tauto]. intros [G|G]; [tauto|].
      split; auto. intros ->. auto.
    + intros _. rewrite u64_dec_pos by auto. lia.
    + intros G. tauto.
    + intros _. split; [intros G; exact G|]. cbn [ks]. lia.
  - specialize (Hsame eq_refl). subst c. symmetry in Hb. apply emem_false in Hb.
    pose proof (dl_erase_spec (ks (d_g d)) x y (dn_wf _ _ H) (dn_disj _ _ H) Hr) as HE.
    destruct (dl_erase K (ks (d_g d)) x y) as [[eb mk] l]. destruct HE as (E1&E2&E3&E4&E5&E6&E7&E8).
    rewrite (dn_len _ _ H) in E1.
    set (n' := if eb then u64_dec (nt (d_g d)) else nt (d_g d)).
    assert (Hin : in_dl d sl (x, y) <-> eb = true) by (rewrite E4; unfold in_dl; tauto).
    assert (Hnt1 : in_dl d sl (x, y) -> nt (d_g d) = (n' + 1)%N).
    { intros G. unfold n'. rewrite (proj1 Hin G). rewrite u64_dec_pos by auto. specialize (Hpos G). lia. }
    assert (Hnt2 : ~ in_dl d sl (x, y) -> n' = nt (d_g d)).
    { intros G. unfold n'. destruct eb; auto. elim G. apply Hin; auto. }
    assert (HL : forall e, In e (live_edges sl) -> e <> (x, y)) by (intros e G ->; auto).
    assert (HI : forall e, (In e (live_edges sl) \/ inks l e) <-> in_dl d sl e /\ e <> (x, y)).
    { intros e. rewrite E5. unfold in_dl. pose proof (HL e). tauto. }
    destruct (th_trig T mk n') eqn:Etr.
    + destruct (maxsz T _ 0) as [ms|]; cbn [rbind]; auto.
      destruct (find_level T K _ l 0 ms) as [i|] eqn:Ef; auto.
      apply (find_level_range T K n Hn) in Ef. rewrite E1 in Ef.
      cbn [nv C0_ max_r d_g]. rewrite (dn_nv _ _ H).
      assert (Hq : exists tmp c2, (if c0_size (C0_ (d_g d)) =? 0 then Ok (kt_new K n, C0_ (d_g d))
                     else let* conv := c0_converted (C0_ (d_g d)) in
                        let* c := c0_clean (C0_ (d_g d)) in Ok (kt_build K conv n, c)) = Ok (tmp, c2) /\
                  wf L n tmp /\ (forall e, In e (kt_edges K tmp) <-> In e (live_edges sl)) /\
                  (exists sl2, c0_inv c2 sl2 /\ live_edges sl2 = []) /\ c_nv c2 = n).
      { rewrite (inv_size _ _ (dn_c0 _ _ H)). destruct (Nat.eqb_spec (length (live_edges sl)) 0) as [Ez|Ez].
        - apply length_zero_iff_nil in Ez. destruct (law_new L n Hn) as [W [_ W2]].
          exists (kt_new K n), (C0_ (d_g d)). rewrite W2, Ez. sp; auto.
          + tauto.
          + exists sl. split; auto. apply H.
          + apply H.
        - rewrite (inv_converted _ _ (dn_c0 _ _ H)). cbn [obind].
          destruct (inv_clean _ _ (dn_c0 _ _ H)) as [c [Ec [Hc [_ Hcv2]]]]. rewrite Ec. cbn [obind].
          destruct (law_build L n (live_edges sl)) as [B1 [B2 B3]]; auto.
          { intros G. rewrite G in Ez. apply Ez. reflexivity. }
          { apply uniq_nodup, (inv_uniq _ _ (dn_c0 _ _ H)). }
          { apply (dn_range _ _ H). }
          exists (kt_build K (live_edges sl) n), c. sp; auto.
          + exists []. split; auto.
          + rewrite Hcv2. apply H. }
      destruct Hq as [tmp [c2 [Eq [W [HT [[sl2 [Hc2 Hsl2]] Hcv2]]]]]]. rewrite Eq. cbn [rbind].
      destruct (dl_rebuild_spec Hn l tmp i (fun e => In e (live_edges sl)) E1 E2 E3 W HT) as (R1&R2&R3&R4).
      { intros e He G. apply E5 in G. apply (dn_c0ks _ _ H e He). tauto. }
      { lia. }
      destruct (merge_upto K tmp l (S i)) as [t l2]. cbn [fst snd] in *.
      exists sl2. cbn [d_g nt]. sp; auto.
      * constructor; cbn [d_g nv ks max_r C0_ d_tmp u_final u_prev u_i]; auto; try apply H.
        -- rewrite Hsl2. constructor.
        -- rewrite Hsl2. intros e [].
      * intros e. rewrite <- HI. unfold in_dl. cbn [d_g ks]. rewrite R4, Hsl2. cbn. tauto.
      * intros G. rewrite G in Etr; [discriminate|]. lia.
    + exists sl. cbn [d_g nt]. sp; auto.
      * constructor; cbn [d_g nv ks max_r C0_ d_tmp u_final u_prev u_i]; auto; try apply H.
        intros e He G. apply E5 in G. apply (dn_c0ks _ _ H e He). tauto.
      * intros _. split; [|exact E8]. intros [B1 B2]. split; [|exact B2]. intros j t Hj. cbn [d_g ks max_r] in *. destruct (E6 j t Hj) as [u Hu]. eapply B1; eauto.
Qed.

(** ** Histories *)
Record relD (d : dl) (sl : slots) (S : list edge) : Prop := {
  rd_inv : dl_inv d sl;
  rd_set : forall e, in_dl d sl e <-> In e S;
  rd_nodup : NoDup S;
  rd_nt : nt (d_g d) = N.of_nat (length S)
}.

Lemma relD_add (Hn : (2 <= n)%N) d sl S x y d' : relD d sl S -> in_range n (x, y) -> dl_add T K d x y = Done d' ->
  exists sl', relD d' sl' (espec_step S (Add (x, y))) /\ (below d -> below d') /\
    (fresh (ks (d_g d)) -> fresh (ks (d_g d'))) /\ (all_live sl -> all_live sl').
Proof.
  intros [H1 H2 H3 H4] Hr E. pose proof (dl_add_spec Hn d sl x y H1 Hr) as HA. rewrite E in HA.
  destruct HA as [sl' [A1 [A2 [A3 [A4 [A5 [A6 A7]]]]]]]. exists sl'. sp; auto. constructor; auto.
  - intros e. rewrite A2, espec_step_In, H2. tauto.
  - apply espec_step_nodup; auto.
  - cbn [espec_step]. destruct (emem (x, y) S) eqn:Em.
    + rewrite A3; auto. apply H2, emem_In; auto.
    + rewrite A4, H4, app_length; [cbn; lia|]. intros G. apply emem_false in Em. apply Em, H2, G.
Qed.
Lemma relD_del (Hn : (2 <= n)%N) d sl S x y d' : relD d sl S -> in_range n (x, y) -> dl_del T K d x y = Done d' ->
  exists sl', relD d' sl' (espec_step S (Del (x, y))) /\
    ((forall k, (k <= ks_marked K (ks (d_g d)) + 1)%N -> th_trig T k (N.of_nat (length (espec_step S (Del (x, y))))) = false) ->
     (below d -> below d') /\ (ks_marked K (ks (d_g d')) <= ks_marked K (ks (d_g d)) + 1)%N).
Proof.
  intros [H1 H2 H3 H4] Hr E.
  assert (Hp : in_dl d sl (x, y) -> (0 < nt (d_g d))%N).
  { intros G. apply H2 in G. rewrite H4. destruct S; [destruct G|cbn; lia]. }
  pose proof (dl_del_spec Hn d sl x y H1 Hr Hp) as HA. rewrite E in HA.
  destruct HA as [sl' [A1 [A2 [A3 [A4 A5]]]]].
  assert (Hnt : nt (d_g d') = N.of_nat (length (espec_step S (Del (x, y))))).
  { cbn [espec_step]. destruct (in_dec edge_dec (x, y) S) as [Hin|Hin].
    - pose proof (len_remove S (x, y) H3 Hin) as G. specialize (A3 (proj2 (H2 _) Hin)). lia.
    - rewrite A4 by (rewrite H2; auto). rewrite filter_all; auto. intros a Ha. apply negb_true_iff, eeqb_neq. intros <-; auto. }
  exists sl'. split; [constructor; auto|].
  - intros e. rewrite A2, espec_step_In, H2. tauto.
  - apply espec_step_nodup; auto.
  - rewrite <- Hnt. auto.
Qed.
Lemma relD_ops (Hn : (2 <= n)%N) h : forall d sl S d', relD d sl S -> Forall (op_in_range n) h -> dl_ops T K d h = Done d' ->
  exists sl', relD d' sl' (fold_left espec_step h S).
Proof.
  induction h as [|o h IH]; intros d sl S d' H HF E; cbn in *.
  - injection E as <-. eauto.
  - inversion HF as [|? ? Ho Hh]; subst.
    destruct (dl_op T K d o) as [d1|d1|] eqn:Eo; try discriminate.
    assert (G : exists sl1, relD d1 sl1 (espec_step S o)).
    { destruct o as [[x y]|[x y]]; cbn [dl_op] in Eo.
      - destruct (relD_add Hn d sl S x y d1 H Ho Eo) as [sl1 [G _]]. eauto.
      - destruct (relD_del Hn d sl S x y d1 H Ho Eo) as [sl1 [G _]]. eauto. }
    destruct G as [sl1 G]. apply (IH d1 sl1); auto.
Qed.
Lemma relD_new (Hn : (2 <= n)%N) d : dl_new T K n = Ok d -> relD d [] [] /\ below d /\ fresh (ks (d_g d)) /\ ks (d_g d) = repeat None RS /\
  u_i d = 0 /\ u_prev d = RS /\ u_final d = 1 /\ d_tmp d = None.
Proof.
  unfold dl_new. destruct (dk_new T K n) as [g|] eqn:E; cbn [obind]; [|discriminate]. intros G. injection G as <-.
  destruct (dk_new_inv T K L n Hn g E) as [H [H1 [H2 H3]]]. cbn [d_g u_i u_prev u_final d_tmp].
  assert (Hno : forall i t, nth_error (ks g) i <> Some (Some t)).
  { intros i t Hi. rewrite H3 in Hi. apply nth_error_In, repeat_spec in Hi. discriminate. }
  sp; auto.
  - constructor; auto.
    + constructor; cbn [d_g nv ks max_r C0_ d_tmp u_final u_prev u_i]; auto; try apply H.
      * intros i t Hi. elim (Hno _ _ Hi).
      * rewrite H3. intros i j p q e _ Hi Hj G. apply nth_error_In, repeat_spec in Hi. subst. destruct G.
      * unfold RS; lia.
      * intros G. lia.
    + intros e. unfold in_dl. cbn [d_g]. rewrite H3. pose proof (inks_none RS e). cbn [live_edges map filter In]. cbn. tauto.
    + constructor.
  - split; cbn [d_g u_prev].
    + intros i t Hi. elim (Hno _ _ Hi).
    + unfold RS. lia.
  - intros i t Hi. elim (Hno _ _ Hi).
Qed.

Theorem hist_relD (Hn : (2 <= n)%N) h d : Forall (op_in_range n) h -> dl_hist T K n h = Done d -> exists sl, relD d sl (espec h).
Proof.
  intros HF E. unfold dl_hist in E. destruct (dl_new T K n) as [d0|] eqn:E0; cbn [rbind] in E; [|discriminate].
  apply (relD_ops Hn h d0 [] []); auto. apply relD_new; auto.
Qed.


(** ** list_neighbour *)
Lemma lneigh_spec l x : lwf l -> ldisj l -> (x < n)%N ->
  NoDup (ks_neigh K l x) /\ (forall y, In y (ks_neigh K l x) <-> inks l (x, y)).
Proof.
  intros H Hd Hx. induction l as [|o l IH]; cbn [ks_neigh].
  - split; [constructor|]. intros y. split; [intros []|]. intros [[|i] [q [G _]]]; discriminate.
  - apply lwf_cons in H. destruct H as [H1 H2]. apply ldisj_cons in Hd. destruct Hd as [D1 D2].
    destruct (IH H2 D1) as [I1 I2]. destruct o as [t|].
    + specialize (H1 t eq_refl). split.
      * apply NoDup_app. sp; auto.
        -- eapply law_neigh_nodup; eauto.
        -- intros y G1 G2. apply I2 in G2. apply (law_neigh L n t x y H1 Hx) in G1. apply (D2 (x, y) G1 G2).
      * intros y. rewrite in_app_iff, I2, inks_cons, (law_neigh L n t x y H1 Hx). reflexivity.
    + split; auto. intros y. rewrite I2, inks_cons. cbn. tauto.
Qed.
Lemma inks_firstn l k e : inks (firstn k l) e -> inks l e.
Proof. intros H. rewrite <- (firstn_skipn k l). apply inks_app. auto. Qed.

Lemma dl_neigh_spec d sl x : dl_inv d sl -> (x < n)%N ->
  exists l, dl_neigh K d x = Ok l /\ NoDup l /\ (forall y, In y l -> in_dl d sl (x, y)) /\
            (ks_below K (d_g d) -> forall y, in_dl d sl (x, y) -> In y l).
Proof.
  intros H Hx. unfold dl_neigh, dk_neigh. rewrite (inv_neigh _ _ _ (dn_c0 _ _ H)). cbn [obind].
  pose proof (dn_maxr _ _ H) as Hm. rewrite (dn_len _ _ H).
  destruct (Nat.ltb_spec (max_r (d_g d)) RS) as [_|]; [|lia].
  set (l := ks (d_g d)) in *. set (k := S (max_r (d_g d))) in *.
  assert (Hw : lwf (firstn k l)).
  { apply lwf_ks. apply ks_wf_firstn. apply lwf_ks. apply (dn_wf _ _ H). }
  assert (Hd : ldisj (firstn k l)).
  { pose proof (dn_disj _ _ H) as G. fold l in G. rewrite <- (firstn_skipn k l) in G. apply ldisj_app in G. tauto. }
  destruct (lneigh_spec (firstn k l) x Hw Hd Hx) as [N1 N2].
  eexists. split; [reflexivity|]. sp.
  - apply NoDup_app. sp; auto.
    + apply NoDup_rev, NoDup_succs, uniq_nodup, (inv_uniq _ _ (dn_c0 _ _ H)).
    + intros y G1 G2. apply in_rev in G1. apply In_succs in G1. apply N2, inks_firstn in G2.
      apply (dn_c0ks _ _ H (x, y) G1 G2).
  - intros y G. apply in_app_iff in G. destruct G as [G|G].
    + left. apply in_rev in G. apply In_succs; auto.
    + right. apply N2, inks_firstn in G. auto.
  - intros Hb y G. apply in_app_iff. destruct G as [G|G].
    + left. apply in_rev. rewrite rev_involutive. apply In_succs; auto.
    + right. apply N2. destruct G as [i [q [G1 G2]]]. exists i, q. split; auto.
      destruct q as [t|]; [|destruct G2]. apply Hb in G1 as G3.
      rewrite nth_firstn_lt; auto. unfold k. lia.
Qed.

(** ** Marked edges: no rebuild in calm histories *)
(** unionOp does not create marked edges. *)
Definition union_marks : Prop := forall m a b, wf L m a -> wf L m b ->
  (kt_marked K (kt_union K a b) <= kt_marked K a + kt_marked K b)%N.

Definition om (o : option ktree) : N := match o with Some t => kt_marked K t | None => 0%N end.
Lemma marked_cons o l : ks_marked K (o :: l) = (om o + ks_marked K l)%N.
Proof. destruct o; reflexivity. Qed.
Lemma marked_upd l : forall j o o', nth_error l j = Some o -> (ks_marked K (upd l j o') + om o = ks_marked K l + om o')%N.
Proof.
  induction l as [|a l IH]; intros [|j] o o' H; cbn in H; try discriminate; cbn [upd]; rewrite !marked_cons.
  - injection H as <-. lia.
  - pose proof (IH j o o' H). lia.
Qed.
Lemma marked_fresh l : fresh l -> ks_marked K l = 0%N.
Proof.
  induction l as [|o l IH]; intros H; auto. rewrite marked_cons, IH.
  - destruct o as [t|]; auto. cbn. rewrite (H 0 t); auto.
  - intros i t Hi. apply (H (S i) t Hi).
Qed.
Lemma ud_marked d d' : union_marks -> lwf (ks (d_g d)) -> (forall t, d_tmp d = Some t -> wf L n t) ->
  length (ks (d_g d)) = RS -> u_i d <= u_final d -> (u_prev d < RS -> u_prev d < u_i d) ->
  union_delay K d = Ok d' -> (ks_marked K (ks (d_g d')) <= ks_marked K (ks (d_g d)) + om (d_tmp d))%N.
Proof.
  intros HU Hw Ht Hl Hi Hp E. unfold union_delay in E. destruct (Nat.ltb_spec (u_final d) (length (ks (d_g d)))) as [Hlt|]; [|discriminate].
  destruct (next_tree K (ks (d_g d)) (u_i d) (S (u_final d) - u_i d)) as [j|] eqn:Ej.
  - apply next_tree_some in Ej. destruct Ej as [Hj _].
    destruct (nth_error (ks (d_g d)) j) as [[t|]|] eqn:Et; try discriminate.
    destruct (Nat.ltb_spec (u_prev d) RS) as [Hpr|Hpr].
    + destruct (nth_error (ks (d_g d)) (u_prev d)) as [[s|]|] eqn:Es; try discriminate. injection E as <-. cbn [d_g ks].
      pose proof (marked_upd _ j _ (Some (kt_union K t s)) Et) as M1.
      assert (Es' : nth_error (upd (ks (d_g d)) j (Some (kt_union K t s))) (u_prev d) = Some (Some s)).
      { rewrite nth_error_upd_neq; auto. lia. }
      pose proof (marked_upd _ (u_prev d) _ None Es') as M2. cbn [om] in *.
      pose proof (HU n t s (Hw _ _ Et) (Hw _ _ Es)). lia.
    + destruct (d_tmp d) as [s|] eqn:Es; [|discriminate]. injection E as <-. cbn [d_g ks].
      pose proof (marked_upd _ j _ (Some (kt_union K t s)) Et) as M1. cbn [om] in *.
      pose proof (HU n t s (Hw _ _ Et) (Ht _ eq_refl)). lia.
  - pose proof (next_tree_none _ _ _ Ej) as Hn'.
    assert (Hfin : exists o, nth_error (ks (d_g d)) (u_final d) = Some o).
    { destruct (nth_error (ks (d_g d)) (u_final d)) as [o|] eqn:Ef; eauto. apply nth_error_None in Ef. lia. }
    destruct Hfin as [of Hfin].
    destruct (Nat.ltb_spec (u_prev d) RS) as [Hpr|Hpr].
    + destruct (nth_error (ks (d_g d)) (u_prev d)) as [o|] eqn:Es; [|discriminate]. injection E as <-. cbn [d_g ks].
      pose proof (marked_upd _ (u_final d) _ o Hfin) as M1.
      assert (Es' : nth_error (upd (ks (d_g d)) (u_final d) o) (u_prev d) = Some o).
      { rewrite nth_error_upd_neq; auto. lia. }
      pose proof (marked_upd _ (u_prev d) _ None Es') as M2. cbn [om] in *. lia.
    + injection E as <-. cbn [d_g ks]. pose proof (marked_upd _ (u_final d) _ (d_tmp d) Hfin) as M1. lia.
Qed.


Lemma dl_add_marked (Hn : (2 <= n)%N) d sl x y d' : union_marks -> dl_inv d sl -> in_range n (x, y) -> dl_add T K d x y = Done d' ->
  (ks_marked K (ks (d_g d')) <= ks_marked K (ks (d_g d)))%N.
Proof.
  intros HU H Hr E. unfold dl_add in E.
  destruct (if work_done K d then Ok d else union_delay K d) as [d1|] eqn:E1; cbn [rbind] in E; [|discriminate].
  assert (M1 : (ks_marked K (ks (d_g d1)) <= ks_marked K (ks (d_g d)))%N).
  { unfold work_done in E1. destruct (Nat.ltb_spec (u_final d) (u_i d)) as [G|G].
    - injection E1 as <-. lia.
    - pose proof (dn_tmp _ _ H) as Htmp.
      assert (M : (ks_marked K (ks (d_g d1)) <= ks_marked K (ks (d_g d)) + om (d_tmp d))%N).
      { apply (ud_marked d d1); auto; try apply H. rewrite Htmp. discriminate. }
      rewrite Htmp in M. cbn [om] in M. lia. }
  destruct (step_union d sl d1 H E1) as (A1&_).
  destruct (dl_contains_spec d1 sl x y A1 Hr) as [b [Eb Hb]]. rewrite Eb in E. cbn [rbind] in E.
  destruct b; [injection E as <-; auto|].
  assert (Hni : ~ in_dl d1 sl (x, y)) by (intros G; apply Hb in G; discriminate).
  destruct (maxsz T (dk_m K (d_g d1)) 0) as [ms|]; cbn [rbind] in E; [|discriminate].
  destruct (N.of_nat (c0_size (C0_ (d_g d1))) <? ms)%N.
  - destruct (c0_insert T (C0_ (d_g d1)) (x, y) (nt (d_g d1))) as [c|] eqn:Ei; cbn [rbind] in E; [|discriminate].
    injection E as <-. exact M1.
  - destruct (work_done K d1); [|discriminate].
    destruct (find_level T K (dk_m K (d_g d1)) (ks (d_g d1)) 0 ms) as [i|] eqn:Ef; [|discriminate].
    apply (find_level_range T K n Hn) in Ef. rewrite (dn_len _ _ A1) in Ef.
    rewrite (inv_converted _ _ (dn_c0 _ _ A1)) in E. cbn [rbind] in E.
    destruct (inv_clean _ _ (dn_c0 _ _ A1)) as [c [Ec [Hc [_ Hcv]]]]. rewrite Ec in E. cbn [rbind] in E.
    rewrite (dn_nv _ _ A1) in E.
    set (tmp := kt_build K (live_edges sl ++ [(x, y)]) n) in *.
    set (d2 := mkdl (mkdk (Nat.max i (max_r (d_g d1))) n (nt (d_g d1)) c (ks (d_g d1))) 0 RS i (Some tmp)) in *.
    assert (Hnl : ~ In (x, y) (live_edges sl)) by (intros G; apply Hni; left; auto).
    destruct (law_build L n (live_edges sl ++ [(x, y)])) as [B1 [B2 B3]]; auto.
    { destruct (live_edges sl); discriminate. }
    { apply NoDup_app. sp.
      - apply uniq_nodup, (inv_uniq _ _ (dn_c0 _ _ A1)).
      - repeat constructor; auto.
      - intros e He [<-|[]]. auto. }
    { apply Forall_app. split; [apply (dn_range _ _ A1)|repeat constructor; apply Hr]. }
    fold tmp in B1, B2, B3.
    destruct (union_delay K d2) as [d3|] eqn:E3; cbn [rbind] in E; [|discriminate]. injection E as <-. cbn [d_g ks].
    assert (M : (ks_marked K (ks (d_g d3)) <= ks_marked K (ks (d_g d2)) + om (d_tmp d2))%N).
    { apply (ud_marked d2 d3); auto; try (cbn [d2 d_g ks u_final u_i u_prev d_tmp]; first [apply A1 | lia]).
      intros t Ht. cbn [d2 d_tmp] in Ht. injection Ht as <-. auto. }
    cbn [d2 d_g ks d_tmp om] in M. rewrite B2 in M. lia.
Qed.

Lemma calm_ops_dl (Hn : (2 <= n)%N) (HT : th_real T) (HU : union_marks) h : forall d sl S k d', relD d sl S -> below d ->
  (ks_marked K (ks (d_g d)) <= k)%N -> Forall (op_in_range n) h -> calm_from S k h -> dl_ops T K d h = Done d' ->
  exists sl', relD d' sl' (fold_left espec_step h S) /\ below d'.
Proof.
  induction h as [|o h IH]; intros d sl S k d' R B Hk HF HC E; cbn [dl_ops fold_left] in *.
  - injection E as <-; eauto.
  - inversion HF as [|? ? Ho Hh]; subst. destruct (dl_op T K d o) as [d1|d1|] eqn:Eo; try discriminate.
    destruct o as [[x y]|[x y]]; cbn [dl_op calm_from] in *.
    + destruct (relD_add Hn d sl S x y d1 R Ho Eo) as [sl1 [R1 [B1 _]]].
      pose proof (dl_add_marked Hn d sl x y d1 HU (rd_inv _ _ _ R) Ho Eo) as Hm.
      apply (IH d1 sl1 _ k d'); auto. lia.
    + destruct HC as [C1 [C2 C3]].
      destruct (relD_del Hn d sl S x y d1 R Ho Eo) as [sl1 [R1 Q]].
      destruct Q as [Q1 Q2].
      { intros j Hj. cbn [espec_step].
        assert (G : length (filter (fun f => negb (eeqb (x, y) f)) S) <= length S /\
                    length S <= 1 + length (filter (fun f => negb (eeqb (x, y) f)) S)).
        { destruct (in_dec edge_dec (x, y) S) as [Hin|Hin].
          - pose proof (len_remove S (x, y) (rd_nodup _ _ _ R) Hin). lia.
          - rewrite filter_all; [lia|]. intros a Ha. apply negb_true_iff, eeqb_neq. intros <-; auto. }
        apply th_trig_small; auto; lia. }
      apply (IH d1 sl1 _ (k + 1)%N d'); auto. lia.
Qed.
Lemma hist_calm_dl (Hn : (2 <= n)%N) (HT : th_real T) (HU : union_marks) h d : Forall (op_in_range n) h -> calm h ->
  dl_hist T K n h = Done d -> exists sl, relD d sl (espec h) /\ below d.
Proof.
  intros HF HC E. unfold dl_hist in E. destruct (dl_new T K n) as [d0|] eqn:E0; cbn [rbind] in E; [|discriminate].
  destruct (relD_new Hn d0 E0) as [R [B [F [Hk _]]]].
  apply (calm_ops_dl Hn HT HU h d0 [] [] 0%N d); auto. rewrite marked_fresh by auto. lia.
Qed.

(** ** Insertions only: always exact; complete when MAXSZ(m,0) >= 6 *)
Record relDI (d : dl) (sl : slots) (S : list edge) : Prop := {
  ei_rel : relD d sl S;
  ei_live : all_live sl;
  ei_fresh : fresh (ks (d_g d));
  ei_below : below d
}.
Lemma relDI_add (Hn : (2 <= n)%N) d sl S e d' : relDI d sl S -> in_range n e -> dl_add T K d (fst e) (snd e) = Done d' ->
  exists sl', relDI d' sl' (espec_step S (Add e)).
Proof.
  intros [H1 H2 H3 H4] Hr E. destruct e as [x y]. destruct (relD_add Hn d sl S x y d' H1 Hr E) as [sl' [A1 [A2 [A3 A4]]]].
  exists sl'. constructor; auto.
Qed.
Lemma insert_ops_dl (Hn : (2 <= n)%N) es : forall d sl S d', relDI d sl S -> Forall (in_range n) es -> dl_ops T K d (map Add es) = Done d' ->
  exists sl', relDI d' sl' (fold_left espec_step (map Add es) S).
Proof.
  induction es as [|e es IH]; intros d sl S d' R HF E; cbn [map dl_ops fold_left] in *.
  - injection E as <-; eauto.
  - inversion HF as [|? ? He Hes]; subst. cbn [dl_op] in E. destruct e as [x y].
    destruct (dl_add T K d x y) as [d1|d1|] eqn:Eo; try discriminate.
    destruct (relDI_add Hn d sl S (x, y) d1 R He Eo) as [sl1 R1]. apply (IH d1 sl1); auto.
Qed.
Lemma hist_insert_dl (Hn : (2 <= n)%N) es d : Forall (in_range n) es -> dl_hist T K n (map Add es) = Done d ->
  exists sl, relDI d sl (espec (map Add es)).
Proof.
  intros HF E. unfold dl_hist in E. destruct (dl_new T K n) as [d0|] eqn:E0; cbn [rbind] in E; [|discriminate].
  destruct (relD_new Hn d0 E0) as [R [B [F [Hk _]]]].
  apply (insert_ops_dl Hn es d0 [] []); auto. constructor; auto. constructor.
Qed.

(** the pending union is in a state that can make its next step *)
Definition ready (d : dl) : Prop := u_i d <= u_final d ->
  (u_prev d < RS -> exists s, nth_error (ks (d_g d)) (u_prev d) = Some (Some s)) /\
  (RS <= u_prev d -> d_tmp d = None -> forall j t, nth_error (ks (d_g d)) j <> Some (Some t)).
Lemma ud_total d : length (ks (d_g d)) = RS -> u_final d < RS -> u_i d <= u_final d -> (u_prev d < RS -> u_prev d < u_i d) -> ready d ->
  exists d', union_delay K d = Ok d' /\ ready d'.
Proof.
  intros Hl Hf Hi Hpi HR. destruct (HR Hi) as [R1 R2]. unfold union_delay.
  destruct (Nat.ltb_spec (u_final d) (length (ks (d_g d)))) as [_|]; [|lia].
  destruct (next_tree K (ks (d_g d)) (u_i d) (S (u_final d) - u_i d)) as [j|] eqn:Ej.
  - apply next_tree_some in Ej. destruct Ej as [Hj [[t Et] _]]. rewrite Et.
    assert (Lj : j < length (ks (d_g d))) by lia.
    destruct (Nat.ltb_spec (u_prev d) RS) as [Hp|Hp].
    + destruct (R1 Hp) as [s Es]. rewrite Es. eexists. split; [reflexivity|].
      intros _. cbn [u_prev d_tmp d_g ks]. split; [|intros; unfold RS in *; lia]. intros _.
      destruct (Nat.eq_dec (u_prev d) j) as [Heq|Hne].
      * lia.
      * exists (kt_union K t s). rewrite nth_error_upd_neq by auto. apply nth_error_upd_eq. auto.
    + destruct (d_tmp d) as [s|] eqn:Es; [|exfalso; apply (R2 Hp eq_refl j t Et)].
      eexists. split; [reflexivity|]. intros _. cbn [u_prev d_tmp d_g ks]. split; [|intros; unfold RS in *; lia].
      intros _. exists (kt_union K t s). apply nth_error_upd_eq. auto.
  - destruct (Nat.ltb_spec (u_prev d) RS) as [Hp|Hp].
    + destruct (R1 Hp) as [s Es]. rewrite Es. eexists. split; [reflexivity|]. intros G. cbn [u_i u_final] in G. lia.
    + eexists. split; [reflexivity|]. intros G. cbn [u_i u_final] in G. lia.
Qed.

Lemma edges_nodup l : lwf l -> ldisj l -> NoDup (ks_edges K l).
Proof.
  induction l as [|o l IH]; intros H D; [constructor|]. apply lwf_cons in H. apply ldisj_cons in D.
  destruct H as [H1 H2], D as [D1 D2]. destruct o as [t|].
  - rewrite ks_edges_cons_some. apply NoDup_app. sp; auto.
    + eapply law_edges_nodup. apply H1. reflexivity.
    + intros e G1 G2. apply (D2 e G1). apply inks_edges. auto.
  - rewrite ks_edges_cons_none. auto.
Qed.
Lemma relD_count d sl S : relD d sl S -> nt (d_g d) = N.of_nat (length (live_edges sl) + length (ks_edges K (ks (d_g d)))).
Proof.
  intros [H1 H2 H3 H4]. rewrite H4. f_equal. rewrite <- app_length. apply len_same; auto.
  - apply NoDup_app. sp.
    + apply uniq_nodup, (inv_uniq _ _ (dn_c0 _ _ H1)).
    + apply edges_nodup; apply H1.
    + intros e G1 G2. apply inks_edges in G2. apply (dn_c0ks _ _ H1 e G1 G2).
  - intros e. rewrite <- H2, in_app_iff, <- inks_edges. reflexivity.
Qed.

Definition slack (d : dl) : Prop := u_i d <= u_final d -> c0_size (C0_ (d_g d)) + u_final d <= u_i d + 6.

Lemma add_total_dl (Hn : (2 <= n)%N) d sl S x y : th_top T -> (forall m, (n <= m)%N -> (nt (d_g d) <= m)%N -> (6 <= th_max T m 0)%N) ->
  relDI d sl S -> ready d -> slack d -> in_range n (x, y) ->
  exists d', dl_add T K d x y = Done d' /\ ready d' /\ slack d'.
Proof.
  intros HT H6 R HR HS Hr. pose proof (rd_inv _ _ _ (ei_rel _ _ _ R)) as H. unfold dl_add.
  assert (H1 : exists d1, (if work_done K d then Ok d else union_delay K d) = Ok d1 /\ ready d1 /\
                (u_i d1 <= u_final d1 -> c0_size (C0_ (d_g d1)) + u_final d1 <= u_i d1 + 5)).
  { unfold work_done. destruct (Nat.ltb_spec (u_final d) (u_i d)) as [G|G].
    - exists d. sp; auto. lia.
    - destruct (ud_total d) as [d1 [E1 R1]]; auto; try apply H. exists d1. sp; auto.
      destruct (ud_inv d sl d1 H G E1) as (A1&A2&A3&A4&A5&A6&A7). specialize (HS G). rewrite A5, A6. lia. }
  destruct H1 as [d1 [E1 [R1 S1]]]. rewrite E1. cbn [rbind].
  destruct (step_union d sl d1 H E1) as (A1&A2&A3&A4&A5&A6&A7&A8&A9).
  assert (RD1 : relD d1 sl S).
  { destruct (ei_rel _ _ _ R) as [Q1 Q2 Q3 Q4]. constructor; auto; [|congruence].
    intros e. rewrite <- Q2. unfold in_dl. rewrite A2. tauto. }
  pose proof (relD_count _ _ _ RD1) as HC.
  destruct (dl_contains_spec d1 sl x y A1 Hr) as [b [Eb Hb]]. rewrite Eb. cbn [rbind].
  destruct b. { exists d1. sp; auto. intros G. specialize (S1 G). lia. }
  assert (Hni : ~ in_dl d1 sl (x, y)) by (intros G; apply Hb in G; discriminate).
  assert (Hnl : ~ In (x, y) (live_edges sl)) by (intros G; apply Hni; left; auto).
  assert (Hm : (n <= dk_m K (d_g d1))%N) by (unfold dk_m; rewrite (dn_nv _ _ A1); lia).
  assert (Hm2 : (nt (d_g d1) <= dk_m K (d_g d1))%N) by (unfold dk_m; lia).
  unfold maxsz. destruct (N.eqb_spec (dk_m K (d_g d1)) 1) as [G|_]; [lia|]. cbn [rbind].
  pose proof (inv_size _ _ (dn_c0 _ _ A1)) as Hsz. rewrite Hsz in *.
  destruct (N.ltb_spec (N.of_nat (length (live_edges sl))) (th_max T (dk_m K (d_g d1)) 0)) as [Hlt|Hge].
  - destruct (insert_ok T (C0_ (d_g d1)) sl (x, y) (nt (d_g d1)) (dn_c0 _ _ A1) Hnl) as [c [Ec [Hc _]]].
    + unfold room. rewrite (dn_c0nv _ _ A1), (iv_n _ _ (dn_c0 _ _ A1)).
      unfold dk_m in *. rewrite (dn_nv _ _ A1) in *. rewrite <- (all_live_edges sl (ei_live _ _ _ R)). right. split; lia.
    + rewrite Ec. cbn [rbind]. eexists. split; [reflexivity|]. split; [exact R1|].
      intros G. cbn [u_i u_final d_g C0_] in *. specialize (S1 G).
      rewrite (inv_size _ _ Hc), live_edges_app, app_length. cbn [live_edges length map filter snd]. cbn. lia.
  - assert (Hw : work_done K d1 = true).
    { unfold work_done. apply Nat.ltb_lt. destruct (Nat.lt_ge_cases (u_final d1) (u_i d1)) as [G|G]; auto.
      specialize (S1 G). specialize (H6 _ Hm ltac:(lia)). lia. }
    rewrite Hw.
    destruct (find_level_total T K n Hn (dk_m K (d_g d1)) (ks (d_g d1)) 0 (th_max T (dk_m K (d_g d1)) 0)) as [i Ei].
    + pose proof (dn_len _ _ A1) as G. destruct (ks (d_g d1)); discriminate.
    + rewrite (dn_len _ _ A1). reflexivity.
    + rewrite HT by lia. rewrite (ks_total_marked K L n Hn) by (apply lwf_ks, A1).
      rewrite marked_fresh by (apply A9, R). lia.
    + rewrite Ei. apply (find_level_range T K n Hn) in Ei. rewrite (dn_len _ _ A1) in Ei.
      rewrite (inv_converted _ _ (dn_c0 _ _ A1)). cbn [rbind].
      destruct (inv_clean _ _ (dn_c0 _ _ A1)) as [c [Ec [Hc [_ Hcv]]]]. rewrite Ec. cbn [rbind].
      rewrite (dn_nv _ _ A1).
      set (tmp := kt_build K (live_edges sl ++ [(x, y)]) n).
      set (d2 := mkdl (mkdk (Nat.max i (max_r (d_g d1))) n (nt (d_g d1)) c (ks (d_g d1))) 0 RS i (Some tmp)).
      destruct (law_build L n (live_edges sl ++ [(x, y)])) as [B1 [B2 B3]]; auto.
      { destruct (live_edges sl); discriminate. }
      { apply NoDup_app. sp.
        - apply uniq_nodup, (inv_uniq _ _ (dn_c0 _ _ A1)).
        - repeat constructor; auto.
        - intros e He [<-|[]]. auto. }
      { apply Forall_app. split; [apply (dn_range _ _ A1)|repeat constructor; apply Hr]. }
      fold tmp in B1, B2, B3.
      destruct (ud_total d2) as [d3 [E3 R3]].
      { apply A1. }
      { cbn. lia. }
      { cbn. lia. }
      { cbn [d2 u_prev]. lia. }
      { intros _. cbn [d2 u_prev d_tmp]. split; [lia|discriminate]. }
      rewrite E3. cbn [rbind]. eexists. split; [reflexivity|]. split; [exact R3|].
      destruct (ud_spec d2 d3) as (U1&U2&U3&U4&U5&U6&U7&U8&U9&U10&U11&U12); auto;
        try (cbn [d2 d_g ks u_final u_i u_prev d_tmp]; first [apply A1 | lia]).
      { intros t Ht. cbn [d2 d_tmp] in Ht. injection Ht as <-. auto. }
      { intros e [_ He]. cbn [d2 d_tmp oin] in He. apply B3 in He. cbn [d2 d_g ks]. apply in_app_iff in He.
        destruct He as [He|[<-|[]]]; [apply (dn_c0ks _ _ A1); auto|]. intros G. apply Hni. right; auto. }
      intros G. cbn [u_i u_final d_g C0_] in *. rewrite U12, U4. cbn [d2 d_g C0_ u_final u_i] in *.
      rewrite (inv_size _ _ Hc). cbn. unfold RS in *. lia.
Qed.

Lemma insert_total_dl (Hn : (2 <= n)%N) es : th_top T ->
  forall d sl S, (forall m, (n <= m)%N -> (N.of_nat (length S) <= m)%N -> (6 <= th_max T m 0)%N) -> relDI d sl S -> ready d -> slack d -> Forall (in_range n) es -> exists d', dl_ops T K d (map Add es) = Done d'.
Proof.
  intros HT. induction es as [|e es IH]; intros d sl S H6 R R1 R2 HF; cbn [map dl_ops]; [eauto|].
  inversion HF as [|? ? He Hes]; subst. cbn [dl_op]. destruct e as [x y].
  assert (H6' : forall m, (n <= m)%N -> (nt (d_g d) <= m)%N -> (6 <= th_max T m 0)%N) by (intros m; rewrite (rd_nt _ _ _ (ei_rel _ _ _ R)); auto).
  destruct (add_total_dl Hn d sl S x y HT H6' R R1 R2 He) as [d1 [E1 [Q1 Q2]]]. rewrite E1.
  destruct (relDI_add Hn d sl S (x, y) d1 R He E1) as [sl1 R']. eapply (IH d1 sl1 _ _ R'); auto. Unshelve.
  intros m M1 M2. apply H6; auto. cbn [espec_step] in M2. destruct (emem (x, y) S); [auto|]. cbn [length] in M2. rewrite ?app_length in M2. lia.
Qed.
Theorem hist_total_dl (Hn : (2 <= n)%N) es : th_top T -> (forall m, (n <= m)%N -> (6 <= th_max T m 0)%N) ->
  Forall (in_range n) es -> exists d, dl_hist T K n (map Add es) = Done d.
Proof.
  intros HT H6 HF. unfold dl_hist, dl_new. destruct (dk_new_total T K n Hn) as [g E]. rewrite E. cbn [obind rbind].
  assert (E0 : dl_new T K n = Ok (mkdl g 0 RS 1 None)) by (unfold dl_new; rewrite E; reflexivity).
  destruct (relD_new Hn _ E0) as [R [B [F [Hk _]]]].
  apply (insert_total_dl Hn es HT _ [] []); auto.
  - constructor; auto. constructor.
  - intros _. cbn [u_prev d_tmp]. split; [lia|]. intros _ _ j t. rewrite Hk. intros G. apply nth_error_In, repeat_spec in G. discriminate.
  - intros _. rewrite (inv_size _ _ (dn_c0 _ _ (rd_inv _ _ _ R))). cbn. lia.
Qed.

End DelayProof.

(** ** MAXSZ(m,0) >= 6 for m >= 256 *)
From Coq Require Import Reals Lra.
Open Scope R_scope.
Lemma pow2_sq6 k : (9 <= k)%nat -> 6 * (INR k * INR k) <= 2 ^ k.
Proof.
  induction 1 as [|k Hk IH]; [cbn; lra|]. rewrite S_INR. cbn [pow].
  apply le_INR in Hk. cbn [INR] in Hk. nra.
Qed.
Lemma th_max0_6 T m : th_real T -> (256 <= m)%N -> (6 <= th_max T m 0)%N.
Proof.
  intros HT Hm. destruct HT as [HM _]. specialize (HM m 0%nat ltac:(lia) ltac:(lia)).
  set (k := N.log2 m). pose proof (N.log2_spec m ltac:(lia)) as [Hk1 Hk2]. fold k in Hk1, Hk2.
  assert (Hk3 : (8 <= k)%N) by (change 8%N with (N.log2 256); apply N.log2_le_mono; auto).
  pose proof (log2R_pos m ltac:(lia)) as HL1.
  set (j := N.to_nat (N.succ k)). assert (Ej : N.of_nat j = N.succ k) by (unfold j; lia).
  assert (HL : log2R (RN m) <= INR j).
  { rewrite <- log2R_pow. apply log2R_le; [rewrite <- RN_0; apply RN_lt; lia|].
    replace (2 ^ j) with (RN (2 ^ N.of_nat j)) by (rewrite RN_pow, RN_2; reflexivity).
    rewrite Ej. left. apply RN_lt. exact Hk2. }
  assert (Hj : (9 <= j)%nat) by lia. pose proof (pow2_sq6 j Hj) as Hp.
  assert (H2m : 2 ^ j <= 2 * RN m).
  { replace (2 ^ j) with (RN (2 ^ N.of_nat j)) by (rewrite RN_pow, RN_2; reflexivity).
    rewrite Ej, N.pow_succ_r', RN_mult, RN_2. apply RN_le in Hk1. lra. }
  assert (Hge : 6 <= maxsz_real m 0).
  { unfold maxsz_real. replace (2 - INR 0 / 4) with (INR 2) by (cbn; lra). rewrite Rpower_pow by lra.
    assert (0 < log2R (RN m) ^ 2) by (apply pow_lt; lra).
    apply Rmult_le_reg_r with (log2R (RN m) ^ 2); auto. unfold Rdiv.
    rewrite Rmult_assoc, Rinv_l by lra. cbn [pow]. nra. }
  apply N.nlt_ge. intros Hlt. assert (th_max T m 0 <= 5)%N as E by lia. apply RN_le in E.
  replace (RN 5) with 5 in E by reflexivity. lra.
Qed.
Close Scope R_scope.
