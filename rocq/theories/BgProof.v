(** * BgProof: the invariant of DKtree_background under every schedule of insertions and queries. *)
From Verif Require Import Base Spec Thresholds K2 C0 C0Proof DK DKProof DKHist Delay MunroProof BgSpec Bg.

Ltac gcbn := cbn [b_n b_nt b_c0 b_maxr b_ks b_conv b_nw b_msz b_mrb b_tmp b_copy b_m b_b b_todo b_log
  set_m set_b set_store set_ks set_conv set_nw set_copy set_batch set_todo done] in *.

Section Inv.
Context (wt : bool) (T : thresholds) (K : k2impl) (L : k2laws K) (n : N) (Hn : (2 <= n)%N) (HT : th_top T).
Local Notation ktree := (kt K).
Local Notation bg := (bg K).
Local Notation kse := (ks_edges K).
Local Notation inr := (in_range n).

(** the flush that has begun but whose add_edge has not returned counts as logged *)
Definition vlog (m : mpc) (h : list event) : list event := match m with MClean e => EIns e Flushed :: h | _ => h end.
Definition pend (nw : bool) (b : bpc K) (conv : list edge) : list edge :=
  if nw then match b with
             | BPoll | BBuild => conv
             | BClear t | BLevel t | BMerge t _ _ | BStore t _ => kt_edges K t
             | BDone | BDead => []
             end
  else [].
Definition ok_t (t : ktree) : Prop := wf L n t /\ kt_marked K t = 0%N.
Definition ks_ok (l : list (option ktree)) : Prop := length l = RS /\ forall t, In (Some t) l -> ok_t t.
Definition none_above (r : nat) (l : list (option ktree)) : Prop := forall i t, nth_error l i = Some (Some t) -> i <= r.

Definition small (l : list (option ktree)) (msz : N) : Prop :=
  (2 <= msz)%N /\ (N.of_nat (length (kse l)) + th_max T msz 0 <= msz)%N.
Definition bfact (l : list (option ktree)) (maxr : nat) (conv : list edge) (nw : bool) (b : bpc K) (msz : N) : Prop :=
  if nw then
    match b with
    | BPoll | BBuild => (conv <> [] /\ NoDup conv /\ Forall inr conv) /\ small l msz
    | BClear t => ok_t t /\ small l msz
    | BLevel t => ok_t t /\ small l msz /\ conv = []
    | BMerge t i j => ok_t t /\ conv = [] /\ i <= maxr /\ j <= S i /\ (forall k, k < j -> nth_error l k = Some None)
    | BStore t i => ok_t t /\ conv = [] /\ i <= maxr /\ nth_error l i = Some None
    | BDone => conv = []
    | BDead => False
    end
  else b = BPoll.

Record stor (h : list event) (l : list (option ktree)) (maxr : nat) (conv : list edge) (nw : bool) (b : bpc K) (msz : N) : Prop := {
  st_ok : ks_ok l;
  st_above : none_above maxr l;
  st_maxr : maxr < RS;
  st_set : forall e, In e (older h) <-> In e (kse l ++ pend nw b conv);
  st_le : length (kse l ++ pend nw b conv) <= length (older h);
  st_b : bfact l maxr conv nw b msz
}.

(** the copy that answers queries during a merge *)
Record copied (h : list event) (maxr : nat) (tmp : edge) (mrb : nat) (cp : list (option ktree)) : Prop := {
  cp_ok : ks_ok cp;
  cp_above : none_above mrb cp;
  cp_mrb : mrb <= maxr;
  cp_at : forall f r, last_flush h = Some (f, r) -> tmp = f /\ (forall e, In e (older r) <-> In e (kse cp)) /\ length (kse cp) <= length (older r)
}.

Definition nbrs (x : N) (l : list (option ktree)) : list N :=
  flat_map (fun o => match o with Some t => kt_neigh K t x | None => [] end) l.

Definition mfact (g : bg) : Prop :=
  let h := b_log g in let B := recent h in
  match b_m g with
  | MIdle => True
  | MHas k e => inr e /\ ~ In e B
  | MScan k e i => inr e /\ ~ In e B /\ b_nw g = false /\ i <= RS /\ ~ In e (kse (firstn i (b_ks g)))
  | MIns e => inr e /\ ~ In e (visible h)
  | MBusy e => inr e /\ ~ In e (visible h) /\ (th_max T (N.max n (b_nt g)) 0 <= N.of_nat (length B))%N
  | MPush e => inr e /\ ~ In e (visible h) /\ (th_max T (N.max n (b_nt g)) 0 <= N.of_nat (length B))%N /\ b_nw g = false
  | MCopy e j => inr e /\ ~ In e (visible h) /\ (th_max T (N.max n (b_nt g)) 0 <= N.of_nat (length B))%N /\ b_nw g = false /\
      b_msz g = N.max n (b_nt g) /\ b_tmp g = e /\ b_mrb g = b_maxr g /\
      length (b_copy g) = RS /\ j <= RS /\ firstn j (b_copy g) = firstn j (b_ks g)
  | MFlag e => inr e /\ ~ In e (visible h) /\ (th_max T (N.max n (b_nt g)) 0 <= N.of_nat (length B))%N /\ b_nw g = false /\
      b_msz g = N.max n (b_nt g) /\ b_tmp g = e /\ b_mrb g = b_maxr g /\ b_copy g = b_ks g
  | MClean e => ~ In e (visible h)
  | MNbr x acc => (x < n)%N /\ acc = rev (succs x (rev B))
  | MNb x acc busy l => (x < n)%N /\ l <= RS /\
      if busy then last_flush h <> None /\
        acc = rev (succs x (rev B)) ++ (if (fst (b_tmp g) =? x)%N then [snd (b_tmp g)] else []) ++ nbrs x (firstn l (b_copy g))
      else b_nw g = false /\ acc = rev (succs x (rev B)) ++ nbrs x (firstn l (b_ks g))
  | MWait _ | MErase _ => False
  end.
Definition busy_nb (m : mpc) : Prop := match m with MNb _ _ true _ => True | _ => False end.
Definition copying (m : mpc) : Prop := match m with MCopy _ _ | MFlag _ => True | _ => False end.

Record inv (g : bg) : Prop := {
  bi_nn : b_n g = n;
  bi_nv : c_nv (b_c0 g) = n;
  bi_c0 : c0_inv (b_c0 g) (lv (rev (recent (b_log g))));
  bi_nt : b_nt g = N.of_nat (length (stored (b_log g)));
  bi_rng : Forall inr (stored (vlog (b_m g) (b_log g)));
  bi_st : stor (vlog (b_m g) (b_log g)) (b_ks g) (b_maxr g) (b_conv g) (b_nw g) (b_b g) (b_msz g);
  bi_conv : match b_m g with
            | MCopy e _ | MFlag e => b_conv g = rev (recent (b_log g)) ++ [e]
            | _ => b_nw g = false -> b_conv g = []
            end;
  bi_copy : b_nw g = true \/ busy_nb (b_m g) ->
    copied (vlog (b_m g) (b_log g)) (b_maxr g) (b_tmp g) (b_mrb g) (b_copy g);
  bi_nw : b_nw g = true -> last_flush (vlog (b_m g) (b_log g)) <> None;
  bi_clen : length (b_copy g) = RS;
  bi_todo : b_todo g = None;
  bi_m : mfact g;
  bi_log : log_ok (b_log g)
}.

(** ** Arrays of trees *)
Lemma ks_ok_wf l : ks_ok l -> ks_wf K L n l.
Proof. intros [_ G]. apply Forall_forall. intros [t|] I; [|auto]. apply G, I. Qed.
Lemma nth_kse (l : list (option ktree)) : forall i t e, nth_error l i = Some (Some t) -> In e (kt_edges K t) -> In e (kse l).
Proof.
  induction l as [|o l IH]; intros [|i] t e E I; try discriminate; cbn in E.
  - injection E as ->. rewrite ks_edges_cons_some. apply in_app_iff; auto.
  - destruct o; [rewrite ks_edges_cons_some; apply in_app_iff; right|rewrite ks_edges_cons_none]; eapply IH; eauto.
Qed.
Lemma firstn_S {A} : forall i (l : list A) o, nth_error l i = Some o -> firstn (S i) l = firstn i l ++ [o].
Proof. induction i as [|i IH]; intros [|a l] o E; try discriminate; cbn in E. - injection E as ->. reflexivity. - cbn [firstn app]. f_equal. apply IH, E. Qed.
Lemma none_skip (l : list (option ktree)) k : (forall i t, nth_error l i = Some (Some t) -> i < k) -> forall o, In o (skipn k l) -> o = None.
Proof.
  intros G o I. apply In_nth_error in I. destruct I as [j E]. rewrite nth_error_skipn' in E.
  destruct o as [t|]; [|auto]. apply G in E. lia.
Qed.
Lemma kse_all_none (l : list (option ktree)) : (forall o, In o l -> o = None) -> kse l = [].
Proof. induction l as [|o l IH]; intros G; [reflexivity|]. rewrite (G o) by (left; auto). rewrite ks_edges_cons_none. apply IH. intros p I; apply G; right; auto. Qed.
Lemma nbrs_all_none x (l : list (option ktree)) : (forall o, In o l -> o = None) -> nbrs x l = [].
Proof. induction l as [|o l IH]; intros G; [reflexivity|]. cbn. rewrite (G o) by (left; auto). apply IH. intros p I; apply G; right; auto. Qed.
Lemma kse_firstn l r k : none_above r l -> r < k -> kse (firstn k l) = kse l.
Proof.
  intros A R. rewrite <- (firstn_skipn k l) at 2. rewrite ks_edges_app, (kse_all_none (skipn k l)); [rewrite app_nil_r; auto|].
  apply none_skip. intros i t E. apply A in E. lia.
Qed.
Lemma nbrs_firstn x l r k : none_above r l -> r < k -> nbrs x (firstn k l) = nbrs x l.
Proof.
  intros A R. rewrite <- (firstn_skipn k l) at 2. unfold nbrs at 2. rewrite flat_map_app. fold (nbrs x (firstn k l)). fold (nbrs x (skipn k l)).
  rewrite (nbrs_all_none x (skipn k l)); [rewrite app_nil_r; auto|].
  apply none_skip. intros i t E. apply A in E. lia.
Qed.
Lemma nbrs_In x l y : ks_wf K L n l -> (x < n)%N -> (In y (nbrs x l) <-> In (x, y) (kse l)).
Proof.
  intros W Hx. induction W as [|o l Ho W IH]; [reflexivity|]. destruct o as [t|]; cbn [nbrs flat_map].
  - rewrite ks_edges_cons_some, !in_app_iff, (law_neigh L n t x y Ho Hx). fold (nbrs x l). rewrite IH. reflexivity.
  - exact IH.
Qed.
Lemma nodup_app_inv {A} (a b : list A) : NoDup (a ++ b) -> NoDup a /\ NoDup b /\ forall x, In x a -> ~ In x b.
Proof. apply NoDup_app. Qed.
Lemma nbrs_nodup x l : ks_wf K L n l -> (x < n)%N -> NoDup (kse l) -> NoDup (nbrs x l).
Proof.
  intros W Hx. induction W as [|o l Ho W IH]; [intros _; constructor|]. destruct o as [t|]; cbn [nbrs flat_map].
  - rewrite ks_edges_cons_some. intros N. apply NoDup_app in N. destruct N as [N1 [N2 N3]].
    apply NoDup_app. split; [apply (law_neigh_nodup L n t x Ho Hx)|]. split; [apply IH, N2|].
    intros y I J. apply (law_neigh L n t x y Ho Hx) in I. fold (nbrs x l) in J. apply nbrs_In in J; auto. apply (N3 _ I J).
  - exact IH.
Qed.
Lemma upd_split {A} : forall i (l : list A) o a, nth_error l i = Some o -> upd l i a = firstn i l ++ a :: skipn (S i) l /\ l = firstn i l ++ o :: skipn (S i) l.
Proof.
  induction i as [|i IH]; intros [|b l] o a E; try discriminate; cbn in E; [injection E as ->; auto|].
  cbn [upd firstn skipn app]. destruct (IH l o a E) as [-> E2]. split; [reflexivity|]. f_equal. exact E2.
Qed.
Lemma In_upd {A} (l : list A) i a b : In b (upd l i a) -> b = a \/ In b l.
Proof.
  revert i; induction l as [|c l IH]; intros [|i]; cbn; try tauto.
  - intros [?|?]; auto.
  - intros [?|G]; auto. apply IH in G. tauto.
Qed.
Lemma ks_ok_upd l i o : ks_ok l -> (forall t, o = Some t -> ok_t t) -> ks_ok (upd l i o).
Proof. intros [A B] C. split; [rewrite length_upd; auto|]. intros t I. apply In_upd in I. destruct I as [E|I]; [apply C; auto|auto]. Qed.
Lemma kse_split (l : list (option ktree)) i o : nth_error l i = Some o ->
  kse l = kse (firstn i l) ++ match o with Some t => kt_edges K t | None => [] end ++ kse (skipn (S i) l).
Proof. intros E. destruct (upd_split i l o o E) as [_ E2]. rewrite E2 at 1. rewrite ks_edges_app. destruct o; reflexivity. Qed.
Lemma kse_upd (l : list (option ktree)) i o a : nth_error l i = Some o ->
  kse (upd l i a) = kse (firstn i l) ++ match a with Some t => kt_edges K t | None => [] end ++ kse (skipn (S i) l).
Proof. intros E. destruct (upd_split i l o a E) as [E1 _]. rewrite E1, ks_edges_app. destruct a; reflexivity. Qed.
Lemma kse_range l e : ks_ok l -> In e (kse l) -> inr e.
Proof. intros O. apply (ks_edges_range K L n). apply ks_ok_wf, O. Qed.
Lemma union_ok a b : ok_t a -> ok_t b -> ok_t (kt_union K a b) /\
  (forall e, In e (kt_edges K (kt_union K a b)) <-> In e (kt_edges K a) \/ In e (kt_edges K b)) /\
  length (kt_edges K (kt_union K a b)) <= length (kt_edges K a) + length (kt_edges K b).
Proof.
  intros [A1 A2] [B1 B2]. destruct (law_union L n a b A1 B1) as [U1 [U2 U3]]. split; [split; auto|]. split; [exact U2|].
  rewrite <- app_length. apply NoDup_incl_length; [apply (law_edges_nodup L n), U1|].
  intros e I. apply in_app_iff, U2, I.
Qed.

(** ** A query *)
Lemma nodup_of_len {A} (a b : list A) : NoDup a -> length b <= length a -> (forall x, In x a <-> In x b) -> NoDup b.
Proof. intros N1 N2 N3. apply (NoDup_incl_NoDup N1 N2). intros x I. apply N3, I. Qed.

Lemma scan_all h l maxr conv b msz : stor h l maxr conv false b msz ->
  forall e, In e (stored h) <-> In e (recent h) \/ In e (kse l).
Proof. intros S e. rewrite stored_split, (st_set _ _ _ _ _ _ _ S e). cbn [pend]. rewrite app_nil_r. tauto. Qed.
Lemma copy_all h maxr tmp mrb cp : copied h maxr tmp mrb cp -> last_flush h <> None ->
  forall e, In e (visible h) <-> In e (recent h) \/ e = tmp \/ In e (kse cp).
Proof.
  intros C F e. unfold visible. destruct (last_flush h) as [[f r]|] eqn:E; [|congruence].
  destruct (cp_at _ _ _ _ _ C f r E) as [-> [G _]]. rewrite in_app_iff. cbn [In]. rewrite (G e). intuition.
Qed.
(** the number of entries of the pieces a busy query reads *)
Lemma copy_nodup h maxr tmp mrb cp P : copied h maxr tmp mrb cp -> last_flush h <> None -> NoDup (stored h) -> P = recent h ->
  NoDup (P ++ tmp :: kse cp).
Proof.
  intros C F N ->. destruct (last_flush h) as [[f r]|] eqn:E; [|congruence].
  destruct (cp_at _ _ _ _ _ C f r E) as [-> [G1 G2]].
  assert (X : NoDup (recent h ++ older h)).
  { apply (nodup_of_len (stored h)); auto; [rewrite app_length, stored_len; lia|]. intros x. rewrite in_app_iff. apply stored_split. }
  assert (O : older h = f :: stored r) by (unfold older; rewrite E; auto). rewrite O in X.
  assert (Y : NoDup (recent h ++ f :: recent r ++ older r)).
  { refine (nodup_of_len _ _ X _ _).
    - rewrite !app_length. cbn [length]. rewrite app_length, stored_len. lia.
    - intros x. rewrite !in_app_iff. cbn [In]. rewrite in_app_iff, stored_split. reflexivity. }
  apply NoDup_app in Y. destruct Y as [Y1 [Y2 Y3]]. inversion Y2 as [|? ? Y4 Y5]; subst.
  apply NoDup_app in Y5. destruct Y5 as [_ [Y6 _]].
  assert (Z : NoDup (kse cp)) by (apply (nodup_of_len (older r)); auto).
  apply NoDup_app. split; [auto|]. split.
  - constructor; auto. rewrite <- G1. intros I. apply Y4, in_app_iff; auto.
  - intros x I [->|J]; [apply (Y3 _ I); left; auto|]. apply (Y3 _ I). right. apply in_app_iff. right. apply G1, J.
Qed.

(** ** Starting *)
Lemma bg_new_ok : exists g, bg_new wt T K n = Ok g /\ inv g.
Proof.
  clear HT. unfold bg_new, c0_new, maxsz. destruct (N.eqb_spec n 1); [lia|]. cbn [obind].
  set (c := mkc0 _ _ _ _ _ _ _ _ _). assert (I : c0_inv c []) by apply inv_empty.
  destruct (inv_resize c [] (2 * c_max c) I) as [I2 [_ [Hv _]]].
  set (c' := if wt then c else c0_resize c (2 * c_max c)).
  assert (I' : c0_inv c' [] /\ c_nv c' = n) by (unfold c'; destruct wt; auto). destruct I' as [I' Hv'].
  eexists. split; [reflexivity|]. constructor; cbn [b_n b_nt b_c0 b_maxr b_ks b_conv b_nw b_msz b_mrb b_tmp b_copy b_m b_b b_todo b_log]; auto.
  - constructor.
  - cbn [vlog]. constructor; auto.
    + split; [apply repeat_length|]. intros t J. apply repeat_spec in J. discriminate.
    + intros i t E. rewrite nth_error_repeat in E. destruct (i <? RS); discriminate.
    + unfold RS; lia.
    + intros e. cbn. tauto.
    + reflexivity.
  - intros [X|[]]. discriminate X.
  - discriminate.

  - exact Logic.I.
  - exact Logic.I.
Qed.

(** ** The merging thread *)
Lemma back_keep (g : bg) r l cv w b : inv g -> b_nw g = true -> b_maxr g <= r ->
  stor (vlog (b_m g) (b_log g)) l r cv w b (b_msz g) -> (w = false -> cv = []) ->
  inv (mkbg (b_n g) (b_nt g) (b_c0 g) r l cv w (b_msz g) (b_mrb g) (b_tmp g) (b_copy g) (b_m g) b (b_todo g) (b_log g)).
Proof.
  intros V W R S C. pose proof (bi_m _ V) as M. unfold mfact in M. constructor; gcbn.
  - apply (bi_nn _ V).
  - apply (bi_nv _ V).
  - apply (bi_c0 _ V).
  - apply (bi_nt _ V).
  - apply (bi_rng _ V).
  - exact S.
  - destruct (b_m g); auto; exfalso; intuition congruence.
  - intros _. destruct (bi_copy _ V (or_introl W)) as [P1 P2 P3 P4]. constructor; auto. lia.
  - intros _. apply (bi_nw _ V W).
  - apply (bi_clen _ V).
  - apply (bi_todo _ V).
  - unfold mfact. gcbn. destruct (b_m g); auto; try (exfalso; intuition congruence).
    destruct busy; auto. exfalso; intuition congruence.
  - apply (bi_log _ V).
Qed.

Lemma back_ok g : inv g -> exists g', back_step T K g = Ok g' /\ inv g'.
Proof.
  intros V. pose proof (bi_st _ V) as S. pose proof (st_b _ _ _ _ _ _ _ S) as F. unfold bfact in F.
  destruct (b_nw g) eqn:W.
  2: { unfold back_step. rewrite F, W. eauto. }
  assert (D : exists g', back_step T K g = Ok g' /\ exists r l cv w b,
     g' = mkbg (b_n g) (b_nt g) (b_c0 g) r l cv w (b_msz g) (b_mrb g) (b_tmp g) (b_copy g) (b_m g) b (b_todo g) (b_log g) /\
     b_maxr g <= r /\ stor (vlog (b_m g) (b_log g)) l r cv w b (b_msz g) /\ (w = false -> cv = [])).
  2: { destruct D as (g' & E & r & l & cv & w & b & -> & R & S' & C). eexists. split; [exact E|]. apply back_keep; auto. }
  destruct S as [S1 S2 S3 S4 S5 S6]. unfold back_step. destruct (b_b g) eqn:EB; rewrite ?EB, ?W in *; cbn [pend] in *.
  - (* BPoll *) eexists. split; [reflexivity|]. unfold set_b. rewrite W. do 5 eexists. split; [reflexivity|]. split; [lia|]. split; [|discriminate].
    constructor; auto.
  - (* BBuild *) eexists. split; [reflexivity|]. unfold set_b. rewrite W. do 5 eexists. split; [reflexivity|]. split; [lia|]. split; [|discriminate].
    destruct F as [[F1 [F2 F3]] F4]. rewrite (bi_nn _ V).
    destruct (law_build L n (b_conv g) Hn F1 F2 F3) as [L1 [L2 L3]].
    constructor; auto; cbn [pend].
    + intros e. rewrite S4, !in_app_iff, L3. tauto.
    + rewrite !app_length in *. assert (length (kt_edges K (kt_build K (b_conv g) n)) <= length (b_conv g)); [|lia].
      apply NoDup_incl_length; [apply (law_edges_nodup L n), L1|]. intros e. apply L3.
    + cbn. split; [split; auto|auto].
  - (* BClear *) eexists. split; [reflexivity|]. unfold set_b, set_conv. gcbn. rewrite W. do 5 eexists. split; [reflexivity|]. split; [lia|]. split; [|discriminate].
    constructor; auto. cbn. destruct F; auto.
  - (* BLevel *) destruct F as [F1 [[F2 F3] F4]]. unfold maxsz. destruct (N.eqb_spec (b_msz g) 1) as [E1|_]; [lia|]. cbn [obind].
    assert (KT : ks_total K (b_ks g) = N.of_nat (length (kse (b_ks g)))).
    { clear - S1. destruct S1 as [_ G]. revert G. generalize (b_ks g). induction l as [|[t|] l IH]; intros G; [reflexivity| |].
      - cbn [ks_total]. rewrite ks_edges_cons_some, app_length, IH by (intros u J; apply G; right; auto).
        destruct (G t (or_introl eq_refl)) as [G1 G2]. rewrite (law_total L n t G1), G2. lia.
      - cbn [ks_total]. rewrite ks_edges_cons_none. apply IH. intros u J; apply G; right; auto. }
    destruct (find_level_total T K n Hn (b_msz g) (b_ks g) 0 (th_max T (b_msz g) 0)) as [i Ei].
    { destruct (b_ks g); [destruct S1; discriminate|discriminate]. }
    { destruct S1 as [-> _]. reflexivity. }
    { rewrite KT, HT by lia. lia. }
    rewrite Ei. pose proof (find_level_range T K n Hn _ _ _ _ _ Ei) as Ri. destruct S1 as [S1 S1']. rewrite S1 in Ri. cbn in Ri.
    eexists. split; [reflexivity|]. unfold set_b, set_ks. gcbn. rewrite W. do 5 eexists. split; [reflexivity|]. split; [lia|]. split; [|discriminate].
    constructor; auto; cbn [pend].
    + split; auto.
    + intros k t E. apply S2 in E. lia.
    + unfold RS in *; lia.
    + cbn. split; [auto|]. split; [auto|]. split; [lia|]. split; [lia|]. intros k Hk; lia.
  - (* BMerge *) destruct F as [F1 [F2 [F3 [F4 F5]]]]. destruct (Nat.leb_spec j i) as [Lj|Lj].
    + destruct S1 as [S1 S1']. destruct (nth_error (b_ks g) j) as [o|] eqn:Ej; [|apply nth_error_None in Ej; lia].
      destruct o as [s|].
      * eexists. split; [reflexivity|]. unfold set_b, set_ks. gcbn. rewrite W. do 5 eexists. split; [reflexivity|]. split; [lia|]. split; [|discriminate].
        assert (Os : ok_t s) by (apply S1'; eapply nth_error_In; eauto). destruct (union_ok tmp s F1 Os) as [U1 [U2 U3]].
        constructor; auto; cbn [pend].
        -- apply ks_ok_upd; [split; auto|discriminate].
        -- intros k t E. rewrite nth_error_upd in E. destruct (Nat.eqb_spec j k); [destruct (j <? length (b_ks g)); discriminate|apply S2 in E; auto].
        -- intros e. rewrite S4, (kse_upd _ _ _ _ Ej), (kse_split _ _ _ Ej), !in_app_iff, U2. cbn [In]. tauto.
        -- rewrite (kse_upd _ _ _ _ Ej). rewrite (kse_split _ _ _ Ej) in S5. rewrite !app_length in *. cbn [length]. lia.
        -- cbn. split; [auto|]. split; [auto|]. split; [auto|]. split; [lia|]. intros k Hk. rewrite nth_error_upd.
           destruct (Nat.eqb_spec j k) as [->|Ne]; [|apply F5; lia]. destruct (Nat.ltb_spec k (length (b_ks g))); [auto|unfold RS in *; lia].
      * eexists. split; [reflexivity|]. unfold set_b. gcbn. rewrite W. do 5 eexists. split; [reflexivity|]. split; [lia|]. split; [|discriminate].
        constructor; auto; cbn [pend].
        -- split; auto.
        -- cbn. split; [auto|]. split; [auto|]. split; [auto|]. split; [lia|]. intros k Hk.
           destruct (Nat.eq_dec k j) as [->|]; auto. apply F5; lia.
    + eexists. split; [reflexivity|]. unfold set_b. gcbn. rewrite W. do 5 eexists. split; [reflexivity|]. split; [lia|]. split; [|discriminate].
      constructor; auto; cbn [pend]. cbn. repeat split; auto; apply F1.
  - (* BStore *) destruct F as [F1 [F2 [F3 F5]]]. destruct S1 as [S1 S1']. destruct (Nat.ltb_spec i (length (b_ks g))) as [Li|Li]; [|unfold RS in *; lia].
    eexists. split; [reflexivity|]. unfold set_b, set_ks. gcbn. rewrite W. do 5 eexists. split; [reflexivity|]. split; [lia|]. split; [|discriminate].
    constructor; auto; cbn [pend].
    + apply ks_ok_upd; [split; auto|]. intros t E; injection E as <-; auto.
    + intros k t E. rewrite nth_error_upd in E. destruct (Nat.eqb_spec i k); [lia|apply S2 in E; auto].
    + intros e. rewrite S4, (kse_upd _ _ _ _ F5), (kse_split _ _ _ F5), !in_app_iff. cbn [In]. tauto.
    + rewrite (kse_upd _ _ _ _ F5). rewrite (kse_split _ _ _ F5) in S5. rewrite !app_length in *. cbn [length] in *. lia.
  - (* BDone *) eexists. split; [reflexivity|]. unfold set_b, set_nw. gcbn. do 5 eexists. split; [reflexivity|]. split; [lia|]. split; [|auto].
    constructor; auto. reflexivity.
  - destruct F.
Qed.

(** ** The caller's thread *)
Definition plain (m : mpc) : Prop := match m with MCopy _ _ | MFlag _ | MClean _ => False | _ => True end.
Definition neutral (v : event) : Prop := match v with EIns _ Buffered | EIns _ Flushed => False | _ => True end.
Lemma plain_vlog m h : plain m -> vlog m h = h.
Proof. destruct m; cbn; tauto. Qed.
Lemma plain_copying m : plain m -> ~ copying m.
Proof. destruct m; cbn; tauto. Qed.
Lemma plain_conv m (P : Prop) (Q : edge -> nat -> Prop) (R : edge -> Prop) : plain m ->
  match m with MCopy e j => Q e j | MFlag e => R e | _ => P end <-> P.
Proof. destruct m; cbn; tauto. Qed.
Lemma neutral_log v h : neutral v -> stored (v :: h) = stored h /\ recent (v :: h) = recent h /\ last_flush (v :: h) = last_flush h.
Proof. destruct v as [e [| |]| | |]; cbn; tauto. Qed.

Lemma older_ext h h' : last_flush h' = last_flush h -> older h' = older h.
Proof. intros E. unfold older. rewrite E. reflexivity. Qed.
Lemma stor_ext h h' l r cv w b z : last_flush h' = last_flush h -> stor h l r cv w b z -> stor h' l r cv w b z.
Proof. intros E [S1 S2 S3 S4 S5 S6]. constructor; auto; rewrite (older_ext _ _ E); auto. Qed.
Lemma copied_ext h h' r t m c : last_flush h' = last_flush h -> copied h r t m c -> copied h' r t m c.
Proof. intros E [C1 C2 C3 C4]. constructor; auto. rewrite E. auto. Qed.

Ltac plain_inv V P := destruct V as [V1 V2 V3 V4 V5 V6 V7 V8 V9 V10 V11 V12 V13];
  rewrite (plain_vlog _ _ P) in V5, V6, V8, V9; apply plain_conv in V7; [|exact P].

Lemma move (g : bg) m' : inv g -> plain (b_m g) -> plain m' -> (busy_nb m' -> b_nw g = true \/ busy_nb (b_m g)) -> mfact (set_m g m') -> inv (set_m g m').
Proof.
  intros V P P' BN M. plain_inv V P. pose proof (plain_vlog m' (b_log g) P') as E'.
  constructor; gcbn; rewrite ?E'; auto; [apply plain_conv; auto|]. intros [X|X]; auto.
Qed.
Lemma finish (g : bg) v : inv g -> plain (b_m g) -> neutral v -> event_ok (b_log g) v -> inv (done g v).
Proof.
  intros V P NV EV. plain_inv V P. destruct (neutral_log v (b_log g) NV) as [E1 [E2 E3]].
  constructor; gcbn; cbn [vlog]; rewrite ?E1, ?E2, ?E3; auto.
  - eapply stor_ext; eauto.
  - intros [W|[]]. eapply copied_ext; eauto.
  - exact Logic.I.
  - split; auto.
Qed.
Lemma buffered (g : bg) c e : inv g -> plain (b_m g) -> c0_inv c (lv (rev (recent (b_log g))) ++ [(e, true)]) -> c_nv c = n -> inr e ->
  ~ In e (visible (b_log g)) -> inv (done (set_store g c (b_nt g + 1)) (EIns e Buffered)).
Proof.
  intros V P IC NC IR NV. plain_inv V P.
  constructor; gcbn; cbn [vlog stored recent last_flush]; auto.
  - cbn [rev]. rewrite lv_app. exact IC.
  - rewrite V4. cbn [length]. lia.
  - eapply stor_ext; [|exact V6]. reflexivity.
  - intros [W|[]]. eapply copied_ext; [|apply V8; auto]. reflexivity.
  - exact Logic.I.
  - split; auto.
Qed.
Lemma ins_end_ok (g : bg) e h : b_todo g = None -> ins_end K g e h = Ok (done g (EIns e h)).
Proof. intros E. unfold ins_end, ins_done. rewrite E. reflexivity. Qed.

Lemma has_c0 (g : bg) e : inv g -> c0_contains (b_c0 g) e = Ok (emem e (rev (recent (b_log g)))).
Proof. intros V. rewrite (inv_contains _ _ e (bi_c0 _ V)), live_lv. reflexivity. Qed.
Lemma In_buf e l : emem e (rev l) = true <-> In e l.
Proof. rewrite emem_In. symmetry. apply in_rev. Qed.
Lemma notIn_buf e l : emem e (rev l) = false <-> ~ In e l.
Proof. rewrite emem_false. rewrite <- in_rev. reflexivity. Qed.

Ltac mv := eexists; split; [reflexivity|]; apply move; [assumption|assumption|exact Logic.I|cbn [busy_nb]; try (intros []; fail); auto|unfold mfact; gcbn].
Ltac fin := eexists; split; [reflexivity|]; apply finish; [assumption|assumption|exact Logic.I|cbn [event_ok]].

Definition call_in (c : call) : Prop := match c with CIns e | CHas e => inr e | CNbr x => (x < n)%N | CDel e => False end.

Lemma call_ok (g : bg) c : inv g -> call_in c -> exists g', call_step K c g = Ok g' /\ inv g'.
Proof.
  intros V R. unfold call_step. destruct (b_m g) eqn:Em; eauto.
  assert (P : plain (b_m g)) by (rewrite Em; exact Logic.I).
  destruct c as [e|e|x|e]; cbn [call_in] in R.
  - unfold start, fuel_of. rewrite (bi_todo _ V). cbn [ins_start]. rewrite (has_c0 g e V). cbn [obind].
    destruct (emem e (rev (recent (b_log g)))) eqn:Ec.
    + unfold ins_done. rewrite (bi_todo _ V). fin. apply In_buf in Ec. apply stored_split; auto.
    + mv. split; auto. apply notIn_buf, Ec.
  - rewrite (has_c0 g e V). cbn [obind]. destruct (emem e (rev (recent (b_log g)))) eqn:Ec.
    + fin. apply In_buf in Ec.
      split; auto. intros _. apply stored_split; auto.
    + mv. split; auto. apply notIn_buf, Ec.
  - rewrite (inv_neigh _ _ x (bi_c0 _ V)), live_lv. cbn [obind]. mv. split; auto.
  - destruct R.
Qed.

Lemma has_end_ok (g : bg) k e b busy : inv g -> plain (b_m g) -> inr e -> (b = true <-> In e (seen busy (b_log g))) ->
  exists g', has_end K g k e b busy = Ok g' /\ inv g'.
Proof.
  intros V P R S. unfold has_end. destruct k.
  - destruct b.
    + rewrite ins_end_ok by apply (bi_todo _ V). fin.
      destruct busy; cbn [seen] in S; [apply visible_stored|]; apply S; auto.
    + mv. split; auto.
      intros I. assert (X : In e (seen busy (b_log g))) by (destruct busy; cbn; [auto|apply visible_stored, I]).
      apply S in X. discriminate.
  - fin. auto.
Qed.

Lemma seen_idle h l r cv b z e : stor h l r cv false b z -> (In e (seen false h) <-> In e (recent h) \/ In e (kse l)).
Proof. intros S. cbn [seen]. eapply scan_all; eauto. Qed.

Lemma main_ok (g : bg) : inv g -> exists g', main_step wt T K g = Ok g' /\ inv g'.
Proof.
  intros V. pose proof (bi_m _ V) as M. unfold mfact in M. unfold main_step.
  assert (B : length (recent (b_log g)) = c0_size (b_c0 g)).
  { rewrite (inv_size _ _ (bi_c0 _ V)), live_lv, rev_length. reflexivity. }
  assert (Cn : c_n (b_c0 g) = length (recent (b_log g))).
  { rewrite (iv_n _ _ (bi_c0 _ V)), lv_len, rev_length. reflexivity. }
  assert (Nm : N.max (b_n g) (b_nt g) <> 1%N) by (rewrite (bi_nn _ V); lia).
  destruct (b_m g) eqn:Em; try (assert (P : plain (b_m g)) by (rewrite Em; exact Logic.I)).
  - eauto.
  - (* MHas *) destruct M as [M1 M2]. destruct (b_nw g) eqn:W; [|mv; rewrite ?W; cbn; repeat split; auto; try apply M1; lia].
    assert (LF : last_flush (b_log g) <> None) by (pose proof (bi_nw _ V W) as X; rewrite (plain_vlog _ _ P) in X; exact X).
    pose proof (bi_copy _ V (or_introl W)) as C. rewrite (plain_vlog _ _ P) in C.
    pose proof (copy_all _ _ _ _ _ C LF e) as A.
    destruct (eeqb (b_tmp g) e) eqn:Et.
    + apply eeqb_eq in Et. apply has_end_ok; auto. cbn [seen]. rewrite A. intuition.
    + apply eeqb_neq in Et. pose proof (cp_mrb _ _ _ _ _ C). pose proof (st_maxr _ _ _ _ _ _ _ (bi_st _ V)).
      rewrite (bi_clen _ V). destruct (Nat.ltb_spec (b_mrb g) RS) as [_|]; [|lia].
      apply has_end_ok; auto. cbn [seen]. rewrite A. destruct e as [x y]. cbn [fst snd].
      pose proof (ks_ok_wf _ (cp_ok _ _ _ _ _ C)) as Wc.
      rewrite (ks_adj_spec K L n) by (auto; apply ks_wf_firstn; auto). rewrite (kse_firstn _ (b_mrb g)); [|apply (cp_above _ _ _ _ _ C)|lia].
      intuition congruence.
  - (* MScan *) destruct M as [M1 [M2 [M3 [M4 M5]]]]. pose proof (bi_st _ V) as S. rewrite (plain_vlog _ _ P), M3 in S.
    pose proof (st_maxr _ _ _ _ _ _ _ S) as R. destruct (st_ok _ _ _ _ _ _ _ S) as [KL KO].
    destruct (Nat.leb_spec i (b_maxr g)) as [Li|Li].
    + destruct (nth_error (b_ks g) i) as [o|] eqn:Ei; [|apply nth_error_None in Ei; lia].
      destruct o as [t|].
      * destruct (kt_adj K t (fst e) (snd e)) eqn:Ea.
        -- apply has_end_ok; auto. rewrite (seen_idle _ _ _ _ _ _ _ S). split; auto. intros _. right. eapply nth_kse; eauto.
           destruct e as [x y]. apply (law_adj L n t x y); auto; [apply KO; eapply nth_error_In; eauto|apply M1|apply M1].
        -- mv. repeat split; auto; [apply M1|apply M1|lia|]. rewrite (firstn_S _ _ _ Ei), ks_edges_app, in_app_iff.
           intros [J|J]; [auto|]. cbn in J. rewrite app_nil_r in J. destruct e as [x y].
           apply (law_adj L n t x y) in J; [cbn in Ea; congruence|apply KO; eapply nth_error_In; eauto|apply M1|apply M1].
      * mv. repeat split; auto; [apply M1|apply M1|lia|]. rewrite (firstn_S _ _ _ Ei), ks_edges_app, in_app_iff.
        intros [J|J]; [auto|]. destruct J.
    + apply has_end_ok; auto. rewrite (seen_idle _ _ _ _ _ _ _ S). rewrite (kse_firstn _ (b_maxr g)) in M5; [|apply (st_above _ _ _ _ _ _ _ S)|lia].
      intuition congruence.
  - (* MIns *) destruct M as [M1 M2]. unfold maxsz. destruct (N.eqb_spec (N.max (b_n g) (b_nt g)) 1); [congruence|]. cbn [obind].
    rewrite <- B. destruct (N.ltb_spec (N.of_nat (length (recent (b_log g)))) (th_max T (N.max (b_n g) (b_nt g)) 0)) as [Lt|Ge].
    + destruct (insert_ok T (b_c0 g) (lv (rev (recent (b_log g)))) e (b_nt g) (bi_c0 _ V)) as (c' & E & I & _ & Nv).
      { rewrite live_lv, <- in_rev. intros J. apply M2, recent_visible, J. }
      { right. rewrite (bi_nv _ V), <- (bi_nn _ V). split; auto. rewrite Cn. lia. }
      rewrite E. cbn [obind]. rewrite ins_end_ok by apply (bi_todo _ V). eexists. split; [reflexivity|].
      apply buffered; auto. rewrite Nv. apply (bi_nv _ V).
    + mv. rewrite (bi_nn _ V) in Ge. auto.
  - (* MBusy *) destruct M as [M1 [M2 M3]]. destruct (b_nw g) eqn:W; [|mv; auto].
    destruct wt; [eauto|].
    set (c := if c0_size (b_c0 g) =? c_max (b_c0 g) then c0_resize (b_c0 g) (c_max (b_c0 g) + 10) else b_c0 g).
    assert (X : c0_inv c (lv (rev (recent (b_log g)))) /\ c_n c < c_max c /\ c_nv c = n).
    { unfold c. destruct (inv_resize (b_c0 g) _ (c_max (b_c0 g) + 10) (bi_c0 _ V)) as [X1 [X2 [X3 [_ X5]]]].
      pose proof (iv_le _ _ (bi_c0 _ V)) as Le. pose proof (bi_nv _ V). pose proof (bi_c0 _ V).
      destruct (Nat.eqb_spec (c0_size (b_c0 g)) (c_max (b_c0 g))); (split; [auto|]; split; [|congruence]; lia). }
    destruct X as [X1 [X2 X3]].
    destruct (insert_ok T c (lv (rev (recent (b_log g)))) e (b_nt g) X1) as (c' & E & I & _ & Nv).
    { rewrite live_lv, <- in_rev. intros J. apply M2, recent_visible, J. }
    { left. auto. }
    cbv zeta. rewrite E. cbn [obind]. rewrite ins_end_ok by apply (bi_todo _ V). eexists. split; [reflexivity|].
    apply buffered; auto. congruence.
  - (* MPush *) destruct M as [M1 [M2 [M3 M4]]]. rewrite (inv_converted _ _ (bi_c0 _ V)), live_lv. cbn [obind].
    eexists. split; [reflexivity|]. plain_inv V P. rewrite (V7 M4).
    constructor; gcbn; cbn [vlog app]; auto.
    + rewrite M4 in *. destruct V6 as [S1 S2 S3 S4 S5 S6]. constructor; cbn [pend bfact] in *; auto.
    + intros [X|[]]. congruence.
    + unfold mfact. gcbn. rewrite V1. repeat split; auto; try apply M1; lia.
  - (* MCopy *) destruct M as (M1 & M2 & M3 & M4 & M5 & M6 & M7 & M8 & M9 & M10).
    destruct (st_ok _ _ _ _ _ _ _ (bi_st _ V)) as [KL KO].
    destruct (nth_error (b_ks g) j) as [o|] eqn:Ej.
    + assert (Lj : j < RS) by (rewrite <- KL; apply nth_error_Some; congruence).
      eexists. split; [reflexivity|]. destruct V as [V1 V2 V3 V4 V5 V6 V7 V8 V9 V10 V11 V12 V13]. rewrite Em in *.
      constructor; gcbn; cbn [vlog] in *; auto.
      * intros [X|[]]. congruence.
      * rewrite length_upd. auto.
      * unfold mfact. gcbn. repeat split; auto; try apply M1; [rewrite length_upd; auto|].
        assert (X : nth_error (upd (b_copy g) j o) j = Some o) by (apply nth_error_upd_eq; lia).
        rewrite (firstn_S _ _ _ X), (firstn_S _ _ _ Ej). f_equal. rewrite <- M10.
        clear - Lj M8. revert Lj M8. generalize (b_copy g). intros l Lj Hl. assert (Y : j < length l) by lia. clear Lj Hl.
        revert l Y. induction j as [|j IH]; intros [|a l] Y; cbn in *; try lia; auto. f_equal. apply IH. lia.
    + apply nth_error_None in Ej. rewrite KL in Ej. rewrite !firstn_all2 in M10 by lia.
      eexists. split; [reflexivity|]. destruct V as [V1 V2 V3 V4 V5 V6 V7 V8 V9 V10 V11 V12 V13]. rewrite Em in *.
      constructor; gcbn; cbn [vlog] in *; auto.
      unfold mfact. gcbn. repeat split; auto; apply M1.
  - (* MFlag *) destruct M as (M1 & M2 & M3 & M4 & M5 & M6 & M7 & M8).
    eexists. split; [reflexivity|]. destruct V as [V1 V2 V3 V4 V5 V6 V7 V8 V9 V10 V11 V12 V13]. rewrite Em in *. cbn [vlog] in *.
    destruct V6 as [S1 S2 S3 S4 S5 S6]. rewrite M4 in *. cbn [pend bfact] in *. rewrite app_nil_r in *.
    constructor; gcbn; cbn [vlog]; auto.
    + cbn [stored]. constructor; auto.
    + constructor; auto.
      * intros x. unfold older at 1. cbn [last_flush]. unfold pend. rewrite S6, V7. cbn [In]. rewrite stored_split, S4, !in_app_iff. rewrite <- in_rev. cbn [In]. tauto.
      * unfold older at 1. cbn [last_flush]. unfold pend. rewrite S6, V7. cbn [length]. rewrite !app_length, rev_length, stored_len. cbn [length]. lia.
      * unfold bfact. rewrite S6, V7. split; [split; [|split]|].
        -- destruct (rev (recent (b_log g))); discriminate.
        -- pose proof (uniq_nodup _ (inv_uniq _ _ V3)) as U. rewrite live_lv in U. apply NoDup_app. split; [auto|]. split; [repeat constructor; auto|].
           intros x I [<-|[]]. apply in_rev in I. apply M2, recent_visible, I.
        -- apply Forall_app. split; [|repeat constructor; apply M1]. apply Forall_forall. intros x I. apply in_rev in I.
           rewrite Forall_forall in V5. apply V5. apply stored_split. auto.
        -- unfold small. rewrite M5. split; [lia|]. rewrite stored_len in V4. lia.
    + intros X; discriminate X.
    + intros _. constructor; auto.
      * rewrite M8. auto.
      * rewrite M8, M7. auto.
      * lia.
      * cbn [last_flush]. intros f r E. injection E as <- <-. split; [auto|]. rewrite M8. auto.
    + intros _ X. discriminate X.
  - (* MClean *) destruct (inv_clean _ _ (bi_c0 _ V)) as (c' & E & IC & _ & Nv). rewrite E. cbn [obind].
    rewrite ins_end_ok by apply (bi_todo _ V). eexists. split; [reflexivity|].
    destruct V as [V1 V2 V3 V4 V5 V6 V7 V8 V9 V10 V11 V12 V13]. rewrite Em in *. cbn [vlog] in *.
    constructor; gcbn; cbn [vlog]; auto.
    + congruence.
    + rewrite V4. cbn [stored length]. lia.
    + exact Logic.I.
    + split; auto.
  - (* MNbr *) destruct M as [M1 M2]. destruct (b_nw g) eqn:W.
    + mv. split; [auto|]. split; [lia|]. split; [pose proof (bi_nw _ V W) as X; rewrite (plain_vlog _ _ P) in X; exact X|].
      rewrite M2. cbn [firstn nbrs flat_map]. rewrite app_nil_r. reflexivity.
    + mv. split; [auto|]. split; [lia|]. split; [auto|]. rewrite M2. cbn. rewrite app_nil_r. reflexivity.
  - (* MNb *) destruct M as [M1 [M2 M3]]. pose proof (bi_st _ V) as S. rewrite (plain_vlog _ _ P) in S.
    pose proof (st_maxr _ _ _ _ _ _ _ S) as R. pose proof (st_ok _ _ _ _ _ _ _ S) as KO.
    pose proof (uniq_nodup _ (inv_uniq _ _ (bi_c0 _ V))) as U. rewrite live_lv in U.
    assert (UB : forall y, In y (rev (succs x (rev (recent (b_log g))))) <-> In (x, y) (recent (b_log g))).
    { intros y. rewrite <- in_rev, In_succs, <- in_rev. reflexivity. }
    assert (UN : NoDup (rev (succs x (rev (recent (b_log g)))))) by (apply NoDup_rev, NoDup_succs, U).
    assert (C : busy = true -> last_flush (b_log g) <> None -> copied (b_log g) (b_maxr g) (b_tmp g) (b_mrb g) (b_copy g)).
    { intros -> LF. pose proof (bi_copy _ V) as C. rewrite (plain_vlog _ _ P), Em in C. apply C. right. exact Logic.I. }
    pose proof (bi_clen _ V) as CL. destruct KO as [KL KO].
    destruct (Nat.leb_spec l (b_maxr g)) as [Ll|Ll].
    + assert (X : exists o, nth_error (if busy then b_copy g else b_ks g) l = Some o).
      { destruct (nth_error (if busy then b_copy g else b_ks g) l) eqn:E; [eauto|]. apply nth_error_None in E. destruct busy; unfold RS in *; lia. }
      destruct X as [o Eo]. rewrite Eo.
      assert (Y : forall acc', acc' = acc ++ nbrs x [o] -> mfact (set_m g (MNb x acc' busy (Datatypes.S l)))).
      { intros acc' ->. unfold mfact. gcbn. split; [auto|]. split; [unfold RS in *; lia|]. destruct busy; destruct M3 as [M3 M4]; split; auto; rewrite M4, (firstn_S _ _ _ Eo);
        unfold nbrs at 3; rewrite flat_map_app; fold (nbrs x [o]); rewrite <- ?app_assoc; reflexivity. }
      destruct o as [t|]; eexists; (split; [reflexivity|]); (apply move; [assumption|assumption|exact Logic.I|rewrite Em; auto|]); apply Y;
        cbn [nbrs flat_map]; rewrite ?app_nil_r; reflexivity.
    + fin. destruct busy; cbn [seen].
      * destruct M3 as [LF M4]. specialize (C eq_refl LF). pose proof (cp_mrb _ _ _ _ _ C) as Lm.
        rewrite (nbrs_firstn x (b_copy g) (b_mrb g) l) in M4; [|apply (cp_above _ _ _ _ _ C)|lia].
        pose proof (ks_ok_wf _ (cp_ok _ _ _ _ _ C)) as Wc.
        assert (TM : forall y, In y (if (fst (b_tmp g) =? x)%N then [snd (b_tmp g)] else []) <-> (x, y) = b_tmp g).
        { intros y. destruct (b_tmp g) as [a b]. cbn [fst snd]. destruct (N.eqb_spec a x) as [->|Ne]; cbn [In]; intuition congruence. }
        split.
        -- intros y. rewrite (copy_all _ _ _ _ _ C LF), M4, !in_app_iff, UB, (nbrs_In x _ y Wc M1), TM. tauto.
        -- intros ND. pose proof (copy_nodup _ _ _ _ _ _ C LF ND eq_refl) as Z. apply NoDup_app in Z. destruct Z as [_ [Z2 Z3]].
           inversion Z2 as [|? ? Z4 Z5]; subst. apply NoDup_app. split; [auto|]. split.
           ++ apply NoDup_app. split; [destruct (fst (b_tmp g) =? x)%N; repeat constructor; auto|]. split; [apply nbrs_nodup; auto|].
              intros y I J. apply TM in I. apply nbrs_In in J; auto. rewrite I in J. auto.
           ++ intros y I J. apply UB in I. apply (Z3 _ I). apply in_app_iff in J. destruct J as [J|J]; [left; symmetry; apply TM, J|right; apply nbrs_In in J; auto].
      * destruct M3 as [W M4]. rewrite W in S. rewrite (nbrs_firstn x (b_ks g) (b_maxr g) l) in M4; [|apply (st_above _ _ _ _ _ _ _ S)|lia].
        pose proof (ks_ok_wf _ (st_ok _ _ _ _ _ _ _ S)) as Wc. split.
        -- intros y. rewrite (scan_all _ _ _ _ _ _ S), M4, !in_app_iff, UB, (nbrs_In x _ y Wc M1). tauto.
        -- intros ND. assert (Z : NoDup (recent (b_log g) ++ kse (b_ks g))).
           { apply (nodup_of_len (stored (b_log g))); auto.
             - pose proof (st_le _ _ _ _ _ _ _ S) as Le. cbn [pend] in Le. rewrite app_nil_r in Le. rewrite app_length, stored_len. lia.
             - intros e. rewrite in_app_iff. apply (scan_all _ _ _ _ _ _ S). }
           apply NoDup_app in Z. destruct Z as [_ [Z2 Z3]]. rewrite M4. apply NoDup_app. split; [auto|]. split; [apply nbrs_nodup; auto|].
           intros y I J. apply UB in I. apply nbrs_In in J; auto. apply (Z3 _ I J).
  - destruct M.
  - destruct M.
Qed.

(** ** Every execution *)
Definition act_in (a : act) : Prop := match a with ACall c => call_in c | _ => True end.
Lemma step_ok g a : inv g -> act_in a -> exists g', step wt T K a g = Ok g' /\ inv g'.
Proof. intros V A. destruct a as [c| |]; [apply call_ok|apply main_ok|apply back_ok]; auto. Qed.
Lemma run_ok s : forall g, inv g -> Forall act_in s -> exists g', run wt T K s g = Ok g' /\ inv g'.
Proof.
  induction s as [|a s IH]; intros g V F; cbn [run]; [eauto|]. inversion F; subst.
  destruct (step_ok g a V) as (g1 & -> & V1); auto. cbn [obind]. apply IH; auto.
Qed.
Lemma exec_ok s : Forall act_in s -> exists g, exec wt T K n s = Ok g /\ inv g.
Proof. intros F. unfold exec. destruct bg_new_ok as (g0 & -> & V0). cbn [obind]. apply run_ok; auto. Qed.
Lemma run_app s1 : forall s2 g, run wt T K (s1 ++ s2) g = let* g' := run wt T K s1 g in run wt T K s2 g'.
Proof. induction s1 as [|a s1 IH]; intros s2 g; cbn [app run]; [reflexivity|]. destruct (step wt T K a g); cbn [obind]; auto. Qed.
End Inv.
