(** * Property theorems about DKtree_delay (C24, C25, C26, C54, C55).

    [dl_hist T K n h] runs the history h on a fresh DKtree_delay of n vertices: [Done d] (all calls returned), [Thrown]
    (a call threw) or [Undefined] (undefined behaviour, or the assertion in the branch marked "cannot happen"). *)
From Verif Require Import Base Spec Thresholds Table K2 C0 C0Proof C0Hist DK DKProof DKHist DKGuard DKTotal DKBisim Serial Prop_DK Prop_Serial Delay DelayProof DelayBisim.

(** The answers of a graph agree with a set of edges. *)
Definition answers (K : k2impl) (n : N) (d : dl K) (S : edge -> Prop) (count : nat) : Prop :=
  (forall x y, in_range n (x, y) -> exists b, dl_contains K d x y = Ok b /\ (b = true <-> S (x, y))) /\
  dl_edges K d = N.of_nat count /\
  (forall x, (x < n)%N -> exists l, dl_neigh K d x = Ok l /\ NoDup l /\ forall y, In y l <-> S (x, y)).

Lemma relD_answers K (L : k2laws K) n d sl S : relD K L n d sl S -> ks_below K (d_g d) ->
  answers K n d (fun e => In e S) (length S).
Proof.
  intros R B. pose proof (rd_inv _ _ _ _ _ _ R) as I. unfold answers. sp.
  - intros x y Hr. destruct (dl_contains_spec K L n d sl x y I Hr) as [b [E Hb]]. exists b. split; auto.
    rewrite Hb. apply (rd_set _ _ _ _ _ _ R).
  - apply (rd_nt _ _ _ _ _ _ R).
  - intros x Hx. destruct (dl_neigh_spec K L n d sl x I Hx) as [l [El [Hnd [Hs Hc]]]]. exists l. sp; auto.
    intros y. rewrite <- (rd_set _ _ _ _ _ _ R (x, y)). split; auto.
Qed.
Lemma answers_iff K n d (S S' : edge -> Prop) c c' : (forall e, S e <-> S' e) -> c = c' -> answers K n d S c -> answers K n d S' c'.
Proof.
  intros H <- [A [B C]]. unfold answers. sp; auto.
  - intros x y Hr. destruct (A x y Hr) as [b [E Hb]]. exists b. split; auto. rewrite Hb. apply H.
  - intros x Hx. destruct (C x Hx) as [l [El [Hnd Hi]]]. exists l. sp; auto. intros y. rewrite Hi. apply H.
Qed.
Lemma espec_adds_len es : length (espec (map Add es)) = length (nodup edge_dec es).
Proof. apply len_same; [apply espec_nodup|apply NoDup_nodup|]. intros e. rewrite espec_adds, nodup_In. reflexivity. Qed.

(** C24: after every completing list of insertions, contains, get_number_edges and list_neighbour are exact.  Lists
    are closed under prefixes, so this is "at every moment".  No assumption on the thresholds. *)
Theorem C24_delay_inserts_exact : forall T K (L : k2laws K) n es d,
  (2 <= n)%N -> Forall (in_range n) es -> dl_hist T K n (map Add es) = Done d ->
  answers K n d (fun e => In e es) (length (nodup edge_dec es)).
Proof.
  intros T K L n es d Hn HF E. destruct (hist_insert_dl T K L n Hn es d HF E) as [sl R].
  pose proof (relD_answers K L n d sl _ (ei_rel _ _ _ _ _ _ R) (proj1 (ei_below _ _ _ _ _ _ R))) as A.
  eapply answers_iff; [| |exact A]; [intros e; apply espec_adds|apply espec_adds_len].
Qed.

(** C55: after every completing history of insertions and deletions membership and the count are exact (unlike DKtree,
    C11 and C13), and list_neighbour is defined, duplicate-free and lists only present edges. *)
Theorem C55_delay_history_exact : forall T K (L : k2laws K) n h d,
  (2 <= n)%N -> Forall (op_in_range n) h -> dl_hist T K n h = Done d ->
  (forall x y, in_range n (x, y) -> dl_contains K d x y = Ok (present h (x, y))) /\
  dl_edges K d = N.of_nat (length (espec h)) /\
  (forall x, (x < n)%N -> exists l, dl_neigh K d x = Ok l /\ NoDup l /\ forall y, In y l -> present h (x, y) = true).
Proof.
  intros T K L n h d Hn HF E. destruct (hist_relD T K L n Hn h d HF E) as [sl R].
  pose proof (rd_inv _ _ _ _ _ _ R) as I. sp.
  - intros x y Hr. destruct (dl_contains_spec K L n d sl x y I Hr) as [b [Eb Hb]]. rewrite Eb. f_equal.
    apply eq_true_iff_eq. rewrite Hb, (rd_set _ _ _ _ _ _ R). apply espec_present.
  - apply (rd_nt _ _ _ _ _ _ R).
  - intros x Hx. destruct (dl_neigh_spec K L n d sl x I Hx) as [l [El [Hnd [Hs _]]]]. exists l. sp; auto.
    intros y Hy. apply espec_present, (rd_set _ _ _ _ _ _ R), Hs, Hy.
Qed.

(** ** C25 *)
(** C25 (partial): with at least 256 vertices no list of insertions reaches the assertion, throws, or is undefined.
    Missing: small graphs, for which it is false (C25_refuted), and histories with deletions. *)
Theorem C25_in_time_partial : forall T K (L : k2laws K) n es,
  th_real T -> (256 <= n)%N -> Forall (in_range n) es -> exists d, dl_hist T K n (map Add es) = Done d.
Proof.
  intros T K L n es HT Hn HF. apply (hist_total_dl T K L n ltac:(lia)); auto.
  - apply th_real_top; auto.
  - intros m Hm. apply th_max0_6; auto. lia.
Qed.

(** C25 is false of the code: 25 distinct insertions on 8 vertices; the last one reaches assert(false). *)
Definition w25 : list edge := flat_map (fun x => map (fun y => (x, y)) [0; 1; 2; 3; 4; 5; 6; 7])%N [0; 1; 2]%N ++ [(3, 0)]%N.
Theorem C25_refuted : forall T K (L : k2laws K), th_real T ->
  Forall (in_range 8) w25 /\ dl_hist T K 8 (map Add w25) = Undefined /\
  exists d, dl_hist T K 8 (map Add (removelast w25)) = Done d.
Proof.
  intros T K L HT. assert (HF : Forall (in_range 8) w25) by ranges. split; auto.
  assert (G : forall es, Forall (in_range 8) es -> rsm 8 K L K2Ref K2Ref_laws False (dl_hist T K 8 (map Add es)) (dl_hist T K2Ref 8 (map Add es))).
  { intros es He. apply sm_hist; try tauto; try lia.
    - apply Forall_forall. intros o Ho. apply in_map_iff in Ho. destruct Ho as [e [<- _]]. right. exact I.
    - rewrite Forall_map. exact He. }
  pose proof (G w25 HF) as G1. assert (HF2 : Forall (in_range 8) (removelast w25)) by ranges. pose proof (G _ HF2) as G2.
  assert (E1 : dl_hist T K2Ref 8 (map Add w25) = Undefined) by (rewrite <- (tabled_eq T HT); vm_compute; reflexivity).
  assert (E2 : exists d, dl_hist T K2Ref 8 (map Add (removelast w25)) = Done d) by (rewrite <- (tabled_eq T HT); eexists; vm_compute; reflexivity).
  destruct E2 as [d2 E2]. rewrite E1 in G1. rewrite E2 in G2.
  destruct (dl_hist T K 8 (map Add w25)); cbn in G1; try tauto.
  destruct (dl_hist T K 8 (map Add (removelast w25))); cbn in G2; try tauto. eauto.
Qed.

(** ** C26 *)
(** C26 (partial): in calm histories (each deletion is made while at least seven edges are present per deletion made so
    far), for trees whose union does not add marks, list_neighbour is exact too.  Missing: see C26_refuted. *)
Theorem C26_calm_exact_partial : forall T K (L : k2laws K) n h d,
  th_real T -> union_marks K L -> (2 <= n)%N -> Forall (op_in_range n) h -> calm h -> dl_hist T K n h = Done d ->
  answers K n d (fun e => present h e = true) (length (espec h)).
Proof.
  intros T K L n h d HT HU Hn HF HC E. destruct (hist_calm_dl T K L n Hn HT HU h d HF HC E) as [sl [R [B _]]].
  eapply answers_iff; [| |apply (relD_answers K L n d sl _ R B)]; auto. intros e. apply espec_present.
Qed.

(** What happens to one graph happens to any other lawful one whose unions carry no marks. *)
Lemma dl_transfer T K (L : k2laws K) n h : unions_clean L -> (2 <= n)%N -> Forall (op_in_range n) h ->
  rsm n K L K2Ref K2Ref_laws True (dl_hist T K n h) (dl_hist T K2Ref n h).
Proof.
  intros Hc Hn HF. apply sm_hist; auto.
  - intros _. apply K2Ref_clean.
  - apply Forall_forall. auto.
Qed.

(** C26 is false of the code, in four ways, on small graphs: (i) the only live edge is not listed; (ii) del_edge writes
    to k_collection[8]; (iii) add_edge unites with a null tree; (iv) add_edge throws with 4 live edges out of 9. *)
Definition w26a := [a 2 2; a 2 3; d 2 3]%N.
Definition w26b := [a 1 0; a 2 2; a 1 1; d 1 0; d 2 2]%N.
Definition w26c := [a 4 7; a 3 0; a 5 7; d 3 0; a 0 4; d 4 7; d 0 4; a 5 6]%N.
Definition w26d := [a 2 1; a 2 0; a 1 0; d 2 1; a 1 1; a 1 2; d 2 0; a 2 1]%N.
Theorem C26_refuted : forall T K (L : k2laws K), th_real T -> unions_clean L ->
  (exists d, Forall (op_in_range 5) w26a /\ dl_hist T K 5 w26a = Done d /\ dl_contains K d 2 2 = Ok true /\ dl_neigh K d 2 = Ok []) /\
  (Forall (op_in_range 3) w26b /\ dl_hist T K 3 w26b = Undefined /\ exists d, dl_hist T K 3 (removelast w26b) = Done d) /\
  (Forall (op_in_range 10) w26c /\ dl_hist T K 10 w26c = Undefined /\ exists d, dl_hist T K 10 (removelast w26c) = Done d) /\
  (Forall (op_in_range 3) w26d /\ length (espec (removelast w26d)) = 3 /\ exists d, dl_hist T K 3 w26d = Thrown d).
Proof.
  intros T K L HT Hc.
  assert (GU : forall n h, (2 <= n)%N -> Forall (op_in_range n) h -> dl_hist T K2Ref n h = Undefined -> dl_hist T K n h = Undefined).
  { intros n h Hn HF E. pose proof (dl_transfer T K L n h Hc Hn HF) as G. rewrite E in G. destruct (dl_hist T K n h); cbn in G; tauto. }
  assert (GD : forall n h e, (2 <= n)%N -> Forall (op_in_range n) h -> dl_hist T K2Ref n h = Done e ->
     exists d, dl_hist T K n h = Done d /\ dsm n K L K2Ref K2Ref_laws True d e).
  { intros n h e Hn HF E. pose proof (dl_transfer T K L n h Hc Hn HF) as G. rewrite E in G. destruct (dl_hist T K n h); cbn in G; try tauto. eauto. }
  assert (GT : forall n h e, (2 <= n)%N -> Forall (op_in_range n) h -> dl_hist T K2Ref n h = Thrown e ->
     exists d, dl_hist T K n h = Thrown d).
  { intros n h e Hn HF E. pose proof (dl_transfer T K L n h Hc Hn HF) as G. rewrite E in G. destruct (dl_hist T K n h); cbn in G; try tauto. eauto. }
  assert (HW : (exists e, dl_hist T K2Ref 5 w26a = Done e /\ dl_contains K2Ref e 2 2 = Ok true /\ dl_neigh K2Ref e 2 = Ok []) /\
    dl_hist T K2Ref 3 w26b = Undefined /\ (exists e, dl_hist T K2Ref 3 (removelast w26b) = Done e) /\
    dl_hist T K2Ref 10 w26c = Undefined /\ (exists e, dl_hist T K2Ref 10 (removelast w26c) = Done e) /\
    exists e, dl_hist T K2Ref 3 w26d = Thrown e).
  { rewrite <- (tabled_eq T HT). sp; try (vm_compute; reflexivity); eexists; sp; vm_compute; reflexivity. }
  destruct HW as [[e1 [W1 [W2 W3]]] [W4 [[e2 W5] [W6 [[e3 W7] [e4 W8]]]]]]. sp; try ranges.
  - destruct (GD 5%N w26a _ ltac:(lia) ltac:(ranges) W1) as [x [E S]]. exists x. sp; auto; [ranges| |].
    + rewrite (sm_contains 5 K L K2Ref K2Ref_laws True x e1 2 2 S); auto. ranges.
    + pose proof (sm_neigh 5 K L K2Ref K2Ref_laws True x e1 2 S ltac:(lia)) as HN. rewrite W3 in HN.
      destruct (dl_neigh K x 2) as [l|]; [|tauto]. destruct l as [|y l]; auto. exfalso. apply (HN y). left; auto.
  - apply GU; auto; [lia|ranges].
  - destruct (GD 3%N (removelast w26b) _ ltac:(lia) ltac:(ranges) W5) as [x [E _]]. eauto.
  - apply GU; auto; [lia|ranges].
  - destruct (GD 10%N (removelast w26c) _ ltac:(lia) ltac:(ranges) W7) as [x [E _]]. eauto.
  - eapply GT; eauto; [lia|ranges].
Qed.

(** ** C54: serialize and load *)
Lemma fresh_ks T K n d0 : dl_new T K n = Ok d0 -> ks (d_g d0) = repeat None RS /\ u_i d0 = 0 /\ u_prev d0 = RS /\ u_final d0 = 1 /\ d_tmp d0 = None.
Proof.
  unfold dl_new, dk_new. destruct (c0_new T n) as [c|]; cbn [obind]; [|discriminate]. intros H. injection H as <-. sp; reflexivity.
Qed.

Lemma upd_same {A} (l : list A) : forall i o, nth_error l i = Some o -> upd l i o = l.
Proof. induction l as [|b l IH]; intros [|i] o H; cbn in *; try discriminate; [congruence|]. f_equal. apply IH. exact H. Qed.

(** C54 (partial): a graph built by completing insertions, serialized (whatever union is pending) into an empty
    directory and loaded into a fresh DKtree_delay, answers every query like the original, and every completing continuation by
    insertions is exact.  With at least 256 vertices and no tree at levels 0 and 1, every continuation completes.
    Missing: see C54_refuted. *)
Theorem C54_round_trip_partial : forall T K (L : k2laws K) n m es d d0,
  (2 <= n)%N -> Forall (in_range n) es -> dl_hist T K n (map Add es) = Done d -> dl_new T K m = Ok d0 ->
  exists ws d', dl_serialize K d = Ok ws /\ dl_load T K (writes K (dir_empty K) ws) d0 = Done d' /\
    answers K n d' (fun e => In e es) (length (nodup edge_dec es)) /\
    (forall more d'', Forall (in_range n) more -> dl_ops T K d' (map Add more) = Done d'' ->
      answers K n d'' (fun e => In e (es ++ more)) (length (nodup edge_dec (es ++ more)))) /\
    (th_real T -> (256 <= n)%N -> (forall i t, i <= 1 -> nth_error (ks (d_g d)) i <> Some (Some t)) ->
     forall more, Forall (in_range n) more -> exists d'', dl_ops T K d' (map Add more) = Done d'').
Proof.
  intros T K L n m es d d0 Hn HF E E0. destruct (hist_insert_dl T K L n Hn es d HF E) as [sl R].
  destruct (fresh_ks _ _ _ _ E0) as [F1 [F2 [F3 [F4 F5]]]].
  pose proof (rd_inv _ _ _ _ _ _ (ei_rel _ _ _ _ _ _ R)) as I. destruct (ei_below _ _ _ _ _ _ R) as [Bl _].
  destruct (serial_core0 T K (d_g d) sl (dir_empty K) (d_g d0)) as [ws [g' [S1 [S2 [H1 [H2 [H3 [H4 [H5 [H6 H7]]]]]]]]]]; try apply I.
  { apply all_live_dead, (ei_live _ _ _ _ _ _ R). }
  { apply no_stale_fresh. exact F1. }
  rewrite (cut_below K (d_g d)) in H4; auto; try apply I.
  exists ws, (mkdl g' (u_i d0) (u_prev d0) (u_final d0) (d_tmp d0)). split; [exact S1|]. split; [unfold dl_load; rewrite S2; reflexivity|].
  assert (R' : relDI K L n (mkdl g' (u_i d0) (u_prev d0) (u_final d0) (d_tmp d0)) sl (espec (map Add es))).
  { destruct R as [[Q1 Q2 Q3 Q4] P1 P2 P3]. constructor; auto.
    - constructor; auto.
      + destruct I. constructor; cbn [d_g u_i u_prev u_final d_tmp]; rewrite ?H1, ?H2, ?H4, ?H7; auto; rewrite ?F2, ?F3, ?F4; unfold RS; lia.
      + intros e. rewrite <- Q2. unfold in_dl. cbn [d_g]. rewrite H4. tauto.
      + cbn [d_g]. rewrite H3. auto.
    - cbn [d_g]. rewrite H4. auto.
    - split; cbn [d_g u_prev u_final]; [unfold ks_below; rewrite H4, H1; exact Bl|rewrite F3; lia]. }
  split; [|split].
  - pose proof (relD_answers K L n _ sl _ (ei_rel _ _ _ _ _ _ R') (proj1 (ei_below _ _ _ _ _ _ R'))) as A.
    eapply answers_iff; [| |exact A]; [intros e; apply espec_adds|apply espec_adds_len].
  - intros more d'' HM E2. destruct (insert_ops_dl T K L n Hn more _ sl _ d'' R' HM E2) as [sl'' R''].
    pose proof (relD_answers K L n _ sl'' _ (ei_rel _ _ _ _ _ _ R'') (proj1 (ei_below _ _ _ _ _ _ R''))) as A.
    rewrite <- espec_app, <- map_app in A.
    eapply answers_iff; [| |exact A]; [intros e; apply espec_adds|apply espec_adds_len].
  - intros HT H256 Hno [|[x y] more] HM; [eexists; reflexivity|]. cbn [map dl_ops dl_op].
    set (d1 := mkdl g' 3 RS 1 None).
    assert (EU : union_delay K (mkdl g' (u_i d0) (u_prev d0) (u_final d0) (d_tmp d0)) = Ok d1).
    { unfold union_delay. cbn [d_g u_final u_i u_prev d_tmp]. rewrite H4, (dn_len _ _ _ _ _ I), F2, F3, F4, F5. cbn [Nat.ltb Nat.leb RS Nat.sub].
      destruct (next_tree K (ks (d_g d)) 0 2) as [j|] eqn:Ej.
      - apply next_tree_some in Ej. destruct Ej as [Hj [[t Et] _]]. exfalso. apply (Hno j t); auto. lia.
      - unfold d1. f_equal. f_equal. destruct g' as [r1 r2 r3 r4 r5]. cbn [max_r nv nt C0_ ks] in *. f_equal. rewrite H4. apply upd_same.
        assert (G : 1 < length (ks (d_g d))) by (rewrite (dn_len _ _ _ _ _ I); unfold RS; lia).
        destruct (nth_error (ks (d_g d)) 1) as [[t|]|] eqn:E1; auto; [elim (Hno 1 t); auto|]. apply nth_error_None in E1. lia. }
    assert (EA : dl_add T K (mkdl g' (u_i d0) (u_prev d0) (u_final d0) (d_tmp d0)) x y = dl_add T K d1 x y).
    { unfold dl_add. rewrite EU. unfold work_done. cbn [d1 u_final u_i]. rewrite F2, F4. reflexivity. }
    assert (R1 : relDI K L n d1 sl (espec (map Add es))).
    { destruct R' as [[[] Q2 Q3 Q4] P1 P2 P3]. constructor; auto.
      - constructor; auto. constructor; auto; cbn [d1 u_prev u_i u_final]; unfold RS; lia.
      - split; cbn [d1 d_g u_prev u_final]; [apply P3|lia]. }
    rewrite EA. change (exists d'', dl_ops T K d1 (map Add ((x, y) :: more)) = Done d'').
    apply (insert_total_dl T K L n Hn ((x, y) :: more) (th_real_top T HT)) with sl (espec (map Add es)); auto.
    + intros m' Hm' _. apply th_max0_6; auto. lia.
    + intros G. cbn in G. lia.
    + intros G. cbn in G. lia.
Qed.

(** C54 is false of the code: whenever the snapshot has a tree at level 0 or 1, the first add_edge on the loaded graph,
    whatever its argument, unites with a null tree; a graph of two edges on 8 vertices is such a snapshot. *)
Theorem C54_load_then_add_undefined : forall T K (L : k2laws K) n m es d d0 ws d' t i x y,
  (2 <= n)%N -> Forall (in_range n) es -> dl_hist T K n (map Add es) = Done d -> dl_new T K m = Ok d0 ->
  dl_serialize K d = Ok ws -> dl_load T K (writes K (dir_empty K) ws) d0 = Done d' ->
  i <= 1 -> nth_error (ks (d_g d)) i = Some (Some t) -> dl_add T K d' x y = Undefined.
Proof.
  intros T K L n m es d d0 ws d' t i x y Hn HF E E0 Es El Hi Ht. destruct (hist_insert_dl T K L n Hn es d HF E) as [sl R].
  destruct (fresh_ks _ _ _ _ E0) as [F1 [F2 [F3 [F4 F5]]]].
  pose proof (rd_inv _ _ _ _ _ _ (ei_rel _ _ _ _ _ _ R)) as I. destruct (ei_below _ _ _ _ _ _ R) as [Bl _].
  destruct (serial_core0 T K (d_g d) sl (dir_empty K) (d_g d0)) as [ws' [g' [S1 [S2 [H1 [H2 [H3 [H4 _]]]]]]]]; try apply I.
  { apply all_live_dead, (ei_live _ _ _ _ _ _ R). }
  { apply no_stale_fresh. exact F1. }
  unfold dl_serialize in Es. rewrite S1 in Es. injection Es as <-. unfold dl_load in El. rewrite S2 in El. injection El as <-.
  rewrite (cut_below K (d_g d)) in H4; auto; try apply I.
  unfold dl_add, work_done. cbn [u_final u_i]. rewrite F2, F4. cbn [Nat.ltb Nat.leb]. unfold union_delay. cbn [d_g u_final u_i u_prev d_tmp].
  rewrite H4, (dn_len _ _ _ _ _ I), ?F2, ?F3, ?F4, ?F5. cbn [Nat.ltb Nat.leb RS Nat.sub].
  destruct (next_tree K (ks (d_g d)) 0 2) as [j|] eqn:Ej.
  - destruct (nth_error (ks (d_g d)) j) as [[u|]|]; reflexivity.
  - exfalso. apply (next_tree_none K _ _ _ Ej i t); [lia|exact Ht].
Qed.
Theorem C54_refuted : forall T K (L : k2laws K) m d0, th_real T -> dl_new T K m = Ok d0 ->
  exists d ws d', dl_hist T K 8 [a 0 1; a 0 2]%N = Done d /\ dl_serialize K d = Ok ws /\
    dl_load T K (writes K (dir_empty K) ws) d0 = Done d' /\ forall x y, dl_add T K d' x y = Undefined.
Proof.
  intros T K L m d0 HT E0.
  assert (HF : Forall (in_range 8) [(0, 1); (0, 2)]%N) by ranges.
  assert (HW : exists e t, dl_hist T K2Ref 8 [a 0 1; a 0 2]%N = Done e /\ nth_error (ks (d_g e)) 1 = Some (Some t)).
  { rewrite <- (tabled_eq T HT). do 2 eexists. split; vm_compute; reflexivity. }
  destruct HW as [e [t [W1 W2]]].
  assert (G : rsm 8 K L K2Ref K2Ref_laws False (dl_hist T K 8 [a 0 1; a 0 2]%N) (dl_hist T K2Ref 8 [a 0 1; a 0 2]%N)).
  { apply sm_hist; try tauto; try lia; [|ranges]. repeat constructor; right; exact I. }
  rewrite W1 in G. destruct (dl_hist T K 8 [a 0 1; a 0 2]%N) as [d1| |] eqn:E; cbn in G; try tauto.
  pose proof (lsm_nth 8 K L K2Ref K2Ref_laws False _ _ (sm_ks _ _ _ _ _ _ _ _ G) 1) as G1. rewrite W2 in G1.
  destruct (nth_error (ks (d_g d1)) 1) as [[t1|]|] eqn:E1; cbn in G1; try tauto.
  destruct (C54_round_trip_partial T K L 8 m [(0, 1); (0, 2)]%N d1 d0 ltac:(lia) HF E E0) as [ws [d' [S1 [S2 _]]]].
  exists d1, ws, d'. sp; auto. intros x y.
  apply (C54_load_then_add_undefined T K L 8 m [(0, 1); (0, 2)]%N d1 d0 ws d' t1 1 x y); auto. lia.
Qed.

(** ** The hypotheses are met *)
(** C24, C54: 24 insertions on 8 vertices with a union still pending. *)
Example C24_example : exists d, dl_hist th_exact K2Ref 8 (map Add (firstn 24 w25)) = Done d /\ work_done K2Ref d = false /\ dl_edges K2Ref d = 24%N.
Proof. rewrite <- (tabled_eq th_exact th_real_inhabited). eexists. sp; vm_compute; reflexivity. Qed.
(** C26, C55: a calm history with deletions. *)
Example C26_example : exists d, dl_hist th_exact K2Ref 8 ex_calm = Done d /\ calm ex_calm /\ dl_edges K2Ref d = 17%N /\ dl_neigh K2Ref d 4 = Ok [4; 5]%N.
Proof.
  rewrite <- (tabled_eq th_exact th_real_inhabited). eexists. sp; try (vm_compute; reflexivity).
  vm_compute. repeat split; discriminate.
Qed.
Lemma K2Ref_union_marks : union_marks K2Ref K2Ref_laws.
Proof. intros m x y Hx Hy. rewrite (K2Ref_clean m x y Hx Hy). lia. Qed.
(** C54_round_trip: a fresh graph exists. *)
Example C54_example : exists d0, dl_new th_exact K2Ref 8 = Ok d0.
Proof. rewrite <- (tabled_eq th_exact th_real_inhabited). eexists. vm_compute. reflexivity. Qed.
