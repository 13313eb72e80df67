(** * Property theorems about DKtree (C01-C04, C10-C17, C44-C50).

    Everything is stated for every implementation [K] of sdsl::k2_tree that meets the contract [k2laws]
    (K2.v), every number of vertices n >= 2 and every history.  [T] holds the values of the floating-point
    thresholds; theorems assume as little of it as they need: nothing, [th_top] (MAXSZ(m,8) = 2m, exact in
    double arithmetic) or [th_real] (the exact mathematical values). *)
From Verif Require Import Base Spec Thresholds Table K2 C0 C0Proof DK DKProof DKHist DKGuard DKTotal DKBisim.

(** A graph a program can hold: a fresh graph on n vertices after calls that all returned normally. *)
Definition reached (T : thresholds) (K : k2impl) (n : N) (h : list op) (g : dk K) : Prop :=
  Forall (op_in_range n) h /\ dk_hist T K n h = Done g.

Lemma emem_nodup_In (e : edge) es : In e (nodup edge_dec es) <-> In e es.
Proof. apply nodup_In. Qed.

(** ** Insertions *)

(** C01: membership is exact after any list of insertions (and the insertions all complete). *)
Theorem C01_contains_after_inserts : forall T K (L : k2laws K) n es,
  th_top T -> (2 <= n)%N -> Forall (in_range n) es ->
  exists g, dk_hist T K n (map Add es) = Done g /\
    forall x y, in_range n (x, y) -> dk_contains K g x y = Ok (emem (x, y) es).
Proof.
  intros T K L n es HT Hn HF. destruct (hist_insert T K L n Hn es HT HF) as [g [sl [E R]]].
  exists g. split; auto. intros x y Hr. rewrite (dk_contains_spec K L n g sl x y (ri_inv _ _ _ _ _ _ R) Hr).
  f_equal. apply eq_true_iff_eq. rewrite !emem_In, (ri_set _ _ _ _ _ _ R), espec_adds. reflexivity.
Qed.

(** C02: the edge count is the number of distinct edges inserted. *)
Theorem C02_count_after_inserts : forall T K (L : k2laws K) n es,
  th_top T -> (2 <= n)%N -> Forall (in_range n) es ->
  exists g, dk_hist T K n (map Add es) = Done g /\ dk_edges K g = N.of_nat (length (nodup edge_dec es)).
Proof.
  intros T K L n es HT Hn HF. destruct (hist_insert T K L n Hn es HT HF) as [g [sl [E R]]].
  exists g. split; auto. unfold dk_edges. rewrite (ri_nt _ _ _ _ _ _ R). f_equal. apply len_same.
  - apply (dk_all_nodup K L n g sl (ri_inv _ _ _ _ _ _ R)).
  - apply NoDup_nodup.
  - intros e. rewrite (ri_set _ _ _ _ _ _ R), espec_adds, nodup_In. reflexivity.
Qed.

(** C03: no list of insertions throws or is undefined (every prefix of the list completes too, being a list). *)
Theorem C03_inserts_total : forall T K (L : k2laws K) n es,
  th_top T -> (2 <= n)%N -> Forall (in_range n) es ->
  exists g, dk_hist T K n (map Add es) = Done g.
Proof.
  intros T K L n es HT Hn HF. destruct (hist_insert T K L n Hn es HT HF) as [g [sl [E R]]]. eauto.
Qed.

(** C04: list_neighbour is exact and duplicate-free after any list of insertions. *)
Theorem C04_neighbours_after_inserts : forall T K (L : k2laws K) n es x,
  th_top T -> (2 <= n)%N -> Forall (in_range n) es -> (x < n)%N ->
  exists g l, dk_hist T K n (map Add es) = Done g /\ dk_neigh K g x = Ok l /\
    NoDup l /\ forall y, In y l <-> In (x, y) es.
Proof.
  intros T K L n es x HT Hn HF Hx. destruct (hist_insert T K L n Hn es HT HF) as [g [sl [E R]]].
  destruct (dk_neigh_spec K L n Hn g sl x (ri_inv _ _ _ _ _ _ R) Hx) as [l [El [Hnd [Hs Hc]]]].
  exists g, l. sp; auto. intros y. rewrite <- (espec_adds es), <- (ri_set _ _ _ _ _ _ R). split; auto.
  apply Hc, (ri_below _ _ _ _ _ _ R).
Qed.

(** ** Insertions and deletions: what always holds of a history that completes *)

(** C10: membership is exact if the self-loop (1,1) is never added.  No assumption on the thresholds. *)
Theorem C10_contains_exact : forall T K (L : k2laws K) n h g,
  (2 <= n)%N -> reached T K n h g -> ~ In (Add (1, 1)%N) h ->
  forall x y, in_range n (x, y) -> dk_contains K g x y = Ok (present h (x, y)).
Proof.
  intros T K L n h g Hn [HF E] H11 x y Hr. destruct (hist_rel T K L n Hn h g HF E) as [sl R].
  rewrite (dk_contains_spec K L n g sl x y (rl_inv _ _ _ _ _ _ R) Hr). f_equal.
  apply eq_true_iff_eq. rewrite emem_In, <- espec_present. split; [apply (rl_sound _ _ _ _ _ _ R)|].
  intros H. apply (rl_compl _ _ _ _ _ _ R); auto. intros G. rewrite G in H.
  clear - H H11. induction h as [|o h IH] using rev_ind; [destruct H|].
  rewrite espec_snoc, espec_step_In in H. rewrite in_app_iff in H11. destruct o as [f|f].
  - destruct H as [<-|H]; [apply H11; right; left; auto|apply IH; tauto].
  - apply IH; tauto.
Qed.

(** C45: whatever the history, contains never reports an edge whose last operation was not an add, and is exact for
    every edge other than (1,1). *)
Theorem C45_contains_sound : forall T K (L : k2laws K) n h g,
  (2 <= n)%N -> reached T K n h g ->
  forall x y, in_range n (x, y) ->
    exists b, dk_contains K g x y = Ok b /\ (b = true -> present h (x, y) = true) /\
      ((x, y) <> (1, 1)%N -> b = present h (x, y)).
Proof.
  intros T K L n h g Hn [HF E] x y Hr. destruct (hist_rel T K L n Hn h g HF E) as [sl R].
  exists (emem (x, y) (dk_all K g sl)). split; [apply (dk_contains_spec K L n g sl x y (rl_inv _ _ _ _ _ _ R) Hr)|].
  split.
  - rewrite emem_In, <- espec_present. apply (rl_sound _ _ _ _ _ _ R).
  - intros Hne. apply eq_true_iff_eq. rewrite emem_In, <- espec_present. split; [apply (rl_sound _ _ _ _ _ _ R)|].
    intros H. apply (rl_compl _ _ _ _ _ _ R); auto.
Qed.

(** C11 fails only for the self-loop (1,1): one call of del_edge removes its argument and nothing else, except
    possibly (1,1); it adds nothing. *)
Theorem C11_delete_frame_partial : forall T K (L : k2laws K) n h g u v g',
  (2 <= n)%N -> reached T K n h g -> in_range n (u, v) -> dk_del T K g u v = Done g' ->
  dk_contains K g' u v = Ok false /\
  (forall x y, in_range n (x, y) -> (x, y) <> (u, v) -> (x, y) <> (1, 1)%N ->
     dk_contains K g' x y = dk_contains K g x y) /\
  (dk_contains K g' 1 1 = Ok true -> dk_contains K g 1 1 = Ok true).
Proof.
  intros T K L n h g u v g' Hn [HF E] Hr Ed. destruct (hist_rel T K L n Hn h g HF E) as [sl R].
  pose proof (dk_del_spec T K L n Hn g sl u v (rl_inv _ _ _ _ _ _ R) Hr) as HD. rewrite Ed in HD.
  destruct HD as [sl' [rb [I' [HS _]]]]. pose proof (rl_inv _ _ _ _ _ _ R) as I.
  assert (H11 : in_range n (1, 1)%N) by (split; cbn; lia).
  sp.
  - rewrite (dk_contains_spec K L n g' sl' u v I' Hr). f_equal. apply emem_false. rewrite HS. tauto.
  - intros x y Hxy Hne Hne1. rewrite (dk_contains_spec K L n g' sl' x y I' Hxy), (dk_contains_spec K L n g sl x y I Hxy).
    f_equal. apply eq_true_iff_eq. rewrite !emem_In, HS. intuition.
  - rewrite (dk_contains_spec K L n g' sl' 1 1 I' H11), (dk_contains_spec K L n g sl 1 1 I H11).
    intros G. injection G as G. f_equal. apply emem_In. apply emem_In, HS in G. tauto.
Qed.

(** C15: add_edge that throws leaves the graph exactly as it was; on a graph of 0 vertices it always throws. *)
Theorem C15_throw_changes_nothing : forall T K (L : k2laws K) n h g x y g',
  (2 <= n)%N -> reached T K n h g -> in_range n (x, y) -> dk_add T K g x y = Thrown g' -> g' = g.
Proof.
  intros T K L n h g x y g' Hn [HF E] Hr Ea. destruct (hist_rel T K L n Hn h g HF E) as [sl R].
  pose proof (dk_add_spec T K L n Hn g sl x y (rl_inv _ _ _ _ _ _ R) Hr) as HA. rewrite Ea in HA. exact HA.
Qed.
Theorem C15_empty_graph_throws : forall T K x y,
  (forall i, th_max T 0 i = 0%N) -> exists g, dk_new T K 0 = Ok g /\ dk_add T K g x y = Thrown g.
Proof.
  intros T K x y H0. unfold dk_new, c0_new, maxsz. cbn [N.eqb obind]. rewrite !H0.
  eexists. split; [reflexivity|].
  assert (G : forall k i, find_level T K 0 (repeat None k) i 0 = None).
  { induction k; intros i; cbn [repeat find_level]; auto. rewrite H0. cbn. apply IHk. }
  assert (F : forall k, ks_adjf K (repeat None k) x y = (false, repeat None k)).
  { induction k; cbn [repeat ks_adjf]; auto. rewrite IHk. reflexivity. }
  unfold dk_add, dk_contains_forced, c0_contains. cbn [C0_ c_lst aget obind ks].
  rewrite F. cbn [rbind]. unfold dk_m, maxsz. cbn [nv nt N.max N.compare N.eqb rbind]. rewrite H0. cbn [N.ltb N.compare].
  match goal with |- context [if ?b then _ else _] => replace b with false by reflexivity end.
  cbn [ks max_r C0_ nv nt]. rewrite G. reflexivity.
Qed.

(** C46: list_neighbour is always defined, has no duplicates and lists only present edges. *)
Theorem C46_neighbours_sound : forall T K (L : k2laws K) n h g x,
  (2 <= n)%N -> reached T K n h g -> (x < n)%N ->
  exists l, dk_neigh K g x = Ok l /\ NoDup l /\ forall y, In y l -> present h (x, y) = true.
Proof.
  intros T K L n h g x Hn [HF E] Hx. destruct (hist_rel T K L n Hn h g HF E) as [sl R].
  destruct (dk_neigh_spec K L n Hn g sl x (rl_inv _ _ _ _ _ _ R) Hx) as [l [El [Hnd [Hs _]]]].
  exists l. sp; auto. intros y Hy. apply espec_present, (rl_sound _ _ _ _ _ _ R), Hs, Hy.
Qed.

(** C47: if adj_forced is a query, the count is never below the number of live edges, exceeds it by at most
    the number of deletions, and a history without deletions has no excess. *)
Theorem C47_count_bounds : forall T K (L : k2laws K) n h g,
  adjf_is_query L -> (2 <= n)%N -> reached T K n h g ->
  exists live, NoDup live /\
    (forall x y, in_range n (x, y) -> (dk_contains K g x y = Ok true <-> In (x, y) live)) /\
    Forall (in_range n) live /\
    (N.of_nat (length live) <= dk_edges K g <= N.of_nat (length live) + dels h)%N.
Proof.
  intros T K L n h g Hq Hn [HF E]. destruct (hist_cnt T K L n Hn h g Hq HF E) as [sl [d [R [Hc Hd]]]].
  pose proof (rl_inv _ _ _ _ _ _ R) as I. exists (dk_all K g sl). sp.
  - apply (dk_all_nodup K L n g sl I).
  - intros x y Hr. rewrite (dk_contains_spec K L n g sl x y I Hr), <- emem_In. split; congruence.
  - apply Forall_forall. intros e He. apply (espec_range n h); auto. apply (rl_sound _ _ _ _ _ _ R); auto.
  - unfold dk_edges. rewrite Hc. apply N.le_add_r.
  - unfold dk_edges. rewrite Hc. apply N.add_le_mono_l. exact Hd.
Qed.

(** ** Two classes of histories with deletions in which nothing goes wrong *)
(** (i) bulk load then few deletions: E distinct edges, then D deletions with 7 D <= E < 2^64;
    (ii) small graphs: at most min(n, MAXSZ(n,0)) additions, any deletions, in any order. *)
Definition benign (T : thresholds) (n : N) (h : list op) : Prop :=
  (exists es ds, h = map Add es ++ map Del ds /\
     (N.of_nat (length (nodup edge_dec es)) < 2 ^ 64)%N /\ 7 * length ds <= length (nodup edge_dec es)) \/
  (N.of_nat (adds h) <= N.min n (th_max T n 0))%N.

Lemma benign_hist T K (L : k2laws K) n h : th_real T -> adjf_is_query L -> (2 <= n)%N -> Forall (op_in_range n) h ->
  benign T n h -> exists g sl, dk_hist T K n h = Done g /\ relX K L n g sl (espec h).
Proof.
  intros HT Hq Hn HF [[es [ds [-> [H1 H2]]]]|H].
  - apply Forall_app in HF. destruct HF as [F1 F2].
    assert (G : forall (c : edge -> op) l, (forall e, op_edge (c e) = e) -> Forall (op_in_range n) (map c l) -> Forall (in_range n) l).
    { intros c l Hc Hl. rewrite Forall_map in Hl. eapply Forall_impl; [|exact Hl]. intros e He. unfold op_in_range in He. rewrite Hc in He. auto. }
    apply (G Add) in F1; auto. apply (G Del) in F2; auto.
    assert (El : length (espec (map Add es)) = length (nodup edge_dec es)).
    { apply len_same; [apply espec_nodup|apply NoDup_nodup|]. intros e. rewrite espec_adds, nodup_In. reflexivity. }
    apply hist_bulk; auto; rewrite El; lia.
  - apply hist_small; auto.
Qed.

(** In a benign history (C12, C13, C14, C16, C17 hold): every call completes, contains, the count and
    list_neighbour are exact. *)
Theorem benign_exact : forall T K (L : k2laws K) n h,
  th_real T -> adjf_is_query L -> (2 <= n)%N -> Forall (op_in_range n) h -> benign T n h ->
  exists g, dk_hist T K n h = Done g /\
    (forall x y, in_range n (x, y) -> dk_contains K g x y = Ok (present h (x, y))) /\
    dk_edges K g = N.of_nat (length (espec h)) /\
    (forall x, (x < n)%N -> exists l, dk_neigh K g x = Ok l /\ NoDup l /\ forall y, In y l <-> present h (x, y) = true).
Proof.
  intros T K L n h HT Hq Hn HF HB. destruct (benign_hist T K L n h HT Hq Hn HF HB) as [g [sl [E R]]].
  pose proof (rx_inv _ _ _ _ _ _ R) as I. exists g. sp; auto.
  - intros x y Hr. rewrite (dk_contains_spec K L n g sl x y I Hr). f_equal. apply eq_true_iff_eq.
    rewrite emem_In, <- espec_present. apply (rx_set _ _ _ _ _ _ R).
  - unfold dk_edges. rewrite (rx_nt _ _ _ _ _ _ R). f_equal. apply len_same.
    + apply (dk_all_nodup K L n g sl I).
    + apply espec_nodup.
    + apply (rx_set _ _ _ _ _ _ R).
  - intros x Hx. destruct (dk_neigh_spec K L n Hn g sl x I Hx) as [l [El [Hnd [Hs Hc]]]].
    exists l. sp; auto. intros y. rewrite <- espec_present, <- (rx_set _ _ _ _ _ _ R). split; auto.
    apply Hc, (rx_below _ _ _ _ _ _ R).
Qed.

(** C13 (partial): the count is exact in every completing calm history (each deletion is made while at least seven
    edges are present per deletion made so far), and in every benign one.  Missing: see C13_refuted. *)
Theorem C13_count_partial : forall T K (L : k2laws K) n h g,
  th_real T -> adjf_is_query L -> (2 <= n)%N -> reached T K n h g -> calm h \/ benign T n h ->
  dk_edges K g = N.of_nat (length (espec h)) /\
  forall x y, in_range n (x, y) -> dk_contains K g x y = Ok (present h (x, y)).
Proof.
  intros T K L n h g HT Hq Hn [HF E] HB.
  assert (G : exists sl, relX K L n g sl (espec h)).
  { destruct HB as [HB|HB]; [apply (hist_calm T HT K L Hq n Hn); auto|].
    destruct (benign_hist T K L n h HT Hq Hn HF HB) as [g' [sl [E' R]]]. rewrite E in E'. inversion E'; subst. eauto. }
  destruct G as [sl R]. pose proof (rx_inv _ _ _ _ _ _ R) as I. split.
  - unfold dk_edges. rewrite (rx_nt _ _ _ _ _ _ R). f_equal. apply len_same.
    + apply (dk_all_nodup K L n g sl I).
    + apply espec_nodup.
    + apply (rx_set _ _ _ _ _ _ R).
  - intros x y Hr. rewrite (dk_contains_spec K L n g sl x y I Hr). f_equal. apply eq_true_iff_eq.
    rewrite emem_In, <- espec_present. apply (rx_set _ _ _ _ _ _ R).
Qed.

(** C14 (partial): in a benign history, and as long as nothing was deleted, no call is undefined or throws. *)
Theorem C14_add_safe_partial : forall T K (L : k2laws K) n h,
  th_real T -> adjf_is_query L -> (2 <= n)%N -> Forall (op_in_range n) h ->
  benign T n h \/ dels h = 0%N -> exists g, dk_hist T K n h = Done g.
Proof.
  intros T K L n h HT Hq Hn HF [HB|HB].
  - destruct (benign_hist T K L n h HT Hq Hn HF HB) as [g [sl [E R]]]. eauto.
  - assert (G : exists es, h = map Add es /\ Forall (in_range n) es).
    { clear - HB HF. induction h as [|o h IH]; [exists []; auto|]. inversion HF; subst. destruct o as [e|e].
      - destruct IH as [es [-> He]]; auto. exists (e :: es). split; auto.
      - unfold dels in HB. cbn in HB. discriminate. }
    destruct G as [es [-> He]]. apply (C03_inserts_total T K L); auto. apply th_real_top; auto.
Qed.

(** C17 (partial): list_neighbour is exact in every completing calm history, and in every benign one. *)
Theorem C17_neighbours_partial : forall T K (L : k2laws K) n h g x,
  th_real T -> adjf_is_query L -> (2 <= n)%N -> reached T K n h g -> calm h \/ benign T n h -> (x < n)%N ->
  exists l, dk_neigh K g x = Ok l /\ NoDup l /\ forall y, In y l <-> present h (x, y) = true.
Proof.
  intros T K L n h g x HT Hq Hn [HF E] HB Hx.
  assert (G : exists sl, relX K L n g sl (espec h)).
  { destruct HB as [HB|HB]; [apply (hist_calm T HT K L Hq n Hn); auto|].
    destruct (benign_hist T K L n h HT Hq Hn HF HB) as [g' [sl [E' R]]]. rewrite E in E'. inversion E'; subst. eauto. }
  destruct G as [sl R]. pose proof (rx_inv _ _ _ _ _ _ R) as I.
  destruct (dk_neigh_spec K L n Hn g sl x I Hx) as [l [El [Hnd [Hs Hc]]]].
  exists l. sp; auto. intros y. rewrite <- espec_present, <- (rx_set _ _ _ _ _ _ R). split; auto.
  apply Hc, (rx_below _ _ _ _ _ _ R).
Qed.

(** C12 (partial): in a benign history no call is undefined; and in any graph reached, del_edge is defined
    whenever the buffer is not empty. *)
Theorem C12_delete_safe_partial : forall T K (L : k2laws K) n h g u v,
  th_real T -> adjf_is_query L -> (2 <= n)%N -> reached T K n h g -> in_range n (u, v) ->
  0 < c0_size (C0_ g) -> exists g', dk_del T K g u v = Done g'.
Proof.
  intros T K L n h g u v HT Hq Hn [HF E] Hr Hsz. destruct (hist_rel T K L n Hn h g HF E) as [sl R].
  pose proof (rl_inv _ _ _ _ _ _ R) as I. rewrite (inv_size _ _ (dv_c0 _ _ _ _ _ I)) in Hsz.
  destruct (del_total T HT K L n Hn g sl u v I Hq Hr) as [D1 D2].
  destruct (dk_del T K g u v) as [g'|g'|]; [eauto|exfalso; eapply D1; eauto|].
  exfalso. destruct (proj1 D2 eq_refl) as [_ [_ [G _]]]. rewrite G in Hsz. cbn in Hsz. lia.
Qed.

(** C44: del_edge never throws, and the exact condition under which it is undefined: the edge is not buffered, the
    buffer is empty, the rebuild threshold is exceeded, and (1,1) is an edge that stays or the
    buffer has no slot left for it. *)
Theorem C44_delete_outcome : forall T K (L : k2laws K) n h g u v,
  th_real T -> adjf_is_query L -> (2 <= n)%N -> reached T K n h g -> in_range n (u, v) ->
  (forall g', dk_del T K g u v <> Thrown g') /\
  (dk_del T K g u v = Undefined <->
     triggers T K g u v = true /\ c0_size (C0_ g) = 0 /\
     ((dk_contains K g 1 1 = Ok true /\ (u, v) <> (1, 1)%N) \/ ~ has_room T K (after_erase K g u v))).
Proof.
  intros T K L n h g u v HT Hq Hn [HF E] Hr. destruct (hist_rel T K L n Hn h g HF E) as [sl R].
  pose proof (rl_inv _ _ _ _ _ _ R) as I. destruct (del_total T HT K L n Hn g sl u v I Hq Hr) as [D1 D2].
  assert (H11 : in_range n (1, 1)%N) by (split; cbn; lia).
  split; auto. rewrite D2, (inv_size _ _ (dv_c0 _ _ _ _ _ I)), (dk_contains_spec K L n g sl 1 1 I H11).
  assert (G : Ok (emem (1, 1)%N (dk_all K g sl)) = Ok true <-> In (1, 1)%N (dk_all K g sl)).
  { rewrite <- emem_In. split; congruence. }
  rewrite G. split.
  - intros [_ [A [B C]]]. rewrite B. auto.
  - intros [A [B C]]. apply length_zero_iff_nil in B. rewrite B. sp; auto.
Qed.

(** C48: the exact condition under which add_edge is undefined: the edge is new, the live buffered edges are below
    the threshold, and the buffer slots consumed since the last flush fill its capacity. *)
Theorem C48_add_undefined_iff : forall T K (L : k2laws K) n h g u v,
  adjf_is_query L -> (2 <= n)%N -> reached T K n h g -> in_range n (u, v) ->
  (dk_add T K g u v = Undefined <->
     dk_contains K g u v = Ok false /\ (N.of_nat (c0_size (C0_ g)) < th_max T (N.max n (dk_edges K g)) 0)%N /\
     Nat.max (c_max (C0_ g)) (N.to_nat (th_max T (N.max n (dk_edges K g)) 0)) <= c_n (C0_ g)).
Proof.
  intros T K L n h g u v Hq Hn [HF E] Hr. destruct (hist_rel T K L n Hn h g HF E) as [sl R].
  pose proof (rl_inv _ _ _ _ _ _ R) as I. rewrite (add_ub_iff T K L n Hn g sl u v I Hr).
  rewrite (dk_contains_spec K L n g sl u v I Hr), (inv_size _ _ (dv_c0 _ _ _ _ _ I)).
  unfold has_room, dk_edges, dk_m. rewrite (dv_nv _ _ _ _ _ I).
  assert (Hk : kn_all K L g sl (u, v) <-> In (u, v) (dk_all K g sl)).
  { unfold kn_all, DKProof.dk_all. rewrite in_app_iff. split; (intros [G|G]; [left; auto|right]).
    - destruct G as [t [Ht Hkn]]. clear - Ht Hkn Hq I. pose proof (dv_wf _ _ _ _ _ I) as W.
      induction (ks g) as [|o l IH]; [destruct Ht|]. inversion W; subst.
      destruct Ht as [->|Ht].
      + rewrite ks_edges_cons_some, in_app_iff. left. apply (Hq n); auto.
      + destruct o; [rewrite ks_edges_cons_some, in_app_iff; right|rewrite ks_edges_cons_none]; auto.
    - apply (ks_edges_known K L n); auto. apply (dv_wf _ _ _ _ _ I). }
  rewrite Hk. assert (G : Ok (emem (u, v) (dk_all K g sl)) = Ok false <-> ~ In (u, v) (dk_all K g sl)).
  { rewrite <- emem_false. split; congruence. }
  rewrite G. intuition lia.
Qed.

(** C16 (partial): fewer than n-1 deletions in the whole history: add_edge never throws. *)
Theorem C16_no_throw_partial : forall T K (L : k2laws K) n h g u v g',
  th_real T -> adjf_is_query L -> (2 <= n)%N -> reached T K n h g -> in_range n (u, v) ->
  (dels h + 1 < n)%N -> dk_add T K g u v <> Thrown g'.
Proof.
  intros T K L n h g u v g' HT Hq Hn [HF E] Hr Hd.
  unfold dk_hist in E. destruct (dk_new T K n) as [g0|] eqn:E0; cbn in E; [|discriminate].
  destruct (dk_new_inv T K L n Hn g0 E0) as [_ [Hz [_ Hk]]].
  destruct (hist_marked T K L n Hn h Hq g0 [] [] g 0%N (rel_new T K L n Hn g0 E0) HF E) as [sl [d [R [Hc Hm]]]].
  { unfold DKProof.dk_all. rewrite Hz, Hk. reflexivity. }
  apply (add_no_throw T HT K L n Hn g sl); auto.
  - apply (rl_inv _ _ _ _ _ _ R).
  - lia.
  - rewrite Hk in Hm. change (ks_marked K (repeat None RS)) with 0%N in Hm. lia.
Qed.

(** ** The properties that fail: counterexamples, for every lawful tree and the exact thresholds *)
Definition a (x y : N) : op := Add (x, y).
Definition d (x y : N) : op := Del (x, y).

Lemma transfer T K (L : k2laws K) n h : adjf_is_query L -> (2 <= n)%N -> Forall (op_in_range n) h ->
  rsim n K L K2Ref K2Ref_laws (dk_hist T K n h) (dk_hist T K2Ref n h).
Proof. intros Hq Hn HF. apply sim_hist; auto. apply K2Ref_query. Qed.

Ltac ranges := repeat constructor; vm_compute; reflexivity.

(** C11: del_edge(0,4) loses the self-loop (1,1). *)
Definition w11 := ([a 0 4; a 3 5; a 1 0; a 1 1; a 3 1; a 5 4; a 5 0; a 3 2; d 1 0; d 5 0; a 2 2; d 5 4; d 3 2] ++ [d 0 4])%N.
Theorem C11_refuted : forall T K (L : k2laws K), th_real T -> adjf_is_query L ->
  exists n h g, reached T K n h g /\ present h (1, 1)%N = true /\ dk_contains K g 1 1 = Ok false.
Proof.
  intros T K L HT Hq. exists 6%N, w11.
  assert (HF : Forall (op_in_range 6) w11) by ranges.
  pose proof (transfer T K L 6 w11 Hq ltac:(lia) HF) as HS.
  assert (HW : match dk_hist T K2Ref 6 w11 with Done g => dk_contains K2Ref g 1 1 = Ok false | _ => False end).
  { rewrite <- (tabled_eq T HT). vm_compute. reflexivity. }
  destruct (dk_hist T K2Ref 6 w11) as [gr|gr|]; try tauto.
  destruct (dk_hist T K 6 w11) as [g|g|] eqn:E; try tauto. exists g. sp.
  - split; auto.
  - reflexivity.
  - rewrite (sim_contains 6 K L K2Ref K2Ref_laws g gr 1 1); auto. split; cbn; lia.
Qed.

(** C12: with (1,1) in a tree and an empty buffer, del_edge(7,6) dereferences a null tree. *)
Definition w12 := [a 1 1; a 7 6; d 7 6]%N.
Theorem C12_refuted : forall T K (L : k2laws K), th_real T -> adjf_is_query L ->
  exists n h g e, reached T K n h g /\ in_range n e /\ dk_del T K g (fst e) (snd e) = Undefined.
Proof.
  intros T K L HT Hq. exists 8%N, [a 1 1; a 7 6]%N.
  assert (HF : Forall (op_in_range 8) w12) by ranges.
  pose proof (transfer T K L 8 w12 Hq ltac:(lia) HF) as HS.
  assert (HW : dk_hist T K2Ref 8 w12 = Undefined) by (rewrite <- (tabled_eq T HT); vm_compute; reflexivity).
  rewrite HW in HS.
  destruct (C03_inserts_total T K L 8 [(1, 1); (7, 6)]%N (th_real_top T HT) ltac:(lia)) as [g E]; [ranges|].
  exists g, (7, 6)%N. sp; [split; [ranges|exact E]|ranges|]. cbn [fst snd].
  unfold dk_hist in *. destruct (dk_new T K 8) as [g0|]; cbn [rbind] in *; [|discriminate].
  cbn [w12 dk_ops] in HS. cbn [map dk_ops] in E. unfold a, d in HS.
  destruct (dk_op T K g0 (Add (1, 1)%N)) as [g1|g1|]; try discriminate.
  destruct (dk_op T K g1 (Add (7, 6)%N)) as [g2|g2|]; try discriminate. injection E as <-. cbn [dk_op] in HS.
  destruct (dk_del T K g2 7 6); cbn in HS; tauto.
Qed.

(** C13: after the rebuild one edge is live and the count is 2. *)
Definition w13 := [a 6 7; a 0 7; d 6 7]%N.
Theorem C13_refuted : forall T K (L : k2laws K), th_real T -> adjf_is_query L ->
  exists n h g, reached T K n h g /\ espec h = [(0, 7)]%N /\ dk_edges K g = 2%N /\
    forall x y, in_range n (x, y) -> (dk_contains K g x y = Ok true <-> (x, y) = (0, 7)%N).
Proof.
  intros T K L HT Hq. exists 8%N, w13.
  assert (HF : Forall (op_in_range 8) w13) by ranges.
  pose proof (transfer T K L 8 w13 Hq ltac:(lia) HF) as HS.
  assert (HW : match dk_hist T K2Ref 8 w13 with Done g => nt g = 2%N | _ => False end).
  { rewrite <- (tabled_eq T HT). vm_compute. reflexivity. }
  destruct (dk_hist T K2Ref 8 w13) as [gr|gr|]; try tauto.
  destruct (dk_hist T K 8 w13) as [g|g|] eqn:E; try tauto. exists g. sp.
  - split; auto.
  - reflexivity.
  - unfold dk_edges. rewrite (gs_nt _ _ _ _ _ _ _ HS). exact HW.
  - intros x y Hr. rewrite (C10_contains_exact T K L 8 w13 g ltac:(lia)); auto.
    + assert (G : present w13 (x, y) = true <-> (x, y) = (0, 7)%N).
      { rewrite <- espec_present. cbn. split; [intros [G|[]]; auto|auto]. }
      rewrite <- G. split; congruence.
    + split; auto.
    + intros G. cbn in G. destruct G as [G|[G|[G|[]]]]; discriminate.
Qed.

(** C14: on 5 vertices, deleting the only buffered edge and adding another writes past the buffer. *)
Definition w14 := [a 1 4; d 1 4; a 1 2]%N.
Theorem C14_refuted : forall T K (L : k2laws K), th_real T -> adjf_is_query L ->
  exists n h g e, reached T K n h g /\ in_range n e /\ dk_add T K g (fst e) (snd e) = Undefined.
Proof.
  intros T K L HT Hq. exists 5%N, [a 1 4; d 1 4]%N.
  assert (HF : Forall (op_in_range 5) w14) by ranges.
  assert (HF2 : Forall (op_in_range 5) [a 1 4; d 1 4]%N) by ranges.
  pose proof (transfer T K L 5 w14 Hq ltac:(lia) HF) as HS.
  pose proof (transfer T K L 5 _ Hq ltac:(lia) HF2) as HS2.
  assert (HW : dk_hist T K2Ref 5 w14 = Undefined) by (rewrite <- (tabled_eq T HT); vm_compute; reflexivity).
  assert (HW2 : match dk_hist T K2Ref 5 [a 1 4; d 1 4]%N with Done _ => True | _ => False end)
    by (rewrite <- (tabled_eq T HT); vm_compute; exact I).
  rewrite HW in HS.
  destruct (dk_hist T K2Ref 5 [a 1 4; d 1 4]%N) as [gr|gr|]; try tauto.
  destruct (dk_hist T K 5 [a 1 4; d 1 4]%N) as [g|g|] eqn:E; try tauto.
  exists g, (1, 2)%N. sp; [split; [auto|exact E]|ranges|]. cbn [fst snd].
  unfold dk_hist in *. destruct (dk_new T K 5) as [g0|]; cbn [rbind] in *; [|discriminate].
  cbn [w14 dk_ops] in *. unfold a, d in *.
  destruct (dk_op T K g0 (Add (1, 4)%N)) as [g1|g1|]; try discriminate.
  destruct (dk_op T K g1 (Del (1, 4)%N)) as [g2|g2|]; try discriminate. injection E as <-. cbn [dk_op] in HS.
  destruct (dk_add T K g2 1 2); cbn in HS; tauto.
Qed.

(** C16: on 3 vertices add_edge throws although at most 4 of the 9 possible edges are present. *)
Definition w16 := [a 2 1; a 0 0; a 0 1; a 1 2; d 0 0; d 2 1; a 2 2; a 2 1]%N.
Theorem C16_refuted : forall T K (L : k2laws K), th_real T -> adjf_is_query L ->
  exists n h g, Forall (op_in_range n) h /\ dk_hist T K n h = Thrown g /\ length (espec h) = 4 /\ n = 3%N.
Proof.
  intros T K L HT Hq. exists 3%N, w16.
  assert (HF : Forall (op_in_range 3) w16) by ranges.
  pose proof (transfer T K L 3 w16 Hq ltac:(lia) HF) as HS.
  assert (HW : match dk_hist T K2Ref 3 w16 with Thrown _ => True | _ => False end).
  { rewrite <- (tabled_eq T HT). vm_compute. exact I. }
  destruct (dk_hist T K2Ref 3 w16) as [gr|gr|]; try tauto.
  destruct (dk_hist T K 3 w16) as [g|g|] eqn:E; try tauto. exists g. sp; auto.
Qed.

(** C17: after a rebuild above the highest level used, contains(1,2) is true and every neighbour list is empty. *)
Definition w17 := [a 0 0; a 1 0; a 2 1; a 0 2; a 0 1; d 2 1; a 2 2; d 0 2; d 0 0; a 1 2; a 2 0; a 2 1; a 0 2; d 2 0; d 0 1]%N.
Theorem C17_refuted : forall T K (L : k2laws K), th_real T -> adjf_is_query L ->
  exists n h g x y, reached T K n h g /\ in_range n (x, y) /\
    dk_contains K g x y = Ok true /\ dk_neigh K g x = Ok [].
Proof.
  intros T K L HT Hq. exists 3%N, w17.
  assert (HF : Forall (op_in_range 3) w17) by ranges.
  pose proof (transfer T K L 3 w17 Hq ltac:(lia) HF) as HS.
  assert (HW : match dk_hist T K2Ref 3 w17 with Done g => dk_contains K2Ref g 1 2 = Ok true /\ dk_neigh K2Ref g 1 = Ok [] | _ => False end).
  { rewrite <- (tabled_eq T HT). vm_compute. auto. }
  destruct (dk_hist T K2Ref 3 w17) as [gr|gr|]; try tauto. destruct HW as [W1 W2].
  destruct (dk_hist T K 3 w17) as [g|g|] eqn:E; try tauto.
  assert (Hr : in_range 3 (1, 2)%N) by ranges.
  exists g, 1%N, 2%N. sp; auto.
  - split; auto.
  - rewrite (sim_contains 3 K L K2Ref K2Ref_laws g gr 1 2); auto.
  - pose proof (sim_neigh 3 K L K2Ref K2Ref_laws g gr 1 HS ltac:(lia)) as HN. rewrite W2 in HN.
    destruct (dk_neigh K g 1) as [l|]; [|tauto]. destruct l as [|y l]; auto.
    exfalso. apply (HN y). left; auto.
Qed.

(** C49: the tree implementation is unobservable: two graphs that run the same history on two lawful trees (whose
    adj_forced is a query) end the same way and answer contains, list_neighbour (as a set) and the
    count identically. *)
Theorem C49_tree_independence : forall T K1 (L1 : k2laws K1) K2 (L2 : k2laws K2) n h,
  adjf_is_query L1 -> adjf_is_query L2 -> (2 <= n)%N -> Forall (op_in_range n) h ->
  match dk_hist T K1 n h, dk_hist T K2 n h with
  | Done g1, Done g2 | Thrown g1, Thrown g2 =>
      dk_edges K1 g1 = dk_edges K2 g2 /\
      (forall x y, in_range n (x, y) -> dk_contains K1 g1 x y = dk_contains K2 g2 x y) /\
      (forall x, (x < n)%N -> match dk_neigh K1 g1 x, dk_neigh K2 g2 x with
         | Ok l1, Ok l2 => forall y, In y l1 <-> In y l2 | UB, UB => True | _, _ => False end)
  | Undefined, Undefined => True
  | _, _ => False
  end.
Proof.
  intros T K1 L1 K2 L2 n h Q1 Q2 Hn HF.
  pose proof (sim_hist T n Hn K1 L1 Q1 K2 L2 Q2 h HF) as HS.
  destruct (dk_hist T K1 n h) as [g1|g1|], (dk_hist T K2 n h) as [g2|g2|]; cbn in HS; try tauto; sp.
  all: try (unfold dk_edges; apply (gs_nt _ _ _ _ _ _ _ HS)).
  all: try (intros x y Hr; apply (sim_contains n K1 L1 K2 L2 g1 g2 x y HS Hr)).
  all: intros x Hx; apply (sim_neigh n K1 L1 K2 L2 g1 g2 x HS Hx).
Qed.

(** ** The hypotheses are met *)
Example th_top_met : th_top th_exact.
Proof. apply th_real_top, th_real_inhabited. Qed.

(** C01-C04 on a concrete list with duplicates that flushes the buffer several times. *)
Example C01_example : exists g, dk_hist th_exact K2Ref 8 (map Add [(0,1); (1,2); (0,1); (1,1); (7,7); (1,2); (3,4); (6,2); (0,1)]%N) = Done g
  /\ dk_contains K2Ref g 1 1 = Ok true /\ dk_contains K2Ref g 2 1 = Ok false /\ dk_edges K2Ref g = 6%N
  /\ exists t u, nth_error (ks g) 1 = Some (Some t) /\ nth_error (ks g) 3 = Some (Some u).
Proof.
  rewrite <- (tabled_eq th_exact th_real_inhabited).
  eexists. split; [vm_compute; reflexivity|]. sp; try (vm_compute; reflexivity). do 2 eexists. split; vm_compute; reflexivity.
Qed.

(** C10, C11, C44-C48 on a history with deletions from the buffer and from a tree. *)
Definition ex10 := [a 0 1; a 1 2; a 7 7; d 1 2; a 3 4; a 6 2; d 3 4; d 0 0; a 1 2]%N.
Example C10_example : exists g, reached th_exact K2Ref 8 ex10 g /\ ~ In (Add (1, 1)%N) ex10 /\
  dk_contains K2Ref g 1 2 = Ok true /\ dk_contains K2Ref g 3 4 = Ok false /\ dk_neigh K2Ref g 1 = Ok [2]%N.
Proof.
  unfold reached. rewrite <- (tabled_eq th_exact th_real_inhabited).
  eexists. split; [split; [ranges|vm_compute; reflexivity]|].
  split; [intros G; cbn in G; unfold a, d in G; repeat (destruct G as [G|G]; try discriminate); destruct G|].
  sp; vm_compute; reflexivity.
Qed.

(** benign histories: 14 edges then 2 deletions; a small graph with interleaved deletions. *)
Example benign_example_bulk : benign th_exact 8
  (map Add [(0,1);(0,2);(0,3);(0,4);(0,5);(0,6);(0,7);(1,0);(1,2);(1,3);(1,4);(1,5);(1,6);(1,7)]%N ++ map Del [(0,3);(1,4)]%N).
Proof. left. do 2 eexists. sp; [reflexivity|vm_compute; reflexivity|]. vm_compute. repeat constructor. Qed.
Example benign_example_small : benign th_exact 44 [a 1 2; d 1 2; a 1 1; d 3 3]%N.
Proof. right. rewrite <- (tabled_eq th_exact th_real_inhabited). vm_compute. discriminate. Qed.

(** C12: a state with a non-empty buffer in which the deletion triggers a rebuild. *)
Example C12_example : exists h g, reached th_exact K2Ref 6 h g /\ 0 < c0_size (C0_ g) /\ triggers th_exact K2Ref g 0 4 = true.
Proof.
  unfold reached. rewrite <- (tabled_eq th_exact th_real_inhabited).
  exists [a 0 4; a 3 5; a 1 0; a 1 1; a 3 1; a 5 4; a 5 0; a 3 2; d 1 0; d 5 0; a 2 2; d 5 4; d 3 2]%N. eexists. split; [split; [ranges|vm_compute; reflexivity]|].
  split; vm_compute; [repeat constructor|reflexivity].
Qed.

(** C16: 2 deletions on 8 vertices. *)
Example C16_example : exists g, reached th_exact K2Ref 8 ex10 g /\ (dels ex10 + 1 < 8)%N.
Proof.
  unfold reached. rewrite <- (tabled_eq th_exact th_real_inhabited).
  eexists. split; [split; [ranges|vm_compute; reflexivity]|vm_compute; reflexivity].
Qed.

(** A calm history that completes, with deletions from a tree and an addition afterwards. *)
Definition ex_calm := (map Add [(0,1);(0,2);(0,3);(0,4);(0,5);(0,6);(0,7);(1,0);(1,2);(1,3);(1,4);(1,5);(1,6);(1,7);(2,0);(2,1)]
  ++ [d 0 3; a 4 4; a 4 5; d 1 4; a 0 3])%N.
Example calm_example : exists g, reached th_exact K2Ref 8 ex_calm g /\ calm ex_calm /\ dk_edges K2Ref g = 17%N.
Proof.
  unfold reached. rewrite <- (tabled_eq th_exact th_real_inhabited).
  eexists. split; [split; [ranges|vm_compute; reflexivity]|]. split; [|vm_compute; reflexivity].
  vm_compute. repeat split; discriminate.
Qed.
