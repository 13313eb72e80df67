(** * Property theorems about the iterators (C05-C09, C50, C51).

    [visits] (Spec.v) is the loop [for (it = begin; it != end; ++it)]; it sees one sequence only
    ([visits_unique]) and ends. *)
From Verif Require Import Base Spec Thresholds Table K2 C0 C0Proof DK DKProof DKHist DKGuard DKTotal DKBisim Prop_DK
  Iter IterProof DKFull.

(** C05: in every graph reached by any history, the loop over neighbour_begin(x) ends and sees the sequence
    list_neighbour(x); so does the callback of neigh_it. *)
Theorem C05_neighbour_iterator : forall T K (L : k2laws K) n h g x,
  (2 <= n <= 2 ^ 31)%N -> reached T K n h g -> (x < n)%N ->
  exists l it, dk_neigh K g x = Ok l /\ nit_begin K g x = Ok it /\ neigh_loop K g x it (map Z.of_N l) /\
    dk_neigh_it K g x = Ok l.
Proof.
  intros T K L n h g x [Hn Hn2] [HF E] Hx. destruct (hist_rel T K L n Hn h g HF E) as [sl R].
  pose proof (rl_inv _ _ _ _ _ _ R) as I.
  destruct (dk_neigh_spec K L n Hn g sl x I Hx) as [l [El [_ [Hs _]]]].
  assert (Hb : forall y, In y l -> (y < n)%N).
  { intros y Hy. apply Hs in Hy. apply (dk_all_range K L n g sl) in Hy; auto. apply Hy. }
  destruct (neigh_loop_ok K g x l El) as [it [Eit Hl]].
  { apply Forall_forall. intros y Hy. apply Hb in Hy. unfold small. lia. }
  exists l, it. sp; auto.
  replace (map Z.of_N l) with (map v_int l); auto. apply map_ext_in. intros y Hy. apply Hb in Hy.
  apply to_int_id. lia.
Qed.

(** With C04: after insertions the loop sees each out-neighbour exactly once. *)
Theorem C05_neighbour_iterator_inserts : forall T K (L : k2laws K) n es x,
  th_top T -> (2 <= n <= 2 ^ 31)%N -> Forall (in_range n) es -> (x < n)%N ->
  exists g it l, dk_hist T K n (map Add es) = Done g /\ nit_begin K g x = Ok it /\ neigh_loop K g x it l /\
    NoDup l /\ forall y, In (Z.of_N y) l <-> In (x, y) es.
Proof.
  intros T K L n es x HT Hn HF Hx.
  destruct (C04_neighbours_after_inserts T K L n es x HT ltac:(lia) HF Hx) as [g [l [E [El [Hnd Hs]]]]].
  assert (R : reached T K n (map Add es) g).
  { split; auto. apply Forall_map. eapply Forall_impl; [|exact HF]. auto. }
  destruct (C05_neighbour_iterator T K L n _ g x Hn R Hx) as [l' [it [El' [Eit [Hl _]]]]].
  rewrite El in El'. injection El' as <-. exists g, it, (map Z.of_N l). sp; auto.
  - apply FinFun.Injective_map_NoDup; auto. intros p q. lia.
  - intros y. rewrite <- Hs, in_map_iff. split.
    + intros [z [Ez Hz]]. replace y with z by lia. auto.
    + intros Hy. exists y; auto.
Qed.

Lemma seen_live K sl (g : dk K) : all_live sl -> edge_seen K g sl = before_max (dk_all K g sl).
Proof.
  intros H. unfold edge_seen, DKProof.dk_all. do 2 f_equal. rewrite (all_live_edges _ H).
  rewrite <- (map_length fst), firstn_all. unfold live_edges. f_equal. symmetry.
  induction H as [|[e b] sl Hb Hl IH]; cbn [filter snd] in *; auto. rewrite Hb. f_equal; auto.
Qed.

Lemma relI_full T K (L : k2laws K) n es g : (2 <= n)%N -> Forall (in_range n) es ->
  dk_hist T K n (map Add es) = Done g -> forall sl S, relI K L n g sl S -> ks_full K (ks g).
Proof.
  intros Hn HF E sl S R. unfold dk_hist in E. destruct (dk_new T K n) as [g0|] eqn:E0; cbn [rbind] in E; [|discriminate].
  pose proof (rel_new T K L n Hn g0 E0) as R0.
  assert (H0 : ks_full K (ks g0)).
  { destruct (dk_new_inv T K L n Hn g0 E0) as [_ [_ [_ Hk]]]. rewrite Hk.
    intros t G. apply repeat_spec in G. discriminate. }
  clear R E0. revert g0 E R0 H0. generalize (@nil edge) as S0. generalize (@nil (edge * bool)) as sl0.
  induction HF as [|e es He HF IH]; cbn [map dk_ops]; intros sl0 S0 g0 E R0 H0; [inversion E; subst; auto|].
  destruct (dk_op T K g0 (Add e)) as [g1|g1|] eqn:E1; try discriminate.
  destruct (rel_step T K L n Hn g0 sl0 S0 (Add e) g1 R0 He E1) as [sl1 R1].
  apply (IH sl1 _ g1 E R1). destruct e as [x y]. cbn [dk_op] in E1.
  apply (add_full T K L n Hn g0 sl0 x y g1 (rl_inv _ _ _ _ _ _ R0) He H0 E1).
Qed.

(** C06: after any list of insertions not containing (9999999, 9999999), the loop from edge_begin() to edge_end()
    ends and sees every inserted edge exactly once.  (edge_begin() is used by value.) *)
Theorem C06_edge_iterator_inserts : forall T K (L : k2laws K) n es,
  th_top T -> (2 <= n)%N -> Forall (in_range n) es -> ~ In (9999999, 9999999)%N es ->
  exists g it l, dk_hist T K n (map Add es) = Done g /\ dk_edge_begin K g 0 = Ok it /\ edge_loop K it l /\
    NoDup l /\ forall e, In e l <-> In e es.
Proof.
  intros T K L n es HT Hn HF Hmax. destruct (hist_insert T K L n Hn es HT HF) as [g [sl [E R]]].
  pose proof (relI_full T K L n es g Hn HF E sl _ R) as Hfull.
  destruct (edge_loop_ok K L n g sl Hn (ri_inv _ _ _ _ _ _ R) Hfull) as [it [Eit Hl]].
  rewrite (seen_live K sl g (ri_live _ _ _ _ _ _ R)), before_max_id in Hl.
  - exists g, it, (dk_all K g sl). sp; auto.
    + apply (dk_all_nodup K L n g sl (ri_inv _ _ _ _ _ _ R)).
    + intros e. rewrite (ri_set _ _ _ _ _ _ R), espec_adds. reflexivity.
  - rewrite (ri_set _ _ _ _ _ _ R), espec_adds. exact Hmax.
Qed.

(** C08 fails: on a graph with more than 9999999 vertices, the legal edge (9999999, 9999999) is the end value: the
    graph that has it as its only edge iterates as empty. *)
Theorem C08_refuted : forall T K (L : k2laws K) n, th_top T -> (9999999 < n)%N ->
  exists g it, reached T K n [Add (9999999, 9999999)%N] g /\ dk_contains K g 9999999 9999999 = Ok true /\
    dk_edge_begin K g 0 = Ok it /\ edge_loop K it [].
Proof.
  intros T K L n HT Hn. assert (Hn2 : (2 <= n)%N) by lia.
  assert (HF : Forall (in_range n) [(9999999, 9999999)%N]).
  { constructor; [split; cbn; lia|constructor]. }
  destruct (hist_insert T K L n Hn2 _ HT HF) as [g [sl [E R]]].
  pose proof (relI_full T K L n _ g Hn2 HF E sl _ R) as Hfull.
  destruct (edge_loop_ok K L n g sl Hn2 (ri_inv _ _ _ _ _ _ R) Hfull) as [it [Eit Hl]].
  rewrite (seen_live K sl g (ri_live _ _ _ _ _ _ R)) in Hl.
  exists g, it. sp; auto.
  - split; auto. repeat constructor; cbn; lia.
  - rewrite (dk_contains_spec K L n g sl _ _ (ri_inv _ _ _ _ _ _ R)); [|split; cbn; lia]. f_equal. apply emem_In.
    rewrite (ri_set _ _ _ _ _ _ R). apply espec_adds. left; auto.
  - assert (Hs : forall e, In e (dk_all K g sl) -> e = (9999999, 9999999)%N).
    { intros e He. rewrite (ri_set _ _ _ _ _ _ R), espec_adds in He. destruct He as [<-|[]]; auto. }
    destruct (dk_all K g sl) as [|e l]; [exact Hl|]. rewrite (Hs e (or_introl eq_refl)) in Hl. exact Hl.
Qed.
(** What remains of C08: below ten million vertices the end value is not a legal edge. *)
Theorem C08_end_not_legal_partial : forall K n (it : eit K), (n <= 9999999)%N -> in_range n (ei_ptr it) -> eit_at_end K it = false.
Proof.
  intros K n it Hn [H1 H2]. unfold eit_at_end. apply eeqb_neq. intros G. rewrite G in H1. cbn in H1. lia.
Qed.

Lemma present_added h e : present h e = true -> In (Add e) h.
Proof.
  rewrite <- espec_present. induction h as [|o h IH] using rev_ind; [intros []|].
  rewrite espec_snoc, espec_step_In, in_app_iff. destruct o as [f|f].
  - intros [->|G]; [right; left; auto|left; auto].
  - intros [_ G]; left; auto.
Qed.

(** C51: whatever the history, the edge loop is defined and ends; it sees only edges that were added at some time
    and never more than there are; if (9999999, 9999999) was never added it sees exactly as many as there are. *)
Theorem C51_edge_iterator_safe : forall T K (L : k2laws K) n h g,
  th_real T -> (2 <= n)%N -> reached T K n h g ->
  exists live it l, NoDup live /\
    (forall x y, in_range n (x, y) -> (dk_contains K g x y = Ok true <-> In (x, y) live)) /\ Forall (in_range n) live /\
    dk_edge_begin K g 0 = Ok it /\ edge_loop K it l /\
    (forall e, In e l -> In (Add e) h) /\ length l <= length live /\
    (~ In (Add (9999999, 9999999)%N) h -> length l = length live).
Proof.
  intros T K L n h g HT Hn [HF E]. destruct (hist_full T HT K L n Hn h g HF E) as [sl [R Hfull]].
  pose proof (rl_inv _ _ _ _ _ _ R) as I. destruct (edge_loop_ok K L n g sl Hn I Hfull) as [it [Eit Hl]].
  assert (B : forall s, length (before_max s) <= length s /\ forall e, In e (before_max s) -> In e s).
  { induction s as [|e s [IH1 IH2]]; cbn [before_max]; [auto|]. destruct (eeqb e MAXE); cbn [length In]; split; try lia; try tauto.
    intros f [G|G]; auto. }
  assert (Hadd : forall e, In e (firstn (length (live_edges sl)) (map fst sl) ++ ks_edges K (ks g)) -> In (Add e) h).
  { intros e He. apply in_app_iff in He. destruct He as [He|He].
    - apply (hist_nodes T K L n Hn h g sl HF E I). rewrite <- (firstn_skipn (length (live_edges sl)) (map fst sl)).
      apply in_app_iff; auto.
    - apply present_added, espec_present, (rl_sound _ _ _ _ _ _ R). apply in_app_iff; auto. }
  assert (Hln : length (firstn (length (live_edges sl)) (map fst sl) ++ ks_edges K (ks g)) = length (dk_all K g sl)).
  { unfold DKProof.dk_all. rewrite !app_length, firstn_length, map_length. pose proof (dead_live sl). f_equal. lia. }
  exists (dk_all K g sl), it, (edge_seen K g sl). sp; auto.
  - apply (dk_all_nodup K L n g sl I).
  - intros x y Hr. rewrite (dk_contains_spec K L n g sl x y I Hr), <- emem_In. split; congruence.
  - apply Forall_forall. intros e He. apply (espec_range n h); auto. apply (rl_sound _ _ _ _ _ _ R); auto.
  - intros e He. apply Hadd. apply B. exact He.
  - apply (Nat.le_trans _ _ _ (proj1 (B _))). apply Nat.eq_le_incl. exact Hln.
  - intros Hm. refine (eq_trans _ Hln). unfold edge_seen. rewrite before_max_id; auto.
Qed.

(** C07 (partial): the loop is exact after any history, as long as no deleted edge is still in a buffer slot
    and (9999999, 9999999) is not an edge.  Missing: see C07_refuted. *)
Theorem C07_edge_iterator_partial : forall T K (L : k2laws K) n h g,
  th_real T -> (2 <= n)%N -> reached T K n h g -> c_marked (C0_ g) = 0 -> present h (9999999, 9999999)%N = false ->
  exists it l, dk_edge_begin K g 0 = Ok it /\ edge_loop K it l /\ NoDup l /\ Forall (in_range n) l /\
    forall x y, in_range n (x, y) -> (In (x, y) l <-> dk_contains K g x y = Ok true).
Proof.
  intros T K L n h g HT Hn [HF E] Hm Hmax. destruct (hist_full T HT K L n Hn h g HF E) as [sl [R Hfull]].
  pose proof (rl_inv _ _ _ _ _ _ R) as I. destruct (edge_loop_ok K L n g sl Hn I Hfull) as [it [Eit Hl]].
  assert (Hal : all_live sl).
  { pose proof (iv_marked _ _ (dv_c0 _ _ _ _ _ I)) as Hd. rewrite Hm in Hd. clear - Hd.
    induction sl as [|[e b] sl IH]; [constructor|]. unfold dead_count in *. cbn [filter snd] in Hd.
    destruct b; cbn [negb] in Hd; [|discriminate]. constructor; auto. apply IH; auto. }
  rewrite (seen_live K sl g Hal), before_max_id in Hl.
  - exists it, (dk_all K g sl). sp; auto.
    + apply (dk_all_nodup K L n g sl I).
    + apply Forall_forall. intros e He. apply (espec_range n h); auto. apply (rl_sound _ _ _ _ _ _ R); auto.
    + intros x y Hr. rewrite (dk_contains_spec K L n g sl x y I Hr), <- emem_In. split; congruence.
  - intros G. apply (rl_sound _ _ _ _ _ _ R), espec_present in G. change MAXE with (9999999, 9999999)%N in G. congruence.
Qed.

Ltac loop_step := eapply visits_cons; [vm_compute; reflexivity|vm_compute; reflexivity|vm_compute; reflexivity|].

(** C07: after deleting a buffered edge the loop still sees it and misses a live one. *)
Definition w07 := [a 0 0; a 0 1; a 1 0; d 0 0]%N.
Theorem C07_refuted : forall T K, th_real T ->
  exists n h g it, reached T K n h g /\ dk_edge_begin K g 0 = Ok it /\ edge_loop K it [(0, 0); (0, 1)]%N /\
    present h (0, 0)%N = false /\ dk_contains K g 0 0 = Ok false /\
    present h (1, 0)%N = true /\ dk_contains K g 1 0 = Ok true.
Proof.
  intros T K HT. exists 2%N, w07. unfold reached. rewrite <- (tabled_eq T HT).
  do 2 eexists. sp; [ranges|vm_compute; reflexivity|vm_compute; reflexivity| |..]; try (vm_compute; reflexivity).
  do 2 loop_step. apply visits_end. vm_compute; reflexivity.
Qed.

(** C50: the end state of a loop, for a program that advances the member iterator itself
    ([auto &it = g.edge_begin()]). *)
Inductive visits_to {S V : Type} (at_end : S -> bool) (val : S -> V) (next : S -> out S) : S -> list V -> S -> Prop :=
| vt_end it : at_end it = true -> visits_to at_end val next it [] it
| vt_step it it' l itf : at_end it = false -> next it = Ok it' ->
    visits_to at_end val next it' l itf -> visits_to at_end val next it (val it :: l) itf.

Definition w50 := [a 6 7; a 0 7]%N.
(** The first loop sees both edges; the loop after the next edge_begin(), which does not reset the member's _i, sees
    one. *)
Theorem C50_refuted : forall T K (L : k2laws K), th_real T ->
  exists n h g it1 itf it2 e1 e2, reached T K n h g /\
    dk_edge_begin K g 0 = Ok it1 /\ visits_to (eit_at_end K) ei_ptr (eit_next K) it1 [e1; e2] itf /\
    dk_edge_begin K g (ei_i itf) = Ok it2 /\ edge_loop K it2 [e1].
Proof.
  intros T K L HT. unfold reached. rewrite <- (tabled_eq T HT).
  destruct (law_build L 8 [(6, 7); (0, 7)]%N ltac:(lia) ltac:(discriminate)) as [B1 [_ B3]].
  { repeat constructor; cbn; intuition discriminate. }
  { repeat constructor. }
  pose proof (law_edges_nodup L 8 _ B1) as Hnd.
  remember (kt_build K [(6, 7); (0, 7)]%N 8) as t eqn:Et.
  assert (Hlen : length (kt_edges K t) = length [(6, 7); (0, 7)]%N).
  { apply len_same; auto. repeat constructor; cbn; intuition discriminate. }
  destruct (kt_edges K t) as [|e1 [|e2 [|]]] eqn:Ek; try discriminate Hlen.
  assert (M1 : eeqb e1 MAXE = false).
  { apply eeqb_neq. intros ->. assert (In MAXE [(6, 7); (0, 7)]%N) by (apply B3; left; auto). cbn in H. unfold MAXE in H. intuition discriminate. }
  assert (M2 : eeqb e2 MAXE = false).
  { apply eeqb_neq. intros ->. assert (In MAXE [(6, 7); (0, 7)]%N) by (apply B3; right; left; auto). cbn in H. unfold MAXE in H. intuition discriminate. }
  assert (G : exists c, dk_hist (tabled T) K 8 w50 = Done (mkdk 1 8 2 c (None :: Some t :: repeat None 6)) /\ c0_size c = 0).
  { rewrite Et. eexists. split; [vm_compute; reflexivity|vm_compute; reflexivity]. }
  destruct G as [c [G Hc]].
  assert (Hd : (0 <? Z.of_nat (c0_size c))%Z = false) by (rewrite Hc; reflexivity).
  assert (Hd0 : (0 <? c0_size c) = false) by (rewrite Hc; reflexivity).
  set (g := mkdk 1 8 2 c (None :: Some t :: repeat None 6)) in *.
  assert (HB : forall i, dk_edge_begin K g i = Ok (mkeit c (ks g) e1 0 ([] :: [e1; e2] :: repeat [] 6) i)).
  { intros i. unfold dk_edge_begin, eit_new.
    assert (Em : map (tree_begin K) (ks g) = [] :: [e1; e2] :: repeat [] 6) by (rewrite <- Ek; reflexivity).
    rewrite Em. change (C0_ g) with c. change (nv g) with 8%N. cbn [N.eqb]. rewrite Hd0. reflexivity. }
  exists 8%N, w50, g, (mkeit c (ks g) e1 0 ([] :: [e1; e2] :: repeat [] 6) 0),
    (mkeit c (ks g) MAXE 0 ([] :: [] :: repeat [] 6) 8), (mkeit c (ks g) e1 0 ([] :: [e1; e2] :: repeat [] 6) 8), e1, e2.
  sp; auto.
  - ranges.
  - apply (vt_step (eit_at_end K) ei_ptr (eit_next K) (mkeit c (ks g) e1 0 ([] :: [e1; e2] :: repeat [] 6) 0) (mkeit c (ks g) e2 0 ([] :: [e2] :: repeat [] 6) 1)).
    + exact M1.
    + unfold eit_next. cbn [ei_c0 ei_dist]. rewrite Hd. reflexivity.
    + apply (vt_step (eit_at_end K) ei_ptr (eit_next K) (mkeit c (ks g) e2 0 ([] :: [e2] :: repeat [] 6) 1)
               (mkeit c (ks g) MAXE 0 ([] :: [] :: repeat [] 6) 8)).
      * exact M2.
      * unfold eit_next. cbn [ei_c0 ei_dist]. rewrite Hd. reflexivity.
      * apply vt_end. reflexivity.
  - eapply visits_cons with (it' := mkeit c (ks g) MAXE 0 ([] :: [e1; e2] :: repeat [] 6) 8); [exact M1|reflexivity| |].
    + unfold eit_next. cbn [ei_c0 ei_dist]. rewrite Hd. reflexivity.
    + apply visits_end. reflexivity.
Qed.

(** C50 (partial): while the buffer is not empty, edge_begin() gives the same loop whatever was done with the
    member iterator before. *)
Theorem C50_edge_begin_again_partial : forall T K (L : k2laws K) n h g i,
  th_real T -> (2 <= n)%N -> reached T K n h g -> 0 < c0_size (C0_ g) ->
  exists it it0 l, dk_edge_begin K g i = Ok it /\ edge_loop K it l /\ dk_edge_begin K g 0 = Ok it0 /\ edge_loop K it0 l.
Proof.
  intros T K L n h g i HT Hn [HF E] Hsz. destruct (hist_full T HT K L n Hn h g HF E) as [sl [R Hfull]].
  pose proof (rl_inv _ _ _ _ _ _ R) as I.
  destruct (edge_loop_any K L n g sl i Hn I Hfull (or_intror Hsz)) as [it [E1 L1]].
  destruct (edge_loop_ok K L n g sl Hn I Hfull) as [it0 [E2 L2]].
  exists it, it0, (edge_seen K g sl). auto.
Qed.

(** C09: the node loop sees 0, 1, ..., n-1 and ends (vertex counts below 2^31). *)
Theorem C09_node_iterator : forall n, (n < 2 ^ 31)%N ->
  node_loop (vit_begin n) (map Z.of_nat (seq 0 (N.to_nat n))).
Proof. exact node_loop_ok. Qed.

(** ** The hypotheses are met *)
(** C07 on a history with deletions from a tree, with buffered edges left. *)
Example C07_example : exists g, reached th_exact K2Ref 8 [a 0 1; a 1 2; d 1 2; a 3 4]%N g /\ c_marked (C0_ g) = 0 /\
  0 < c0_size (C0_ g) /\ present [a 0 1; a 1 2; d 1 2; a 3 4]%N (9999999, 9999999)%N = false.
Proof.
  unfold reached. rewrite <- (tabled_eq th_exact th_real_inhabited).
  eexists. split; [split; [ranges|vm_compute; reflexivity]|]. sp; try (vm_compute; reflexivity).
Qed.
(** C05: a neighbour list that spans the buffer and two trees. *)
Example C05_example : exists g it, reached th_exact K2Ref 8 (map Add [(1,1); (1,2); (1,3); (1,4); (1,5)]%N) g /\
  nit_begin K2Ref g 1 = Ok it /\ neigh_loop K2Ref g 1 it [5; 3; 4; 1; 2]%Z.
Proof.
  unfold reached. rewrite <- (tabled_eq th_exact th_real_inhabited).
  do 2 eexists. sp; [ranges|vm_compute; reflexivity|vm_compute; reflexivity|].
  do 5 loop_step. apply visits_end. vm_compute; reflexivity.
Qed.
