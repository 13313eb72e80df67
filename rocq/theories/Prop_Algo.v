(** * Property theorems about Algorithm.hpp and EdgeHashTable.hpp (C33-C38, C41).

    [bfs K g r p] (Algo.v) says: the call bfs(r) on the graph g ends and returns p; the same for [dfs] and the triangle
    counters.  Each theorem shows that there is such a result, that it is the only one, and what it is.  [AlgoSpec] has
    the specification. *)
From Verif Require Import Base Spec AlgoSpec Thresholds Table K2 C0 C0Proof DK DKProof DKHist DKGuard DKTotal DKBisim Prop_DK
  Iter IterProof DKFull Prop_Iter Algo AlgoProof TriProof.

(** ** The edge relation a graph shows *)
(** y is listed by list_neighbour(x) *)
Definition lists (K : k2impl) (g : dk K) (x y : N) : Prop := exists l, dk_neigh K g x = Ok l /\ In y l.
Definition of_list (es : list edge) (x y : N) : Prop := In (x, y) es.

Lemma walk_ext (E F : N -> N -> Prop) r x d : (forall a b, E a b -> F a b) -> walk E r x d -> walk F r x d.
Proof. intros H. induction 1; econstructor; eauto. Qed.
Lemma reach_ext (E F : N -> N -> Prop) r x : (forall a b, E a b <-> F a b) -> reach E r x <-> reach F r x.
Proof. intros H. rewrite !walk_reach. split; intros [d G]; exists d; (eapply walk_ext; [|exact G]); intros; apply H; auto. Qed.
Lemma is_dist_ext (E F : N -> N -> Prop) r x d : (forall a b, E a b <-> F a b) -> is_dist F r x d -> is_dist E r x d.
Proof.
  intros H [G1 G2]. split; [eapply walk_ext; [|exact G1]; intros; apply H; auto|].
  intros d' G. apply G2. eapply walk_ext; [|exact G]. intros; apply H; auto.
Qed.
Lemma by_distance_ext (E F : N -> N -> Prop) r p : (forall a b, E a b <-> F a b) -> by_distance E r p -> by_distance F r p.
Proof. intros H G p1 a p2 b p3 da db Ep Ha Hb. eapply G; eauto; eapply is_dist_ext; eauto. Qed.
Lemma search_order_ext (E F : N -> N -> Prop) p : (forall a b, E a b <-> F a b) -> search_order E p -> search_order F p.
Proof. intros H G p1 v p2 Ep Hp. destruct (G p1 v p2 Ep Hp) as [u [G1 G2]]. exists u. rewrite <- H. auto. Qed.
Lemma depth_first_ext (E F : N -> N -> Prop) p : (forall a b, E a b <-> F a b) -> depth_first E p -> depth_first F p.
Proof.
  intros H G p1 v p2 Ep Hp. destruct (G p1 v p2 Ep Hp) as [q1 [u [q2 [G1 [G2 G3]]]]]. exists q1, u, q2.
  split; auto. split; [apply H; auto|]. intros w y Hw Hy. apply (G3 w); auto. apply H; auto.
Qed.

Definition nbs_of (K : k2impl) (g : dk K) (x : N) : list N := match dk_neigh K g x with Ok l => l | UB => [] end.

Lemma nbs_of_spec T K (L : k2laws K) n h g : (2 <= n <= 2 ^ 31)%N -> reached T K n h g ->
  (forall x, (x < n)%N -> nwalk K g x (map Z.of_N (nbs_of K g x))) /\
  (forall x y, (x < n)%N -> In y (nbs_of K g x) -> (y < n)%N) /\
  (forall x, (x < n)%N -> dk_neigh K g x = Ok (nbs_of K g x)).
Proof.
  intros Hn HR. split; [|split].
  - intros x Hx. destruct (C05_neighbour_iterator T K L n h g x Hn HR Hx) as [l [it [E1 [E2 [E3 _]]]]].
    unfold nbs_of. rewrite E1. exists it. auto.
  - intros x y Hx Hy. destruct (C46_neighbours_sound T K L n h g x ltac:(lia) HR Hx) as [l [E1 [_ E2]]].
    unfold nbs_of in Hy. rewrite E1 in Hy. apply E2, espec_present, (espec_range n) in Hy; [apply Hy|apply HR].
  - intros x Hx. destruct (C46_neighbours_sound T K L n h g x ltac:(lia) HR Hx) as [l [E1 _]]. unfold nbs_of. rewrite E1. auto.
Qed.

Lemma lists_rel T K (L : k2laws K) n h g : (2 <= n)%N -> reached T K n h g ->
  forall x y, ((x < n)%N /\ In y (nbs_of K g x)) <-> ((x < n)%N /\ lists K g x y).
Proof.
  intros Hn HR x y. unfold lists, nbs_of. split; intros [Hx G]; split; auto.
  - destruct (C46_neighbours_sound T K L n h g x Hn HR Hx) as [l [E1 _]]. rewrite E1 in *. eauto.
  - destruct G as [l [E1 G]]. rewrite E1. auto.
Qed.

(** ** C33 *)
(** In every graph reached by any history, bfs visits exactly what is reachable along list_neighbour. *)
Theorem C33_bfs_any_history : forall T K (L : k2laws K) n h g root,
  (2 <= n <= 2 ^ 31)%N -> reached T K n h g -> (root < n)%N ->
  let E := fun x y => (x < n)%N /\ lists K g x y in
  exists p, bfs K g root p /\ (forall p', bfs K g root p' -> p' = p) /\
    NoDup p /\ (forall v, In v p <-> reach E root v) /\ hd_error p = Some root /\ by_distance E root p.
Proof.
  intros T K L n h g root Hn HR Hr E. destruct (nbs_of_spec T K L n h g Hn HR) as [N1 [N2 N3]].
  destruct (bfs_correct K g n (nbs_of K g) ltac:(lia) N1 N2 root Hr) as [p [H1 [H2 [H3 [H4 [H5 H6]]]]]].
  pose proof (lists_rel T K L n h g ltac:(lia) HR) as HE.
  exists p. split; [exact H1|]. split; [intros p' G; exact (search_unique K g _ _ _ _ _ G p H1)|]. split; [exact H2|].
  split; [intros v; rewrite H3; apply reach_ext; exact HE|]. split; [exact H4|].
  exact (by_distance_ext _ _ root p HE H5).
Qed.

(** After any list of insertions: exactly what is reachable along the inserted edges, in order of distance. *)
Theorem C33_bfs : forall T K (L : k2laws K) n es root,
  th_top T -> (2 <= n <= 2 ^ 31)%N -> Forall (in_range n) es -> (root < n)%N ->
  exists g p, dk_hist T K n (map Add es) = Done g /\ bfs K g root p /\ (forall p', bfs K g root p' -> p' = p) /\
    NoDup p /\ (forall v, In v p <-> reach (of_list es) root v) /\ hd_error p = Some root /\
    by_distance (of_list es) root p /\ search_order (of_list es) p.
Proof.
  intros T K L n es root HT Hn HF Hr. destruct (C03_inserts_total T K L n es HT ltac:(lia) HF) as [g E].
  assert (HR : reached T K n (map Add es) g).
  { split; auto. apply Forall_map. eapply Forall_impl; [|exact HF]. auto. }
  destruct (nbs_of_spec T K L n _ g Hn HR) as [N1 [N2 N3]].
  destruct (bfs_correct K g n (nbs_of K g) ltac:(lia) N1 N2 root Hr) as [p [H1 [H2 [H3 [H4 [H5 H6]]]]]].
  assert (HE : forall x y, ((x < n)%N /\ In y (nbs_of K g x)) <-> of_list es x y).
  { intros x y. unfold of_list. split.
    - intros [Hx G]. destruct (C04_neighbours_after_inserts T K L n es x HT ltac:(lia) HF Hx) as [g' [l [E' [El [_ Hs]]]]].
      assert (g' = g) by congruence. subst g'. unfold nbs_of in G. rewrite El in G. apply Hs, G.
    - intros G. assert (Hx : (x < n)%N) by (rewrite Forall_forall in HF; apply HF in G; apply G). split; auto.
      destruct (C04_neighbours_after_inserts T K L n es x HT ltac:(lia) HF Hx) as [g' [l [E' [El [_ Hs]]]]].
      assert (g' = g) by congruence. subst g'. unfold nbs_of. rewrite El. apply Hs, G. }
  exists g, p. split; [exact E|]. split; [exact H1|]. split; [intros p' G; exact (search_unique K g _ _ _ _ _ G p H1)|].
  split; [exact H2|]. split; [intros v; rewrite H3; apply reach_ext; exact HE|]. split; [exact H4|].
  split; [exact (by_distance_ext _ _ root p HE H5)|exact (search_order_ext _ _ p HE H6)].
Qed.

(** ** C34 *)
Theorem C34_dfs_any_history : forall T K (L : k2laws K) n h g root,
  (2 <= n <= 2 ^ 31)%N -> reached T K n h g -> (root < n)%N ->
  exists p, dfs K g root p /\ (forall p', dfs K g root p' -> p' = p) /\
    NoDup p /\ (forall v, In v p <-> reach (fun x y => (x < n)%N /\ lists K g x y) root v) /\ hd_error p = Some root.
Proof.
  intros T K L n h g root Hn HR Hr. destruct (nbs_of_spec T K L n h g Hn HR) as [N1 [N2 N3]].
  destruct (dfs_correct K g n (nbs_of K g) ltac:(lia) N1 N2 root Hr) as [p [H1 [H2 [H3 [H4 H5]]]]].
  pose proof (lists_rel T K L n h g ltac:(lia) HR) as HE.
  exists p. split; [exact H1|]. split; [intros p' G; exact (search_unique K g _ _ _ _ _ G p H1)|]. split; [exact H2|].
  split; [|exact H4]. intros v; rewrite H3; apply reach_ext; exact HE.
Qed.

(** The relation between neighbour lists and the inserted edges, used below. *)
Lemma inserts_nbs T K (L : k2laws K) n es : th_top T -> (2 <= n <= 2 ^ 31)%N -> Forall (in_range n) es ->
  exists g, dk_hist T K n (map Add es) = Done g /\ reached T K n (map Add es) g /\
    (forall x, (x < n)%N -> nwalk K g x (map Z.of_N (nbs_of K g x))) /\
    (forall x, (x < n)%N -> dk_neigh K g x = Ok (nbs_of K g x)) /\
    (forall x, (x < n)%N -> NoDup (nbs_of K g x)) /\
    (forall x y, (x < n)%N -> In y (nbs_of K g x) -> (y < n)%N) /\
    (forall x y, ((x < n)%N /\ In y (nbs_of K g x)) <-> of_list es x y).
Proof.
  intros HT Hn HF. destruct (C03_inserts_total T K L n es HT ltac:(lia) HF) as [g E].
  assert (HR : reached T K n (map Add es) g).
  { split; auto. apply Forall_map. eapply Forall_impl; [|exact HF]. auto. }
  destruct (nbs_of_spec T K L n _ g Hn HR) as [N1 [N2 N3]].
  assert (HC : forall x, (x < n)%N -> NoDup (nbs_of K g x) /\ forall y, In y (nbs_of K g x) <-> In (x, y) es).
  { intros x Hx. destruct (C04_neighbours_after_inserts T K L n es x HT ltac:(lia) HF Hx) as [g' [l [E' [El [Hnd Hs]]]]].
    assert (g' = g) by congruence. subst g'. unfold nbs_of. rewrite El. auto. }
  exists g. split; [exact E|]. split; [exact HR|]. split; [exact N1|]. split; [exact N3|].
  split; [intros x Hx; apply HC; auto|]. split; [exact N2|].
  intros x y. unfold of_list. split.
  - intros [Hx G]. apply HC; auto.
  - intros G. assert (Hx : (x < n)%N) by (rewrite Forall_forall in HF; apply HF in G; apply G). split; auto. apply HC; auto.
Qed.

Theorem C34_dfs : forall T K (L : k2laws K) n es root,
  th_top T -> (2 <= n <= 2 ^ 31)%N -> Forall (in_range n) es -> (root < n)%N ->
  exists g p, dk_hist T K n (map Add es) = Done g /\ dfs K g root p /\ (forall p', dfs K g root p' -> p' = p) /\
    NoDup p /\ (forall v, In v p <-> reach (of_list es) root v) /\ hd_error p = Some root /\ search_order (of_list es) p.
Proof.
  intros T K L n es root HT Hn HF Hr. destruct (inserts_nbs T K L n es HT Hn HF) as [g [E [HR [N1 [N2 [N3 [N4 HE]]]]]]].
  destruct (dfs_correct K g n (nbs_of K g) ltac:(lia) N1 N4 root Hr) as [p [H1 [H2 [H3 [H4 H5]]]]].
  exists g, p. split; [exact E|]. split; [exact H1|]. split; [intros p' G; exact (search_unique K g _ _ _ _ _ G p H1)|].
  split; [exact H2|]. split; [intros v; rewrite H3; apply reach_ext; exact HE|]. split; [exact H4|].
  exact (search_order_ext _ _ p HE H5).
Qed.

(** ** C35 *)
(** Part of C35: in graphs where every vertex has at most one in-neighbour the order is depth-first. *)
Theorem C35_depth_first_partial : forall T K (L : k2laws K) n es root,
  th_top T -> (2 <= n <= 2 ^ 31)%N -> Forall (in_range n) es -> (root < n)%N ->
  (forall x x' y, In (x, y) es -> In (x', y) es -> x = x') ->
  exists g p, dk_hist T K n (map Add es) = Done g /\ dfs K g root p /\ (forall p', dfs K g root p' -> p' = p) /\
    depth_first (of_list es) p.
Proof.
  intros T K L n es root HT Hn HF Hr Hu. destruct (inserts_nbs T K L n es HT Hn HF) as [g [E [HR [N1 [N2 [N3 [N4 HE]]]]]]].
  destruct (dfs_forest K g n (nbs_of K g) ltac:(lia) N1 N4) with (root := root) as [p [H1 H2]]; auto.
  { intros x x' y Hx Hx' G G'. apply (Hu x x' y); [apply (proj1 (HE x y)); auto|apply (proj1 (HE x' y)); auto]. }
  exists g, p. split; [exact E|]. split; [exact H1|]. split; [intros p' G; exact (search_unique K g _ _ _ _ _ G p H1)|].
  exact (depth_first_ext _ _ p HE H2).
Qed.

Lemma search_prefix K (g : dk K) push q vis path p : search K g push q vis path p ->
  exists s, p = path ++ s /\ match q with [] => True | x :: _ => hd_error s = Some x end.
Proof.
  induction 1 as [vis path|x q vis path zs q' vis' p H1 H2 H3 [s [IH _]]].
  - exists []. rewrite app_nil_r. auto.
  - exists (x :: s). rewrite IH, <- app_assoc. auto.
Qed.
Lemma search_cons K (g : dk K) push x q vis path p l : search K g push (x :: q) vis path p ->
  nwalk K g x l -> exists q' vis', fold_left (visit_body push) l (q, vis) = (q', vis') /\ search K g push q' vis' (path ++ [x]) p.
Proof.
  intros H Hl. inversion H as [|? ? ? ? zs q' vis' ? H1 H2 H3]; subst.
  assert (zs = l) by (eapply nwalk_unique; eauto). subst. eauto.
Qed.
Lemma pair_list (l : list N) a b : a <> b -> NoDup l -> (forall y, In y l <-> y = a \/ y = b) -> l = [a; b] \/ l = [b; a].
Proof.
  intros Hab Hnd H. assert (P : Permutation l [a; b]).
  { apply NoDup_Permutation; auto; [repeat constructor; cbn; intuition|]. intros y. rewrite H. cbn. intuition. }
  apply Permutation_length_2_inv. apply Permutation_sym; auto.
Qed.
Lemma one_list (l : list N) a : NoDup l -> (forall y, In y l <-> y = a) -> l = [a].
Proof.
  intros Hnd H. apply Permutation_length_1_inv. apply NoDup_Permutation; auto; [repeat constructor; auto|].
  intros y. rewrite H. cbn. intuition.
Qed.

(** C35 refuted: on this graph the result is no depth-first order, in whatever order neighbours are listed. *)
Definition w35 : list edge := [(0,1); (0,2); (1,3); (1,4); (3,2); (4,2); (2,5); (2,6); (5,1); (6,1)]%N.
Theorem C35_refuted : forall T K (L : k2laws K), th_top T ->
  exists g, dk_hist T K 7 (map Add w35) = Done g /\ (exists p, dfs K g 0 p) /\
    forall p, dfs K g 0 p -> ~ depth_first (of_list w35) p.
Proof.
  intros T K L HT.
  assert (HF : Forall (in_range 7) w35) by (repeat constructor; cbn; lia).
  destruct (inserts_nbs T K L 7 w35 HT ltac:(lia) HF) as [g [E [HR [N1 [N2 [N3 [N4 HE]]]]]]].
  exists g. split; [exact E|]. split.
  { destruct (dfs_correct K g 7 (nbs_of K g) ltac:(lia) N1 N4 0%N ltac:(lia)) as [p [H1 _]]. eauto. }
  assert (HI : forall x, (x < 7)%N -> forall y, In y (nbs_of K g x) <-> In (x, y) w35).
  { intros x Hx y. split; intros G; [apply (proj1 (HE x y)); auto|apply (proj2 (HE x y)); auto]. }
  assert (H0 : nbs_of K g 0 = [1; 2]%N \/ nbs_of K g 0 = [2; 1]%N).
  { apply pair_list; [discriminate|apply N3; lia|]. intros y. rewrite HI by lia. cbn. intuition congruence. }
  assert (H1 : nbs_of K g 1 = [3; 4]%N \/ nbs_of K g 1 = [4; 3]%N).
  { apply pair_list; [discriminate|apply N3; lia|]. intros y. rewrite HI by lia. cbn. intuition congruence. }
  assert (H2 : nbs_of K g 2 = [5; 6]%N \/ nbs_of K g 2 = [6; 5]%N).
  { apply pair_list; [discriminate|apply N3; lia|]. intros y. rewrite HI by lia. cbn. intuition congruence. }
  assert (H3 : nbs_of K g 3 = [2]%N).
  { apply one_list; [apply N3; lia|]. intros y. rewrite HI by lia. cbn. intuition congruence. }
  assert (H4 : nbs_of K g 4 = [2]%N).
  { apply one_list; [apply N3; lia|]. intros y. rewrite HI by lia. cbn. intuition congruence. }
  assert (H5 : nbs_of K g 5 = [1]%N).
  { apply one_list; [apply N3; lia|]. intros y. rewrite HI by lia. cbn. intuition congruence. }
  assert (H6 : nbs_of K g 6 = [1]%N).
  { apply one_list; [apply N3; lia|]. intros y. rewrite HI by lia. cbn. intuition congruence. }
  intros p Hp HD.
  assert (Hpre : exists a b x y s, p = 0%N :: a :: x :: y :: s /\
     ((a = 1 /\ b = 2 /\ ((x = 3 /\ y = 4) \/ (x = 4 /\ y = 3))) \/ (a = 2 /\ b = 1 /\ ((x = 5 /\ y = 6) \/ (x = 6 /\ y = 5))))%N).
  { assert (Hfin : forall a x y q vis, search K g push_front (y :: q) vis [0; a; x]%N p -> exists s, p = 0%N :: a :: x :: y :: s).
    { intros a x y q vis G. destruct (search_prefix _ _ _ _ _ _ _ G) as [s [-> G2]]. destruct s as [|z s]; [discriminate|].
      injection G2 as ->. exists s. auto. }
    unfold dfs in Hp. destruct (search_cons _ _ _ _ _ _ _ _ _ Hp (N1 0%N ltac:(lia))) as [q1 [v1 [F1 S1]]].
    destruct H0 as [H0|H0]; rewrite H0 in F1; vm_compute in F1; injection F1 as <- <-.
    - destruct (search_cons _ _ _ _ _ _ _ _ _ S1 (N1 2%N ltac:(lia))) as [q2 [v2 [F2 S2]]].
      destruct H2 as [H2|H2]; rewrite H2 in F2; vm_compute in F2; injection F2 as <- <-.
      + destruct (search_cons _ _ _ _ _ _ _ _ _ S2 (N1 6%N ltac:(lia))) as [q3 [v3 [F3 S3]]].
        rewrite H6 in F3; vm_compute in F3; injection F3 as <- <-. apply Hfin in S3. destruct S3 as [s ->].
        exists 2%N, 1%N, 6%N, 5%N, s. intuition.
      + destruct (search_cons _ _ _ _ _ _ _ _ _ S2 (N1 5%N ltac:(lia))) as [q3 [v3 [F3 S3]]].
        rewrite H5 in F3; vm_compute in F3; injection F3 as <- <-. apply Hfin in S3. destruct S3 as [s ->].
        exists 2%N, 1%N, 5%N, 6%N, s. intuition.
    - destruct (search_cons _ _ _ _ _ _ _ _ _ S1 (N1 1%N ltac:(lia))) as [q2 [v2 [F2 S2]]].
      destruct H1 as [H1|H1]; rewrite H1 in F2; vm_compute in F2; injection F2 as <- <-.
      + destruct (search_cons _ _ _ _ _ _ _ _ _ S2 (N1 4%N ltac:(lia))) as [q3 [v3 [F3 S3]]].
        rewrite H4 in F3; vm_compute in F3; injection F3 as <- <-. apply Hfin in S3. destruct S3 as [s ->].
        exists 1%N, 2%N, 4%N, 3%N, s. intuition.
      + destruct (search_cons _ _ _ _ _ _ _ _ _ S2 (N1 3%N ltac:(lia))) as [q3 [v3 [F3 S3]]].
        rewrite H3 in F3; vm_compute in F3; injection F3 as <- <-. apply Hfin in S3. destruct S3 as [s ->].
        exists 1%N, 2%N, 3%N, 4%N, s. intuition. }
  destruct Hpre as [a [b [x [y [s [-> Hc]]]]]].
  destruct (HD [0; a; x]%N y s eq_refl ltac:(discriminate)) as [q1 [u [q2 [Eq [Hu Hq]]]]].
  assert (Hno : ~ of_list w35 x y /\ ~ of_list w35 0 y /\ of_list w35 x b /\ ~ In b [0; a; x]%N).
  { unfold of_list, w35. destruct Hc as [[-> [-> [[-> ->]|[-> ->]]]]|[-> [-> [[-> ->]|[-> ->]]]]]; cbn; intuition congruence. }
  destruct Hno as [Z1 [Z2 [Z3 Z4]]].
  destruct q1 as [|c0 [|c1 [|c2 q1]]]; cbn [app] in Eq.
  - injection Eq as <- <-. apply Z2; auto.
  - injection Eq as _ <- <-. apply Z4. apply (Hq x); auto. left; auto.
  - injection Eq as _ _ <- <-. apply Z1; auto.
  - injection Eq as _ _ _ Eq. destruct q1; discriminate.
Qed.

(** ** Triangles *)
Lemma inserts_view T K (L : k2laws K) n es : th_top T -> (2 <= n <= 2 ^ 31)%N -> Forall (in_range n) es ->
  ~ In (9999999, 9999999)%N es -> exists g, dk_hist T K n (map Add es) = Done g /\ view K g n (of_list es).
Proof.
  intros HT Hn HF Hmax. destruct (inserts_nbs T K L n es HT Hn HF) as [g [E [HR [N1 [N2 [N3 [N4 HE]]]]]]].
  exists g. split; [exact E|]. constructor.
  - destruct (hist_rel T K L n ltac:(lia) _ g (proj1 HR) E) as [sl R]. apply (dv_nv _ _ _ _ _ (rl_inv _ _ _ _ _ _ R)).
  - intros x y G. rewrite Forall_forall in HF. apply HF in G. apply G.
  - destruct (C06_edge_iterator_inserts T K L n es HT ltac:(lia) HF Hmax) as [g' [it [l [E' [Ei [Hl [Hnd Hs]]]]]]].
    assert (g' = g) by congruence. subst g'. exists l. split; [exists it; auto|]. split; auto. intros x y. apply Hs.
  - intros x Hx. exists (nbs_of K g x). split; [auto|]. split; [auto|]. split; [auto|]. intros y. rewrite <- HE. tauto.
  - intros x y Hx Hy. destruct (C01_contains_after_inserts T K L n es HT ltac:(lia) HF) as [g' [E' Hc]].
    assert (g' = g) by congruence. subst g'. exists (emem (x, y) es). split; [apply Hc; split; auto|]. apply emem_In.
Qed.

(** C36: the hash-based counter returns the number of directed triangles (as an int), for any number of buckets. *)
Theorem C36_hash_triangles : forall T K (L : k2laws K) n es nb,
  th_top T -> (2 <= n < 2 ^ 31)%N -> Forall (in_range n) es -> ~ In (9999999, 9999999)%N es -> 0 < nb ->
  exists g m r, dk_hist T K n (map Add es) = Done g /\ count_of (triangle (of_list es)) m /\
    triangles_hash K g nb r /\ (forall r', triangles_hash K g nb r' -> r' = r) /\
    r = to_int (Z.of_nat m) /\ ((Z.of_nat m < 2 ^ 31)%Z -> r = Z.of_nat m).
Proof.
  intros T K L n es nb HT Hn HF Hmax Hnb. destruct (inserts_view T K L n es HT ltac:(lia) HF Hmax) as [g [E V]].
  destruct (hash_count K g n _ V ltac:(lia) nb Hnb) as [m [r [H1 [H2 [H3 H4]]]]].
  exists g, m, r. split; [exact E|]. split; [exact H1|]. split; [exact H2|]. split; [exact H3|]. split; [exact H4|].
  intros Hm. rewrite H4. apply to_int_id. lia.
Qed.

(** C37, part: without self-loops the iterator-based counter counts the same. *)
Theorem C37_dummy_triangles_partial : forall T K (L : k2laws K) n es,
  th_top T -> (2 <= n < 2 ^ 31)%N -> Forall (in_range n) es -> (forall v, ~ In (v, v) es) ->
  exists g m, dk_hist T K n (map Add es) = Done g /\ count_of (triangle (of_list es)) m /\
    triangles_dummy K g (N.of_nat m mod 2 ^ 32) /\ forall r, triangles_dummy K g r -> r = (N.of_nat m mod 2 ^ 32)%N.
Proof.
  intros T K L n es HT Hn HF Hs. destruct (inserts_view T K L n es HT ltac:(lia) HF (Hs _)) as [g [E V]].
  destruct (dummy_count K g n _ V ltac:(lia)) as [m [[l [L1 [L2 L3]]] [H2 H3]]].
  exists g, m. split; [exact E|]. split; [|auto]. exists l. split; [exact L1|]. split; [|exact L3].
  intros [[a b] c]. rewrite L2. cbn [closed_triple triangle]. unfold of_list. split.
  - intros [G1 [G2 [G3 G4]]]. split; auto. split; [intros ->; eapply Hs; eauto|]. split; [intros ->; eapply Hs; eauto|]. auto.
  - tauto.
Qed.

(** What it counts in general: the third vertex need not differ from the other two. *)
Theorem C37_dummy_counts : forall T K (L : k2laws K) n es,
  th_top T -> (2 <= n < 2 ^ 31)%N -> Forall (in_range n) es -> ~ In (9999999, 9999999)%N es ->
  exists g m, dk_hist T K n (map Add es) = Done g /\
    count_of (fun t => let '(a, b, c) := t in a <> b /\ In (a, b) es /\ In (b, c) es /\ In (c, a) es) m /\
    triangles_dummy K g (N.of_nat m mod 2 ^ 32) /\ forall r, triangles_dummy K g r -> r = (N.of_nat m mod 2 ^ 32)%N.
Proof.
  intros T K L n es HT Hn HF Hs. destruct (inserts_view T K L n es HT ltac:(lia) HF Hs) as [g [E V]].
  destruct (dummy_count K g n _ V ltac:(lia)) as [m [H1 [H2 H3]]]. exists g, m. auto.
Qed.

(** C37 refuted: two vertices, a 2-cycle and a self-loop; no triangle, yet the iterator version says 2. *)
Theorem C37_refuted : forall T K (L : k2laws K), th_top T ->
  exists g nb, dk_hist T K 2 (map Add [(0, 1); (1, 0); (0, 0)]%N) = Done g /\
    0 < nb /\ triangles_dummy K g 2 /\ triangles_hash K g nb 0.
Proof.
  intros T K L HT.
  assert (HF : Forall (in_range 2) [(0, 1); (1, 0); (0, 0)]%N) by (repeat constructor; cbn; lia).
  assert (Hm : ~ In (9999999, 9999999)%N [(0, 1); (1, 0); (0, 0)]%N) by (cbn; intuition discriminate).
  destruct (C37_dummy_counts T K L 2 _ HT ltac:(lia) HF Hm) as [g [m [E [Hc [H1 _]]]]].
  destruct (C36_hash_triangles T K L 2 _ 1 HT ltac:(lia) HF Hm ltac:(lia)) as [g' [m' [r [E' [Hc' [H1' [_ [H2' _]]]]]]]].
  assert (g' = g) by congruence. subst g'. exists g, 1. split; [exact E|]. split; [lia|]. split.
  - assert (m = 2).
    { eapply count_of_unique; [exact Hc|]. exists [(0, 1, 0); (1, 0, 0)]%N. split; [repeat constructor; cbn; intuition discriminate|].
      split; [|reflexivity]. intros [[a b] c]. cbn. split.
      - intros [G|[G|[]]]; injection G as <- <- <-; intuition discriminate.
      - intros [G1 [G2 [G3 G4]]].
        destruct G2 as [G2|[G2|[G2|[]]]]; injection G2 as <- <-; try congruence;
        destruct G3 as [G3|[G3|[G3|[]]]]; try discriminate; injection G3 as <-;
        destruct G4 as [G4|[G4|[G4|[]]]]; try discriminate; auto. }
    subst m. exact H1.
  - assert (m' = 0).
    { eapply count_of_unique; [exact Hc'|]. exists []. split; [constructor|]. split; [|reflexivity].
      intros [[a b] c]. cbn. split; [intros []|]. intros [G1 [G2 [G3 [G4 [G5 G6]]]]].
      destruct G4 as [G4|[G4|[G4|[]]]]; injection G4 as <- <-; try congruence;
      destruct G5 as [G5|[G5|[G5|[]]]]; try discriminate; injection G5 as <-; congruence. }
    subst m'. rewrite H2' in H1'. exact H1'.
Qed.

(** C38, part: what count_triangles counts.  All of it are edges v1 -> v2 with a two-step path v1 -> u -> v2, so a
    non-zero result shows there is such a configuration. *)
Theorem C38_heavy_sound_partial : forall T K (L : k2laws K) n es nb,
  th_top T -> (2 <= n < 2 ^ 31)%N -> Forall (in_range n) es -> ~ In (9999999, 9999999)%N es -> 0 < nb ->
  exists g r, dk_hist T K n (map Add es) = Done g /\ triangles_heavy K g nb r /\
    (forall r', triangles_heavy K g nb r' -> r' = r) /\
    (r <> 0%N -> exists v1 u v2, v1 <> v2 /\ v1 <> u /\ In (v1, v2) es /\ In (v1, u) es /\ In (u, v2) es).
Proof.
  intros T K L n es nb HT Hn HF Hmax Hnb. destruct (inserts_view T K L n es HT ltac:(lia) HF Hmax) as [g [E V]].
  destruct (heavy_count K g n _ V ltac:(lia) nb Hnb) as [m [[l [L1 [L2 L3]]] [H2 H3]]].
  exists g, (N.of_nat m mod 2 ^ 32)%N. split; [exact E|]. split; [exact H2|]. split; [exact H3|].
  intros Hr. destruct l as [|[[v1 v2] u] l]; [cbn in L3; subst m; exfalso; apply Hr; reflexivity|].
  destruct (proj1 (L2 (v1, v2, u)) (or_introl eq_refl)) as [G1 [G2 [G3 [_ [_ [G4 G5]]]]]].
  assert (Hirr : forall a b, less_deg (of_list es) a b -> a <> b).
  { intros a b [da [db [D1 [D2 D3]]]] ->. pose proof (count_of_unique _ _ _ D1 D2). lia. }
  exists v1, u, v2. split; [apply Hirr; auto|]. split; [apply Hirr; auto|]. auto.
Qed.

(** C38 refuted: count_triangles returns 0 on the complete digraph with three vertices. *)
Definition w38 : list edge := [(0,1); (0,2); (1,0); (1,2); (2,0); (2,1)]%N.
Theorem C38_refuted : forall T K (L : k2laws K), th_top T ->
  exists g, dk_hist T K 3 (map Add w38) = Done g /\
    (forall nb, 0 < nb -> triangles_heavy K g nb 0) /\ triangle (of_list w38) (0, 1, 2)%N.
Proof.
  intros T K L HT.
  assert (HF : Forall (in_range 3) w38) by (repeat constructor; cbn; lia).
  assert (Hm : ~ In (9999999, 9999999)%N w38) by (cbn; intuition discriminate).
  destruct (inserts_view T K L 3 w38 HT ltac:(lia) HF Hm) as [g [E V]].
  exists g. split; [exact E|]. split; [|cbn; unfold of_list, w38; cbn; intuition discriminate].
  intros nb Hnb. destruct (heavy_count K g 3 _ V ltac:(lia) nb Hnb) as [m [Hc [H2 _]]].
  assert (m = 0); [|subst; exact H2]. eapply count_of_unique; [exact Hc|]. exists []. split; [constructor|]. split; [|reflexivity].
  intros [[a b] c]. cbn [In heavy_triple]. split; [intros []|]. intros [G1 [_ [_ [_ [[k [Hk Hb]] _]]]]].
  destruct (C02_count_after_inserts T K L 3 w38 HT ltac:(lia) HF) as [g' [E' Hcnt]].
  assert (g' = g) by congruence. subst g'. rewrite Hcnt in Hb.
  replace (length (nodup edge_dec w38)) with 6 in Hb by reflexivity.
  assert (k = 2); [|subst; cbn in Hb; lia].
  assert (Hb3 : b = 0%N \/ b = 1%N \/ b = 2%N).
  { unfold of_list in G1. rewrite Forall_forall in HF. apply HF in G1. destruct G1 as [_ G1]. cbn in G1. lia. }
  eapply count_of_unique; [exact Hk|].
  destruct Hb3 as [-> | [-> | -> ]]; [exists [1; 2]%N|exists [0; 2]%N|exists [0; 1]%N];
    (split; [repeat constructor; cbn; intuition discriminate|split; [|reflexivity]; intros y; unfold of_list, w38; cbn; intuition congruence]).
Qed.

(** ** C41: the hash table *)
Theorem C41_key_injective : forall x y x' y', (x < 2 ^ 32)%N -> (y < 2 ^ 32)%N -> (x' < 2 ^ 32)%N -> (y' < 2 ^ 32)%N ->
  edge_to_uint64 (x, y) = edge_to_uint64 (x', y') -> (x, y) = (x', y').
Proof.
  intros x y x' y' H1 H2 H3 H4. rewrite !key_value by auto. intros G. assert (x = x' /\ y = y') as [-> ->] by lia. auto.
Qed.

(** A history of the table and what find must answer: the index of the last insertion since the last erasure. *)
Inductive tb_op := TIns (e : edge) (i : N) | TDel (e : edge).
Definition tb_step (nb : nat) (t : table) (o : tb_op) : table :=
  match o with TIns e i => tb_insert nb t e i | TDel e => tb_erase nb t e end.
Fixpoint last_index (h : list tb_op) (e : edge) (acc : option N) : option N :=
  match h with
  | [] => acc
  | TIns f i :: h => last_index h e (if eeqb f e then Some i else acc)
  | TDel f :: h => last_index h e (if eeqb f e then None else acc)
  end.
Theorem C41_table : forall nb h e, 0 < nb ->
  let t := fold_left (tb_step nb) h (tb_new nb) in
  tb_find nb t e = match last_index h e None with Some i => Z.of_N i | None => (-1)%Z end /\
  tb_contains nb t e = (match last_index h e None with Some _ => true | None => false end) /\
  exists ks, NoDup ks /\ (forall f, In f ks <-> last_index h f None <> None) /\ tb_size t = length ks.
Proof.
  intros nb h e Hnb t.
  assert (G : tb_wf nb t /\ forall f, tb_find nb t f = match last_index h f None with Some i => Z.of_N i | None => (-1)%Z end).
  { unfold t. clear t.
    enough (Hgen : forall t acc, tb_wf nb t -> (forall f, tb_find nb t f = match acc f with Some i => Z.of_N i | None => (-1)%Z end) ->
      tb_wf nb (fold_left (tb_step nb) h t) /\
      forall f, tb_find nb (fold_left (tb_step nb) h t) f = match last_index h f (acc f) with Some i => Z.of_N i | None => (-1)%Z end).
    { apply (Hgen _ (fun _ => None) (tb_wf_new nb)). intros f. apply tb_find_new. }
    induction h as [|[f0 i|f0] h IH]; intros t acc W Ht; cbn [fold_left last_index tb_step]; [auto| |].
    - apply (IH _ (fun f => if eeqb f0 f then Some i else acc f)); [apply tb_insert_wf; auto|].
      intros f. rewrite tb_find_insert by auto. destruct (eeqb f0 f); auto.
    - apply (IH _ (fun f => if eeqb f0 f then None else acc f)); [apply tb_erase_wf; auto|].
      intros f. rewrite tb_find_erase by auto. destruct (eeqb f0 f); auto. }
  destruct G as [W G].
  assert (Hcon : forall f, tb_contains nb t f = match last_index h f None with Some _ => true | None => false end).
  { intros f. unfold tb_contains. rewrite G. destruct (last_index h f None); auto. apply negb_true_iff, Z.eqb_neq. lia. }
  split; [apply G|]. split; [apply Hcon|]. exists (map fst (concat t)). split; [apply (tb_nodup nb); auto|].
  split; [|unfold tb_size; rewrite map_length; auto].
  intros f. rewrite (tb_In nb Hnb t f W), Hcon. destruct (last_index h f None); split; congruence.
Qed.

(** ** The hypotheses are met *)
Example C33_example : Forall (in_range 5) [(0,1); (1,2); (2,0); (0,3)]%N /\ reach (of_list [(0,1); (1,2); (2,0); (0,3)]%N) 0 2 /\
  ~ reach (of_list [(0,1); (1,2); (2,0); (0,3)]%N) 0 4.
Proof.
  split; [repeat constructor; cbn; lia|]. split.
  - apply reach_step with 1%N; [|cbn; unfold of_list; cbn; auto]. apply reach_step with 0%N; [constructor|unfold of_list; cbn; auto].
  - intros G. remember 4%N as z. destruct G as [|x y G Hy]; [discriminate|]. subst. unfold of_list in Hy. cbn in Hy. intuition congruence.
Qed.
(** Two triangles sharing an edge direction: the count is 3 rotations each. *)
Example C36_example : count_of (triangle (of_list [(0,1); (1,2); (2,0)]%N)) 3.
Proof.
  exists [(0,1,2); (1,2,0); (2,0,1)]%N. split; [repeat constructor; cbn; intuition discriminate|]. split; [|reflexivity].
  intros [[a b] c]. unfold of_list. cbn. split.
  - intros [G|[G|[G|[]]]]; injection G as <- <- <-; intuition discriminate.
  - intros [G1 [G2 [G3 [G4 [G5 G6]]]]].
    destruct G4 as [G4|[G4|[G4|[]]]]; injection G4 as <- <-;
    destruct G5 as [G5|[G5|[G5|[]]]]; try discriminate; injection G5 as <-; auto.
Qed.
(** A forest with branching. *)
Example C35_example : forall x x' y : N, In (x, y) [(0,1); (0,2); (1,3); (1,4)]%N -> In (x', y) [(0,1); (0,2); (1,3); (1,4)]%N -> x = x'.
Proof. cbn. intuition congruence. Qed.
