(** * ViewProof: what the iterators and the algorithms see of any object made of a buffer and compressed trees.

    The iterator classes and Algorithm.hpp are templates over the graph class; of the graph they use only the number of
    vertices, first_container(), k_collections(), max_r and (for the algorithms) contains and list_neighbour.  [holds] is
    what an object of the shape [DK.dk] must satisfy for them to be exact. *)
From Verif Require Import Base Spec AlgoSpec Thresholds K2 C0 C0Proof DK DKProof DKHist Iter IterProof Prop_Iter Algo AlgoProof TriProof Prop_Algo.

Section V.
Context (K : k2impl) (L : k2laws K) (n : N).

Record holds (g : dk K) (sl : slots) : Prop := {
  hl_nv : nv g = n;
  hl_len : length (ks g) = RS;
  hl_maxr : max_r g < RS;
  hl_c0 : c0_inv (C0_ g) sl;
  hl_live : all_live sl;
  hl_range : Forall (in_range n) (live_edges sl);
  hl_wf : ks_wf K L n (ks g);
  hl_full : ks_full K (ks g);
  hl_below : ks_below K g
}.

Lemma holds_range g sl e : holds g sl -> In e (dk_all K g sl) -> in_range n e.
Proof.
  intros H G. apply in_app_iff in G. destruct G as [G|G].
  - pose proof (hl_range _ _ H) as R. rewrite Forall_forall in R. auto.
  - apply (ks_edges_range K L n (ks g)); [apply H|exact G].
Qed.

Lemma holds_ewalk g sl : (2 <= n)%N -> holds g sl -> ~ In MAXE (dk_all K g sl) -> ewalk K g (dk_all K g sl).
Proof.
  intros Hn H M. destruct (edge_loop_raw K g sl 0) as [it [E Hl]]; try apply H; auto.
  { rewrite (hl_nv _ _ H). lia. }
  exists it. split; [exact E|]. rewrite (seen_live K sl g (hl_live _ _ H)), before_max_id in Hl; auto.
Qed.

Lemma neigh_nodup l x : ks_wf K L n l -> NoDup (ks_edges K l) -> (x < n)%N ->
  (forall y, In y (ks_neigh K l x) <-> In (x, y) (ks_edges K l)) /\ NoDup (ks_neigh K l x).
Proof.
  intros W Hnd Hx. assert (S : forall l, ks_wf K L n l -> forall y, In y (ks_neigh K l x) <-> In (x, y) (ks_edges K l)).
  { clear - Hx. induction l as [|[t|] l IH]; intros W y; cbn [ks_neigh]; [cbn; tauto| |]; inversion W as [|? ? Wt Wl]; subst.
    - rewrite ks_edges_cons_some, !in_app_iff, (IH Wl), (law_neigh L n t x y Wt Hx). tauto.
    - rewrite ks_edges_cons_none. apply IH; auto. }
  split; [apply S; auto|]. induction l as [|[t|] l IH]; cbn [ks_neigh]; [constructor| |]; inversion W as [|? ? Wt Wl]; subst.
  - rewrite ks_edges_cons_some in Hnd. apply NoDup_app in Hnd. destruct Hnd as [D1 [D2 D3]]. apply NoDup_app. split; [apply (law_neigh_nodup L n); auto|].
    split; [apply IH; auto|]. intros y Hy Hy'. apply (law_neigh L n t x y Wt Hx) in Hy. apply (S l Wl) in Hy'. eapply D3; eauto.
  - rewrite ks_edges_cons_none in Hnd. apply IH; auto.
Qed.

(** What a template sees when an edge may be stored more than once. *)
Lemma holds_neigh g sl x : (2 <= n <= 2 ^ 31)%N -> holds g sl -> (x < n)%N ->
  exists l, dk_neigh K g x = Ok l /\ nwalk K g x (map Z.of_N l) /\ forall y, In y l <-> In (x, y) (dk_all K g sl).
Proof.
  intros [Hn Hn2] H Hx. set (l0 := firstn (S (max_r g)) (ks g)).
  assert (W0 : ks_wf K L n l0) by (apply ks_wf_firstn, H).
  assert (P : ks_edges K (ks g) = ks_edges K l0 ++ ks_edges K (skipn (S (max_r g)) (ks g))) by (rewrite <- ks_edges_app; unfold l0; rewrite firstn_skipn; reflexivity).
  assert (N1 : forall y, In y (ks_neigh K l0 x) <-> In (x, y) (ks_edges K l0)).
  { clear - Hx W0. generalize dependent l0. induction l0 as [|[t|] l IH]; intros W y; cbn [ks_neigh]; [cbn; tauto| |]; inversion W as [|? ? Wt Wl]; subst.
    - rewrite ks_edges_cons_some, !in_app_iff, (IH Wl), (law_neigh L n t x y Wt Hx). tauto.
    - rewrite ks_edges_cons_none. apply IH; auto. }
  assert (El : dk_neigh K g x = Ok (rev (succs x (live_edges sl)) ++ ks_neigh K l0 x)).
  { unfold dk_neigh. rewrite (inv_neigh _ _ _ (hl_c0 _ _ H)). cbn [obind]. rewrite (hl_len _ _ H).
    pose proof (hl_maxr _ _ H). destruct (Nat.ltb_spec (max_r g) RS); [reflexivity|lia]. }
  assert (S : forall y, In y (rev (succs x (live_edges sl)) ++ ks_neigh K l0 x) <-> In (x, y) (dk_all K g sl)).
  { intros y. unfold DKProof.dk_all. rewrite !in_app_iff, <- in_rev, In_succs, N1. split.
    - intros [G|G]; [auto|]. right. rewrite P. apply in_app_iff; auto.
    - intros [G|G]; [auto|]. right. unfold l0. apply (ks_below_firstn K n Hn); [apply H|exact G]. }
  eexists. split; [exact El|]. split; [|exact S].
  destruct (neigh_loop_ok K g x _ El) as [it [Eit Hl]].
  { apply Forall_forall. intros y Hy. apply S, (holds_range g sl _ H) in Hy. destruct Hy as [_ Hy]. cbn in Hy. unfold small. lia. }
  exists it. split; [exact Eit|]. replace (map Z.of_N _) with (map v_int (rev (succs x (live_edges sl)) ++ ks_neigh K l0 x)); [exact Hl|].
  apply map_ext_in. intros y Hy. apply S, (holds_range g sl _ H) in Hy. destruct Hy as [_ Hy]. cbn in Hy. apply to_int_id. lia.
Qed.

(** Everything a template sees, when no edge is stored twice. *)
Theorem holds_view g sl : (2 <= n <= 2 ^ 31)%N -> holds g sl -> NoDup (dk_all K g sl) -> ~ In MAXE (dk_all K g sl) ->
  view K g n (fun x y => In (x, y) (dk_all K g sl)).
Proof.
  intros [Hn Hn2] H Hnd M. constructor.
  - apply H.
  - intros x y G. apply (holds_range g sl _ H) in G. exact G.
  - exists (dk_all K g sl). split; [apply holds_ewalk; auto|]. split; [exact Hnd|]. tauto.
  - intros x Hx. unfold DKProof.dk_all in Hnd. pose proof Hnd as Hnd0. apply NoDup_app in Hnd. destruct Hnd as [D1 [D2 D3]].
    set (l0 := firstn (S (max_r g)) (ks g)).
    assert (W0 : ks_wf K L n l0) by (apply ks_wf_firstn, H).
    assert (P : ks_edges K (ks g) = ks_edges K l0 ++ ks_edges K (skipn (S (max_r g)) (ks g))) by (rewrite <- ks_edges_app; unfold l0; rewrite firstn_skipn; reflexivity).
    assert (D0 : NoDup (ks_edges K l0)) by (rewrite P in D2; apply NoDup_app in D2; tauto).
    destruct (neigh_nodup l0 x W0 D0 Hx) as [N1 N2].
    assert (El : dk_neigh K g x = Ok (rev (succs x (live_edges sl)) ++ ks_neigh K l0 x)).
    { unfold dk_neigh. rewrite (inv_neigh _ _ _ (hl_c0 _ _ H)). cbn [obind]. rewrite (hl_len _ _ H).
      pose proof (hl_maxr _ _ H). destruct (Nat.ltb_spec (max_r g) RS); [reflexivity|lia]. }
    assert (S : forall y, In y (rev (succs x (live_edges sl)) ++ ks_neigh K l0 x) <-> In (x, y) (dk_all K g sl)).
    { intros y. unfold DKProof.dk_all. rewrite !in_app_iff, <- in_rev, In_succs, N1. split.
      - intros [G|G]; [auto|]. right. rewrite P. apply in_app_iff; auto.
      - intros [G|G]; [auto|]. right. unfold l0. apply (ks_below_firstn K n Hn); [apply H|exact G]. }
    eexists. split; [exact El|]. split; [|split; [|exact S]].
    + destruct (neigh_loop_ok K g x _ El) as [it [Eit Hl]].
      { apply Forall_forall. intros y Hy. apply S, (holds_range g sl _ H) in Hy. destruct Hy as [_ Hy]. cbn in Hy. unfold small. lia. }
      exists it. split; [exact Eit|]. replace (map Z.of_N _) with (map v_int (rev (succs x (live_edges sl)) ++ ks_neigh K l0 x)); [exact Hl|].
      apply map_ext_in. intros y Hy. apply S, (holds_range g sl _ H) in Hy. destruct Hy as [_ Hy]. cbn in Hy. apply to_int_id. lia.
    + apply NoDup_app. split; [apply NoDup_rev, NoDup_succs; auto|]. split; [exact N2|].
      intros y Hy Hy'. apply in_rev, In_succs in Hy. apply N1 in Hy'. apply (D3 (x, y) Hy). rewrite P. apply in_app_iff; auto.
  - intros x y Hx Hy. unfold dk_contains. rewrite (inv_contains _ _ _ (hl_c0 _ _ H)). cbn [obind]. eexists. split; [reflexivity|].
    unfold DKProof.dk_all. rewrite in_app_iff, <- (ks_adj_spec K L n) by (auto; apply H || (split; auto)). rewrite <- emem_In.
    destruct (emem (x, y) (live_edges sl)); intuition.
Qed.
End V.

(** The answers of the iterators and algorithms on [g], stated against a relation [E]. *)
Definition traversals (K : k2impl) (g : dk K) (n : N) (E : N -> N -> Prop) : Prop :=
  (exists l, ewalk K g l /\ (forall l', ewalk K g l' -> l' = l) /\ NoDup l /\ forall x y, In (x, y) l <-> E x y) /\
  (forall x, (x < n)%N -> exists l, nwalk K g x l /\ (forall l', nwalk K g x l' -> l' = l) /\ NoDup l /\ forall y, In (Z.of_N y) l <-> E x y) /\
  (forall root, (root < n)%N -> exists p, bfs K g root p /\ (forall p', bfs K g root p' -> p' = p) /\ NoDup p /\
     (forall v, In v p <-> reach E root v) /\ hd_error p = Some root /\ by_distance E root p) /\
  (forall root, (root < n)%N -> exists p, dfs K g root p /\ (forall p', dfs K g root p' -> p' = p) /\ NoDup p /\
     (forall v, In v p <-> reach E root v) /\ hd_error p = Some root) /\
  (forall nb, 0 < nb -> exists m, count_of (triangle E) m /\ triangles_hash K g nb (to_int (Z.of_nat m)) /\
     forall r, triangles_hash K g nb r -> r = to_int (Z.of_nat m)).

(** ... without the promise that each edge is seen once. *)
Definition searches (K : k2impl) (g : dk K) (n : N) (E : N -> N -> Prop) : Prop :=
  (exists l, ewalk K g l /\ (forall l', ewalk K g l' -> l' = l) /\ forall x y, In (x, y) l <-> E x y) /\
  (forall x, (x < n)%N -> exists l, nwalk K g x l /\ (forall l', nwalk K g x l' -> l' = l) /\ forall y, In (Z.of_N y) l <-> E x y) /\
  (forall root, (root < n)%N -> exists p, bfs K g root p /\ (forall p', bfs K g root p' -> p' = p) /\ NoDup p /\
     (forall v, In v p <-> reach E root v) /\ hd_error p = Some root /\ by_distance E root p) /\
  (forall root, (root < n)%N -> exists p, dfs K g root p /\ (forall p', dfs K g root p' -> p' = p) /\ NoDup p /\
     (forall v, In v p <-> reach E root v) /\ hd_error p = Some root).

Lemma ewalk_unique K g l l' : ewalk K g l -> ewalk K g l' -> l = l'.
Proof. intros [i [E1 G1]] [j [E2 G2]]. assert (i = j) by congruence. subst j. eapply visits_unique; eauto. Qed.
Lemma nwalk_unique' K g x l l' : nwalk K g x l -> nwalk K g x l' -> l = l'.
Proof. intros [i [E1 G1]] [j [E2 G2]]. assert (i = j) by congruence. subst j. eapply visits_unique; eauto. Qed.

Theorem view_traversals K g n E : (2 <= n < 2 ^ 31)%N -> view K g n E -> traversals K g n E.
Proof.
  intros Hn V.
  assert (N0 : forall x, (x < n)%N -> nwalk K g x (map Z.of_N (nbs_of K g x)) /\ NoDup (nbs_of K g x) /\ forall y, In y (nbs_of K g x) <-> E x y).
  { intros x Hx. destruct (vw_neigh _ _ _ _ V x Hx) as (l & El & W & D & S). unfold nbs_of. rewrite El. auto. }
  assert (N1 : forall x, (x < n)%N -> nwalk K g x (map Z.of_N (nbs_of K g x))) by (intros x Hx; apply N0; auto).
  assert (N2 : forall x y, (x < n)%N -> In y (nbs_of K g x) -> (y < n)%N) by (intros x y Hx Hy; apply N0 in Hy; auto; apply (vw_rng _ _ _ _ V) in Hy; tauto).
  assert (HE : forall x y, ((x < n)%N /\ In y (nbs_of K g x)) <-> E x y).
  { intros x y. split; [intros [Hx G]; apply N0; auto|]. intros G. assert (Hx : (x < n)%N) by (apply (vw_rng _ _ _ _ V) in G; tauto). split; auto. apply N0; auto. }
  unfold traversals. split; [|split; [|split; [|split]]].
  - destruct (vw_edges _ _ _ _ V) as (l & W & D & S). exists l. split; [exact W|]. split; [intros l' G; eapply ewalk_unique; eauto|]. auto.
  - intros x Hx. destruct (N0 x Hx) as (W & D & S). exists (map Z.of_N (nbs_of K g x)). split; [exact W|].
    split; [intros l' G; eapply nwalk_unique'; eauto|]. split.
    + apply FinFun.Injective_map_NoDup; auto. intros p q. lia.
    + intros y. rewrite <- S, in_map_iff. split; [intros [z [Ez Hz]]; replace y with z by lia; auto|intros Hy; exists y; auto].
  - intros root Hr. destruct (bfs_correct K g n (nbs_of K g) ltac:(lia) N1 N2 root Hr) as (p & H1 & H2 & H3 & H4 & H5 & H6).
    exists p. split; [exact H1|]. split; [intros p' G; exact (search_unique K g _ _ _ _ _ G p H1)|]. split; [exact H2|].
    split; [intros v; rewrite H3; apply reach_ext; exact HE|]. split; [exact H4|]. exact (by_distance_ext _ _ root p HE H5).
  - intros root Hr. destruct (dfs_correct K g n (nbs_of K g) ltac:(lia) N1 N2 root Hr) as (p & H1 & H2 & H3 & H4 & H5).
    exists p. split; [exact H1|]. split; [intros p' G; exact (search_unique K g _ _ _ _ _ G p H1)|]. split; [exact H2|].
    split; [intros v; rewrite H3; apply reach_ext; exact HE|exact H4].
  - intros nb Hnb. destruct (hash_count K g n _ V ltac:(lia) nb Hnb) as (m & r & H1 & H2 & H3 & ->). exists m. auto.
Qed.

Theorem holds_searches K (L : k2laws K) n g sl : (2 <= n < 2 ^ 31)%N -> holds K L n g sl -> ~ In MAXE (dk_all K g sl) ->
  searches K g n (fun x y => In (x, y) (dk_all K g sl)).
Proof.
  intros Hn H M.
  assert (N0 : forall x, (x < n)%N -> nwalk K g x (map Z.of_N (nbs_of K g x)) /\ forall y, In y (nbs_of K g x) <-> In (x, y) (dk_all K g sl)).
  { intros x Hx. destruct (holds_neigh K L n g sl x ltac:(lia) H Hx) as (l & El & W & S). unfold nbs_of. rewrite El. auto. }
  assert (N1 : forall x, (x < n)%N -> nwalk K g x (map Z.of_N (nbs_of K g x))) by (intros x Hx; apply N0; auto).
  assert (N2 : forall x y, (x < n)%N -> In y (nbs_of K g x) -> (y < n)%N) by (intros x y Hx Hy; apply N0 in Hy; auto; apply (holds_range K L n g sl _ H) in Hy; apply Hy).
  assert (HE : forall x y, ((x < n)%N /\ In y (nbs_of K g x)) <-> In (x, y) (dk_all K g sl)).
  { intros x y. split; [intros [Hx G]; apply N0; auto|]. intros G. assert (Hx : (x < n)%N) by (apply (holds_range K L n g sl _ H) in G; apply G). split; auto. apply N0; auto. }
  unfold searches. split; [|split; [|split]].
  - exists (dk_all K g sl). split; [apply (holds_ewalk K L n); auto; lia|]. split; [|tauto]. intros l' G. eapply ewalk_unique; eauto. apply (holds_ewalk K L n); auto; lia.
  - intros x Hx. destruct (N0 x Hx) as (W & S). exists (map Z.of_N (nbs_of K g x)). split; [exact W|].
    split; [intros l' G; eapply nwalk_unique'; eauto|].
    intros y. rewrite <- S, in_map_iff. split; [intros [z [Ez Hz]]; replace y with z by lia; auto|intros Hy; exists y; auto].
  - intros root Hr. destruct (bfs_correct K g n (nbs_of K g) ltac:(lia) N1 N2 root Hr) as (p & H1 & H2 & H3 & H4 & H5 & H6).
    exists p. split; [exact H1|]. split; [intros p' G; exact (search_unique K g _ _ _ _ _ G p H1)|]. split; [exact H2|].
    split; [intros v; rewrite H3; apply reach_ext; exact HE|]. split; [exact H4|]. exact (by_distance_ext _ _ root p HE H5).
  - intros root Hr. destruct (dfs_correct K g n (nbs_of K g) ltac:(lia) N1 N2 root Hr) as (p & H1 & H2 & H3 & H4 & H5).
    exists p. split; [exact H1|]. split; [intros p' G; exact (search_unique K g _ _ _ _ _ G p H1)|]. split; [exact H2|].
    split; [intros v; rewrite H3; apply reach_ext; exact HE|exact H4].
Qed.
Lemma searches_ext K g n E E' : (forall x y, E x y <-> E' x y) -> searches K g n E -> searches K g n E'.
Proof.
  intros X (A & B & C & D). unfold searches. split; [|split; [|split]].
  - destruct A as (l & H1 & H2 & H3). exists l. sp; auto. intros x y. rewrite H3. apply X.
  - intros x Hx. destruct (B x Hx) as (l & H1 & H2 & H3). exists l. sp; auto. intros y. rewrite H3. apply X.
  - intros r Hr. destruct (C r Hr) as (p & H1 & H2 & H3 & H4 & H5 & H6). exists p. sp; auto; [intros v; rewrite H4; apply reach_ext, X|].
    exact (by_distance_ext _ _ r p X H6).
  - intros r Hr. destruct (D r Hr) as (p & H1 & H2 & H3 & H4 & H5). exists p. sp; auto. intros v. rewrite H4; apply reach_ext, X.
Qed.
Lemma view_ext K g n (E E' : N -> N -> Prop) : (forall x y, E x y <-> E' x y) -> view K g n E -> view K g n E'.
Proof.
  intros S [V1 V2 V3 V4 V5]. constructor; auto.
  - intros x y G. apply V2, S, G.
  - destruct V3 as (l & W & D & X). exists l. sp; auto. intros x y. rewrite X. apply S.
  - intros x Hx. destruct (V4 x Hx) as (l & W & D & X & Y). exists l. sp; auto. intros y. rewrite Y. apply S.
  - intros x y Hx Hy. destruct (V5 x y Hx Hy) as (b & W & X). exists b. split; auto. rewrite X. apply S.
Qed.
