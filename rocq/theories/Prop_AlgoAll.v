(** * C89: the algorithms on the delayed-union graph, on the background graphs, and after deletions.

    C36-C39, C79, C86 and C87 are about DKtree after insertions.  The member functions the algorithms call (edge_begin, neighbour_begin, list_neighbour,
    contains, get_number_edges, get_number_nodes) read, in DKtree_delay and (while no merge is going on) in the background graphs, the buffer and the array of
    trees the way those of DKtree do (Prop_DelayView, Prop_BgView); hence the models of the algorithms on [d_g d] and [snap g]. *)
From Coq Require Import Reals Lra.
From Verif Require Import Base Spec AlgoSpec Thresholds Table K2 C0 C0Proof DK DKProof DKHist DKGuard DKTotal DKFull DKBisim Prop_DK Iter IterProof Prop_Iter
  Algo AlgoProof TriProof Prop_Algo ViewProof Prop_Cluster Prop_Heavy Prop_AlgoDel PageRank PRProof Prop_PageRank PRExact Prop_PageRank2
  Delay DelayProof DelayBisim DelayView Prop_Delay Prop_DelayView MunroProof BgSpec Bg BgProof BgTime Prop_Bg BgView Prop_BgView.
Open Scope nat_scope.

(** pageRank is that of the graph with the edges es: the iteration of C86, and (C87) the limit. *)
Definition ranks (K : k2impl) (g : dk K) (n : N) (es : list edge) : Prop :=
  (forall alpha conv maxit, exists res, pageRank K g conv maxit alpha = Ok res /\ pagerank_spec n (w_of es) (d_of es) alpha conv maxit res) /\
  (forall alpha, (0 <= alpha < 1)%R -> exists p, is_pagerank n es alpha p /\
     forall conv t, (conv <= 0)%R -> exists res r, pageRank K g conv t alpha = Ok res /\ Prop_PageRank2.answers n res r /\
       (gap (N.to_nat n) r p <= alpha ^ t * (INR (N.to_nat n) / sources (N.to_nat n) (d_of es) + 1))%R).
(** The counts and the coefficient are those of the graph with the edges es: the specifications of C36, C37, C38 and C79. *)
Definition counts (K : k2impl) (g : dk K) (es : list edge) : Prop :=
  (forall nb, 0 < nb -> exists m, count_of (triangle (of_list es)) m /\ forall r, triangles_hash K g nb r <-> r = to_int (Z.of_nat m)) /\
  (exists m, count_of (closed_triple (of_list es)) m /\ forall r, triangles_dummy K g r <-> r = (N.of_nat m mod 2 ^ 32)%N) /\
  (forall nb, 0 < nb -> exists m, count_of (heavy_shape es) m /\
     (forall r, triangles_heavy K g nb r <-> r = (N.of_nat m mod 2 ^ 32)%N) /\
     (2 <= edges_of es -> forall c, clustering K g nb c <->
        c = (INR (N.to_nat (N.of_nat m mod 2 ^ 32)) / (INR (edges_of es) * (INR (edges_of es) - 1)))%R)).

Lemma view_counts K g n es : (2 <= n < 2 ^ 31)%N -> view K g n (of_list es) -> nt g = N.of_nat (edges_of es) -> counts K g es.
Proof.
  intros Hn V Hcnt. assert (Hcnt' : dk_edges K g = N.of_nat (edges_of es)) by exact Hcnt. split; [|split].
  - intros nb Hnb. destruct (view_traversals K g n _ Hn V) as (_ & _ & _ & _ & H). destruct (H nb Hnb) as (m & H1 & H2 & H3).
    exists m. split; [exact H1|]. intros r. split; [apply H3|intros ->; exact H2].
  - destruct (dummy_count K g n _ V ltac:(lia)) as [m [H1 [H2 H3]]]. exists m. split; [exact H1|].
    intros r. split; [apply H3|intros ->; exact H2].
  - intros nb Hnb. destruct (heavy_count K g n _ V ltac:(lia) nb Hnb) as [m [Hc [H2 H3]]]. exists m.
    assert (HH : forall r, triangles_heavy K g nb r <-> r = (N.of_nat m mod 2 ^ 32)%N) by (intros r; split; [apply H3|intros ->; exact H2]).
    split; [|split; [exact HH|]].
    + eapply count_of_iff; [|exact Hc]. intros [[v w] u]. cbn [heavy_triple heavy_shape].
      assert (Hbig : forall x, big K g (of_list es) x <-> edges_of es <= deg_of es x * deg_of es x).
      { intros x. unfold big. rewrite Hcnt'. split.
        - intros [k [Hk Hb]]. apply deg_count in Hk. subst k. lia.
        - intros Hb. exists (deg_of es x). rewrite deg_count. split; [reflexivity|lia]. }
      rewrite !Hbig, !less_precedes. unfold of_list. split; intros [? [? [? [? [? [? ?]]]]]]; repeat (split; [assumption || lia|]); assumption.
    + intros Hl c. unfold clustering. cbn zeta. rewrite Hcnt', Nat2N.id.
      assert (Hd : (INR (edges_of es) * (INR (edges_of es) - 1) <> 0)%R).
      { replace (INR (edges_of es) - 1)%R with (INR (edges_of es - 1)) by (rewrite minus_INR by lia; reflexivity).
        rewrite <- mult_INR. apply not_0_INR. nia. }
      split.
      * intros [r [G1 [_ G2]]]. apply HH in G1. subst r. exact G2.
      * intros ->. eexists. split; [apply HH; reflexivity|]. split; [exact Hd|reflexivity].
Qed.

Lemma lists_ranks K (g : dk K) n es : (2 <= n <= 2 ^ 31)%N -> nv g = n -> Forall (in_range n) es -> es <> [] ->
  (forall x, (x < n)%N -> exists l, dk_neigh K g x = Ok l /\ NoDup l /\ forall y, In y l <-> In (x, y) es) -> ranks K g n es.
Proof.
  intros Hn Hv HF Hne H.
  assert (H1 : forall x, (x < n)%N -> dk_neigh K g x = Ok (nbs_of K g x)) by (intros x Hx; destruct (H x Hx) as (l & E & _); unfold nbs_of; rewrite E; reflexivity).
  assert (H2 : forall x, (x < n)%N -> NoDup (nbs_of K g x) /\ forall y, In y (nbs_of K g x) <-> In (x, y) es).
  { intros x Hx. destruct (H x Hx) as (l & E & R). unfold nbs_of. rewrite E. exact R. }
  rewrite Forall_forall in HF.
  assert (H3 : forall x y, ((x < n)%N /\ In y (nbs_of K g x)) <-> of_list es x y).
  { intros x y. unfold of_list. split; [intros [Hx I]; apply H2; auto|]. intros I. assert (Hx : (x < n)%N) by (apply HF in I; apply I). split; auto. apply H2; auto. }
  destruct (weights es n (nbs_of K g) (fun x Hx => proj1 (H2 x Hx)) H3) as [W1 W2].
  assert (HP : forall alpha conv maxit, exists res, pageRank K g conv maxit alpha = Ok res /\ pagerank_spec n (w_of es) (d_of es) alpha conv maxit res).
  { intros alpha conv maxit. destruct (core K g n (nbs_of K g) alpha conv maxit ltac:(lia) Hv H1) as [res [E2 HS]].
    - intros x y Hx I. assert (G : of_list es x y) by (apply H3; auto). apply HF in G. apply G.
    - exists res. split; auto. eapply spec_ext; eauto. }
  split; [exact HP|]. intros alpha Ha.
  destruct (limit_core K g n es alpha Hn ltac:(apply Forall_forall; exact HF) Hne Ha (HP alpha)) as (p & P1 & _ & _ & _ & P2 & _).
  exists p. auto.
Qed.

(** ** The delayed-union graph *)
(** After any insertions, whatever union is pending. *)
Theorem C89_delay : forall T K (L : k2laws K) n es d,
  (2 <= n < 2 ^ 31)%N -> Forall (in_range n) es -> dl_hist T K n (map Add es) = Done d ->
  (~ In (9999999, 9999999)%N es -> counts K (d_g d) es) /\ (es <> [] -> ranks K (d_g d) n es).
Proof.
  intros T K L n es d Hn HF E. destruct (C24_delay_inserts_exact T K L n es d ltac:(lia) HF E) as (_ & A2 & A3).
  assert (Hv : nv (d_g d) = n) by (destruct (hist_insert_dl T K L n ltac:(lia) es d HF E) as [sl R]; apply (dn_nv _ _ _ _ _ (rd_inv _ _ _ _ _ _ (ei_rel _ _ _ _ _ _ R)))).
  split.
  - intros M. apply (view_counts K _ n); [exact Hn|apply (inserts_view_dl T K L n); auto; lia|exact A2].
  - intros Hne. apply lists_ranks; auto; lia.
Qed.
(** After calm histories. *)
Theorem C89_delay_calm_partial : forall T K (L : k2laws K) n h d,
  (2 <= n < 2 ^ 31)%N -> th_real T -> union_marks K L -> Forall (op_in_range n) h -> calm h -> dl_hist T K n h = Done d ->
  (c_marked (C0_ (d_g d)) = 0 -> present h (9999999, 9999999)%N = false -> counts K (d_g d) (espec h)) /\
  (espec h <> [] -> ranks K (d_g d) n (espec h)).
Proof.
  intros T K L n h d Hn HT HU HF HC E. destruct (C26_calm_exact_partial T K L n h d HT HU ltac:(lia) HF HC E) as (_ & A2 & A3).
  assert (Hv : nv (d_g d) = n) by (destruct (hist_calm_full T K L n ltac:(lia) HT HU h d HF HC E) as (sl & R & _); apply (dn_nv _ _ _ _ _ (rd_inv _ _ _ _ _ _ R))).
  split.
  - intros Hm M. apply (view_counts K _ n); [exact Hn| |rewrite espec_edges; exact A2].
    eapply view_ext; [|apply (calm_view_dl T K L n ltac:(lia) HT HU h d); auto; lia]. intros x y. unfold of_list. symmetry. apply espec_present.
  - intros Hne. apply lists_ranks; auto; [lia|apply Forall_forall; intros e I; apply (espec_range n h); auto|].
    intros x Hx. destruct (A3 x Hx) as (l & E1 & E2 & E3). exists l. split; auto. split; auto. intros y. rewrite E3. symmetry. apply espec_present.
Qed.

(** ** DKtree after deletions *)
Theorem C89_deletions_partial : forall T K (L : k2laws K) n h g,
  (2 <= n < 2 ^ 31)%N -> th_real T -> adjf_is_query L -> reached T K n h g -> calm h \/ benign T n h ->
  (c_marked (C0_ g) = 0 -> present h (9999999, 9999999)%N = false -> counts K g (espec h)) /\ (espec h <> [] -> ranks K g n (espec h)).
Proof.
  intros T K L n h g Hn HT Hq R HB. destruct (C13_count_partial T K L n h g HT Hq ltac:(lia) R HB) as [Hcnt _]. split.
  - intros Hm M. apply (view_counts K _ n); [exact Hn| |rewrite espec_edges; exact Hcnt].
    eapply view_ext; [|apply (calm_view T K L n h g ltac:(lia) HT Hq R HB Hm M)]. intros x y. unfold of_list. symmetry. apply espec_present.
  - intros Hne. pose proof R as [HF E]. apply lists_ranks; auto; [lia|apply (reached_nodes T K L n h g ltac:(lia) R)|apply Forall_forall; intros e I; apply (espec_range n h); auto|].
    intros x Hx. destruct (C17_neighbours_partial T K L n h g x HT Hq ltac:(lia) R HB Hx) as [l0 [E0 [N0 S0]]].
    exists l0. split; auto. split; auto. intros y. rewrite S0. symmetry. apply espec_present.
Qed.

(** ** The background graphs *)
(** Between two calls, no merge going on, no edge inserted twice. *)
Theorem C89_background_partial : forall wt T K (L : k2laws K) n s g,
  th_top T -> (2 <= n < 2 ^ 31)%N -> Forall (act_in n) s -> exec wt T K n s = Ok g -> b_m g = MIdle -> b_nw g = false -> NoDup (inserted (b_log g)) ->
  ~ In (9999999, 9999999)%N (inserted (b_log g)) ->
  counts K (snap g) (inserted (b_log g)) /\ (inserted (b_log g) <> [] -> ranks K (snap g) n (inserted (b_log g))).
Proof.
  intros wt T K L n s g HT Hn F E Em W ND M. destruct (exec_full wt T K L n ltac:(lia) HT s F) as (g0 & E0 & V & Fu). rewrite E in E0. injection E0 as <-.
  assert (Vw : view K (snap g) n (of_list (inserted (b_log g)))).
  { eapply view_ext; [|apply (holds_view K L n (snap g) (lv (rev (recent (b_log g)))) ltac:(lia))].
    - intros x y. apply (snap_idle T K L n); auto.
    - apply (inv_holds T); auto.
    - apply (snap_nodup T K L n); auto; lia.
    - intros I. apply M. apply (snap_idle T K L n); auto. }
  split.
  - apply (view_counts K _ n); auto. destruct (C31_count_partial wt T K L HT n s g ltac:(lia) F E Em) as (_ & _ & C). unfold edges_of. rewrite nodup_fixed_point by auto. apply C, ND.
  - intros Hne. pose proof Vw as [V1 V2 _ V4 _]. apply lists_ranks; auto; [lia|apply Forall_forall; intros [x y] I; apply V2, I|].
    intros x Hx. destruct (V4 x Hx) as (l & A & _ & B & C). exists l. auto.
Qed.

(** ** The hypotheses are met *)
(** 24 insertions, a union pending, on the delayed graph; a calm history with deletions on both graphs; five insertions with two merges on the background
    graph: C75_example, C75_calm_example, C85_example, C76_example.  Here: the remaining hypotheses. *)
Example C89_example : ~ In (9999999, 9999999)%N (firstn 24 w25) /\ firstn 24 w25 <> [] /\ edges_of (firstn 24 w25) = 24 /\ espec ex_calm <> [] /\
  heavy_shape w38h (0, 2, 3)%N /\ ~ In (9999999, 9999999)%N (rev [(0, 1); (0, 2); (1, 2); (2, 3); (3, 3)]%N).
Proof.
  split; [|split; [|split; [|split; [|split]]]].
  - cbv. intuition congruence.
  - discriminate.
  - vm_compute. reflexivity.
  - vm_compute. discriminate.
  - apply C38_heavy_example.
  - cbv. intuition congruence.
Qed.
