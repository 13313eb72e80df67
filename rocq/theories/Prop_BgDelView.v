(** * C76, C89: the iterators and the algorithms on the background graphs, after deletions.

    As in Prop_BgView and Prop_AlgoAll, for histories in which edges are deleted.  [wt = false]: DKtree_background; [wt = true]:
    DKtree_background_wait.  Two states are excluded, in both the loops can go wrong (C76_deleted_refuted, C75_refuted): a buffer with an erased slot, and a
    tree all of whose edges have been deleted. *)
From Coq Require Import Reals Lra.
From Verif Require Import Base Spec AlgoSpec Thresholds Table K2 C0 C0Proof DK DKProof DKHist Prop_DK Iter IterProof Prop_Iter Algo AlgoProof TriProof
  Prop_Algo ViewProof Prop_Heavy Prop_AlgoDel PageRank PRProof Prop_PageRank PRExact Prop_PageRank2 Prop_AlgoAll
  Delay MunroProof BgSpec BgDelSpec Bg BgProof BgTime BgDel BgDelTime Prop_Bg BgView Prop_BgView Prop_BgDel Prop_BgUB.
Open Scope nat_scope.

(** [tidy g]: no call is going on, the merging thread has not been ended by an exception, no slot of the buffer is erased, no tree is empty. *)
Definition tidy {K} (g : bg K) : Prop :=
  b_m g = MIdle /\ b_b g <> BDead /\ c_marked (b_c0 g) = 0 /\ forall t, In (Some t) (b_ks g) -> kt_edges K t <> [].

Section Main.
Context (wt : bool) (T : thresholds) (K : k2impl) (L : k2laws K).

Lemma tidy_holds n s g : (2 <= n)%N -> Forall (act_rng n) s -> exec wt T K n s = Ok g -> tidy g ->
  exists sl, holds K L n (snap g) sl /\ (b_nw g = false -> forall e, In e (live (b_log g)) -> In e (dk_all K (snap g) sl)) /\
    (forall e, In e (dk_all K (snap g) sl) -> In e (ins_of (b_log g))) /\
    (forall e, fresh_for e (b_log g) -> count_occ edge_dec (dk_all K (snap g) sl) e <= count_occ edge_dec (live (b_log g)) e).
Proof using L.
  intros Hn F E (M & D & Mk & Fu). destruct (exec_J wt T K L n Hn s g F E D) as [_ [B V]].
  pose proof (exec_A wt T K L n Hn s g F E D) as Ag.
  assert (P : plain (b_m g)) by (rewrite M; exact Logic.I). assert (Ec : mcur (b_m g) = None) by (rewrite M; reflexivity).
  pose proof (J_qcore K L n g B V P Ec) as C. destruct (co_c0 _ _ _ _ _ _ _ _ _ _ _ _ _ _ _ _ C) as [sl [C0 CB]].
  exists sl. unfold coreg in C. pose proof (co_st _ _ _ _ _ _ _ _ _ _ _ _ _ _ _ _ C) as S.
  assert (Ha : forall e, count_occ edge_dec (dk_all K (snap g) sl) e = count_occ edge_dec B e + count_occ edge_dec (ks_edges K (b_ks g)) e).
  { intros e. unfold dk_all. rewrite CB, count_occ_app. reflexivity. }
  assert (Hi : forall e, In e (dk_all K (snap g) sl) <-> 0 < count_occ edge_dec B e + count_occ edge_dec (ks_edges K (b_ks g)) e).
  { intros e. rewrite <- Ha. apply count_occ_In. }
  split; [|split; [|split]].
  - constructor; unfold snap; cbn [nv ks max_r C0_].
    + apply (j_n _ _ _ _ _ V).
    + apply (co_len _ _ _ _ _ _ _ _ _ _ _ _ _ _ _ _ C).
    + apply (a_maxr _ _ _ Ag).
    + exact C0.
    + pose proof (iv_marked _ _ C0) as X. rewrite Mk in X. unfold all_live. rewrite (C0Hist.all_live sl) by auto.
      apply Forall_forall. intros e I. apply in_map_iff in I. destruct I as [? [<- _]]. reflexivity.
    + rewrite CB. apply Forall_forall. intros e I. pose proof (co_rng _ _ _ _ _ _ _ _ _ _ _ _ _ _ _ _ C) as R. rewrite Forall_forall in R. apply R.
      apply (st_ins S). apply (count_occ_In edge_dec) in I. cbv beta. lia.
    + apply (co_wf _ _ _ _ _ _ _ _ _ _ _ _ _ _ _ _ C).
    + exact Fu.
    + intros i t G. apply (co_above _ _ _ _ _ _ _ _ _ _ _ _ _ _ _ _ C i t G).
  - intros W e I. apply Hi. pose proof (st_cov S e I) as X. rewrite W in X. cbn [pend count_occ] in X. lia.
  - intros e I. apply Hi in I. apply (st_ins S). cbv beta. lia.
  - intros e I. rewrite Ha. pose proof (st_ex S e I) as X. cbn [count_occ] in X. lia.
Qed.

(** Any calls under any schedule, then a loop or a search in a tidy state: defined, visits only what was inserted, and of an edge that was
    never inserted while it was in the graph, only if it is in the graph; also while a merge is going on (the merging thread taking no step).
    If no merge is going on, every edge of the graph is visited. *)
Theorem C76_deletions_partial : forall n s g, (2 <= n < 2 ^ 31)%N -> Forall (act_rng n) s -> exec wt T K n s = Ok g -> tidy g ->
  ~ In (9999999, 9999999)%N (ins_of (b_log g)) ->
  exists E, searches K (snap g) n E /\ (b_nw g = false -> forall x y, In (x, y) (live (b_log g)) -> E x y) /\
    (forall x y, E x y -> In (x, y) (ins_of (b_log g))) /\ (forall x y, fresh_for (x, y) (b_log g) -> E x y -> In (x, y) (live (b_log g))).
Proof using L.
  intros n s g Hn F E Ti M. destruct (tidy_holds n s g ltac:(lia) F E Ti) as (sl & H & A & B & C).
  exists (fun x y => In (x, y) (dk_all K (snap g) sl)). split; [|split; [|split]].
  - apply (holds_searches K L n (snap g) sl Hn H). intros I. apply M, B, I.
  - intros W x y. apply A, W.
  - intros x y. apply B.
  - intros x y Fr I. apply (count_occ_In edge_dec) in I. apply (count_occ_In edge_dec). specialize (C _ Fr). lia.
Qed.
(** If no edge was inserted while it was in the graph, and no merge is going on, all is exact: each edge once, ... *)
Lemma tidy_view n s g : (2 <= n < 2 ^ 31)%N -> Forall (act_rng n) s -> exec wt T K n s = Ok g -> tidy g -> b_nw g = false -> fresh (b_log g) ->
  ~ In (9999999, 9999999)%N (live (b_log g)) -> view K (snap g) n (of_list (live (b_log g))).
Proof using L.
  intros Hn F E Ti W Fr M. destruct (tidy_holds n s g ltac:(lia) F E Ti) as (sl & H & A & B & C).
  assert (X : forall e, In e (dk_all K (snap g) sl) <-> In e (live (b_log g))).
  { intros e. split; [|apply A, W]. rewrite !(count_occ_In edge_dec). specialize (C e (Fr e)). lia. }
  eapply view_ext; [|apply (holds_view K L n (snap g) sl ltac:(lia) H)].
  - intros x y. apply X.
  - apply (NoDup_count_occ edge_dec). intros e. specialize (C e (Fr e)). pose proof (live_once e _ (Fr e)). lia.
  - intros I. apply M, X, I.
Qed.
Theorem C76_deletions_exact_partial : forall n s g, (2 <= n < 2 ^ 31)%N -> Forall (act_rng n) s -> exec wt T K n s = Ok g -> tidy g ->
  b_nw g = false -> fresh (b_log g) -> ~ In (9999999, 9999999)%N (live (b_log g)) ->
  traversals K (snap g) n (fun x y => In (x, y) (live (b_log g))).
Proof using L. intros n s g Hn F E Ti W Fr M. apply view_traversals; [exact Hn|]. eapply tidy_view; eauto. Qed.
(** ... and the counts, the coefficient and pageRank are those of the graph. *)
Theorem C89_background_deletions_partial : forall n s g, (2 <= n < 2 ^ 31)%N -> Forall (act_rng n) s -> exec wt T K n s = Ok g -> tidy g ->
  b_nw g = false -> fresh (b_log g) -> ~ In (9999999, 9999999)%N (live (b_log g)) ->
  counts K (snap g) (live (b_log g)) /\ (live (b_log g) <> [] -> ranks K (snap g) n (live (b_log g))).
Proof using L.
  intros n s g Hn F E Ti W Fr M. pose proof (tidy_view n s g Hn F E Ti W Fr M) as V. split.
  - apply (view_counts K _ n); auto. pose proof Ti as (Em & D & _ & _).
    destruct (C62_count_partial wt T K L n s g ltac:(lia) F E D Em Fr) as [C ND]. unfold edges_of. rewrite nodup_fixed_point by auto. exact C.
  - intros Hne. pose proof V as [V1 V2 _ V4 _]. apply lists_ranks; auto; [lia|apply Forall_forall; intros [x y] I; apply V2, I|].
    intros x Hx. destruct (V4 x Hx) as (l & A & _ & B & C). exists l. auto.
Qed.
End Main.

(** ** The hypotheses are met *)
(** three edges (a flush, merged), one of them deleted in its tree: one tree, one buffered edge *)
Definition x89d : list act := w30 ++ repeat ABack 15 ++ ins (0, 3)%N ++ del (0, 2)%N.
Example C76_deletions_example : Forall (act_rng 8) x89d /\ exists g, exec false th_exact K2Ref 8 x89d = Ok g /\ tidy g /\ b_nw g = false /\
  fresh (b_log g) /\ live (b_log g) = [(0, 3); (0, 1)]%N /\ ins_of (b_log g) = [(0, 3); (0, 2); (0, 1)]%N /\ ks_edges K2Ref (b_ks g) = [(0, 1)]%N.
Proof.
  split; [repeat constructor|]. rewrite <- (tabled_eq th_exact th_real_inhabited). eexists. split; [vm_compute; reflexivity|].
  split; [|split; [|split; [|split; [|split]]]].
  - split; [reflexivity|]. split; [discriminate|]. split; [reflexivity|]. vm_compute. intros t I.
    repeat (destruct I as [I|I]; [first [discriminate|injection I as <-; discriminate]|]). destruct I.
  - reflexivity.
  - vm_compute. intuition congruence.
  - reflexivity.
  - reflexivity.
  - reflexivity.
Qed.
(** then one more insertion, which asks for a merge, which has not begun *)
Definition x76b : list act := x89d ++ ins (1, 1)%N.
Example C76_busy_example : exists g, exec false th_exact K2Ref 8 x76b = Ok g /\ tidy g /\ b_nw g = true /\ live (b_log g) = [(1, 1); (0, 3); (0, 1)]%N.
Proof.
  rewrite <- (tabled_eq th_exact th_real_inhabited). eexists. split; [vm_compute; reflexivity|].
  split; [|split].
  - split; [reflexivity|]. split; [discriminate|]. split; [reflexivity|]. vm_compute. intros t I.
    repeat (destruct I as [I|I]; [first [discriminate|injection I as <-; discriminate]|]). destruct I.
  - reflexivity.
  - reflexivity.
Qed.
