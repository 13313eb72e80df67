(** * C81 with deletions before the loop: iterating over a background graph while its merging thread is at work.

    As in Prop_BgIter, but g is any state reached by calls of add_edge, contains, list_neighbour and del_edge under any schedule, between two calls,
    the merging thread not having been ended by an exception. *)
From Verif Require Import Base Spec AlgoSpec Thresholds Table K2 C0 C0Proof DK DKProof DKHist Prop_DK Iter IterProof Prop_Iter Algo AlgoProof TriProof Prop_Algo ViewProof
  Delay MunroProof BgSpec BgDelSpec Bg BgProof BgTime BgDel BgDelTime Prop_Bg BgView Prop_BgView Prop_BgDel Prop_BgUB BgIter Prop_BgIter Prop_BgDelView.

Section Main.
Context (wt : bool) (T : thresholds) (K : k2impl) (L : k2laws K).

(** If no merge is in progress when edge_begin() is called in a tidy state, no schedule leads to a race; after nine steps of the calling thread the
    iterator exists, and its loop is defined, visits every edge of the graph, visits only what was inserted, and of an edge never inserted while it
    was in the graph, only if it is in the graph. *)
Theorem C81_edges_deletions_partial : forall n s g, (2 <= n < 2 ^ 31)%N -> Forall (act_rng n) s -> exec wt T K n s = Ok g ->
  tidy g -> b_nw g = false -> ~ In (9999999, 9999999)%N (ins_of (b_log g)) ->
  exists E : N -> N -> Prop, (forall x y, In (x, y) (live (b_log g)) -> E x y) /\ (forall x y, E x y -> In (x, y) (ins_of (b_log g))) /\
    (forall x y, fresh_for (x, y) (b_log g) -> E x y -> In (x, y) (live (b_log g))) /\
  forall xs, exists p, xrun T K xs g (edge_begin_bg K) = Ok (g, p) /\ ~ xrace K g p /\
    (9 <= count_occ Bool.bool_dec xs true -> exists l, p = XGot l) /\
    (forall l, p = XGot l -> searches K (xsnap K g l) n E).
Proof using L.
  intros n s g Hn F E Ti W M. destruct (C76_deletions_partial wt T K L n s g Hn F E Ti M) as (Ed & X & X1 & X2 & X3).
  exists Ed. split; [apply X1, W|]. split; [exact X2|]. split; [exact X3|]. intros xs. destruct Ti as (Em & D & _ & _).
  destruct (exec_J wt T K L n ltac:(lia) s g F E D) as [_ [B V]]. pose proof (exec_A wt T K L n ltac:(lia) s g F E D) as Ag.
  assert (P : plain (b_m g)) by (rewrite Em; exact Logic.I). assert (Ec : mcur (b_m g) = None) by (rewrite Em; reflexivity).
  pose proof (J_qcore K L n g B V P Ec) as C. unfold coreg in C.
  pose proof (co_b _ _ _ _ _ _ _ _ _ _ _ _ _ _ _ _ C) as Bp. unfold bfactd in Bp. rewrite W in Bp.
  pose proof (co_len _ _ _ _ _ _ _ _ _ _ _ _ _ _ _ _ C) as Ln. pose proof (a_maxr _ _ _ Ag) as Mr.
  destruct (xrun_idle T K xs g 0%N [] (edge_begin_bg K) W Bp) as (p & R & O).
  { rewrite Ln. exact Mr. } { exact (co_above _ _ _ _ _ _ _ _ _ _ _ _ _ _ _ _ C). } { exact Logic.I. } { reflexivity. }
  exists p. split; [exact R|]. split; [apply quiet_no_race; auto|]. split.
  - intros Ct. destruct (caller_copies T K xs g [] W Bp) as [l G]; [rewrite Ln; cbn; unfold RS in *; lia|]. unfold edge_begin_bg in R. rewrite R in G. injection G as ->. eauto.
  - intros l ->. cbn [xok] in O. subst l. exact X.
Qed.
(** If in addition no edge was inserted while it was in the graph: exactly the edges, each once, and so for every traversal. *)
Theorem C81_edges_exact_deletions_partial : forall n s g, (2 <= n < 2 ^ 31)%N -> Forall (act_rng n) s -> exec wt T K n s = Ok g ->
  tidy g -> b_nw g = false -> fresh (b_log g) -> ~ In (9999999, 9999999)%N (live (b_log g)) ->
  forall xs, exists p, xrun T K xs g (edge_begin_bg K) = Ok (g, p) /\ ~ xrace K g p /\
    (9 <= count_occ Bool.bool_dec xs true -> exists l, p = XGot l) /\
    (forall l, p = XGot l -> traversals K (xsnap K g l) n (fun x y => In (x, y) (live (b_log g)))).
Proof using L.
  intros n s g Hn F E Ti W Fr M xs. pose proof (C76_deletions_exact_partial wt T K L n s g Hn F E Ti W Fr M) as X. destruct Ti as (Em & D & _ & _).
  destruct (exec_J wt T K L n ltac:(lia) s g F E D) as [_ [B V]]. pose proof (exec_A wt T K L n ltac:(lia) s g F E D) as Ag.
  assert (P : plain (b_m g)) by (rewrite Em; exact Logic.I). assert (Ec : mcur (b_m g) = None) by (rewrite Em; reflexivity).
  pose proof (J_qcore K L n g B V P Ec) as C. unfold coreg in C.
  pose proof (co_b _ _ _ _ _ _ _ _ _ _ _ _ _ _ _ _ C) as Bp. unfold bfactd in Bp. rewrite W in Bp.
  pose proof (co_len _ _ _ _ _ _ _ _ _ _ _ _ _ _ _ _ C) as Ln. pose proof (a_maxr _ _ _ Ag) as Mr.
  destruct (xrun_idle T K xs g 0%N [] (edge_begin_bg K) W Bp) as (p & R & O).
  { rewrite Ln. exact Mr. } { exact (co_above _ _ _ _ _ _ _ _ _ _ _ _ _ _ _ _ C). } { exact Logic.I. } { reflexivity. }
  exists p. split; [exact R|]. split; [apply quiet_no_race; auto|]. split.
  - intros Ct. destruct (caller_copies T K xs g [] W Bp) as [l G]; [rewrite Ln; cbn; unfold RS in *; lia|]. unfold edge_begin_bg in R. rewrite R in G. injection G as ->. eauto.
  - intros l ->. cbn [xok] in O. subst l. exact X.
Qed.

(** The loop over the neighbours of x: after any calls (erased slots and empty trees do not matter here); every neighbour is seen, only vertices to which
    x had an edge at some time, and over edges never inserted while they were in the graph only the neighbours, each once. *)
Theorem C81_neighbours_deletions_partial : forall n s g x, (2 <= n)%N -> Forall (act_rng n) s -> exec wt T K n s = Ok g -> b_b g <> BDead ->
  b_m g = MIdle -> b_nw g = false -> (x < n)%N ->
  exists p0, neigh_begin_bg K g x = Ok p0 /\
  forall xs, exists p, xrun T K xs g p0 = Ok (g, p) /\ ~ xrace K g p /\
    (forall out, p = XEnd out ->
       (forall y, In (x, y) (live (b_log g)) -> In y out) /\
       (forall y, In y out -> In (x, y) (ins_of (b_log g)) /\ (fresh_for (x, y) (b_log g) -> In (x, y) (live (b_log g)))) /\
       (forall y, fresh_for (x, y) (b_log g) -> count_occ N.eq_dec out y <= 1)).
Proof using L.
  intros n s g x Hn F E D Em W Hx.
  destruct (exec_J wt T K L n Hn s g F E D) as [_ [B V]]. pose proof (exec_A wt T K L n Hn s g F E D) as Ag.
  assert (P : plain (b_m g)) by (rewrite Em; exact Logic.I). assert (Ec : mcur (b_m g) = None) by (rewrite Em; reflexivity).
  pose proof (J_qcore K L n g B V P Ec) as C. pose proof C as C1. unfold coreg in C1. destruct (co_c0 _ _ _ _ _ _ _ _ _ _ _ _ _ _ _ _ C1) as [sl [C0 CB]].
  pose proof (co_b _ _ _ _ _ _ _ _ _ _ _ _ _ _ _ _ C1) as Bp. unfold bfactd in Bp. rewrite W in Bp.
  pose proof (co_len _ _ _ _ _ _ _ _ _ _ _ _ _ _ _ _ C1) as Ln. pose proof (a_maxr _ _ _ Ag) as Mr. pose proof (co_above _ _ _ _ _ _ _ _ _ _ _ _ _ _ _ _ C1) as Ab.
  pose proof (co_wf _ _ _ _ _ _ _ _ _ _ _ _ _ _ _ _ C1) as Wf.
  unfold neigh_begin_bg. rewrite (inv_neigh _ _ _ C0), CB. cbn [obind]. eexists. split; [reflexivity|]. intros xs.
  destruct (xrun_idle T K xs g x (rev (succs x B)) (XLev x (rev (succs x B)) 0) W Bp) as (p & R & O); auto.
  { rewrite Ln. exact Mr. } { lia. } { split; auto. cbn [firstn nbrs flat_map]. rewrite app_nil_r. reflexivity. }
  exists p. split; [exact R|]. split; [apply quiet_no_race; auto|]. intros out ->. cbn [xok] in O.
  rewrite (nbrs_firstn K n Hn x _ _ _ Ab (Nat.lt_succ_diag_r _)) in O.
  assert (A : forall y, In y out <-> In (x, y) B \/ 0 < held K g (x, y)).
  { intros y. unfold held. rewrite O, in_app_iff, <- in_rev, In_succs, (nbrs_In K L n x _ y Wf Hx), W, (cnt_pos _ (ks_edges K (b_ks g))). cbn [pend count_occ]. reflexivity. }
  split; [intros y I; apply A, (q_cov K L n Hn g B _ V P Ec I)|]. split; [intros y I; apply (q_snd K L n Hn g B _ V P Ec), A, I|].
  intros y Fr. pose proof (st_le1 _ _ _ _ _ _ (co_st _ _ _ _ _ _ _ _ _ _ _ _ _ _ _ _ C) Fr) as Z. cbv beta in Z.
  pose proof (succs_count n Hn x y B (co_nd _ _ _ _ _ _ _ _ _ _ _ _ _ _ _ _ C1)) as Z1. pose proof (nbrs_count K L n Hn x y (b_ks g) Wf Hx) as Z2.
  rewrite O, count_occ_app, (count_occ_rev_N n Hn). lia.
Qed.
End Main.

(** The hypotheses are met after a deletion in a tree (Prop_BgDelView: (0,1), (0,2), (0,3) inserted, (0,2) deleted). *)
Example C81_deletions_example : Forall (act_rng 8) x89d /\ exists g p, exec false th_exact K2Ref 8 x89d = Ok g /\ tidy g /\ b_nw g = false /\ fresh (b_log g) /\
  live (b_log g) = [(0, 3); (0, 1)]%N /\ neigh_begin_bg K2Ref g 0 = Ok p /\
  xrun th_exact K2Ref [true; false; true; true; false; true; true; true; true; true] g p = Ok (g, XEnd [3; 1]%N).
Proof.
  destruct C76_deletions_example as (F & g & E & Ti & W & Fr & Lv & _). split; [exact F|]. exists g.
  destruct (C81_neighbours_deletions_partial false th_exact K2Ref K2Ref_laws 8 x89d g 0) as (p0 & E0 & _); auto; try lia; try apply Ti.
  exists p0. split; [exact E|]. split; [exact Ti|]. split; [exact W|]. split; [exact Fr|]. split; [exact Lv|]. split; [exact E0|].
  assert (Q : match exec false th_exact K2Ref 8 x89d with Ok g => match neigh_begin_bg K2Ref g 0 with Ok p =>
      xrun th_exact K2Ref [true; false; true; true; false; true; true; true; true; true] g p = Ok (g, XEnd [3; 1]%N) | UB => False end | UB => False end).
  { rewrite <- (tabled_eq th_exact th_real_inhabited). vm_compute. reflexivity. }
  rewrite E, E0 in Q. exact Q.
Qed.
