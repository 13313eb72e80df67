(** * C75: the iterators and the algorithms on the delayed-union graph.

    The member functions edge_begin, edge_end, node_begin, neighbour_begin, first_container and k_collections of
    DKtree_delay (DKtree_delay.hpp:287-321) are, up to the class name, those of DKtree (DKtree.hpp:266-297): they build the
    same iterator classes over the buffer and the array of trees.  union_support and tmp_edge are not looked at.  Hence the
    loops of [Iter] and [Algo] on the object [d_g d]. *)
From Verif Require Import Base Spec AlgoSpec Thresholds Table K2 C0 C0Proof DK DKProof DKHist DKGuard DKBisim Prop_DK Iter IterProof Prop_Iter Algo AlgoProof TriProof Prop_Algo ViewProof DKTotal Delay DelayProof DelayBisim Prop_Delay DelayView.

(** After any insertions, also while unions are pending, the edge loop visits exactly the inserted edges, each once; the
    neighbour loop exactly the neighbours; bfs, dfs and the hash triangle count are right about the graph inserted. *)
Theorem C75_delay_traversals : forall T K (L : k2laws K) n es d,
  (2 <= n < 2 ^ 31)%N -> Forall (in_range n) es -> ~ In (9999999, 9999999)%N es -> dl_hist T K n (map Add es) = Done d ->
  traversals K (d_g d) n (fun x y => In (x, y) es).
Proof.
  intros T K L n es d Hn HF M E. apply view_traversals; auto.
  apply (inserts_view_dl T K L n ltac:(lia) es d); auto. lia.
Qed.

(** With deletions: for calm histories (see C26), when the buffer holds no erased edge. *)
Theorem C75_calm_partial : forall T K (L : k2laws K) n h d,
  (2 <= n < 2 ^ 31)%N -> th_real T -> union_marks K L -> Forall (op_in_range n) h -> calm h -> dl_hist T K n h = Done d ->
  c_marked (C0_ (d_g d)) = 0 -> present h (9999999, 9999999)%N = false ->
  traversals K (d_g d) n (fun x y => present h (x, y) = true).
Proof.
  intros T K L n h d Hn HT HU HF HC E Hm M. apply view_traversals; auto.
  apply (calm_view_dl T K L n ltac:(lia) HT HU h d); auto. lia.
Qed.

(** With deletions in general it is false: after these nine operations on 8 vertices every operation has succeeded and the
    edge (0,0) is in the graph, but edge_begin() dereferences the iterator of an empty tree. *)
Definition w75 := [a 0 2; a 0 0; a 0 4; a 2 2; d 0 4; a 6 2; d 2 2; d 6 2; d 0 2]%N.

Section Transfer.
Context (n : N) (K1 : k2impl) (L1 : k2laws K1) (K2 : k2impl) (L2 : k2laws K2) (UC : Prop).
Lemma lsm_scan l1 l2 : lsm n K1 L1 K2 L2 UC l1 l2 -> forall i, scan K1 l1 i = scan K2 l2 i.
Proof. intros H. induction H as [|[a|] [b|] l1 l2 Ho Hl IH]; intros i; cbn in *; try tauto; auto. Qed.
Lemma lsm_deref l1 l2 : lsm n K1 L1 K2 L2 UC l1 l2 -> forall i,
  tree_deref (map (tree_begin K2) l2) i = UB -> tree_deref (map (tree_begin K1) l1) i = UB.
Proof.
  intros H. induction H as [|[a|] [b|] l1 l2 Ho Hl IH]; intros [|i]; cbn in *; try tauto; auto; try apply IH.
  unfold tree_deref. cbn. destruct Ho as [[_ _ Ts _] _]. destruct (kt_edges K2 b) as [|e es]; cbn; [|discriminate].
  destruct (kt_edges K1 a) as [|e es]; auto. exfalso. apply (Ts e). left; auto.
Qed.
Lemma dsm_begin d e : dsm n K1 L1 K2 L2 UC d e -> nv (d_g e) <> 0%N -> c0_size (C0_ (d_g e)) = 0 ->
  dk_edge_begin K2 (d_g e) 0 = UB -> dk_edge_begin K1 (d_g d) 0 = UB.
Proof.
  intros H H1 H2. unfold dk_edge_begin, eit_new. rewrite (sm_nv _ _ _ _ _ _ _ _ H), (sm_c0 _ _ _ _ _ _ _ _ H).
  apply N.eqb_neq in H1. rewrite H1, H2. cbn [Nat.ltb Nat.leb].
  pose proof (sm_ks _ _ _ _ _ _ _ _ H) as Hk. rewrite (lsm_scan _ _ Hk).
  destruct (scan K2 (ks (d_g e)) 0) as [i|]; cbn [obind]; [|discriminate].
  pose proof (lsm_deref _ _ Hk i) as G. destruct (tree_deref (map (tree_begin K2) (ks (d_g e))) i); cbn [obind]; [discriminate|].
  intros _. rewrite G; reflexivity.
Qed.
End Transfer.

Theorem C75_refuted : forall T K (L : k2laws K), th_real T -> unions_clean L ->
  exists d, Forall (op_in_range 8) w75 /\ dl_hist T K 8 w75 = Done d /\ dl_contains K d 0 0 = Ok true /\
    dk_edge_begin K (d_g d) 0 = UB /\ forall l, ~ ewalk K (d_g d) l.
Proof.
  intros T K L HT Hc.
  assert (HW : exists e, dl_hist T K2Ref 8 w75 = Done e /\ dl_contains K2Ref e 0 0 = Ok true /\ nv (d_g e) = 8%N /\
     c0_size (C0_ (d_g e)) = 0 /\ dk_edge_begin K2Ref (d_g e) 0 = UB).
  { rewrite <- (tabled_eq T HT). eexists. sp; vm_compute; reflexivity. }
  destruct HW as (e & W1 & W2 & W3 & W4 & W5).
  assert (HF : Forall (op_in_range 8) w75) by ranges.
  pose proof (dl_transfer T K L 8 w75 Hc ltac:(lia) HF) as G. rewrite W1 in G.
  destruct (dl_hist T K 8 w75) as [x| |]; cbn in G; try tauto.
  assert (U : dk_edge_begin K (d_g x) 0 = UB).
  { apply (dsm_begin 8 K L K2Ref K2Ref_laws True x e); auto. rewrite W3. discriminate. }
  exists x. sp; auto.
  - rewrite (sm_contains 8 K L K2Ref K2Ref_laws True x e 0 0 G); auto. ranges.
  - intros l [it [E _]]. congruence.
Qed.

(** ** The hypotheses are met *)
(** 24 insertions on 8 vertices, a union pending, three trees and two buffered edges. *)
Example C75_example : exists d l, dl_hist th_exact K2Ref 8 (map Add (firstn 24 w25)) = Done d /\ work_done K2Ref d = false /\
  ewalk K2Ref (d_g d) l /\ length l = 24.
Proof.
  assert (E : exists d, dl_hist th_exact K2Ref 8 (map Add (firstn 24 w25)) = Done d /\ work_done K2Ref d = false).
  { rewrite <- (tabled_eq th_exact th_real_inhabited). eexists. split; vm_compute; reflexivity. }
  destruct E as (x & E & W).
  destruct (C75_delay_traversals th_exact K2Ref K2Ref_laws 8 (firstn 24 w25) x) as ((l & H1 & _ & H3 & H4) & _); auto.
  - split; vm_compute; [discriminate|reflexivity].
  - ranges.
  - vm_compute. intuition discriminate.
  - exists x, l. sp; auto. assert (P : Permutation l (firstn 24 w25)).
    { apply NoDup_Permutation; auto; [|intros [p q]; apply H4].
      assert (X : NoDup (nodup edge_dec (firstn 24 w25))) by apply NoDup_nodup.
      replace (nodup edge_dec (firstn 24 w25)) with (firstn 24 w25) in X by (vm_compute; reflexivity). exact X. }
    apply Permutation_length in P. rewrite P. vm_compute. reflexivity.
Qed.
(** A calm history with deletions and no erased edge left in the buffer. *)
Example C75_calm_example : exists d, dl_hist th_exact K2Ref 8 ex_calm = Done d /\ calm ex_calm /\ union_marks K2Ref K2Ref_laws /\
  c_marked (C0_ (d_g d)) = 0 /\ present ex_calm (9999999, 9999999)%N = false.
Proof.
  rewrite <- (tabled_eq th_exact th_real_inhabited). eexists. split; [vm_compute; reflexivity|].
  split; [vm_compute; repeat split; discriminate|]. split; [apply K2Ref_union_marks|]. split; vm_compute; reflexivity.
Qed.
