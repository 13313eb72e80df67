(** * Prop_Heavy: exactly what count_triangles (the "heavy hitter" version) and the clustering coefficient return (C38, C79).

    Algorithm.hpp:151-194 counts neither the triangles nor a set of them: the theorems below say which configurations it
    does count, for every graph built by insertions, with the numbers a reader can work out from the list of insertions. *)
From Coq Require Import Reals Lra.
From Verif Require Import Base Spec AlgoSpec Thresholds K2 C0 C0Proof DK DKProof DKHist Iter Algo AlgoProof TriProof Prop_DK Prop_Algo Prop_Cluster.

Open Scope nat_scope.

(** ** Specification, on the list of insertions *)
Definition edges_of (es : list edge) : nat := length (nodup edge_dec es).
Definition deg_of (es : list edge) (v : N) : nat := length (nodup edge_dec (filter (fun e => N.eqb (fst e) v) es)).
(** v precedes w when its out-degree is smaller, ties broken by the vertex number. *)
Definition precedes (es : list edge) (v w : N) : Prop := deg_of es v < deg_of es w \/ (deg_of es v = deg_of es w /\ (v < w)%N).
(** An edge v -> w whose target has out-degree at least the square root of the number of edges while its source has not,
    and a two-step path v -> u -> w, with v first of the three in degree order. *)
Definition heavy_shape (es : list edge) (t : N * N * N) : Prop :=
  let '(v, w, u) := t in
  In (v, w) es /\ In (v, u) es /\ In (u, w) es /\
  deg_of es v * deg_of es v < edges_of es /\ edges_of es <= deg_of es w * deg_of es w /\
  precedes es v w /\ precedes es v u.

(** ** Proofs *)
Lemma deg_count es v m : outdeg (of_list es) v m <-> m = deg_of es v.
Proof.
  assert (G : outdeg (of_list es) v (deg_of es v)).
  { exists (map snd (nodup edge_dec (filter (fun e => N.eqb (fst e) v) es))). split; [|split].
    - pose proof (NoDup_nodup edge_dec (filter (fun e => N.eqb (fst e) v) es)) as ND.
      assert (F : forall e, In e (nodup edge_dec (filter (fun e => N.eqb (fst e) v) es)) -> fst e = v).
      { intros e He. apply nodup_In, filter_In in He. apply N.eqb_eq, He. }
      induction ND as [|[a b] l H1 H2 IH]; cbn [map snd]; constructor.
      + intros H. apply in_map_iff in H. destruct H as [[a' b'] [H3 H4]]. cbn [snd] in H3. subst b'.
        apply H1. pose proof (F (a, b) (or_introl eq_refl)) as F1. pose proof (F (a', b) (or_intror H4)) as F2. cbn in F1, F2. subst a a'. exact H4.
      + apply IH. intros e He. apply F. right. exact He.
    - intros y. rewrite in_map_iff. unfold of_list. split.
      + intros [[a b] [H1 H2]]. cbn [snd] in H1. subst b. apply nodup_In, filter_In in H2. destruct H2 as [H2 H3].
        apply N.eqb_eq in H3. cbn in H3. subst a. exact H2.
      + intros H. exists (v, y). split; [reflexivity|]. apply nodup_In, filter_In. split; [exact H|apply N.eqb_refl].
    - apply map_length. }
  split; [intros H; eapply count_of_unique; eauto|intros ->; exact G].
Qed.

Lemma less_precedes es a b : less_deg (of_list es) a b <-> precedes es a b.
Proof.
  unfold less_deg, precedes. split.
  - intros [da [db [H1 [H2 H3]]]]. apply deg_count in H1. apply deg_count in H2. subst. exact H3.
  - intros H. exists (deg_of es a), (deg_of es b). rewrite !deg_count. auto.
Qed.

Lemma count_of_iff {A} (P Q : A -> Prop) m : (forall x, P x <-> Q x) -> count_of P m -> count_of Q m.
Proof. intros H [l [H1 [H2 H3]]]. exists l. split; [auto|]. split; [|auto]. intros x. rewrite H2. apply H. Qed.

(** ** C38 *)
Theorem C38_heavy_counts : forall T K (L : k2laws K) n es nb,
  th_top T -> (2 <= n < 2 ^ 31)%N -> Forall (in_range n) es -> ~ In (9999999, 9999999)%N es -> 0 < nb ->
  exists g m, dk_hist T K n (map Add es) = Done g /\ count_of (heavy_shape es) m /\
    forall r, triangles_heavy K g nb r <-> r = (N.of_nat m mod 2 ^ 32)%N.
Proof.
  intros T K L n es nb HT Hn HF Hmax Hnb. destruct (inserts_view T K L n es HT ltac:(lia) HF Hmax) as [g [E V]].
  destruct (heavy_count K g n _ V ltac:(lia) nb Hnb) as [m [Hc [H2 H3]]].
  destruct (C02_count_after_inserts T K L n es HT ltac:(lia) HF) as [g' [E' Hcnt]]. assert (g' = g) by congruence. subst g'.
  exists g, m. split; [exact E|]. split.
  - eapply count_of_iff; [|exact Hc]. intros [[v w] u]. cbn [heavy_triple heavy_shape].
    assert (Hbig : forall x, big K g (of_list es) x <-> edges_of es <= deg_of es x * deg_of es x).
    { intros x. unfold big. rewrite Hcnt. unfold edges_of. split.
      - intros [k [Hk Hb]]. apply deg_count in Hk. subst k. lia.
      - intros Hb. exists (deg_of es x). rewrite deg_count. split; [reflexivity|lia]. }
    rewrite !Hbig, !less_precedes. unfold of_list. split; intros [? [? [? [? [? [? ?]]]]]]; repeat (split; [assumption || lia|]); assumption.
  - intros r. split; [apply H3|intros ->; exact H2].
Qed.

(** A graph on which it counts something: 0 -> 2, 0 -> 3, 3 -> 2 and 2 of out-degree 3. *)
Definition w38h : list edge := [(0, 2); (0, 3); (3, 2); (2, 0); (2, 1); (2, 3); (3, 0)]%N.
Example C38_heavy_example : Forall (in_range 4) w38h /\ ~ In (9999999, 9999999)%N w38h /\ heavy_shape w38h (0, 2, 3)%N.
Proof.
  split; [repeat constructor; cbn; lia|]. split; [cbn; intuition discriminate|].
  unfold heavy_shape, precedes. change (deg_of w38h 0) with 2. change (deg_of w38h 2) with 3. change (deg_of w38h 3) with 2.
  change (edges_of w38h) with 7. repeat (split; [cbn; auto 8; lia|]). lia.
Qed.

(** What it misses: an edge whose two ends are both of large, or both of small, out-degree contributes nothing. *)
Theorem C38_none_heavy : forall T K (L : k2laws K) n es nb,
  th_top T -> (2 <= n < 2 ^ 31)%N -> Forall (in_range n) es -> ~ In (9999999, 9999999)%N es -> 0 < nb ->
  (forall v w, In (v, w) es -> (deg_of es v * deg_of es v < edges_of es <-> deg_of es w * deg_of es w < edges_of es)) ->
  exists g, dk_hist T K n (map Add es) = Done g /\ forall r, triangles_heavy K g nb r <-> r = 0%N.
Proof.
  intros T K L n es nb HT Hn HF Hmax Hnb Hs. destruct (C38_heavy_counts T K L n es nb HT Hn HF Hmax Hnb) as [g [m [E [Hc H]]]].
  exists g. split; [exact E|]. assert (m = 0); [|subst m; exact H]. eapply count_of_unique; [exact Hc|].
  exists []. split; [constructor|]. split; [|reflexivity]. intros [[v w] u]. cbn [In heavy_shape]. split; [intros []|].
  intros [H1 [_ [_ [H2 [H3 _]]]]]. apply (Hs v w H1) in H2. lia.
Qed.

(** ** C79 *)
Theorem C79_value : forall T K (L : k2laws K) n es nb,
  th_top T -> (2 <= n < 2 ^ 31)%N -> Forall (in_range n) es -> ~ In (9999999, 9999999)%N es -> 0 < nb ->
  2 <= edges_of es ->
  exists g m, dk_hist T K n (map Add es) = Done g /\ count_of (heavy_shape es) m /\
    forall c, clustering K g nb c <->
      c = (INR (N.to_nat (N.of_nat m mod 2 ^ 32)) / (INR (edges_of es) * (INR (edges_of es) - 1)))%R.
Proof.
  intros T K L n es nb HT Hn HF Hmax Hnb H2. destruct (C38_heavy_counts T K L n es nb HT Hn HF Hmax Hnb) as [g [m [E [Hc H]]]].
  destruct (C02_count_after_inserts T K L n es HT ltac:(lia) HF) as [g' [E' Hcnt]]. assert (g' = g) by congruence. subst g'.
  exists g, m. split; [exact E|]. split; [exact Hc|]. intros c. unfold clustering. cbn zeta. rewrite Hcnt, Nat2N.id. fold (edges_of es).
  assert (Hd : (INR (edges_of es) * (INR (edges_of es) - 1) <> 0)%R).
  { replace (INR (edges_of es) - 1)%R with (INR (edges_of es - 1)) by (rewrite minus_INR by lia; reflexivity).
    rewrite <- mult_INR. apply not_0_INR. nia. }
  split.
  - intros [r [G1 [_ G2]]]. apply H in G1. subst r. exact G2.
  - intros ->. eexists. split; [apply H; reflexivity|]. split; [exact Hd|reflexivity].
Qed.
Example C38_none_example : Forall (in_range 3) w38 /\ 2 <= edges_of w38 /\
  forall v w, In (v, w) w38 -> (deg_of w38 v * deg_of w38 v < edges_of w38 <-> deg_of w38 w * deg_of w38 w < edges_of w38).
Proof.
  split; [repeat constructor; cbn; lia|]. split; [cbn; lia|]. intros v w H.
  assert (D : forall x, x = 0%N \/ x = 1%N \/ x = 2%N -> deg_of w38 x = 2) by (intros x [-> | [-> | ->]]; reflexivity).
  cbn [w38 In] in H. rewrite (D v), (D w); [tauto| |]; repeat (destruct H as [H|H]; [injection H as <- <-; auto|]); contradiction.
Qed.
