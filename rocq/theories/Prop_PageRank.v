(** * Property theorems about pageRank (C39, C40, C57), in exact arithmetic. *)
From Coq Require Import Reals Lra.
From Verif Require Import Base Spec AlgoSpec Thresholds K2 C0 DK DKProof DKHist Prop_DK Iter Prop_Iter Algo TriProof Prop_Algo PageRank PRProof.
Open Scope R_scope.

Lemma out_links_ok K (g : dk K) (nbs : N -> list N) vs : (forall x, In x vs -> dk_neigh K g x = Ok (nbs x)) ->
  out_links K g vs = Ok (map nbs vs).
Proof.
  induction vs as [|v vs IH]; intros H; cbn [out_links map]; auto.
  rewrite (H v) by (left; auto). cbn [obind]. rewrite IH; auto. intros x Hx. apply H. right; auto.
Qed.
Lemma all_vertices_In n v : In v (all_vertices n) <-> (v < n)%N.
Proof. exact (verts_In n v). Qed.

(** The number of vertices with an out-edge. *)
Lemma total_count (nbs : N -> list N) n m : (forall x, (x < n)%N -> True) ->
  count_of (fun x => (x < n)%N /\ nbs x <> []) m -> total_nodes (map nbs (all_vertices n)) = m.
Proof.
  intros _ Hc. eapply count_of_unique; [|exact Hc].
  exists (filter (fun x => negb (length (nbs x) =? 0)%nat) (all_vertices n)). split; [apply NoDup_filter, verts_nodup|]. split.
  - intros x. rewrite filter_In, all_vertices_In, negb_true_iff, Nat.eqb_neq.
    destruct (nbs x); cbn; intuition congruence.
  - unfold total_nodes. induction (all_vertices n) as [|v vs IH]; cbn [filter map]; auto.
    destruct (negb (length (nbs v) =? 0)%nat); cbn [length]; auto.
Qed.

(** Everything the theorems below need about the graph. *)
Lemma setup T K (L : k2laws K) n h g m :
  (2 <= n <= 2 ^ 31)%N -> reached T K n h g ->
  count_of (fun x => (x < n)%N /\ exists y, lists K g x y) m -> (0 < m)%nat ->
  exists outs, outs = map (nbs_of K g) (all_vertices n) /\ dk_nodes K g = n /\
    out_links K g (all_vertices n) = Ok outs /\ length outs = N.to_nat n /\
    Forall (Forall (fun y => (N.to_nat y < N.to_nat n)%nat)) outs /\ total_nodes outs = m /\
    length (pr_init (N.to_nat n) outs) = N.to_nat n /\ nonneg (pr_init (N.to_nat n) outs) /\
    rsum (pr_init (N.to_nat n) outs) = INR (N.to_nat n) / INR m.
Proof.
  intros Hn HR Hc Hm. destruct (nbs_of_spec T K L n h g Hn HR) as [_ [N2 N3]].
  exists (map (nbs_of K g) (all_vertices n)). split; [reflexivity|].
  split. { destruct (hist_rel T K L n ltac:(lia) _ g (proj1 HR) (proj2 HR)) as [sl R]. apply (dv_nv _ _ _ _ _ (rl_inv _ _ _ _ _ _ R)). }
  split. { apply out_links_ok. intros x Hx. apply N3. apply all_vertices_In; auto. }
  split. { rewrite map_length. unfold all_vertices. rewrite map_length, seq_length. auto. }
  split. { apply Forall_map, Forall_forall. intros x Hx. apply all_vertices_In in Hx. apply Forall_forall. intros y Hy.
           specialize (N2 x y Hx Hy). lia. }
  assert (Ht : total_nodes (map (nbs_of K g) (all_vertices n)) = m).
  { apply total_count; auto. destruct Hc as [l [C1 [C2 C3]]]. exists l. split; auto. split; auto. intros x. rewrite C2.
    split; intros [Hx G]; split; auto.
    - destruct G as [y [ll [El G]]]. unfold nbs_of. rewrite El. intros ->. destruct G.
    - exists (hd 0%N (nbs_of K g x)). exists (nbs_of K g x). split; [apply N3; auto|]. destruct (nbs_of K g x); [congruence|left; auto]. }
  split; [exact Ht|]. unfold pr_init. rewrite Ht, repeat_length. split; [reflexivity|].
  assert (Hp : 0 < INR m) by (apply lt_0_INR; auto).
  split; [|rewrite rsum_repeat; field; lra].
  apply Forall_forall. intros r Hr. apply repeat_spec in Hr. subst r. apply Rlt_le, Rdiv_lt_0_compat; lra.
Qed.

Lemma early_never nn alpha conv outs old b pr' : conv <= 0 -> (0 < nn)%nat -> length outs = nn ->
  Forall (Forall (fun y => (N.to_nat y < nn)%nat)) outs -> length old = nn ->
  pass nn alpha conv outs old = Ok (b, pr') -> b = false.
Proof.
  intros Hc Hnn Hlen Hr Ho E. destruct (pass_ok nn alpha conv outs Hlen Hnn Hr old Ho) as [b' [p [E' [_ [_ [_ H]]]]]].
  rewrite E in E'. injection E' as <- <-. destruct b; auto. destruct (H eq_refl) as [j [_ [_ G]]].
  pose proof (err_nonneg pr' old). pose proof (nR_pos nn Hnn). pose proof (Rmult_le_compat_l (INR nn) conv 0). lra.
Qed.

(** C39: with the convergence test switched off (convergence <= 0), pageRank returns after exactly t = max_iterations
    iterations a vector whose sum is 1 + alpha^t (S0 - 1), where S0 = n / m and m is the number of vertices with an
    out-edge. *)
Theorem C39_pagerank_mass : forall T K (L : k2laws K) n h g m conv alpha t,
  (2 <= n <= 2 ^ 31)%N -> reached T K n h g ->
  count_of (fun x => (x < n)%N /\ exists y, lists K g x y) m -> (0 < m)%nat -> conv <= 0 ->
  exists res, pageRank K g conv t alpha = Ok res /\ length res = N.to_nat n /\
    rsum res = 1 + alpha ^ t * (INR (N.to_nat n) / INR m - 1).
Proof.
  intros T K L n h g m conv alpha t Hn HR Hc Hm Hcv.
  destruct (setup T K L n h g m Hn HR Hc Hm) as [outs [_ [Env [Eo [Hlen [Hr [Ht [Li [Ni Si]]]]]]]]].
  unfold pageRank. rewrite Env, Eo. cbn [obind].
  assert (Hnn : (0 < N.to_nat n)%nat) by lia.
  destruct (loop_ok (N.to_nat n) alpha conv outs Hlen Hnn Hr t (pr_init (N.to_nat n) outs) 0 _ (ah_0 _ _ _ _ _) Li) as [res [E G]].
  exists res. split; [exact E|]. destruct G as [G|[t' [old [j [_ [H1 [H2 _]]]]]]].
  - destruct (at_head_facts _ _ _ _ Hlen Hnn Hr _ _ _ Li G) as [L1 [S1 _]]. split; [exact L1|]. rewrite S1, Si. reflexivity.
  - destruct (at_head_facts _ _ _ _ Hlen Hnn Hr _ _ _ Li H1) as [L1 _].
    pose proof (early_never _ _ _ _ _ _ _ Hcv Hnn Hlen Hr L1 H2). discriminate.
Qed.

(** The same for graphs built by insertions, in terms of the inserted edges. *)
Theorem C39_pagerank_mass_inserts : forall T K (L : k2laws K) n es m conv alpha t,
  th_top T -> (2 <= n <= 2 ^ 31)%N -> Forall (in_range n) es ->
  count_of (fun x => exists y, In (x, y) es) m -> (0 < m)%nat -> conv <= 0 ->
  exists g res, dk_hist T K n (map Add es) = Done g /\ pageRank K g conv t alpha = Ok res /\ length res = N.to_nat n /\
    rsum res = 1 + alpha ^ t * (INR (N.to_nat n) / INR m - 1).
Proof.
  intros T K L n es m conv alpha t HT Hn HF Hc Hm Hcv.
  destruct (inserts_nbs T K L n es HT Hn HF) as [g [E [HR [N1 [N2 [N3 [N4 HE]]]]]]].
  destruct (C39_pagerank_mass T K L n _ g m conv alpha t Hn HR) as [res H]; auto; [|exists g, res; auto].
  destruct Hc as [l [C1 [C2 C3]]]. exists l. split; auto. split; auto. intros x. rewrite C2. split.
  - intros [y Hy]. apply HE in Hy. destruct Hy as [Hx Hy]. split; auto. exists y, (nbs_of K g x). auto.
  - intros [Hx [y [ll [El Hy]]]]. exists y. apply HE. split; auto. unfold nbs_of. rewrite El. auto.
Qed.

(** C39, C40: with the convergence test, pageRank is always defined; it returns the result of max_iterations complete
    iterations, or a vector computed in iteration t+1 whose mass is at most that of t+1 complete iterations, and equal
    to it if the exit was at the last vertex. *)
Theorem C39_pagerank_returns : forall T K (L : k2laws K) n h g m conv alpha maxit,
  (2 <= n <= 2 ^ 31)%N -> reached T K n h g ->
  count_of (fun x => (x < n)%N /\ exists y, lists K g x y) m -> (0 < m)%nat -> 0 <= alpha <= 1 ->
  let mass t := 1 + alpha ^ t * (INR (N.to_nat n) / INR m - 1) in
  exists res, pageRank K g conv maxit alpha = Ok res /\ length res = N.to_nat n /\ Forall (fun r => 0 <= r) res /\
    (rsum res = mass maxit \/ exists t, (t < maxit)%nat /\ 0 <= rsum res <= mass (S t)).
Proof.
  intros T K L n h g m conv alpha maxit Hn HR Hc Hm Ha mass.
  destruct (setup T K L n h g m Hn HR Hc Hm) as [outs [_ [Env [Eo [Hlen [Hr [Ht [Li [Ni Si]]]]]]]]].
  unfold pageRank. rewrite Env, Eo. cbn [obind].
  assert (Hnn : (0 < N.to_nat n)%nat) by lia.
  destruct (loop_ok (N.to_nat n) alpha conv outs Hlen Hnn Hr maxit (pr_init (N.to_nat n) outs) 0 _ (ah_0 _ _ _ _ _) Li) as [res [E G]].
  exists res. split; [exact E|]. destruct G as [G|[t' [old [j [Hj [H1 [H2 [Hj2 [H3 [H4 _]]]]]]]]]].
  - destruct (at_head_facts _ _ _ _ Hlen Hnn Hr _ _ _ Li G) as [L1 [S1 Nn]]. split; [exact L1|]. split; [apply Nn; auto|].
    left. rewrite S1, Si. reflexivity.
  - destruct (at_head_facts _ _ _ _ Hlen Hnn Hr _ _ _ Li H1) as [L1 [S1 Nn]].
    destruct (pass_ok _ alpha conv outs Hlen Hnn Hr old L1) as [b [p2 [E2 [_ [N2 _]]]]]. rewrite H2 in E2. injection E2 as <- <-.
    assert (Hres : nonneg res) by (apply N2; auto). split; [auto|]. split; [exact Hres|]. right. exists t'. split; [lia|].
    split; [apply rsum_nonneg; auto|]. rewrite H4.
    eapply Rle_trans; [apply (part_le _ alpha outs Hlen Hnn old j); auto; lia|].
    rewrite (part_full _ alpha outs Hlen Hnn old L1), S1, Si. unfold mass. cbn [pow]. lra.
Qed.

(** C40, part: if every vertex has an out-edge and the convergence test is off, the ranks are a probability
    distribution after any number of iterations. *)
Theorem C40_distribution_partial : forall T K (L : k2laws K) n h g conv alpha t,
  (2 <= n <= 2 ^ 31)%N -> reached T K n h g ->
  (forall x, (x < n)%N -> exists y, lists K g x y) -> conv <= 0 -> 0 <= alpha <= 1 ->
  exists res, pageRank K g conv t alpha = Ok res /\ length res = N.to_nat n /\
    Forall (fun r => 0 <= r) res /\ rsum res = 1.
Proof.
  intros T K L n h g conv alpha t Hn HR Hall Hcv Ha.
  assert (Hc : count_of (fun x => (x < n)%N /\ exists y, lists K g x y) (N.to_nat n)).
  { exists (all_vertices n). split; [apply verts_nodup|]. split.
    - intros x. rewrite all_vertices_In. split; [intros Hx; split; auto|tauto].
    - unfold all_vertices. rewrite map_length, seq_length. auto. }
  destruct (C39_pagerank_mass T K L n h g _ conv alpha t Hn HR Hc ltac:(lia) Hcv) as [res [E [L1 S1]]].
  destruct (C39_pagerank_returns T K L n h g _ conv alpha t Hn HR Hc ltac:(lia) Ha) as [res' [E' [_ [Nn _]]]].
  assert (res' = res) by congruence. subst res'. exists res. split; [exact E|]. split; [exact L1|]. split; [exact Nn|].
  rewrite S1. unfold Rdiv. rewrite Rinv_r; [lra|]. apply not_0_INR. lia.
Qed.

(** C40 refuted by a vertex without out-edges: two vertices, one edge, any alpha in (0,1), any number of iterations,
    any convergence up to (1-alpha)/4 (the defaults are 1e-6 and 0.85): the sum exceeds 1. *)
Theorem C40_refuted_dangling : forall T K (L : k2laws K), th_top T ->
  exists g, dk_hist T K 2 (map Add [(0, 1)%N]) = Done g /\
    forall conv alpha maxit, 0 < alpha < 1 -> conv <= (1 - alpha) / 4 ->
      exists res, pageRank K g conv maxit alpha = Ok res /\ 1 < rsum res.
Proof.
  intros T K L HT. assert (HF : Forall (in_range 2) [(0, 1)%N]) by (repeat constructor; cbn; lia).
  destruct (inserts_nbs T K L 2 _ HT ltac:(lia) HF) as [g [E [HR [N1 [N2 [N3 [N4 HE]]]]]]].
  exists g. split; [exact E|]. intros conv alpha maxit Ha Hcv.
  assert (H0 : nbs_of K g 0 = [1%N]).
  { apply one_list; [apply N3; lia|]. intros y. specialize (HE 0%N y). unfold of_list in HE. cbn [In] in HE. split.
    - intros G. assert (G2 : (0, 1)%N = (0%N, y) \/ False) by (apply HE; split; [reflexivity|exact G]). destruct G2 as [G2|[]]. congruence.
    - intros ->. apply (proj2 HE). auto. }
  assert (H1 : nbs_of K g 1 = []).
  { destruct (nbs_of K g 1) as [|y l] eqn:En; auto. exfalso. specialize (HE 1%N y). rewrite En in HE. unfold of_list in HE. cbn [In] in HE.
    assert (G2 : (0, 1)%N = (1%N, y) \/ False) by (apply HE; split; [reflexivity|left; reflexivity]). destruct G2 as [G2|[]]. congruence. }
  assert (Hc : count_of (fun x => (x < 2)%N /\ exists y, lists K g x y) 1).
  { exists [0%N]. split; [repeat constructor; auto|]. split; [|reflexivity]. intros x. split.
    - intros [<-|[]]. split; [lia|]. exists 1%N, [1%N]. rewrite N2, H0 by lia. split; [auto|left; auto].
    - intros [Hx [y [l [El Hy]]]]. assert (x = 0 \/ x = 1)%N as [->| ->] by lia; [left; auto|].
      rewrite N2, H1 in El by lia. injection El as <-. destruct Hy. }
  destruct (setup T K L 2 _ g 1 ltac:(lia) HR Hc ltac:(lia)) as [outs [Eouts [Env [Eo [Hlen [Hr [Ht [Li [Ni Si]]]]]]]]].
  assert (Eouts' : outs = [[1%N]; []]).
  { rewrite Eouts. change (all_vertices 2) with [0; 1]%N. cbn [map]. rewrite H0, H1. auto. }
  unfold pageRank. rewrite Env, Eo. cbn [obind].
  assert (Hnn : (0 < N.to_nat 2)%nat) by lia.
  change (INR (N.to_nat 2) / INR 1) with ((1 + 1) / 1) in Si.
  assert (Hpow : forall k, 0 < alpha ^ k) by (intros k; apply pow_lt; lra).
  destruct (loop_ok (N.to_nat 2) alpha conv outs Hlen Hnn Hr maxit (pr_init (N.to_nat 2) outs) 0 _ (ah_0 _ _ _ _ _) Li) as [res [Er G]].
  exists res. split; [exact Er|]. destruct G as [G|[t [old [j [Hj [G1 [G2 [Hj2 [G3 [G4 G5]]]]]]]]]].
  - destruct (at_head_facts _ _ _ _ Hlen Hnn Hr _ _ _ Li G) as [_ [S1 _]]. rewrite S1, Si. specialize (Hpow (0 + maxit)%nat). lra.
  - destruct (at_head_facts _ _ _ _ Hlen Hnn Hr _ _ _ Li G1) as [L1 [S1 Nn]]. rewrite Si in S1.
    assert (Hj12 : j = 2%nat \/ j = 1%nat) by lia. destruct Hj12 as [->| ->].
    + change 2%nat with (N.to_nat 2) in G4. rewrite (part_full _ alpha outs Hlen Hnn old L1), S1 in G4. rewrite G4.
      pose proof (Hpow (S t)) as Hp. cbn [pow] in Hp. lra.
    + exfalso. pose proof (err_sum res old ltac:(congruence)) as He. rewrite G4 in He. unfold part in He. rewrite Eouts' in He.
      destruct old as [|x [|y [|z old]]]; try discriminate. cbn [firstn live dangling] in He.
      specialize (Nn ltac:(lra) Ni). inversion Nn as [|? ? Hx Nn2]; subst. inversion Nn2 as [|? ? Hy _]; subst.
      rewrite !rsum_cons, rsum_nil in He. rewrite !rsum_cons, rsum_nil in S1.
      change (INR 1) with 1 in He. change (INR (N.to_nat 2)) with (1 + 1) in He, G5.
      pose proof (Hpow t) as Hp. rewrite Rabs_minus_sym in He. pose proof (Rle_abs (x + (y + 0) - (alpha * (x + 0) + 1 * ((alpha * (y + 0) + (1 - alpha)) / (1 + 1))))) as Hab.
      assert (Hxy : x + y > 1) by lra.
      assert (H2 : (1 - alpha) * (x + y) >= (1 - alpha)) by (assert ((1 - alpha) * (x + y - 1) >= 0) by nra; lra).
      assert (Hay : alpha * y >= 0) by nra. lra.
Qed.

Lemma first_stop nn alpha conv outs : length outs = nn -> (0 < nn)%nat ->
  Forall (Forall (fun y => (N.to_nat y < nn)%nat)) outs -> (forall l, In l outs -> l <> []) -> total_nodes outs = nn ->
  0 <= alpha <= 1 -> 1 + 1 / INR nn < INR nn * conv ->
  exists p, pass nn alpha conv outs (pr_init nn outs) = Ok (true, p) /\ rsum p = 1 / INR nn.
Proof.
  intros Hlen Hnn Hr Hno Ht Ha Hcv. pose proof (nR_pos nn Hnn) as HnR.
  assert (Hold : pr_init nn outs = repeat (1 / INR nn) nn) by (unfold pr_init; rewrite Ht; auto). rewrite Hold. clear Hold Ht.
  assert (Hik : 0 <= 1 / INR nn) by (apply Rlt_le, Rdiv_lt_0_compat; lra).
  assert (Hd : forall os old, (forall l, In l os -> l <> []) -> dangling os old = 0).
  { clear. induction os as [|l os IH]; intros [|r old] H; auto.
    - destruct l; auto.
    - destruct l as [|a l]; [exfalso; apply (H []); cbn; auto|]. cbn. apply IH. intros l' Hl. apply H. right; auto. }
  unfold pass. rewrite (Hd outs _ Hno). destruct outs as [|ys os]; [cbn in Hlen; lia|]. cbn [sweep].
  assert (Hget : get (repeat (1 / INR nn) nn) 0 = Ok (1 / INR nn)).
  { destruct nn as [|k]; [lia|]. reflexivity. }
  rewrite Hget. cbn [obind].
  assert (Hys : ys <> []) by (apply Hno; left; auto).
  assert (HFy : Forall (fun y => (N.to_nat y < length (repeat 0%R nn))%nat) ys).
  { rewrite repeat_length. inversion Hr; auto. }
  destruct (spread_ok ys (alpha * (1 / INR nn) * (1 / INR (length ys))) (repeat 0 nn) HFy) as [p1 [E1 [L1 [S1 Q1]]]].
  rewrite E1. cbn [obind]. rewrite repeat_length in L1.
  destruct (bump_ok p1 0 (0 * alpha * (1 / INR nn) + (1 - alpha) * (1 / INR nn))) as [p2 [E2 [L2 [S2 Q2]]]]; [lia|].
  rewrite E2. cbn [obind].
  assert (Hly : 0 < INR (length ys)) by (apply lt_0_INR; destruct ys; [congruence|cbn; lia]).
  assert (Hiy : 0 <= 1 / INR (length ys)) by (apply Rlt_le, Rdiv_lt_0_compat; lra).
  assert (Hs2 : rsum p2 = 1 / INR nn).
  { rewrite S2, S1, rsum_repeat. field. split; lra. }
  assert (Hn0 : forall r, 0 <= r -> nonneg (repeat r nn)).
  { intros r Hr0. apply Forall_forall; intros r' Hr'; apply repeat_spec in Hr'; subst; lra. }
  assert (Hn1 : nonneg p1).
  { apply Q1; [apply Hn0; lra|]. apply Rmult_le_pos; auto. apply Rmult_le_pos; lra. }
  assert (Hn2 : nonneg p2).
  { apply Q2; auto. rewrite !Rmult_0_l, Rplus_0_l. apply Rmult_le_pos; lra. }
  assert (Hle : length p2 = length (repeat (1 / INR nn) nn)) by (rewrite repeat_length; congruence).
  pose proof (err_le p2 _ Hle Hn2 (Hn0 _ Hik)) as He. rewrite Hs2, rsum_repeat in He.
  assert (Hx : INR nn * (1 / INR nn) = 1) by (field; lra). rewrite Hx in He.
  destruct (Rlt_dec (err p2 (repeat (1 / INR nn) nn)) (INR nn * conv)) as [_|Hbad]; [exists p2; auto|]. exfalso. lra.
Qed.

(** C40 refuted by the convergence test inside the loop over the vertices: in any large graph without dangling
    vertices (n * convergence > 1 + 1/n; more than a million vertices for the default 1e-6) the function returns after
    the first vertex of the first iteration, and the ranks sum to 1/n. *)
Theorem C40_refuted_large : forall T K (L : k2laws K) n h g conv alpha maxit,
  (2 <= n <= 2 ^ 31)%N -> reached T K n h g -> (forall x, (x < n)%N -> exists y, lists K g x y) ->
  0 <= alpha <= 1 -> (0 < maxit)%nat -> 1 + 1 / INR (N.to_nat n) < INR (N.to_nat n) * conv ->
  exists res, pageRank K g conv maxit alpha = Ok res /\ rsum res = 1 / INR (N.to_nat n).
Proof.
  intros T K L n h g conv alpha maxit Hn HR Hall Ha Hmax Hcv.
  assert (Hc : count_of (fun x => (x < n)%N /\ exists y, lists K g x y) (N.to_nat n)).
  { exists (all_vertices n). split; [apply verts_nodup|]. split.
    - intros x. rewrite all_vertices_In. split; [intros Hx; split; auto|tauto].
    - unfold all_vertices. rewrite map_length, seq_length. auto. }
  destruct (setup T K L n _ g _ Hn HR Hc ltac:(lia)) as [outs [Eouts [Env [Eo [Hlen [Hr [Ht [Li [Ni Si]]]]]]]]].
  assert (Hno : forall l, In l outs -> l <> []).
  { rewrite Eouts. intros l Hl. apply in_map_iff in Hl. destruct Hl as [x [<- Hx]]. apply all_vertices_In in Hx.
    destruct (Hall x Hx) as [y [l [El Hy]]]. unfold nbs_of. rewrite El. intros ->. destruct Hy. }
  destruct (first_stop (N.to_nat n) alpha conv outs Hlen ltac:(lia) Hr Hno Ht Ha Hcv) as [p [E S]].
  unfold pageRank. rewrite Env, Eo. cbn [obind]. destruct maxit as [|maxit]; [lia|]. cbn [pr_loop]. rewrite E. cbn [obind].
  exists p. auto.
Qed.

(** ** The hypotheses are met *)
(** Graphs without dangling vertices exist for every n. *)
Example C40_example : forall T K (L : k2laws K) n, th_top T -> (2 <= n <= 2 ^ 31)%N ->
  exists h g, reached T K n h g /\ (forall x, (x < n)%N -> exists y, lists K g x y).
Proof.
  intros T K L n HT Hn. set (es := map (fun x => (x, 0%N)) (all_vertices n)).
  assert (HF : Forall (in_range n) es).
  { apply Forall_map, Forall_forall. intros x Hx. apply all_vertices_In in Hx. split; cbn; lia. }
  destruct (inserts_nbs T K L n es HT Hn HF) as [g [E [HR [N1 [N2 [N3 [N4 HE]]]]]]].
  exists (map Add es), g. split; [exact HR|]. intros x Hx. exists 0%N, (nbs_of K g x). split; [auto|].
  apply (proj2 (HE x 0%N)). unfold of_list, es. apply in_map_iff. exists x. split; auto. apply all_vertices_In; auto.
Qed.
(** With the default convergence 1e-6 the bound of C40_refuted_large holds from 2000000 vertices on. *)
Example C40_large_example : 1 + 1 / INR (N.to_nat 2000000) < INR (N.to_nat 2000000) * (1 / 1000000).
Proof. rewrite INR_IZR_INZ, N_nat_Z. cbn [Z.of_N]. lra. Qed.
