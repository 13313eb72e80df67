(** * Property theorems about pageRank, rank by rank (C86, C87), in exact arithmetic.

    The iteration ([vsum], [even], [next], [upto], [rank], [gap]) is specified at the head of PRExact.v, for any shares w and any
    vertices without out-edges.  Here the graph is given by what the API shows: the neighbour lists, or the insertions. *)
From Coq Require Import Reals Lra.
From Verif Require Import Base Spec AlgoSpec Thresholds K2 C0 DK DKProof DKHist Prop_DK Iter Prop_Iter Algo TriProof Prop_Algo PageRank PRProof
  Prop_PageRank Prop_Heavy PRExact.
Open Scope R_scope.

(** The call returned the vector of the ranks r. *)
Definition answers (n : N) (res : list R) (r : N -> R) : Prop :=
  length res = N.to_nat n /\ forall v, (v < n)%N -> nth_error res (N.to_nat v) = Some (r v).

(** Shares and vertices without out-edges, from the neighbour lists: each entry of the list gets the same. *)
Definition w_lists (out : N -> list N) (u v : N) : R := INR (count_occ N.eq_dec (out u) v) / INR (length (out u)).
Definition d_lists (out : N -> list N) (u : N) : bool := match out u with [] => true | _ => false end.
(** From the list of insertions: each of the different successors gets the same. *)
Definition w_of (es : list edge) (u v : N) : R := if emem (u, v) es then 1 / INR (deg_of es u) else 0.
Definition d_of (es : list edge) (u : N) : bool := (deg_of es u =? 0)%nat.

(** The iteration t+1 stops after the vertex number i (counted from 1): the code compares after each vertex. *)
Definition stops_at (n : N) w d alpha conv (t i : nat) : Prop :=
  gap (N.to_nat n) (upto (N.to_nat n) w d alpha i (rank (N.to_nat n) w d alpha t)) (rank (N.to_nat n) w d alpha t) < INR (N.to_nat n) * conv.
(** What pageRank(conv, maxit, alpha) must return. *)
Definition pagerank_spec (n : N) w d (alpha conv : R) (maxit : nat) (res : list R) : Prop :=
  let nn := N.to_nat n in
  (exists t i, (t < maxit)%nat /\ (0 < i <= nn)%nat /\ stops_at n w d alpha conv t i /\
     (forall s j, (0 < j <= nn)%nat -> (s < t \/ s = t /\ j < i)%nat -> ~ stops_at n w d alpha conv s j) /\
     answers n res (upto nn w d alpha i (rank nn w d alpha t))) \/
  ((forall s j, (s < maxit)%nat -> (0 < j <= nn)%nat -> ~ stops_at n w d alpha conv s j) /\ answers n res (rank nn w d alpha maxit)).

(** ** Proofs *)
Lemma answers_vec n r : answers n (vec (N.to_nat n) r) r.
Proof. split; [apply vec_len|]. intros v Hv. rewrite vec_nth by lia. rewrite N2Nat.id. reflexivity. Qed.
Lemma answers_ext n res r s : (forall v, (v < n)%N -> r v = s v) -> answers n res r -> answers n res s.
Proof. intros H [H1 H2]. split; auto. intros v Hv. rewrite <- H; auto. Qed.

Lemma out_links_vec K (g : dk K) n out : (forall x, (x < n)%N -> dk_neigh K g x = Ok (out x)) ->
  out_links K g (all_vertices n) = Ok (map (fun i => out (N.of_nat i)) (seq 0 (N.to_nat n))).
Proof.
  intros H. rewrite (out_links_ok K g out); [unfold all_vertices; rewrite map_map; reflexivity|].
  intros x Hx. apply H. apply all_vertices_In; auto.
Qed.

Lemma core K (g : dk K) n out alpha conv maxit : (0 < n)%N -> dk_nodes K g = n ->
  (forall x, (x < n)%N -> dk_neigh K g x = Ok (out x)) -> (forall x y, (x < n)%N -> In y (out x) -> (y < n)%N) ->
  exists res, pageRank K g conv maxit alpha = Ok res /\ pagerank_spec n (w_lists out) (d_lists out) alpha conv maxit res.
Proof.
  intros Hn Hg Ho Hr. set (nn := N.to_nat n). unfold pageRank. rewrite Hg, (out_links_vec K g n out Ho). cbn [obind].
  fold nn. rewrite (init_vec nn alpha out).
  assert (Hrng : forall u, (N.to_nat u < nn)%nat -> Forall (fun y => (N.to_nat y < nn)%nat) (out u)).
  { intros u Hu. apply Forall_forall. intros y Hy. unfold nn in *. specialize (Hr u y ltac:(lia) Hy). lia. }
  destruct (loop_vec nn alpha conv out ltac:(unfold nn; lia) Hrng maxit 0) as [[t [i [H1 [H2 [H3 [H4 H5]]]]]]|[H1 H2]].
  - eexists. split; [exact H5|]. left. exists t, i. split; [lia|]. split; auto. split; [exact H3|]. split.
    + intros s j Hj Hs. apply H4; auto. lia.
    + apply answers_vec.
  - eexists. split; [exact H2|]. right. split; [|apply answers_vec]. intros s j Hs Hj. apply H1; auto. lia.
Qed.

Lemma reached_nodes T K (L : k2laws K) n h g : (2 <= n)%N -> reached T K n h g -> dk_nodes K g = n.
Proof.
  intros Hn [HF E]. destruct (hist_rel T K L n Hn h g HF E) as [sl R]. unfold dk_nodes. apply (dv_nv _ _ _ _ _ (rl_inv _ _ _ _ _ _ R)).
Qed.

(** ** C86 *)
(** After any history: the result is the one of the PageRank iteration on the graph that list_neighbour shows, with the exits
    where the code has them.  At least one vertex must have an out-edge (otherwise the code divides by zero). *)
Theorem C86_pagerank_exact : forall T K (L : k2laws K) n h g out alpha conv maxit,
  (2 <= n <= 2 ^ 31)%N -> reached T K n h g -> (forall x, (x < n)%N -> dk_neigh K g x = Ok (out x)) ->
  (exists x, (x < n)%N /\ out x <> []) ->
  exists res, pageRank K g conv maxit alpha = Ok res /\ pagerank_spec n (w_lists out) (d_lists out) alpha conv maxit res.
Proof.
  intros T K L n h g out alpha conv maxit Hn Hr Ho _. apply core; auto; [lia|eapply reached_nodes; eauto; lia|].
  destruct (nbs_of_spec T K L n h g Hn Hr) as [_ [Hb Hd]]. intros x y Hx Hy. apply (Hb x y Hx).
  specialize (Ho x Hx). rewrite (Hd x Hx) in Ho. injection Ho as ->. auto.
Qed.

Lemma deg_list (es : list edge) x l : NoDup l -> (forall y, In y l <-> In (x, y) es) -> length l = deg_of es x.
Proof.
  intros Hn Hl. unfold deg_of. rewrite <- (map_length (pair x) l). apply Nat.le_antisymm; apply NoDup_incl_length.
  - apply FinFun.Injective_map_NoDup; auto. intros a b Hab. congruence.
  - intros e He. apply in_map_iff in He. destruct He as [y [<- Hy]]. apply nodup_In, filter_In. split; [apply Hl; auto|cbn; apply N.eqb_refl].
  - apply NoDup_nodup.
  - intros [u y] He. apply nodup_In, filter_In in He. destruct He as [He Hu]. cbn in Hu. apply N.eqb_eq in Hu. subst u.
    apply in_map, Hl; auto.
Qed.

Lemma weights (es : list edge) n out : (forall x, (x < n)%N -> NoDup (out x)) ->
  (forall x y, ((x < n)%N /\ In y (out x)) <-> of_list es x y) ->
  (forall u v, (u < n)%N -> w_lists out u v = w_of es u v) /\ (forall u, (u < n)%N -> d_lists out u = d_of es u).
Proof.
  intros Hnd Hin. assert (Hl : forall u, (u < n)%N -> length (out u) = deg_of es u).
  { intros u Hu. apply deg_list; auto. intros y. specialize (Hin u y). unfold of_list in Hin. tauto. }
  split.
  - intros u v Hu. unfold w_lists, w_of. rewrite Hl by auto. destruct (emem (u, v) es) eqn:E.
    + apply emem_In in E. apply Hin in E. destruct E as [_ E].
      rewrite (proj1 (NoDup_count_occ' N.eq_dec (out u)) (Hnd u Hu) v E). reflexivity.
    + apply emem_false in E. rewrite (proj1 (count_occ_not_In N.eq_dec (out u) v)); [cbn; unfold Rdiv; lra|].
      intros G. apply E. apply Hin. auto.
  - intros u Hu. unfold d_lists, d_of. rewrite <- Hl by auto. destruct (out u); reflexivity.
Qed.

Lemma spec_ext n w w' d d' alpha conv maxit res : (forall u v, (u < n)%N -> w u v = w' u v) -> (forall u, (u < n)%N -> d u = d' u) ->
  pagerank_spec n w d alpha conv maxit res -> pagerank_spec n w' d' alpha conv maxit res.
Proof.
  intros Hw Hd H. assert (Hr : forall t v, (N.to_nat v < N.to_nat n)%nat -> rank (N.to_nat n) w d alpha t v = rank (N.to_nat n) w' d' alpha t v).
  { intros t. apply rank_ext; intros; [apply Hw|apply Hd]; lia. }
  assert (Hu : forall t i v, (i <= N.to_nat n)%nat -> (N.to_nat v < N.to_nat n)%nat ->
    upto (N.to_nat n) w d alpha i (rank (N.to_nat n) w d alpha t) v = upto (N.to_nat n) w' d' alpha i (rank (N.to_nat n) w' d' alpha t) v).
  { intros t i v Hi. apply upto_ext; auto; intros; [apply Hw|apply Hd]; lia. }
  assert (Hs : forall t i, (i <= N.to_nat n)%nat -> stops_at n w d alpha conv t i <-> stops_at n w' d' alpha conv t i).
  { intros t i Hi. unfold stops_at. erewrite gap_ext; [reflexivity|intros; apply Hu; auto|auto]. }
  unfold pagerank_spec in *. destruct H as [[t [i [H1 [H2 [H3 [H4 H5]]]]]]|[H1 H2]].
  - left. exists t, i. repeat split; auto; try lia; try apply H5.
    + apply Hs; auto. lia.
    + intros s j Hj Hsj G. apply (H4 s j Hj Hsj). apply Hs; auto. lia.
    + intros v Hv. rewrite <- Hu by lia. apply H5. auto.
  - right. split.
    + intros s j Hs' Hj G. apply (H1 s j Hs' Hj). apply Hs; auto. lia.
    + eapply answers_ext; [|apply H2]. intros v Hv. apply Hr. lia.
Qed.

(** After any insertions, at least one: PageRank of the inserted edges. *)
Theorem C86_pagerank_inserts : forall T K (L : k2laws K) n es alpha conv maxit,
  th_top T -> (2 <= n <= 2 ^ 31)%N -> Forall (in_range n) es -> es <> [] ->
  exists g res, dk_hist T K n (map Add es) = Done g /\ pageRank K g conv maxit alpha = Ok res /\
    pagerank_spec n (w_of es) (d_of es) alpha conv maxit res.
Proof.
  intros T K L n es alpha conv maxit HT Hn HF _. destruct (inserts_nbs T K L n es HT Hn HF) as [g [E [Hr [_ [H2 [H3 [H4 H5]]]]]]].
  destruct (weights es n (nbs_of K g) H3 H5) as [W1 W2].
  destruct (core K g n (nbs_of K g) alpha conv maxit ltac:(lia) ltac:(eapply reached_nodes; eauto; lia) H2 H4) as [res [E2 HS]].
  exists g, res. split; auto. split; auto. eapply spec_ext; eauto.
Qed.

Lemma no_test n es alpha conv t res : conv <= 0 -> pagerank_spec n (w_of es) (d_of es) alpha conv t res ->
  answers n res (rank (N.to_nat n) (w_of es) (d_of es) alpha t).
Proof.
  intros Hc HS. destruct HS as [[t' [i [_ [_ [H _]]]]]|[_ H]]; auto. exfalso.
  unfold stops_at in H. pose proof (gap_nonneg (N.to_nat n) (upto (N.to_nat n) (w_of es) (d_of es) alpha i (rank (N.to_nat n) (w_of es) (d_of es) alpha t')) (rank (N.to_nat n) (w_of es) (d_of es) alpha t')).
  pose proof (pos_INR (N.to_nat n)). assert (INR (N.to_nat n) * conv <= 0); [|lra].
  rewrite <- (Rmult_0_r (INR (N.to_nat n))). apply Rmult_le_compat_l; lra.
Qed.
(** Without the convergence test: exactly max_iterations iterations. *)
Theorem C86_iterations : forall T K (L : k2laws K) n es alpha conv t,
  th_top T -> (2 <= n <= 2 ^ 31)%N -> Forall (in_range n) es -> es <> [] -> conv <= 0 ->
  exists g res, dk_hist T K n (map Add es) = Done g /\ pageRank K g conv t alpha = Ok res /\
    answers n res (rank (N.to_nat n) (w_of es) (d_of es) alpha t).
Proof.
  intros T K L n es alpha conv t HT Hn HF Hne Hc. destruct (C86_pagerank_inserts T K L n es alpha conv t HT Hn HF Hne) as [g [res [E [E2 HS]]]].
  exists g, res. split; auto. split; auto. eapply no_test; eauto.
Qed.

(** ** C87 *)
(** p is the PageRank of the graph with edges es: it satisfies the PageRank equations. *)
Definition is_pagerank (n : N) (es : list edge) (alpha : R) (p : N -> R) : Prop :=
  forall v, (v < n)%N -> p v = next (N.to_nat n) (w_of es) (d_of es) alpha p v.

Lemma deg_bounds n es : Forall (in_range n) es -> forall u, vsum (N.to_nat n) (w_of es u) = if d_of es u then 0 else 1.
Proof.
  intros HF u. set (l := nodup N.eq_dec (map snd (filter (fun e => N.eqb (fst e) u) es))).
  assert (Hin : forall y, In y l <-> In (u, y) es).
  { intros y. unfold l. rewrite nodup_In, in_map_iff. split.
    - intros [[a b] [<- H]]. apply filter_In in H. destruct H as [H Ha]. apply N.eqb_eq in Ha. cbn in Ha. subst. auto.
    - intros H. exists (u, y). split; auto. apply filter_In. split; auto. cbn. apply N.eqb_refl. }
  assert (Hnd : NoDup l) by apply NoDup_nodup. pose proof (deg_list es u l Hnd Hin) as Hl.
  rewrite (vsum_ext _ _ (fun v => / INR (deg_of es u) * INR (count_occ N.eq_dec l v))).
  - rewrite vsum_scal, vsum_count, Hl.
    + unfold d_of. destruct (Nat.eqb_spec (deg_of es u) 0) as [E|E]; [rewrite E; cbn; lra|]. field. apply not_0_INR. auto.
    + apply Forall_forall. intros y Hy. apply Hin in Hy. rewrite Forall_forall in HF. apply HF in Hy. destruct Hy as [_ Hy]. cbn in Hy. lia.
  - intros i _. unfold w_of. destruct (emem (u, N.of_nat i) es) eqn:E.
    + apply emem_In, Hin in E. rewrite (proj1 (NoDup_count_occ' N.eq_dec l) Hnd _ E). unfold Rdiv. cbn. lra.
    + apply emem_false in E. rewrite (proj1 (count_occ_not_In N.eq_dec l (N.of_nat i))); [cbn; lra|]. rewrite Hin. auto.
Qed.
Lemma w_nonneg es u v : 0 <= w_of es u v.
Proof.
  unfold w_of. destruct (emem _ _) eqn:E; [|lra]. apply Rmult_le_pos; [lra|]. apply emem_In in E.
  destruct (Req_dec (INR (deg_of es u)) 0) as [->|H]; [rewrite Rinv_0; lra|]. apply Rlt_le, Rinv_0_lt_compat. pose proof (pos_INR (deg_of es u)). lra.
Qed.
Lemma sources_pos n es : Forall (in_range n) es -> es <> [] -> 0 < sources (N.to_nat n) (d_of es).
Proof.
  intros HF Hne. destruct es as [|[u v] es]; [congruence|]. inversion HF as [|? ? Hr _]; subst. destruct Hr as [Hu _]. cbn in Hu.
  assert (Hd : d_of ((u, v) :: es) u = false).
  { unfold d_of. apply Nat.eqb_neq. unfold deg_of. cbn [filter fst]. rewrite N.eqb_refl. intros E. apply length_zero_iff_nil in E.
    assert (G : In (u, v) (nodup edge_dec ((u, v) :: filter (fun e => N.eqb (fst e) u) es))) by (apply nodup_In; cbn; auto). rewrite E in G. destruct G. }
  unfold sources. apply Rlt_le_trans with (if d_of ((u, v) :: es) (N.of_nat (N.to_nat u)) then 0 else 1).
  - rewrite N2Nat.id, Hd. lra.
  - apply (vsum_term _ (fun x => if d_of ((u, v) :: es) x then 0 else 1)); [|lia]. intros j _. cbv beta. destruct (d_of ((u, v) :: es) (N.of_nat j)); lra.
Qed.

(** From any graph whose pageRank is that of the edges es. *)
Lemma limit_core K (g : dk K) n es alpha :
  (2 <= n <= 2 ^ 31)%N -> Forall (in_range n) es -> es <> [] -> 0 <= alpha < 1 ->
  (forall conv maxit, exists res, pageRank K g conv maxit alpha = Ok res /\ pagerank_spec n (w_of es) (d_of es) alpha conv maxit res) ->
  exists p,
    is_pagerank n es alpha p /\ (forall q, is_pagerank n es alpha q -> forall v, (v < n)%N -> q v = p v) /\
    (forall v, (v < n)%N -> 0 <= p v) /\ vsum (N.to_nat n) p = 1 /\
    (forall conv t, conv <= 0 -> exists res r, pageRank K g conv t alpha = Ok res /\ answers n res r /\
       gap (N.to_nat n) r p <= alpha ^ t * (INR (N.to_nat n) / sources (N.to_nat n) (d_of es) + 1)) /\
    (forall conv maxit t, (t < maxit)%nat ->
       (forall s j, (0 < j <= N.to_nat n)%nat -> (s < t \/ s = t /\ j < N.to_nat n)%nat -> ~ stops_at n (w_of es) (d_of es) alpha conv s j) ->
       stops_at n (w_of es) (d_of es) alpha conv t (N.to_nat n) ->
       exists res r, pageRank K g conv maxit alpha = Ok res /\ answers n res r /\
         gap (N.to_nat n) r p <= alpha / (1 - alpha) * (INR (N.to_nat n) * conv)).
Proof.
  intros Hn HF Hne Ha HP. set (nn := N.to_nat n). assert (Hnn : (0 < nn)%nat) by (unfold nn; lia).
  pose proof (w_nonneg es) as Hw0. assert (Hw1 : forall u, (N.to_nat u < nn)%nat -> vsum nn (w_of es u) = if d_of es u then 0 else 1) by (intros; apply deg_bounds; auto).
  set (p := limit nn (w_of es) (d_of es) alpha Hnn Ha Hw0 Hw1).
  assert (Hp : forall v, (N.to_nat v < nn)%nat -> next nn (w_of es) (d_of es) alpha p v = p v) by (intros; apply limit_eq; auto).
  pose proof (sources_pos n es HF Hne) as Hsp. fold nn in Hsp.
  assert (Hr0 : forall v, (N.to_nat v < nn)%nat -> 0 <= rank nn (w_of es) (d_of es) alpha 0 v).
  { intros v _. cbn [rank]. apply Rmult_le_pos; [lra|]. apply Rlt_le, Rinv_0_lt_compat. auto. }
  assert (Hpn : forall v, (N.to_nat v < nn)%nat -> 0 <= p v) by (intros; apply limit_nonneg; auto).
  assert (Hp1 : vsum nn p = 1) by (eapply fix_mass; eauto).
  exists p. split; [|split; [|split; [|split; [|split]]]].
  - intros v Hv. symmetry. apply Hp. unfold nn. lia.
  - intros q Hq v Hv. eapply (fix_unique nn (w_of es) (d_of es) alpha); eauto; [|unfold nn; lia]. intros x Hx. symmetry. apply Hq. unfold nn in Hx. lia.
  - intros v Hv. apply Hpn. unfold nn. lia.
  - auto.
  - intros conv t Hc. destruct (HP conv t) as [res [E2 HS]]. assert (HA := no_test n es alpha conv t res Hc HS). exists res, (rank nn (w_of es) (d_of es) alpha t). split; auto. split; auto.
    eapply Rle_trans; [apply (fix_rank nn (w_of es) (d_of es) alpha Hnn Ha Hw0 Hw1 p t Hp)|].
    apply Rmult_le_compat_l; [apply pow_le; lra|]. unfold gap.
    apply Rle_trans with (vsum nn (fun v => rank nn (w_of es) (d_of es) alpha 0 v + p v)).
    + apply vsum_le. intros i Hi. set (v := N.of_nat i). pose proof (Hr0 v ltac:(unfold v; lia)). pose proof (Hpn v ltac:(unfold v; lia)).
      unfold Rabs. destruct (Rcase_abs _); lra.
    + rewrite vsum_plus, Hp1. cbn [rank]. rewrite vsum_const. apply Req_le. field. lra.
  - intros conv maxit t Ht Hbefore Hst. destruct (HP conv maxit) as [res [E2 HS]].
    assert (HA : answers n res (upto nn (w_of es) (d_of es) alpha nn (rank nn (w_of es) (d_of es) alpha t))).
    { destruct HS as [[t' [i [H1 [H2 [H3 [H4 H5]]]]]]|[H1 H2]].
      - assert (t' = t /\ i = nn) as [-> ->]; auto.
        assert (~ (t' < t)%nat) by (intros G; eapply (Hbefore t' i); eauto; lia).
        assert (~ (t < t')%nat) by (intros G; eapply (H4 t nn); eauto; unfold nn in *; lia).
        assert (t' = t) by lia. subst t'. split; auto.
        assert (~ (i < nn)%nat) by (intros G; eapply (Hbefore t i); eauto; lia). unfold nn in *. lia.
      - exfalso. apply (H1 t nn Ht ltac:(unfold nn in *; lia)). exact Hst. }
    exists res, (next nn (w_of es) (d_of es) alpha (rank nn (w_of es) (d_of es) alpha t)). split; auto.
    assert (HN : forall v, (v < n)%N -> upto nn (w_of es) (d_of es) alpha nn (rank nn (w_of es) (d_of es) alpha t) v = next nn (w_of es) (d_of es) alpha (rank nn (w_of es) (d_of es) alpha t) v).
    { intros v Hv. unfold upto, next, nn. destruct (N.ltb_spec v (N.of_nat (N.to_nat n))); [reflexivity|lia]. }
    split; [eapply answers_ext; eauto|].
    eapply fix_stop; eauto. unfold stops_at in Hst. fold nn in Hst. erewrite gap_ext in Hst; [exact Hst| |reflexivity].
    intros u Hu. apply HN. unfold nn in Hu. lia.
Qed.

(** With 0 <= alpha < 1 the PageRank of the graph exists, is unique, is a probability distribution; with the convergence test off
    the result of pageRank tends to it, at the rate alpha^t; and if the test ends an iteration at its last vertex, the result is
    within alpha/(1-alpha) * n * conv of it. *)
Theorem C87_pagerank_limit : forall T K (L : k2laws K) n es alpha,
  th_top T -> (2 <= n <= 2 ^ 31)%N -> Forall (in_range n) es -> es <> [] -> 0 <= alpha < 1 ->
  exists g p, dk_hist T K n (map Add es) = Done g /\
    is_pagerank n es alpha p /\ (forall q, is_pagerank n es alpha q -> forall v, (v < n)%N -> q v = p v) /\
    (forall v, (v < n)%N -> 0 <= p v) /\ vsum (N.to_nat n) p = 1 /\
    (forall conv t, conv <= 0 -> exists res r, pageRank K g conv t alpha = Ok res /\ answers n res r /\
       gap (N.to_nat n) r p <= alpha ^ t * (INR (N.to_nat n) / sources (N.to_nat n) (d_of es) + 1)) /\
    (forall conv maxit t, (t < maxit)%nat ->
       (forall s j, (0 < j <= N.to_nat n)%nat -> (s < t \/ s = t /\ j < N.to_nat n)%nat -> ~ stops_at n (w_of es) (d_of es) alpha conv s j) ->
       stops_at n (w_of es) (d_of es) alpha conv t (N.to_nat n) ->
       exists res r, pageRank K g conv maxit alpha = Ok res /\ answers n res r /\
         gap (N.to_nat n) r p <= alpha / (1 - alpha) * (INR (N.to_nat n) * conv)).
Proof.
  intros T K L n es alpha HT Hn HF Hne Ha. destruct (inserts_nbs T K L n es HT Hn HF) as [g [E _]].
  destruct (limit_core K g n es alpha Hn HF Hne Ha) as [p HP].
  - intros conv maxit. destruct (C86_pagerank_inserts T K L n es alpha conv maxit HT Hn HF Hne) as [g' [res [E' H]]].
    rewrite E in E'. injection E' as <-. eauto.
  - exists g, p. split; auto.
Qed.

(** ** The hypotheses are met *)
(** Three vertices, vertex 2 without out-edges, alpha = 1/2: the ranks after one iteration. *)
Definition w86 : list edge := [(0, 1); (0, 2); (1, 2)]%N.
Example C86_example : Forall (in_range 3) w86 /\
  rank 3 (w_of w86) (d_of w86) (1/2) 1 0%N = 1/4 /\ rank 3 (w_of w86) (d_of w86) (1/2) 1 1%N = 3/8 /\
  rank 3 (w_of w86) (d_of w86) (1/2) 1 2%N = 5/8.
Proof.
  split; [repeat constructor; vm_compute; reflexivity|].
  assert (E0 : d_of w86 0 = false) by reflexivity. assert (E1 : d_of w86 1 = false) by reflexivity. assert (E2 : d_of w86 2 = true) by reflexivity.
  assert (D0 : deg_of w86 0 = 2%nat) by reflexivity. assert (D1 : deg_of w86 1 = 1%nat) by reflexivity.
  cbn [rank]. unfold next, even, sources. cbn [vsum]. change (N.of_nat 0) with 0%N. change (N.of_nat 1) with 1%N. change (N.of_nat 2) with 2%N.
  rewrite E0, E1, E2. unfold w_of. rewrite D0, D1.
  change (emem (0, 0)%N w86) with false. change (emem (1, 0)%N w86) with false. change (emem (2, 0)%N w86) with false.
  change (emem (0, 1)%N w86) with true. change (emem (1, 1)%N w86) with false. change (emem (2, 1)%N w86) with false.
  change (emem (0, 2)%N w86) with true. change (emem (1, 2)%N w86) with true. change (emem (2, 2)%N w86) with false.
  cbv iota. cbn [INR]. repeat split; field.
Qed.
