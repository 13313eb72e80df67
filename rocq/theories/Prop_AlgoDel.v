(** * C85: iterators, searches, triangle counts and clustering after deletions.

    C05-C07 and C33-C38 are about graphs built by insertions.  Here the history may delete. *)
From Coq Require Import Reals Lra.
From Verif Require Import Base Spec AlgoSpec Thresholds Table K2 C0 C0Proof DK DKProof DKHist DKGuard DKTotal DKFull DKBisim Prop_DK Iter IterProof Prop_Iter
  Algo AlgoProof TriProof Prop_Algo ViewProof Prop_Cluster Prop_Heavy.
Open Scope nat_scope.

(** ** What can be proved *)
Lemma calm_view T K (L : k2laws K) n h g :
  (2 <= n <= 2 ^ 31)%N -> th_real T -> adjf_is_query L -> reached T K n h g -> calm h \/ benign T n h ->
  c_marked (C0_ g) = 0 -> present h (9999999, 9999999)%N = false ->
  view K g n (fun x y => present h (x, y) = true).
Proof.
  intros Hn HT Hq R HB Hm M. pose proof R as [HF E].
  destruct (C13_count_partial T K L n h g HT Hq ltac:(lia) R HB) as [_ Hc].
  destruct (C07_edge_iterator_partial T K L n h g HT ltac:(lia) R Hm M) as [it [l [I1 [I2 [I3 [I4 I5]]]]]].
  assert (Hp : forall x y, present h (x, y) = true -> in_range n (x, y)).
  { intros x y H. apply espec_present in H. apply (espec_range n h); auto. }
  destruct (hist_rel T K L n ltac:(lia) h g HF E) as [sl G]. pose proof (rl_inv _ _ _ _ _ _ G) as I.
  constructor.
  - apply (dv_nv _ _ _ _ _ I).
  - intros x y H. apply Hp in H. exact H.
  - exists l. split; [exists it; split; auto|]. split; [exact I3|]. intros x y. split.
    + intros H. rewrite Forall_forall in I4. pose proof (I4 _ H) as Hr. apply I5 in H; auto. rewrite Hc in H by auto. congruence.
    + intros H. pose proof (Hp x y H) as Hr. apply I5; auto. rewrite Hc, H by auto. reflexivity.
  - intros x Hx. destruct (C17_neighbours_partial T K L n h g x HT Hq ltac:(lia) R HB Hx) as [l0 [E0 [N0 S0]]].
    destruct (C05_neighbour_iterator T K L n h g x Hn R Hx) as [l1 [it1 [E1 [Eb [El _]]]]]. assert (l1 = l0) by congruence. subst l1.
    exists l0. split; [exact E0|]. split; [exists it1; split; auto|]. split; auto.
  - intros x y Hx Hy. exists (present h (x, y)). split; [apply Hc; split; auto|reflexivity].
Qed.

(** The edge loop, the neighbour loops, bfs, dfs and the hash triangle count, on the graph the history denotes. *)
Theorem C85_traversals_partial : forall T K (L : k2laws K) n h g,
  (2 <= n < 2 ^ 31)%N -> th_real T -> adjf_is_query L -> reached T K n h g -> calm h \/ benign T n h ->
  c_marked (C0_ g) = 0 -> present h (9999999, 9999999)%N = false ->
  traversals K g n (fun x y => present h (x, y) = true).
Proof. intros. apply view_traversals; auto. eapply calm_view; eauto. lia. Qed.

(** The other two counts and the clustering coefficient, with the specifications of C37, C38 and C79 on [espec h], the
    edges the history leaves. *)
Lemma espec_edges h : edges_of (espec h) = length (espec h).
Proof. unfold edges_of. rewrite nodup_fixed_point; [reflexivity|apply espec_nodup]. Qed.

Theorem C85_counts_partial : forall T K (L : k2laws K) n h g nb,
  (2 <= n < 2 ^ 31)%N -> th_real T -> adjf_is_query L -> reached T K n h g -> calm h \/ benign T n h ->
  c_marked (C0_ g) = 0 -> present h (9999999, 9999999)%N = false -> 0 < nb ->
  (exists m, count_of (closed_triple (fun x y => present h (x, y) = true)) m /\
     forall r, triangles_dummy K g r <-> r = (N.of_nat m mod 2 ^ 32)%N) /\
  (exists m, count_of (heavy_shape (espec h)) m /\
     (forall r, triangles_heavy K g nb r <-> r = (N.of_nat m mod 2 ^ 32)%N) /\
     (2 <= length (espec h) -> forall c, clustering K g nb c <->
        c = (INR (N.to_nat (N.of_nat m mod 2 ^ 32)) / (INR (length (espec h)) * (INR (length (espec h)) - 1)))%R)).
Proof.
  intros T K L n h g nb Hn HT Hq R HB Hm M Hnb.
  assert (V : view K g n (fun x y => present h (x, y) = true)) by (eapply calm_view; eauto; lia).
  assert (V' : view K g n (of_list (espec h))).
  { eapply view_ext; [|exact V]. intros x y. unfold of_list. symmetry. apply espec_present. }
  destruct (C13_count_partial T K L n h g HT Hq ltac:(lia) R HB) as [Hcnt _].
  split.
  - destruct (dummy_count K g n _ V ltac:(lia)) as [m [H1 [H2 H3]]]. exists m. split; [exact H1|].
    intros r. split; [apply H3|intros ->; exact H2].
  - destruct (heavy_count K g n _ V' ltac:(lia) nb Hnb) as [m [Hc [H2 H3]]]. exists m.
    assert (HH : forall r, triangles_heavy K g nb r <-> r = (N.of_nat m mod 2 ^ 32)%N) by (intros r; split; [apply H3|intros ->; exact H2]).
    split; [|split; [exact HH|]].
    + eapply count_of_iff; [|exact Hc]. intros [[v w] u]. cbn [heavy_triple heavy_shape].
      assert (Hbig : forall x, big K g (of_list (espec h)) x <-> edges_of (espec h) <= deg_of (espec h) x * deg_of (espec h) x).
      { intros x. unfold big. rewrite Hcnt, espec_edges. split.
        - intros [k [Hk Hb]]. apply deg_count in Hk. subst k. lia.
        - intros Hb. exists (deg_of (espec h) x). rewrite deg_count. split; [reflexivity|lia]. }
      rewrite !Hbig, !less_precedes. unfold of_list. split; intros [? [? [? [? [? [? ?]]]]]]; repeat (split; [assumption || lia|]); assumption.
    + intros Hl c. unfold clustering. cbn zeta. rewrite Hcnt, Nat2N.id.
      assert (Hd : (INR (length (espec h)) * (INR (length (espec h)) - 1) <> 0)%R).
      { replace (INR (length (espec h)) - 1)%R with (INR (length (espec h) - 1)) by (rewrite minus_INR by lia; reflexivity).
        rewrite <- mult_INR. apply not_0_INR. nia. }
      split.
      * intros [r [G1 [_ G2]]]. apply HH in G1. subst r. exact G2.
      * intros ->. eexists. split; [apply HH; reflexivity|]. split; [exact Hd|reflexivity].
Qed.

(** A calm history with deletions, no erased edge left in the buffer. *)
Example C85_example : exists g, reached th_exact K2Ref 8 ex_calm g /\ calm ex_calm /\ c_marked (C0_ g) = 0 /\
  present ex_calm (9999999, 9999999)%N = false /\ 2 <= length (espec ex_calm) /\ adjf_is_query K2Ref_laws.
Proof.
  rewrite <- (tabled_eq th_exact th_real_inhabited). eexists. split; [split; [ranges|vm_compute; reflexivity]|].
  split; [vm_compute; repeat split; discriminate|]. split; [vm_compute; reflexivity|]. split; [vm_compute; reflexivity|].
  split; [vm_compute; lia|]. apply K2Ref_query.
Qed.

(** ** What the hash count returns whatever was deleted *)
(** One for each visit of an edge a -> b of the edge loop and each c in list_neighbour(b), different from both, such that
    the edge loop also visits c -> a. *)
Definition seen_from (l : list edge) (nbs : N -> list N) (e : edge) : nat :=
  if N.eqb (fst e) (snd e) then 0
  else length (filter (fun c => negb (N.eqb c (fst e)) && negb (N.eqb c (snd e)) && emem (c, fst e) l) (nbs (snd e))).
Definition seen_triangles (l : list edge) (nbs : N -> list N) : nat := list_sum (map (seen_from l nbs) l).

Lemma fill_all K g n : (n < 2 ^ 31)%N -> forall vs, (forall v, In v vs -> (v < n)%N) -> NoDup vs ->
  (forall v, In v vs -> exists l, dk_neigh K g v = Ok l) -> forall m,
  exists m', adj_fill K g (map Z.of_N vs) m = Ok m' /\
    forall x, (In x vs -> (forall l, dk_neigh K g x = Ok l -> aget N.eqb x m = None -> adj_at m' x = l)) /\
              (~ In x vs -> aget N.eqb x m' = aget N.eqb x m).
Proof.
  intros Hn. induction vs as [|v vs IH]; intros Hr Hnd Ha m; cbn [map adj_fill].
  - exists m. split; auto. intros x. split; [intros []|auto].
  - inversion Hnd as [|? ? Hv Hnd']; subst. rewrite to_u32_id by (specialize (Hr v (or_introl eq_refl)); lia).
    destruct (Ha v (or_introl eq_refl)) as [l El]. rewrite El. cbn [obind].
    destruct (IH (fun w Hw => Hr w (or_intror Hw)) Hnd' (fun w Hw => Ha w (or_intror Hw)) (match l with [] => m | _ => aset N.eqb v l m end)) as [m' [E1 E2]].
    exists m'. split; auto. intros x. destruct (E2 x) as [A1 A2]. split.
    + intros [->|Hx] l' El' Hm.
      * assert (l' = l) by congruence. subst l'. specialize (A2 Hv). unfold adj_at. rewrite A2.
        destruct l as [|a l]; [rewrite Hm; auto|]. rewrite aget_aset_eq; auto. apply N.eqb_eq.
      * apply A1; auto. destruct l as [|a l]; auto. rewrite aget_aset_neq; auto; [apply N.eqb_eq|]. intros ->. auto.
    + intros Hx. cbn [In] in Hx. rewrite A2 by tauto. destruct l as [|a l]; auto. apply aget_aset_neq; [apply N.eqb_eq|].
      intros ->. tauto.
Qed.

Lemma hash_fold nb t l nbs adj : (forall e, tb_contains nb t e = emem e l) -> forall l2, (forall e, In e l2 -> adj_at adj (snd e) = nbs (snd e)) ->
  forall r, (r < 2 ^ 32)%N ->
  fold_left (hash_edge nb t adj) l2 r = ((r + N.of_nat (list_sum (map (seen_from l nbs) l2))) mod 2 ^ 32)%N.
Proof.
  intros Ht. induction l2 as [|[v1 v2] l2 IH]; intros Ha r Hr; cbn [fold_left map].
  - change (list_sum []) with 0. rewrite N.add_0_r, N.mod_small; auto.
  - change (list_sum (?a :: ?b)) with (a + list_sum b). assert (G : hash_edge nb t adj r (v1, v2) = ((r + N.of_nat (seen_from l nbs (v1, v2))) mod 2 ^ 32)%N).
    { unfold hash_edge, seen_from. cbn [fst snd]. destruct (N.eqb v1 v2); cbn [negb]; [rewrite N.add_0_r, N.mod_small; auto|].
      unfold hash_inner. rewrite count_loop by auto. pose proof (Ha (v1, v2) (or_introl eq_refl)) as Hv. cbn [snd] in Hv. rewrite Hv.
      f_equal. f_equal. f_equal. f_equal. apply filter_ext. intros c. rewrite Ht. reflexivity. }
    rewrite G, IH; [|intros e He; apply Ha; right; exact He|apply N.mod_lt; lia]. rewrite N.add_mod_idemp_l by lia. f_equal. lia.
Qed.

Theorem C85_hash_exact : forall T K (L : k2laws K) n h g nb,
  (2 <= n < 2 ^ 31)%N -> th_real T -> reached T K n h g -> 0 < nb ->
  exists l nbs, ewalk K g l /\ (forall x, (x < n)%N -> dk_neigh K g x = Ok (nbs x)) /\
    (forall x, (n <= x)%N -> nbs x = []) /\
    forall r, triangles_hash K g nb r <-> r = to_int (Z.of_nat (seen_triangles l nbs)).
Proof.
  intros T K L n h g nb Hn HT [HF E] Hnb. destruct (hist_full T HT K L n ltac:(lia) h g HF E) as [sl [R Hfull]].
  pose proof (rl_inv _ _ _ _ _ _ R) as I. destruct (edge_loop_ok K L n g sl ltac:(lia) I Hfull) as [it [Eit Hl]].
  set (l := edge_seen K g sl) in *. assert (Hw : ewalk K g l) by (exists it; auto).
  assert (Hs : forall x, (x < n)%N -> exists l0, dk_neigh K g x = Ok l0).
  { intros x Hx. destruct (dk_neigh_spec K L n ltac:(lia) g sl x I Hx) as [l0 [H0 _]]. eauto. }
  destruct (fill_all K g n ltac:(lia) (verts n) (fun v => proj1 (verts_In n v)) (verts_nodup n) (fun v Hv => Hs v (proj1 (verts_In n v) Hv)) []) as [adj [Ea Hadj]].
  set (nbs := adj_at adj).
  assert (Hnbs : forall x, (x < n)%N -> dk_neigh K g x = Ok (nbs x)).
  { intros x Hx. destruct (Hs x Hx) as [l0 H0]. rewrite H0. f_equal. symmetry. apply (proj1 (Hadj x)); auto. apply verts_In. auto. }
  assert (Hnbs' : forall x, (n <= x)%N -> nbs x = []).
  { intros x Hx. unfold nbs, adj_at. rewrite (proj2 (Hadj x)); [reflexivity|]. rewrite verts_In. lia. }
  set (t := tb_fill nb (tb_new nb) 0 l).
  destruct (tb_fill_spec nb Hnb l (tb_new nb) 0 (tb_wf_new nb)) as [_ Ht].
  assert (Ht' : forall e, tb_contains nb t e = emem e l).
  { intros e. unfold t. rewrite Ht. unfold tb_contains. rewrite tb_find_new. cbn. apply orb_false_r. }
  assert (Hvw : vwalk K g (map Z.of_N (verts n))).
  { unfold vwalk. rewrite (dv_nv _ _ _ _ _ I), verts_Z. apply IterProof.node_loop_ok. lia. }
  assert (Hr : to_int (Z.of_N (fold_left (hash_edge nb t adj) l 0%N)) = to_int (Z.of_nat (seen_triangles l nbs))).
  { rewrite (hash_fold nb t l nbs adj Ht'); [|reflexivity|lia].
    rewrite N.add_0_l. fold (seen_triangles l nbs). unfold to_int. rewrite N2Z.inj_mod, nat_N_Z by lia. change (Z.of_N (2 ^ 32)) with (2 ^ 32)%Z.
      rewrite Z.mod_mod by lia. reflexivity. }
  exists l, nbs. split; [exact Hw|]. split; [exact Hnbs|]. split; [exact Hnbs'|]. intros r. split.
  - intros [es1 [vs [adj' [es2 [W1 [W2 [W3 [W4 ->]]]]]]]].
    rewrite (ViewProof.ewalk_unique K g es1 l W1 Hw), (ViewProof.ewalk_unique K g es2 l W4 Hw).
    assert (vs = map Z.of_N (verts n)) by (unfold vwalk, node_loop in *; eapply visits_unique; eauto). subst vs.
    assert (adj' = adj) by congruence. subst adj'. exact Hr.
  - intros ->. exists l, (map Z.of_N (verts n)), adj, l. repeat (split; [assumption|]). symmetry. exact Hr.
Qed.

(** ** C85 refuted *)
Lemma seen_same l l' nbs nbs' : Permutation l l' -> (forall e, In e l -> Permutation (nbs (snd e)) (nbs' (snd e))) ->
  seen_triangles l nbs = seen_triangles l' nbs'.
Proof.
  intros P H. unfold seen_triangles. rewrite (Permutation_list_sum (Permutation_map (seen_from l nbs) P)).
  f_equal. apply map_ext_in. intros e He. unfold seen_from. destruct (N.eqb (fst e) (snd e)); [reflexivity|].
  set (f := fun c => negb (N.eqb c (fst e)) && negb (N.eqb c (snd e)) && emem (c, fst e) l).
  rewrite (filter_ext (fun c => negb (N.eqb c (fst e)) && negb (N.eqb c (snd e)) && emem (c, fst e) l') f).
  - pose proof (H e (Permutation_in _ (Permutation_sym P) He)) as Q. clear - Q. induction Q; cbn [filter].
    + reflexivity.
    + destruct (f x); cbn [length]; congruence.
    + destruct (f x), (f y); reflexivity.
    + congruence.
  - intros c. unfold f. f_equal. apply eq_true_iff_eq. rewrite !emem_In. split; apply Permutation_in; [apply Permutation_sym|]; exact P.
Qed.

Section Sim.
Context (n : N) (K1 : k2impl) (L1 : k2laws K1) (K2 : k2impl) (L2 : k2laws K2).
Lemma lsim_edges l1 l2 : lsim n K1 L1 K2 L2 l1 l2 -> forall e, In e (ks_edges K1 l1) <-> In e (ks_edges K2 l2).
Proof.
  intros H. induction H as [|[x|] [y|] l1 l2 Ho Hl IH]; intros e; [tauto| | | |]; cbn [osim] in Ho; try (cbn in Ho; tauto).
  - rewrite !ks_edges_cons_some, !in_app_iff, IH, (ts_edges _ _ _ _ _ _ _ Ho). tauto.
  - rewrite !ks_edges_cons_none. apply IH.
Qed.
End Sim.

(** Three vertices, the edges 1->2, 2->0, 1->1, 0->1, 0->0, then 0->1 is deleted: what is left has no triangle, contains(0,1)
    is false, yet count_triangles_dummy_hash says 2: the edge loop still visits the edge deleted. *)
Definition w85 := [a 1 2; a 2 0; a 1 1; a 0 1; a 0 0; d 0 1]%N.
Theorem C85_refuted : forall T K (L : k2laws K), th_real T -> adjf_is_query L ->
  exists g l, reached T K 3 w85 g /\ ewalk K g l /\ In (0, 1)%N l /\ dk_contains K g 0 1 = Ok false /\ present w85 (0, 1)%N = false /\
    (forall t, ~ triangle (fun x y => present w85 (x, y) = true) t) /\
    forall nb r, 0 < nb -> (triangles_hash K g nb r <-> r = 2%Z).
Proof.
  intros T K L HT Hq. assert (HF : Forall (op_in_range 3) w85) by ranges.
  pose proof (transfer T K L 3 w85 Hq ltac:(lia) HF) as HS.
  assert (HW : match dk_hist T K2Ref 3 w85 with Done g => dk_contains K2Ref g 0 1 = Ok false /\ ks_edges K2Ref (ks g) = [(1, 2); (2, 0); (1, 1)]%N /\
    c0_size (C0_ g) = 1 /\ node_at (C0_ g) 0 = Ok (0, 1)%N /\ map (dk_neigh K2Ref g) [0; 1; 2]%N = [Ok [0]; Ok [2; 1]; Ok [0]]%N | _ => False end).
  { rewrite <- (tabled_eq T HT). vm_compute. auto. }
  destruct (dk_hist T K2Ref 3 w85) as [gr|gr|]; try tauto. destruct HW as [W1 [W2 [W3 [W4 W5]]]].
  destruct (dk_hist T K 3 w85) as [g|g|] eqn:E; try tauto. assert (R : reached T K 3 w85 g) by (split; auto).
  destruct (hist_full T HT K L 3 ltac:(lia) w85 g HF E) as [sl [Rl Hfull]].
  pose proof (rl_inv _ _ _ _ _ _ Rl) as I. destruct (edge_loop_ok K L 3 g sl ltac:(lia) I Hfull) as [it [Eit Hl]].
  assert (Hc0 := gs_c0 _ _ _ _ _ _ _ HS). cbn in HS.
  assert (Pk : Permutation (ks_edges K (ks g)) [(1, 2); (2, 0); (1, 1)]%N).
  { apply NoDup_Permutation.
    - apply (ks_edges_nodup K L 3); apply I.
    - repeat constructor; cbn; intuition discriminate.
    - intros e. rewrite <- W2. apply (lsim_edges 3 K L K2Ref K2Ref_laws). apply HS. }
  assert (Hs : edge_seen K g sl = (0, 1)%N :: ks_edges K (ks g)).
  { unfold edge_seen. rewrite <- (inv_size _ _ (dv_c0 _ _ _ _ _ I)), Hc0, W3.
    destruct sl as [|[e b] sl].
    - pose proof (inv_size _ _ (dv_c0 _ _ _ _ _ I)) as Z. rewrite Hc0, W3 in Z. discriminate.
    - pose proof (inv_node_at _ _ 0 e b (dv_c0 _ _ _ _ _ I) eq_refl) as Z. rewrite Hc0, W4 in Z. injection Z as <-.
      cbn [map fst firstn app]. apply before_max_id. intros [G|G]; [discriminate|].
      apply (Permutation_in _ Pk) in G. cbn in G. intuition discriminate. }
  rewrite Hs in Hl. set (l := (0, 1)%N :: ks_edges K (ks g)) in *. assert (Hw : ewalk K g l) by (exists it; auto).
  exists g, l. split; [exact R|]. split; [exact Hw|]. split; [left; reflexivity|]. split.
  { rewrite (sim_contains 3 K L K2Ref K2Ref_laws g gr 0 1); auto. ranges. }
  split; [reflexivity|]. split.
  { intros [[x y] z] [H1 [H2 [H3 [H4 [H5 H6]]]]].
    assert (P : forall u v, present w85 (u, v) = true -> In (u, v) [(1, 2); (2, 0); (1, 1); (0, 0)]%N).
    { intros u v H. apply espec_present in H. cbn in H. cbn. tauto. }
    apply P in H4. apply P in H5. apply P in H6. cbn in H4, H5, H6.
    repeat (destruct H4 as [H4|H4]; [injection H4 as <- <-|]); try contradiction; try congruence;
    repeat (destruct H5 as [H5|H5]; [try discriminate; injection H5 as <-|]); try contradiction; try congruence;
    intuition congruence. }
  intros nb r Hnb. destruct (C85_hash_exact T K L 3 w85 g nb ltac:(lia) HT R Hnb) as [l' [nbs [Hw' [Hn [_ Hr]]]]].
  assert (l' = l) by (eapply ViewProof.ewalk_unique; eauto). subst l'. rewrite Hr.
  assert (Q : forall x lx, (x < 3)%N -> dk_neigh K2Ref gr x = Ok lx -> NoDup lx -> Permutation (nbs x) lx).
  { intros x lx Hx Ex Nx. pose proof (sim_neigh 3 K L K2Ref K2Ref_laws g gr x HS Hx) as HN. rewrite (Hn x Hx), Ex in HN.
    apply NoDup_Permutation; auto. destruct (dk_neigh_spec K L 3 ltac:(lia) g sl x I Hx) as [l0 [E0 [N0 _]]]. rewrite (Hn x Hx) in E0. injection E0 as ->. exact N0. }
  rewrite (seen_same l ((0, 1) :: [(1, 2); (2, 0); (1, 1)])%N nbs (fun x => nth (N.to_nat x) [[0]; [2; 1]; [0]]%N [])).
  - reflexivity.
  - unfold l. apply perm_skip. exact Pk.
  - injection W5 as W50 W51 W52.
    intros e He. apply (Permutation_in _ (perm_skip _ Pk)) in He. cbn [In] in He.
    assert (N0 : NoDup [0%N]) by (repeat constructor; cbn; tauto). assert (N1 : NoDup [2; 1]%N) by (repeat constructor; cbn; intuition discriminate).
    destruct He as [<-|[<-|[<-|[<-|[]]]]]; cbn [snd]; (apply Q; [lia|assumption|assumption]).
Qed.
