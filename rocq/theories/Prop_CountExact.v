(** * What count_triangles, count_triangles_dummy and clustering_coefficient return whatever was done before (C85), and on the incremental-union graph
    whatever union is in progress (C88).

    C37, C38 and C79 say it for graphs built by insertions.  Here the graph is what the API shows: the list l of the edges the edge loop visits,
    the lists nbs x that list_neighbour(x) gives, the answers of contains, the number of edges m that get_number_edges reports. *)
From Coq Require Import Reals Lra.
From Verif Require Import Base Spec AlgoSpec Thresholds Table Table2 K2 K2Bits C0 C0Proof DK DKProof DKHist DKGuard DKTotal DKFull DKBisim Prop_DK Iter IterProof Prop_Iter
  Algo AlgoProof TriProof Prop_Algo ViewProof Prop_Cluster Prop_Heavy Prop_AlgoDel
  Bits Union UnionProof UnionMerge UnionEdges Prop_Union Munro MunroProof MunroSerial Prop_Munro MunroView Prop_MunroView Prop_MunroTri.
Open Scope nat_scope.

(** ** Specification *)
(** a is listed with fewer successors than b, or with as many and is the smaller number *)
Definition listed_before (nbs : N -> list N) (a b : N) : bool :=
  (length (nbs a) <? length (nbs b)) || ((length (nbs a) =? length (nbs b)) && (a <? b)%N).
(** at least the square root of m successors are listed *)
Definition listed_big (m : N) (nbs : N -> list N) (v : N) : bool := (m <=? N.of_nat (length (nbs v) * length (nbs v)))%N.
(** For an edge v -> w from a small to a big vertex, v before w: the entries u of the list of v with v before u and u -> w visited. *)
Definition heavy_from (m : N) (l : list edge) (nbs : N -> list N) (e : edge) : nat :=
  if negb (listed_big m nbs (fst e)) && listed_big m nbs (snd e) && listed_before nbs (fst e) (snd e)
  then length (filter (fun u => emem (u, snd e) l && listed_before nbs (fst e) u) (nbs (fst e))) else 0.
(** Each visited edge is taken once. *)
Definition seen_heavy (m : N) (l : list edge) (nbs : N -> list N) : nat := list_sum (map (heavy_from m l nbs) (nodup edge_dec l)).
(** One for each visit of an edge v -> w, no loop, and each u in the list of w such that contains(u, v). *)
Definition dummy_from (has : N -> N -> bool) (nbs : N -> list N) (e : edge) : nat :=
  if N.eqb (fst e) (snd e) then 0 else length (filter (fun u => has u (fst e)) (nbs (snd e))).
Definition seen_dummy (l : list edge) (has : N -> N -> bool) (nbs : N -> list N) : nat := list_sum (map (dummy_from has nbs) l).

(** ** Proofs *)
Lemma sum_perm l l' : Permutation l l' -> list_sum l = list_sum l'.
Proof. induction 1; unfold list_sum in *; cbn [fold_right] in *; lia. Qed.
Lemma of_nat_ltb a b : (N.of_nat a <? N.of_nat b)%N = (a <? b).
Proof. destruct (N.ltb_spec (N.of_nat a) (N.of_nat b)), (Nat.ltb_spec a b); auto; lia. Qed.
Lemma of_nat_eqb a b : N.eqb (N.of_nat a) (N.of_nat b) = (a =? b).
Proof. destruct (N.eqb_spec (N.of_nat a) (N.of_nat b)), (Nat.eqb_spec a b); auto; lia. Qed.

Lemma heavy_fold K g nb t adj l : (forall e, tb_contains nb t e = emem e l) -> forall l2 r, (r < 2 ^ 32)%N ->
  fold_left (heavy_edge K g nb t adj) l2 r = ((r + N.of_nat (list_sum (map (heavy_from (dk_edges K g) l (adj_at adj)) l2))) mod 2 ^ 32)%N.
Proof.
  intros Ht. induction l2 as [|[v1 v2] l2 IH]; intros r Hr; cbn [fold_left map].
  - change (list_sum []) with 0. rewrite N.add_0_r, N.mod_small; auto.
  - change (list_sum (?a :: ?b)) with (a + list_sum b).
    assert (G : heavy_edge K g nb t adj r (v1, v2) = ((r + N.of_nat (heavy_from (dk_edges K g) l (adj_at adj) (v1, v2))) mod 2 ^ 32)%N).
    { assert (Hm : forall a b, minor a (deg_at adj a) b (deg_at adj b) = listed_before (adj_at adj) a b).
      { intros a b. unfold minor, listed_before, deg_at. rewrite of_nat_ltb, of_nat_eqb. reflexivity. }
      assert (Hb : forall a, heavy K g (deg_at adj a) = listed_big (dk_edges K g) (adj_at adj) a).
      { intros a. unfold heavy, listed_big, deg_at. rewrite Nat2N.inj_mul. reflexivity. }
      unfold heavy_edge, heavy_from. cbn [fst snd]. rewrite !Hb, Hm.
      destruct (listed_big _ _ v1), (listed_big _ _ v2); cbn [negb andb]; try (rewrite N.add_0_r, N.mod_small; auto; fail).
      destruct (listed_before _ v1 v2); [|rewrite N.add_0_r, N.mod_small; auto].
      unfold heavy_inner. rewrite count_loop by auto. do 4 f_equal. apply filter_ext. intros u. rewrite Ht, Hm. reflexivity. }
    rewrite G, IH by (apply N.mod_lt; lia). rewrite N.add_mod_idemp_l by lia. f_equal. lia.
Qed.
Lemma table_perm nb l : 0 < nb -> let t := tb_fill nb (tb_new nb) 0 l in
  (forall e, tb_contains nb t e = emem e l) /\ Permutation (map fst (concat t)) (nodup edge_dec l).
Proof.
  intros Hnb t. destruct (tb_fill_spec nb Hnb l (tb_new nb) 0 (tb_wf_new nb)) as [Wt Ht].
  assert (Ht' : forall e, tb_contains nb t e = emem e l).
  { intros e. unfold t. rewrite Ht. unfold tb_contains. rewrite tb_find_new. cbn. apply orb_false_r. }
  split; [exact Ht'|]. apply NoDup_Permutation; [apply (tb_nodup nb); auto|apply NoDup_nodup|].
  intros e. rewrite (tb_In nb Hnb t) by auto. rewrite Ht', emem_In, nodup_In. reflexivity.
Qed.
Lemma heavy_value K g nb l adj : 0 < nb -> let t := tb_fill nb (tb_new nb) 0 l in
  fold_left (heavy_edge K g nb t adj) (map fst (concat t)) 0%N = (N.of_nat (seen_heavy (dk_edges K g) l (adj_at adj)) mod 2 ^ 32)%N.
Proof.
  intros Hnb t. destruct (table_perm nb l Hnb) as [H1 H2]. fold t in H1, H2. rewrite (heavy_fold K g nb t adj l H1) by lia.
  rewrite N.add_0_l. unfold seen_heavy. do 2 f_equal. apply sum_perm, Permutation_map, H2.
Qed.

(** ** C85 *)
Lemma after_all T K (L : k2laws K) n h g : (2 <= n < 2 ^ 31)%N -> th_real T -> reached T K n h g ->
  exists l nbs adj, ewalk K g l /\ (forall e, In e l -> in_range n e) /\ vwalk K g (map Z.of_N (verts n)) /\ adj_fill K g (map Z.of_N (verts n)) [] = Ok adj /\
    adj_at adj = nbs /\ (forall x, (x < n)%N -> dk_neigh K g x = Ok (nbs x)) /\ (forall x, (n <= x)%N -> nbs x = []).
Proof.
  intros Hn HT HR. destruct (C51_edge_iterator_safe T K L n h g HT ltac:(lia) HR) as (live & it & l & _ & _ & _ & Eit & El & Hadd & _).
  pose proof HR as [HF E]. destruct (hist_rel T K L n ltac:(lia) h g HF E) as [sl R]. pose proof (rl_inv _ _ _ _ _ _ R) as I.
  assert (Hs : forall x, (x < n)%N -> exists l0, dk_neigh K g x = Ok l0).
  { intros x Hx. destruct (dk_neigh_spec K L n ltac:(lia) g sl x I Hx) as [l0 [H0 _]]. eauto. }
  destruct (fill_all K g n ltac:(lia) (verts n) (fun v => proj1 (verts_In n v)) (verts_nodup n) (fun v Hv => Hs v (proj1 (verts_In n v) Hv)) []) as [adj [Ea Hadj]].
  exists l, (adj_at adj), adj. split; [exists it; auto|]. split; [|split; [|split; [exact Ea|split; [reflexivity|split]]]].
  - intros e He. apply Hadd in He. rewrite Forall_forall in HF. apply HF in He. exact He.
  - unfold vwalk. rewrite (dv_nv _ _ _ _ _ I), verts_Z. apply IterProof.node_loop_ok. lia.
  - intros x Hx. destruct (Hs x Hx) as [l0 H0]. rewrite H0. f_equal. symmetry. apply (proj1 (Hadj x)); auto. apply verts_In. auto.
  - intros x Hx. unfold adj_at. rewrite (proj2 (Hadj x)); [reflexivity|]. rewrite verts_In. lia.
Qed.

Theorem C85_heavy_exact : forall T K (L : k2laws K) n h g nb,
  (2 <= n < 2 ^ 31)%N -> th_real T -> reached T K n h g -> 0 < nb ->
  exists l nbs, ewalk K g l /\ (forall x, (x < n)%N -> dk_neigh K g x = Ok (nbs x)) /\ (forall x, (n <= x)%N -> nbs x = []) /\
    forall r, triangles_heavy K g nb r <-> r = (N.of_nat (seen_heavy (dk_edges K g) l nbs) mod 2 ^ 32)%N.
Proof.
  intros T K L n h g nb Hn HT HR Hnb. destruct (after_all T K L n h g Hn HT HR) as (l & nbs & adj & Hw & _ & Hvw & Ea & <- & H1 & H2).
  exists l, (adj_at adj). split; [exact Hw|]. split; [exact H1|]. split; [exact H2|]. pose proof (heavy_value K g nb l adj Hnb) as Hv. cbn zeta in Hv. intros r. split.
  - intros [es1 [vs [adj' [W1 [W2 [W3 ->]]]]]]. rewrite (ViewProof.ewalk_unique K g es1 l W1 Hw).
    assert (vs = map Z.of_N (verts n)) by (unfold vwalk, node_loop in *; eapply visits_unique; eauto). subst vs.
    assert (adj' = adj) by congruence. subst adj'. exact Hv.
  - intros ->. exists l, (map Z.of_N (verts n)), adj. repeat (split; [assumption|]). symmetry. exact Hv.
Qed.
Theorem C85_clustering_exact : forall T K (L : k2laws K) n h g nb,
  (2 <= n < 2 ^ 31)%N -> th_real T -> reached T K n h g -> 0 < nb ->
  exists l nbs, ewalk K g l /\ (forall x, (x < n)%N -> dk_neigh K g x = Ok (nbs x)) /\ (forall x, (n <= x)%N -> nbs x = []) /\
    let m := INR (N.to_nat (dk_edges K g)) in
    forall c, clustering K g nb c <-> (2 <= dk_edges K g)%N /\
      c = (INR (N.to_nat (N.of_nat (seen_heavy (dk_edges K g) l nbs) mod 2 ^ 32)) / (m * (m - 1)))%R.
Proof.
  intros T K L n h g nb Hn HT HR Hnb. destruct (C85_heavy_exact T K L n h g nb Hn HT HR Hnb) as (l & nbs & H1 & H2 & H3 & H4).
  exists l, nbs. split; [exact H1|]. split; [exact H2|]. split; [exact H3|]. cbn zeta. intros c. unfold clustering. cbn zeta.
  assert (Hd : (INR (N.to_nat (dk_edges K g)) * (INR (N.to_nat (dk_edges K g)) - 1) <> 0)%R <-> (2 <= dk_edges K g)%N).
  { generalize (dk_edges K g). intros m. split.
    - intros Hd. destruct (N.leb_spec 2 m); auto. exfalso. apply Hd. assert (N.to_nat m = 0 \/ N.to_nat m = 1) as [-> | ->] by lia; cbn; lra.
    - intros Hm. replace (INR (N.to_nat m) - 1)%R with (INR (N.to_nat m - 1)) by (rewrite minus_INR by lia; reflexivity).
      rewrite <- mult_INR. apply not_0_INR. nia. }
  rewrite <- Hd. split.
  - intros [r [G1 [G2 G3]]]. apply H4 in G1. subst r. auto.
  - intros [G1 G2]. eexists. split; [apply H4; reflexivity|]. auto.
Qed.

Theorem C85_dummy_exact : forall T K (L : k2laws K) n h g,
  (2 <= n < 2 ^ 31)%N -> th_real T -> reached T K n h g ->
  exists l nbs has, ewalk K g l /\ (forall x, (x < n)%N -> dk_neigh K g x = Ok (nbs x)) /\
    (forall x y, (x < n)%N -> (y < n)%N -> dk_contains K g x y = Ok (has x y)) /\
    forall r, triangles_dummy K g r <-> r = (N.of_nat (seen_dummy l has nbs) mod 2 ^ 32)%N.
Proof.
  intros T K L n h g Hn HT HR. destruct (after_all T K L n h g Hn HT HR) as (l & nbs & adj & Hw & Hrng & _ & _ & _ & H1 & H2).
  pose proof HR as [HF E]. destruct (hist_rel T K L n ltac:(lia) h g HF E) as [sl R]. pose proof (rl_inv _ _ _ _ _ _ R) as I.
  set (has := fun x y => emem (x, y) (dk_all K g sl)).
  assert (Hh : forall x y, (x < n)%N -> (y < n)%N -> dk_contains K g x y = Ok (has x y)).
  { intros x y Hx Hy. apply (dk_contains_spec K L n g sl x y I). split; auto. }
  exists l, nbs, has. split; [exact Hw|]. split; [exact H1|]. split; [exact Hh|].
  assert (Hnw : forall x, (x < n)%N -> nwalk K g x (map Z.of_N (nbs x)) /\ Forall (fun u => (u < n)%N) (nbs x)).
  { intros x Hx. destruct (C05_neighbour_iterator T K L n h g x ltac:(lia) HR Hx) as [l1 [it1 [E1 [Eb [El _]]]]].
    rewrite (H1 x Hx) in E1. injection E1 as <-. split; [exists it1; auto|]. destruct (dk_neigh_spec K L n ltac:(lia) g sl x I Hx) as [l0 [E0 [_ [S0 _]]]].
    rewrite (H1 x Hx) in E0. injection E0 as <-. apply Forall_forall. intros y Hy. apply S0 in Hy.
    apply (rl_sound _ _ _ _ _ _ R) in Hy. apply (espec_range n h _ HF) in Hy. apply Hy. }
  assert (G : forall l2, (forall e, In e l2 -> in_range n e) -> forall r, (r < 2 ^ 32)%N ->
     dummy_loop K g l2 r ((r + N.of_nat (seen_dummy l2 has nbs)) mod 2 ^ 32)%N).
  { induction l2 as [|[v1 v2] l2 IH]; intros Hl r Hr.
    - change (seen_dummy [] has nbs) with 0. rewrite N.add_0_r, N.mod_small by auto. constructor.
    - destruct (Hl (v1, v2) (or_introl eq_refl)) as [Hv1 Hv2]. cbn [fst snd] in Hv1, Hv2. specialize (IH (fun e He => Hl e (or_intror He))).
      unfold seen_dummy. cbn [map]. change (list_sum (?a :: ?b)) with (a + list_sum b). fold (seen_dummy l2 has nbs). unfold dummy_from at 1. cbn [fst snd].
      destruct (N.eqb_spec v1 v2) as [<-|Hne].
      + constructor. apply IH, Hr.
      + destruct (Hnw v2 Hv2) as [W1 W2].
        pose proof (dummy_inner_spec K g n ltac:(lia) v1 (fun e => has (fst e) (snd e)) (nbs v2) Hv1 W2 Hh r Hr) as Hi. cbn [fst snd] in Hi.
        eapply dl_edge; [exact Hne|exact W1|exact Hi|].
        match goal with |- dummy_loop _ _ _ ?a ?b => replace b with ((a + N.of_nat (seen_dummy l2 has nbs)) mod 2 ^ 32)%N end; [apply IH, N.mod_lt; lia|].
        rewrite N.add_mod_idemp_l by lia. f_equal. lia. }
  specialize (G l Hrng 0%N ltac:(lia)). rewrite N.add_0_l in G. intros r. split.
  - intros [es [W1 W2]]. rewrite (ViewProof.ewalk_unique K g es l W1 Hw) in W2. eapply dummy_loop_unique; eauto.
  - intros ->. exists l. auto.
Qed.

(** ** C88 *)
(** Algorithm.hpp:151-190 instantiated with DKtree_delay_munro *)
Definition mtriangles_heavy (hgt : N -> nat) (g : mg) (nb : nat) (r : N) : Prop :=
  exists es vs adj, ewalk (K2Bits hgt) (mdk hgt g) es /\ vwalk (K2Bits hgt) (mdk hgt g) vs /\ madj_fill g vs [] = Ok adj /\
    let t := tb_fill nb (tb_new nb) 0 es in
    r = fold_left (heavy_edge (K2Bits hgt) (mdk hgt g) nb t adj) (map fst (concat t)) 0%N.
(** Algorithm.hpp:196-199 *)
Definition mclustering (hgt : N -> nat) (g : mg) (nb : nat) (c : R) : Prop :=
  exists r, mtriangles_heavy hgt g nb r /\ let m := INR (N.to_nat (mg_edges g)) in
    (m * (m - 1) <> 0)%R /\ c = (INR (N.to_nat r) / (m * (m - 1)))%R.

Section M.
Context (T : thresholds) (hgt : N -> nat) (HG : forall m, (2 <= m)%N -> 1 <= hgt m /\ (m <= 2 ^ N.of_nat (hgt m))%N) (n : N).
Notation K := (K2Bits hgt).
Context (Hn : (2 <= n < 2 ^ 31)%N).
Theorem C88_heavy_exact : forall h g nb, mreached T hgt n h g -> ~ In (Add (9999999, 9999999)%N) h -> 0 < nb ->
  exists l nbs, ewalk K (mdk hgt g) l /\ (forall x, (x < n)%N -> mg_neigh g x = Ok (nbs x)) /\ (forall x, (n <= x)%N -> nbs x = []) /\
    (forall r, mtriangles_heavy hgt g nb r <-> r = (N.of_nat (seen_heavy (mg_edges g) l nbs) mod 2 ^ 32)%N) /\
    let m := INR (N.to_nat (mg_edges g)) in
    forall c, mclustering hgt g nb c <-> (2 <= mg_edges g)%N /\
      c = (INR (N.to_nat (N.of_nat (seen_heavy (mg_edges g) l nbs) mod 2 ^ 32)) / (m * (m - 1)))%R.
Proof using Hn HG.
  intros h g nb Hr HM Hnb. destruct (C80_busy_partial T hgt HG n Hn h g Hr HM) as [E [[[l [Hw [Hu _]]] _] _]].
  destruct (mvwalk T hgt n Hn h g Hr) as [Hv Hvw].
  destruct (mfill_all g n ltac:(lia) (verts n) (fun v => proj1 (verts_In n v)) (verts_nodup n) (fun v Hv => mneigh_some T hgt n Hn h g v Hr (proj1 (verts_In n v) Hv)) []) as [adj [Ea Hadj]].
  assert (Hnbs : forall x, (x < n)%N -> mg_neigh g x = Ok (adj_at adj x)).
  { intros x Hx. destruct (mneigh_some T hgt n Hn h g x Hr Hx) as [l0 H0]. rewrite H0. f_equal. symmetry. apply (proj1 (Hadj x)); auto. apply verts_In. auto. }
  assert (Hnbs' : forall x, (n <= x)%N -> adj_at adj x = []).
  { intros x Hx. unfold adj_at. rewrite (proj2 (Hadj x)); [reflexivity|]. rewrite verts_In. lia. }
  pose proof (heavy_value K (mdk hgt g) nb l adj Hnb) as Hval. cbn zeta in Hval. change (dk_edges K (mdk hgt g)) with (mg_edges g) in Hval.
  exists l, (adj_at adj). split; [exact Hw|]. split; [exact Hnbs|]. split; [exact Hnbs'|].
  assert (H4 : forall r, mtriangles_heavy hgt g nb r <-> r = (N.of_nat (seen_heavy (mg_edges g) l (adj_at adj)) mod 2 ^ 32)%N).
  { intros r. split.
    - intros [es1 [vs [adj' [W1 [W2 [W3 ->]]]]]]. rewrite (Hu es1 W1).
      assert (vs = map Z.of_N (verts n)) by (unfold vwalk, node_loop in *; eapply visits_unique; eauto). subst vs.
      assert (adj' = adj) by congruence. subst adj'. exact Hval.
    - intros ->. exists l, (map Z.of_N (verts n)), adj. repeat (split; [assumption|]). symmetry. exact Hval. }
  split; [exact H4|]. cbn zeta. intros c. unfold mclustering. cbn zeta.
  assert (Hd : (INR (N.to_nat (mg_edges g)) * (INR (N.to_nat (mg_edges g)) - 1) <> 0)%R <-> (2 <= mg_edges g)%N).
  { generalize (mg_edges g). intros m. split.
    - intros Hd. destruct (N.leb_spec 2 m); auto. exfalso. apply Hd. assert (N.to_nat m = 0 \/ N.to_nat m = 1) as [-> | ->] by lia; cbn; lra.
    - intros Hm. replace (INR (N.to_nat m) - 1)%R with (INR (N.to_nat m - 1)) by (rewrite minus_INR by lia; reflexivity).
      rewrite <- mult_INR. apply not_0_INR. nia. }
  rewrite <- Hd. split.
  - intros [r [G1 [G2 G3]]]. apply H4 in G1. subst r. auto.
  - intros [G1 G2]. eexists. split; [apply H4; reflexivity|]. auto.
Qed.
End M.

(** ** The hypotheses are met, and the numbers are not trivial *)
(** A history with a deletion whose edge the edge loop still visits (C85_refuted); an incremental-union graph (C88_refuted); on the edges and lists of w38h
    the two counts are 1 and 6. *)
Definition nbs_of_list (es : list edge) (x : N) : list N := map snd (filter (fun e => N.eqb (fst e) x) es).
Example C85_exact_example :
  (exists g l, reached th_exact K2Ref 3 w85 g /\ ewalk K2Ref g l /\ In (0, 1)%N l /\ dk_contains K2Ref g 0 1 = Ok false) /\
  (exists g, mreached th_exact lg 8 w88 g) /\ ~ In (Add (9999999, 9999999)%N) w88 /\
  seen_heavy 7 w38h (nbs_of_list w38h) = 1 /\ seen_dummy w38h (fun x y => emem (x, y) w38h) (nbs_of_list w38h) = 6.
Proof.
  split; [|split; [|split; [|split]]].
  - destruct (C85_refuted th_exact K2Ref K2Ref_laws th_real_inhabited K2Ref_query) as (g & l & A & B & C & D & _). exists g, l. auto.
  - destruct (C88_refuted th_exact th_real_inhabited) as (g & A & _). eauto.
  - cbv. intuition congruence.
  - vm_compute. reflexivity.
  - vm_compute. reflexivity.
Qed.
