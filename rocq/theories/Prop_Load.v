(** * Prop_Load: exactly what load makes of any saved graph, any directory and any target (C22, C52, C53).

    DKtree.hpp:347-400.  serialize writes no file for a level without a tree and load leaves a level alone when there is no
    file for it, so trees of earlier snapshots in the directory and of the target survive.  C22 and C53 give conditions under
    which nothing survives; here is what survives in general. *)
From Verif Require Import Base Spec Thresholds Table K2 C0 C0Proof C0Hist DK DKProof DKHist DKGuard DKTotal DKBisim Prop_DK Serial Prop_Serial DelayProof.

Section Load.
Context (T : thresholds) (K : k2impl) (L : k2laws K) (n : N).

(** A directory into which graphs with n vertices have been serialized, one after the other. *)
Inductive saved : dir K -> Prop :=
| saved_none : saved (dir_empty K)
| saved_more d h g ws : saved d -> reached T K n h g -> dk_serialize K g = Ok ws -> saved (writes K d ws).

Definition tree_at (l : list (option (kt K))) (i : nat) : option (kt K) := match nth_error l i with Some (Some t) => Some t | _ => None end.
(** The tree that survives at level i when g has been serialized into d and is loaded into g0: below max_r, at a level where g
    has no tree, that of an older file if there is one, else that of the target; above max_r, that of the target. *)
Definition survives (g : dk K) (d : dir K) (g0 : dk K) (i : nat) : option (kt K) :=
  if i <=? max_r g then
    match tree_at (ks g) i with
    | Some _ => None
    | None => match d (S i) with Some (TreeF t) => Some t | _ => tree_at (ks g0) i end
    end
  else tree_at (ks g0) i.

Definition loaded (g : dk K) (d : dir K) (g0 : dk K) : list (option (kt K)) :=
  map (fun i => if i <=? max_r g then match tree_at (ks g) i with Some t => Some t | None => survives g d g0 i end else survives g d g0 i) (seq 0 RS).
Lemma loaded_nth g d g0 i : nth_error (loaded g d g0) i =
  if i <? RS then Some (if i <=? max_r g then match tree_at (ks g) i with Some t => Some t | None => survives g d g0 i end else survives g d g0 i) else None.
Proof.
  unfold loaded. rewrite nth_error_map. destruct (Nat.ltb_spec i RS) as [H|H].
  - rewrite (nth_error_nth' _ 0) by (rewrite seq_length; lia). rewrite seq_nth by lia. reflexivity.
  - rewrite (proj2 (nth_error_None _ _)); [reflexivity|]. rewrite seq_length. lia.
Qed.

Definition dir_fine (d : dir K) : Prop := forall i, match d (S i) with Some (TreeF t) => wf L n t | Some _ => False | None => True end.
Lemma serialize_parts g ws : dk_serialize K g = Ok ws -> exists im, c0_save (C0_ g) = Ok im /\ max_r g < length (ks g) /\
  ws = tree_writes K 0 (firstn (S (max_r g)) (ks g)) ++ [(0, HeadF (max_r g) (nv g) (nt g) im)].
Proof.
  unfold dk_serialize. destruct (Nat.ltb_spec (max_r g) (length (ks g))); [|discriminate].
  destruct (c0_save (C0_ g)) as [im|]; cbn [obind]; [|discriminate]. intros E. injection E as <-. eauto.
Qed.
Lemma after_writes g ws d i : dk_serialize K g = Ok ws -> writes K d ws (S i) =
  if i <=? max_r g then match tree_at (ks g) i with Some t => Some (TreeF t) | None => d (S i) end else d (S i).
Proof.
  intros E. destruct (serialize_parts g ws E) as [im [_ [_ ->]]]. rewrite writes_app. cbn [writes fold_left fst snd].
  rewrite put_neq by lia. rewrite tree_writes_at. cbn [Nat.ltb Nat.leb]. rewrite Nat.sub_0_r, nth_error_firstn.
  destruct (Nat.leb_spec i (max_r g)); destruct (Nat.ltb_spec i (S (max_r g))); try lia; [|reflexivity].
  unfold tree_at. destruct (nth_error (ks g) i) as [[t|]|]; reflexivity.
Qed.
Lemma tree_wf g i t : ks_wf K L n (ks g) -> tree_at (ks g) i = Some t -> wf L n t.
Proof.
  unfold tree_at. destruct (nth_error (ks g) i) as [[u|]|] eqn:E; try discriminate. intros W G. injection G as <-.
  unfold ks_wf in W. rewrite Forall_forall in W. apply (W (Some u)). eapply nth_error_In; eauto.
Qed.
Lemma saved_fine d : (2 <= n)%N -> saved d -> dir_fine d.
Proof.
  intros Hn. induction 1 as [|d h g ws S IH [HF E] Es]; intros i; [exact I|].
  destruct (hist_rel T K L n Hn h g HF E) as [sl R]. pose proof (rl_inv _ _ _ _ _ _ R) as Iv.
  rewrite (after_writes g ws d i Es). specialize (IH i). destruct (i <=? max_r g); [|exact IH].
  destruct (tree_at (ks g) i) as [t|] eqn:Et; [|exact IH]. eapply tree_wf; eauto. apply Iv.
Qed.

Lemma load_any g sl ws d g0 : dk_inv K L n g sl -> dk_serialize K g = Ok ws -> dir_fine d -> length (ks g0) = RS ->
  exists g', dk_load T K (writes K d ws) g0 = Done g' /\ nt g' = nt g /\ nv g' = nv g /\ max_r g' = max_r g /\
    c0_inv (C0_ g') sl /\ ks g' = loaded g d g0.
Proof.
  intros Iv Es Df Hl0. pose proof (dv_len _ _ _ _ _ Iv) as Hl. pose proof (dv_maxr _ _ _ _ _ Iv) as Hm.
  destruct (serialize_parts g ws Es) as [im [Hs [_ Ews]]].
  assert (Hd : dead_count sl = 0).
  { rewrite (inv_save _ _ (dv_c0 _ _ _ _ _ Iv)) in Hs. destruct (Nat.eqb_spec (dead_count sl) 0); [auto|discriminate]. }
  destruct (inv_load T _ _ _ (dv_c0 _ _ _ _ _ Iv) Hs) as [c' [Ec [Ic' [Hcm Hcv]]]].
  unfold dk_load. assert (H0 : writes K d ws 0 = Some (HeadF (max_r g) (nv g) (nt g) im)).
  { rewrite Ews, writes_app. cbn [writes fold_left fst snd]. apply put_eq. }
  rewrite H0, Ec. cbn [rbind]. rewrite Hl0. destruct (Nat.ltb_spec (max_r g) RS); [|lia].
  rewrite (load_trees_at K _ _ 0 _ (loaded g d g0)).
  - cbn [rbind]. eexists. split; [reflexivity|]. cbn [nt nv max_r C0_ ks]. auto.
  - unfold loaded. rewrite map_length, seq_length. auto.
  - intros j Hj1 Hj2. rewrite loaded_nth. destruct (Nat.ltb_spec j RS); [|lia]. cbn [Nat.add]. rewrite (after_writes g ws d j Es).
    destruct (Nat.leb_spec j (max_r g)); [|lia]. destruct (tree_at (ks g) j) as [t|] eqn:Et; [reflexivity|].
    unfold survives. destruct (Nat.leb_spec j (max_r g)); [|lia]. rewrite Et. specialize (Df j).
    destruct (d (S j)) as [[| t|]|]; try contradiction; [reflexivity|].
    unfold tree_at. destruct (nth_error (ks g0) j) as [[t|]|] eqn:E0; auto. apply nth_error_None in E0. lia.
  - intros j Hj. rewrite loaded_nth. destruct (Nat.ltb_spec j RS).
    + destruct (Nat.leb_spec j (max_r g)); [lia|]. unfold survives. destruct (Nat.leb_spec j (max_r g)); [lia|].
      unfold tree_at. destruct (nth_error (ks g0) j) as [[t|]|] eqn:E0; auto. apply nth_error_None in E0. lia.
    + symmetry. apply nth_error_None. lia.
Qed.

Lemma in_trees l e : In e (ks_edges K l) <-> exists i t, tree_at l i = Some t /\ In e (kt_edges K t).
Proof.
  rewrite <- (inks_edges K). unfold inks, oin, tree_at. split.
  - intros [i [[t|] [H1 H2]]]; [|destruct H2]. exists i, t. rewrite H1. auto.
  - intros [i [t [H1 H2]]]. destruct (nth_error l i) as [[u|]|] eqn:E; try discriminate. injection H1 as ->. exists i, (Some t). auto.
Qed.
Lemma tree_firstn l k i : tree_at (firstn k l) i = if i <? k then tree_at l i else None.
Proof. unfold tree_at. rewrite nth_error_firstn. destruct (i <? k); reflexivity. Qed.
Lemma neigh_trees l x y : ks_wf K L n l -> (x < n)%N -> (In y (ks_neigh K l x) <-> In (x, y) (ks_edges K l)).
Proof.
  intros W Hx. induction l as [|[t|] l IH]; cbn [ks_neigh]; [cbn; tauto| |]; inversion W as [|? ? Wt Wl]; subst.
  - rewrite ks_edges_cons_some, !in_app_iff, (IH Wl), (law_neigh L n t x y Wt Hx). tauto.
  - rewrite ks_edges_cons_none. apply IH; auto.
Qed.

(** The buffer and the trees, of g and of the loaded graph. *)
Lemma load_answers : (2 <= n)%N -> forall h g h0 g0 d ws, reached T K n h g -> reached T K n h0 g0 -> saved d -> dk_serialize K g = Ok ws ->
  exists g', dk_load T K (writes K d ws) g0 = Done g' /\ dk_edges K g' = dk_edges K g /\
    (forall x y, in_range n (x, y) -> exists b l, dk_contains K g' x y = Ok b /\ dk_neigh K g x = Ok l /\
       (b = true <-> In y l \/ exists i t, survives g d g0 i = Some t /\ In (x, y) (kt_edges K t))) /\
    (forall x, (x < n)%N -> exists l l', dk_neigh K g x = Ok l /\ dk_neigh K g' x = Ok l' /\
       forall y, In y l' <-> In y l \/ exists i t, i <= max_r g /\ survives g d g0 i = Some t /\ In (x, y) (kt_edges K t)).
Proof.
  intros Hn h g h0 g0 d ws [HF E] [HF0 E0] Sd Es.
  destruct (hist_rel T K L n Hn h g HF E) as [sl R]. pose proof (rl_inv _ _ _ _ _ _ R) as Iv.
  destruct (hist_rel T K L n Hn h0 g0 HF0 E0) as [sl0 R0]. pose proof (rl_inv _ _ _ _ _ _ R0) as Iv0.
  destruct (load_any g sl ws d g0 Iv Es (saved_fine d Hn Sd) (dv_len _ _ _ _ _ Iv0)) as [g' [El [G1 [G2 [G3 [G4 G5]]]]]].
  pose proof (dv_len _ _ _ _ _ Iv) as Hl. pose proof (dv_maxr _ _ _ _ _ Iv) as Hm.
  assert (Hs : forall i t, survives g d g0 i = Some t -> i < RS).
  { intros i t H. assert (A : tree_at (ks g0) i = Some t -> i < RS).
    { unfold tree_at. intros B. rewrite <- (dv_len _ _ _ _ _ Iv0). apply nth_error_Some. destruct (nth_error (ks g0) i); congruence. }
    unfold survives in H. destruct (Nat.leb_spec i (max_r g)); [lia|auto]. }
  assert (Hw : forall i t, survives g d g0 i = Some t -> wf L n t).
  { intros i t H. pose proof (saved_fine d Hn Sd i) as Dw. assert (A : tree_at (ks g0) i = Some t -> wf L n t) by (apply tree_wf; apply Iv0).
    unfold survives in H. destruct (i <=? max_r g); [|auto]. destruct (tree_at (ks g) i); [discriminate|].
    destruct (d (S i)) as [[| u|]|]; auto. injection H as ->. exact Dw. }
  assert (Ht : forall i, tree_at (loaded g d g0) i = if i <=? max_r g then match tree_at (ks g) i with Some t => Some t | None => survives g d g0 i end else survives g d g0 i).
  { intros i. unfold tree_at at 1. rewrite loaded_nth. destruct (Nat.ltb_spec i RS) as [Hi|Hi].
    - destruct (if i <=? max_r g then _ else _); reflexivity.
    - destruct (Nat.leb_spec i (max_r g)); [lia|]. destruct (survives g d g0 i) as [t|] eqn:Ev; [|reflexivity]. apply Hs in Ev. lia. }
  assert (Hx0 : forall i t, tree_at (ks g) i = Some t -> survives g d g0 i = None \/ max_r g < i).
  { intros i t H. unfold survives. destruct (Nat.leb_spec i (max_r g)); [rewrite H|]; auto. }
  assert (Wl : ks_wf K L n (loaded g d g0)).
  { unfold ks_wf. apply Forall_forall. intros o Ho. apply In_nth_error in Ho. destruct Ho as [i Hi]. destruct o as [t|]; [|exact I].
    assert (Hi' : tree_at (loaded g d g0) i = Some t) by (unfold tree_at; rewrite Hi; reflexivity). rewrite Ht in Hi'.
    destruct (i <=? max_r g); [|eauto]. destruct (tree_at (ks g) i) as [u|] eqn:Eu; [|eauto]. injection Hi' as <-. eapply tree_wf; eauto. apply Iv. }
  (* what list_neighbour of g shows *)
  assert (Ng : forall x, (x < n)%N -> dk_neigh K g x = Ok (rev (succs x (live_edges sl)) ++ ks_neigh K (firstn (S (max_r g)) (ks g)) x)).
  { intros x Hx. unfold dk_neigh. rewrite (inv_neigh _ _ _ (dv_c0 _ _ _ _ _ Iv)). cbn [obind]. rewrite Hl. destruct (Nat.ltb_spec (max_r g) RS); [reflexivity|lia]. }
  assert (Sg : forall x y, (x < n)%N -> (In y (rev (succs x (live_edges sl)) ++ ks_neigh K (firstn (S (max_r g)) (ks g)) x) <->
     In (x, y) (live_edges sl) \/ exists i t, i <= max_r g /\ tree_at (ks g) i = Some t /\ In (x, y) (kt_edges K t))).
  { intros x y Hx. rewrite in_app_iff, <- in_rev, In_succs, neigh_trees by (auto; apply ks_wf_firstn, Iv). rewrite in_trees. split; (intros [G|[i [t G]]]; [left; exact G|right]).
    - rewrite tree_firstn in G. destruct (Nat.ltb_spec i (S (max_r g))); [|destruct G; discriminate]. exists i, t. split; [lia|exact G].
    - exists i, t. rewrite tree_firstn. destruct (Nat.ltb_spec i (S (max_r g))); [apply G|lia]. }
  exists g'. split; [exact El|]. split; [exact G1|]. split.
  - intros x y Hr. exists (emem (x, y) (live_edges sl) || ks_adj K (loaded g d g0) x y), (rev (succs x (live_edges sl)) ++ ks_neigh K (firstn (S (max_r g)) (ks g)) x).
    split; [|split; [apply Ng, Hr|]].
    + unfold dk_contains. rewrite (inv_contains _ _ _ G4). cbn [obind]. rewrite G5. destruct (emem _ _); reflexivity.
    + rewrite orb_true_iff, emem_In, (ks_adj_spec K L n) by auto. rewrite Sg by apply Hr. rewrite in_trees. split.
      * intros [G|[i [t [G6 G7]]]]; [tauto|]. rewrite Ht in G6. destruct (Nat.leb_spec i (max_r g)).
        -- destruct (tree_at (ks g) i) as [u|] eqn:Eu; [injection G6 as ->; left; right; eauto|right; eauto].
        -- right; eauto.
      * intros [[G|[i [t [G6 [G7 G8]]]]]|[i [t [G6 G7]]]]; [tauto| |]; right; exists i, t; rewrite Ht.
        -- destruct (Nat.leb_spec i (max_r g)); [|lia]. rewrite G7. auto.
        -- destruct (Nat.leb_spec i (max_r g)); [|auto]. destruct (tree_at (ks g) i) as [u|] eqn:Eu; [|auto].
           destruct (Hx0 i u Eu) as [Z|Z]; [congruence|lia].
  - intros x Hx. exists (rev (succs x (live_edges sl)) ++ ks_neigh K (firstn (S (max_r g)) (ks g)) x), (rev (succs x (live_edges sl)) ++ ks_neigh K (firstn (S (max_r g)) (loaded g d g0)) x).
    split; [apply Ng, Hx|]. split.
    + unfold dk_neigh. rewrite (inv_neigh _ _ _ G4). cbn [obind]. rewrite G3, G5. assert (length (loaded g d g0) = RS) by (unfold loaded; rewrite map_length, seq_length; reflexivity).
      destruct (Nat.ltb_spec (max_r g) (length (loaded g d g0))); [reflexivity|lia].
    + intros y. rewrite Sg by auto. rewrite in_app_iff, <- in_rev, In_succs, neigh_trees by (auto; apply ks_wf_firstn, Wl). rewrite in_trees. split.
      * intros [G|[i [t [G6 G7]]]]; [tauto|]. rewrite tree_firstn in G6. destruct (Nat.ltb_spec i (S (max_r g))); [|discriminate]. rewrite Ht in G6.
        destruct (Nat.leb_spec i (max_r g)); [|lia]. destruct (tree_at (ks g) i) as [u|] eqn:Eu; [injection G6 as ->; left; right; eauto|right; eauto].
      * intros [[G|[i [t [G6 [G7 G8]]]]]|[i [t [G6 [G7 G8]]]]]; [tauto| |]; right; exists i, t; rewrite tree_firstn, Ht;
          (destruct (Nat.ltb_spec i (S (max_r g))); [|lia]); (destruct (Nat.leb_spec i (max_r g)); [|lia]).
        -- rewrite G7. auto.
        -- destruct (tree_at (ks g) i) as [u|] eqn:Eu; [|auto]. destruct (Hx0 i u Eu) as [Z|Z]; [congruence|lia].
Qed.
End Load.

(** C53, C22: what the loaded graph answers, for any histories (deletions included) of the graph saved, of the target and of
    the graphs serialized into the directory before: to the edges list_neighbour shows of the graph saved are added those of
    the trees that survive -- in contains all of them, in list_neighbour those at levels up to max_r. *)
Theorem C53_load_exact : forall T K (L : k2laws K) n h g h0 g0 d ws,
  (2 <= n)%N -> reached T K n h g -> reached T K n h0 g0 -> saved T K n d -> dk_serialize K g = Ok ws ->
  exists g', dk_load T K (writes K d ws) g0 = Done g' /\ dk_edges K g' = dk_edges K g /\
    (forall x y, in_range n (x, y) -> exists b l, dk_contains K g' x y = Ok b /\ dk_neigh K g x = Ok l /\
       (b = true <-> In y l \/ exists i t, survives K g d g0 i = Some t /\ In (x, y) (kt_edges K t))) /\
    (forall x, (x < n)%N -> exists l l', dk_neigh K g x = Ok l /\ dk_neigh K g' x = Ok l' /\
       forall y, In y l' <-> In y l \/ exists i t, i <= max_r g /\ survives K g d g0 i = Some t /\ In (x, y) (kt_edges K t)).
Proof. intros T K L n h g h0 g0 d ws Hn R R0 Sd Es. eapply (load_answers T K L n Hn); eauto. Qed.

(** For a graph built by insertions: serialize is defined, and the loaded graph is right if and only if every edge of a surviving
    tree was inserted. *)
Theorem C53_replaces_iff : forall T K (L : k2laws K) n es g h0 g0 d,
  th_top T -> (2 <= n)%N -> Forall (in_range n) es -> dk_hist T K n (map Add es) = Done g -> reached T K n h0 g0 -> saved T K n d ->
  exists ws g', dk_serialize K g = Ok ws /\ dk_load T K (writes K d ws) g0 = Done g' /\
    ((forall x y, in_range n (x, y) -> (dk_contains K g' x y = Ok true <-> In (x, y) es)) <->
     (forall i t e, survives K g d g0 i = Some t -> In e (kt_edges K t) -> In e es)).
Proof.
  intros T K L n es g h0 g0 d HT Hn HF E R0 Sd.
  destruct (hist_insert T K L n Hn es HT HF) as [g1 [sl [E1 R]]]. rewrite E in E1. injection E1 as <-.
  assert (Rg : reached T K n (map Add es) g) by (split; [rewrite Forall_map; eapply Forall_impl; [|exact HF]; auto|exact E]).
  destruct (relI_reload T K L n g sl _ (dir_empty K) (mkdk (max_r g) (nv g) (nt g) (C0_ g) (repeat None RS)) Hn R) as [ws [_ [Es _]]].
  { apply no_stale_fresh. reflexivity. }
  destruct (C53_load_exact T K L n (map Add es) g h0 g0 d ws Hn Rg R0 Sd Es) as [g' [El [_ [Hc _]]]].
  exists ws, g'. split; [exact Es|]. split; [exact El|].
  assert (Hb : forall x y, in_range n (x, y) -> (dk_contains K g' x y = Ok true <->
     In (x, y) es \/ exists i t, survives K g d g0 i = Some t /\ In (x, y) (kt_edges K t))).
  { intros x y Hr. destruct (Hc x y Hr) as [b [l [G1 [G2 G3]]]]. rewrite G1.
    destruct (C04_neighbours_after_inserts T K L n es x HT Hn HF (proj1 Hr)) as [g2 [l2 [F1 [F2 [_ F3]]]]].
    assert (g2 = g) by congruence. subst g2. assert (l2 = l) by congruence. subst l2. rewrite F3 in G3. rewrite <- G3.
    split; [intros Z; injection Z as ->; reflexivity|intros ->; reflexivity]. }
  split.
  - intros H i t [x y] Hs Hi. assert (Hr : in_range n (x, y)).
    { destruct R0 as [HF0 E0]. destruct (hist_rel T K L n Hn h0 g0 HF0 E0) as [sl0 R0']. pose proof (rl_inv _ _ _ _ _ _ R0') as Iv0.
      assert (W : wf L n t).
      { pose proof (saved_fine T K L n d Hn Sd i) as Dw. assert (A : tree_at K (ks g0) i = Some t -> wf L n t) by (apply tree_wf; apply Iv0).
        unfold survives in Hs. destruct (i <=? max_r g); [|auto]. destruct (tree_at K (ks g) i); [discriminate|].
        destruct (d (S i)) as [[| u|]|]; auto. injection Hs as ->. exact Dw. }
      exact (law_edges_range L n t (x, y) W Hi). }
    apply (H x y Hr). apply Hb; auto. right. eauto.
  - intros H x y Hr. rewrite Hb by auto. split; [intros [G|[i [t [G1 G2]]]]; eauto|auto].
Qed.

(** A tree of the target survives, one of an earlier snapshot too. *)
Example C53_exact_example : exists g g0 ws0 i t, reached th_exact K2Ref 8 (map Add s22b) g /\ reached th_exact K2Ref 8 (map Add s22a) g0 /\
  dk_serialize K2Ref g0 = Ok ws0 /\ saved th_exact K2Ref 8 (writes K2Ref (dir_empty K2Ref) ws0) /\
  survives K2Ref g (dir_empty K2Ref) g0 i = Some t /\ survives K2Ref g (writes K2Ref (dir_empty K2Ref) ws0) g i = Some t /\
  In (0, 1)%N (kt_edges K2Ref t) /\ ~ In (0, 1)%N s22b.
Proof.
  assert (E : exists g g0 ws0, dk_hist th_exact K2Ref 8 (map Add s22b) = Done g /\ dk_hist th_exact K2Ref 8 (map Add s22a) = Done g0 /\
    dk_serialize K2Ref g0 = Ok ws0 /\
    exists i t, survives K2Ref g (dir_empty K2Ref) g0 i = Some t /\ survives K2Ref g (writes K2Ref (dir_empty K2Ref) ws0) g i = Some t /\
    In (0, 1)%N (kt_edges K2Ref t)).
  { rewrite <- (tabled_eq th_exact th_real_inhabited). do 3 eexists. split; [vm_compute; reflexivity|]. split; [vm_compute; reflexivity|].
    split; [vm_compute; reflexivity|]. exists 1. eexists. split; [vm_compute; reflexivity|]. split; [vm_compute; reflexivity|]. vm_compute. auto 30. }
  destruct E as (g & g0 & ws0 & E1 & E2 & E3 & i & t & E4 & E5 & E6). exists g, g0, ws0, i, t.
  assert (R : reached th_exact K2Ref 8 (map Add s22a) g0) by (split; [ranges|exact E2]).
  split; [split; [ranges|exact E1]|]. split; [exact R|]. split; [exact E3|]. split; [eapply saved_more; [apply saved_none|exact R|exact E3]|].
  split; [exact E4|]. split; [exact E5|]. split; [exact E6|]. vm_compute. intuition discriminate.
Qed.
