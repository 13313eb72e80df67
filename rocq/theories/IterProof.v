(** * IterProof: what the loops over the iterators see. *)
From Verif Require Import Base Spec Thresholds K2 C0 C0Proof DK DKProof DKHist Iter.

Lemma visits_cons {S V} (ae : S -> bool) (val : S -> V) nxt it it' v l : ae it = false -> val it = v ->
  nxt it = Ok it' -> visits ae val nxt it' l -> visits ae val nxt it (v :: l).
Proof. intros H1 <- H2 H3. eapply visits_step; eauto. Qed.

(** ** Neighbour iterators *)
Section Neigh.
Context (K : k2impl).
Local Notation dk := (dk K).
Local Notation ktree := (kt K).

Lemma to_int_id z : (0 <= z < 2 ^ 31)%Z -> to_int z = z.
Proof.
  intros H. unfold to_int. rewrite Z.mod_small by lia. destruct (Z.ltb_spec z (2 ^ 31)); lia.
Qed.
Lemma to_int_neg1 z : (0 <= z < 2 ^ 32 - 1)%Z -> to_int z <> (-1)%Z.
Proof.
  intros H. unfold to_int. rewrite Z.mod_small by lia. destruct (Z.ltb_spec z (2 ^ 31)); lia.
Qed.
Definition v_int (v : N) : Z := to_int (Z.of_N v).

Lemma c0_loop_walk c : forall fuel k l e, chain_walk c fuel k = Ok l -> node_at c k = Ok e ->
  c0_loop c (mkc0it (Z.of_N (snd e)) k) (map Z.of_N l).
Proof.
  induction fuel as [|f IH]; intros k l e; cbn [chain_walk]; [discriminate|].
  intros H He. rewrite He in H; cbn [obind] in H.
  destruct (get (c_els c) k) as [d|] eqn:Ed; [cbn [obind] in H|discriminate].
  assert (Hp : Z.eqb (Z.of_N (snd e)) (-1) = false) by (apply Z.eqb_neq; lia).
  destruct (nx d) as [q|] eqn:Eq.
  - destruct (chain_walk c f q) as [l'|] eqn:Ec; [cbn [obind] in H|discriminate].
    inversion H; subst l. cbn [map].
    destruct f as [|f']; [discriminate|].
    assert (exists e', node_at c q = Ok e') as [e' He'].
    { cbn [chain_walk] in Ec. destruct (node_at c q); [eauto|discriminate]. }
    eapply visits_cons with (it' := mkc0it (Z.of_N (snd e')) q); [exact Hp|reflexivity| |apply IH; auto].
    unfold c0it_post; cbn [ci_ptr]. rewrite Hp. unfold c0it_next; cbn [ci_k]. rewrite Ed; cbn [obind].
    rewrite Eq, He'. reflexivity.
  - inversion H; subst l. cbn [map].
    eapply visits_cons with (it' := mkc0it (-1) k); [exact Hp|reflexivity| |constructor; reflexivity].
    unfold c0it_post; cbn [ci_ptr]. rewrite Hp. unfold c0it_next; cbn [ci_k]. rewrite Ed; cbn [obind].
    rewrite Eq. reflexivity.
Qed.

Lemma chain_walk_node c fuel k l : chain_walk c fuel k = Ok l -> exists e, node_at c k = Ok e.
Proof. destruct fuel; cbn [chain_walk]; [discriminate|]. destruct (node_at c k); [eauto|discriminate]. Qed.

(** The buffer's own iterator sees what list_neighbours returns. *)
Lemma c0_loop_ok c x l : c0_neigh c x = Ok l -> exists it, c0it_begin c x = Ok it /\ c0_loop c it (map Z.of_N l).
Proof.
  unfold c0_neigh, c0it_begin. destruct (nget x (c_adj c)) as [k|].
  - destruct (c_els c) eqn:Eels.
    + intros H; inversion H; subst. eexists; split; [reflexivity|]. constructor; reflexivity.
    + intros H. destruct (chain_walk_node _ _ _ _ H) as [e He]. rewrite He; cbn [obind].
      eexists; split; [reflexivity|]. eapply c0_loop_walk; eauto.
  - intros H; inversion H; subst. eexists; split; [reflexivity|]. constructor; reflexivity.
Qed.

Lemma scan_n_spec x : forall (l : list (option ktree)) i,
  match scan_n K l x i with
  | None => ks_neigh K l x = []
  | Some (j, r) => r <> [] /\ i <= j < i + length l /\ ks_neigh K l x = r ++ ks_neigh K (skipn (S j - i) l) x
  end.
Proof.
  induction l as [|[t|] l IH]; intros i; cbn [scan_n ks_neigh]; auto.
  - destruct (kt_neigh K t x) as [|v r] eqn:E.
    + specialize (IH (S i)). destruct (scan_n K l x (S i)) as [[j r]|]; cbn [app]; auto.
      destruct IH as (H1 & H2 & H3). cbn [length]. split; auto. split; [lia|]. rewrite H3.
      replace (S j - i) with (S (S j - S i)) by lia. reflexivity.
    + cbn [length]. split; [discriminate|]. split; [lia|]. replace (S i - i) with 1 by lia. reflexivity.
  - specialize (IH (S i)). destruct (scan_n K l x (S i)) as [[j r]|]; auto.
    destruct IH as (H1 & H2 & H3). cbn [length]. split; auto. split; [lia|]. rewrite H3.
    replace (S j - i) with (S (S j - S i)) by lia. reflexivity.
Qed.

Lemma skipn_skipn' {A} (l : list A) : forall a b, skipn a (skipn b l) = skipn (b + a) l.
Proof. intros a b; revert l; induction b as [|b IH]; intros l; cbn; auto. destruct l; [apply skipn_nil|]. apply IH. Qed.

Definition small (v : N) : Prop := (v < 2 ^ 32 - 1)%N.
Lemma small_neg1 v : small v -> Z.eqb (v_int v) (-1) = false.
Proof. unfold small, v_int; intros H. apply Z.eqb_neq, to_int_neg1. lia. Qed.

Lemma tree_loop g x ci : max_r g < length (ks g) -> forall len i v r,
  length (r ++ ks_neigh K (skipn (S i) (upto K g)) x) <= len ->
  Forall small ((v :: r) ++ ks_neigh K (skipn (S i) (upto K g)) x) ->
  neigh_loop K g x (mknit (v_int v) ci false (Some i) (v :: r))
    (map v_int ((v :: r) ++ ks_neigh K (skipn (S i) (upto K g)) x)).
Proof.
  intros Hmax. induction len as [|len IH]; intros i v r Hlen HF; cbn [app] in *.
  - rewrite app_length in Hlen. destruct r; [cbn [length] in Hlen; cbn [app] in *|cbn [length] in Hlen; lia].
    destruct (ks_neigh K (skipn (S i) (upto K g)) x) eqn:E; [|cbn [length] in Hlen; lia].
    inversion HF; subst. cbn [map]. eapply visits_cons with (it' := mknit (-1) ci false (Some (S (max_r g))) []); [apply small_neg1; auto|reflexivity| |constructor; reflexivity].
    unfold nit_next; cbn [ni_c0i ni_cur ni_kit ni_c0].
    apply Nat.ltb_lt in Hmax; rewrite Hmax.
    pose proof (scan_n_spec x (skipn (S i) (upto K g)) (S i)) as Hs.
    destruct (scan_n K (skipn (S i) (upto K g)) x (S i)) as [[j r]|]; [|reflexivity].
    destruct Hs as (Hs & _ & He). rewrite E in He. destruct r; [congruence|discriminate].
  - assert (Hv := Forall_inv HF). assert (HF' := Forall_inv_tail HF). cbn [map].
    assert (Hlt : (max_r g <? length (ks g)) = true) by (apply Nat.ltb_lt; auto).
    destruct r as [|w r].
    + cbn [app] in *. pose proof (scan_n_spec x (skipn (S i) (upto K g)) (S i)) as Hs.
      destruct (scan_n K (skipn (S i) (upto K g)) x (S i)) as [[j r]|] eqn:Es.
      * destruct Hs as (Hs & Hj & He). destruct r as [|w r]; [congruence|].
        rewrite skipn_skipn' in He. replace (S i + (S j - S i)) with (S j) in He by lia. rewrite He in *.
        eapply visits_cons; [apply small_neg1; auto|reflexivity| |apply (IH j w r); auto; cbn [length app] in *; lia].
        unfold nit_next; cbn [ni_c0i ni_cur ni_kit ni_c0]. rewrite Hlt, Es. reflexivity.
      * rewrite Hs. cbn [map]. eapply visits_cons with (it' := mknit (-1) ci false (Some (S (max_r g))) []); [apply small_neg1; auto|reflexivity| |constructor; reflexivity].
        unfold nit_next; cbn [ni_c0i ni_cur ni_kit ni_c0]. rewrite Hlt, Es. reflexivity.
    + eapply visits_cons; [apply small_neg1; auto|reflexivity| |apply (IH i w r); auto; cbn [length app] in *; lia].
      unfold nit_next; cbn [ni_c0i ni_cur ni_kit ni_c0]. rewrite Hlt. reflexivity.
Qed.

Definition from_start (g : dk) (x : N) (ci : c0it) : nit :=
  match scan_n K (upto K g) x 0 with
  | Some (i, r) => mknit (to_int (Z.of_N (hd 0%N r))) ci false (Some i) r
  | None => mknit (-1) ci false (Some (S (max_r g))) []
  end.

Lemma from_start_loop g x ci : max_r g < length (ks g) -> Forall small (ks_neigh K (upto K g) x) ->
  neigh_loop K g x (from_start g x ci) (map v_int (ks_neigh K (upto K g) x)).
Proof.
  intros Hm HF. unfold from_start. pose proof (scan_n_spec x (upto K g) 0) as Hs.
  destruct (scan_n K (upto K g) x 0) as [[i r]|].
  - destruct Hs as (H1 & H2 & H3). rewrite Nat.sub_0_r in H3. destruct r as [|v r]; [congruence|].
    rewrite H3 in *. eapply tree_loop; eauto.
  - rewrite Hs. constructor; reflexivity.
Qed.

Lemma c0_phase g x : max_r g < length (ks g) -> Forall small (ks_neigh K (upto K g) x) ->
  forall ci l, c0_loop (C0_ g) ci l -> Forall (fun z => exists v, z = Z.of_N v /\ small v) l -> l <> [] ->
  neigh_loop K g x (mknit (to_int (ci_ptr ci)) ci true None []) (map to_int l ++ map v_int (ks_neigh K (upto K g) x)).
Proof.
  intros Hm HFt ci l Hl. induction Hl as [it He|it it' l He Hn Hl IH]; intros HF Hne; [congruence|].
  inversion HF as [|? ? [v [Ev Hv]] HF']; subst. cbn [map app].
  assert (Hlt : (max_r g <? length (ks g)) = true) by (apply Nat.ltb_lt; auto).
  assert (Hx : forall it'' l', nit_next K g x (mknit (to_int (ci_ptr it)) it true None []) = Ok it'' ->
      neigh_loop K g x it'' l' ->
      neigh_loop K g x (mknit (to_int (ci_ptr it)) it true None []) (to_int (ci_ptr it) :: l')).
  { intros it'' l' A B. eapply visits_cons; eauto.
    unfold nit_at_end; cbn [ni_ptr]. rewrite Ev. apply small_neg1; auto. }
  inversion Hl as [? He'|? it2 l2 He' Hn' Hl']; subst.
  - eapply Hx; [|apply from_start_loop with (ci := it'); auto].
    unfold nit_next; cbn [ni_c0i ni_c0 ni_cur ni_kit]. rewrite Hn; cbn [obind]. rewrite He'; cbn [negb].
    rewrite Hlt. unfold from_start. destruct (scan_n K (upto K g) x 0) as [[i r]|]; reflexivity.
  - eapply Hx; [|apply IH; auto; discriminate].
    unfold nit_next; cbn [ni_c0i ni_c0 ni_cur ni_kit]. rewrite Hn; cbn [obind]. rewrite He'; cbn [negb]. reflexivity.
Qed.

(** The loop over the neighbour iterator sees the list of list_neighbour. *)
Lemma neigh_loop_ok g x l : dk_neigh K g x = Ok l -> Forall small l ->
  exists it, nit_begin K g x = Ok it /\ neigh_loop K g x it (map v_int l).
Proof.
  unfold dk_neigh. destruct (c0_neigh (C0_ g) x) as [l0|] eqn:E0; [cbn [obind]|discriminate].
  destruct (Nat.ltb_spec (max_r g) (length (ks g))) as [Hm|]; [|discriminate].
  intros H HF; inversion H; subst l; clear H.
  apply Forall_app in HF; destruct HF as [HF0 HF1].
  destruct (c0_loop_ok _ _ _ E0) as [ci [Eci Hci]].
  unfold nit_begin. rewrite Eci; cbn [obind]. rewrite map_app.
  destruct l0 as [|v l0].
  - inversion Hci as [? He|]; subst. rewrite He; cbn [negb map app].
    apply Nat.ltb_lt in Hm as Hm'. rewrite Hm'.
    exists (from_start g x ci). split; [|apply from_start_loop; auto].
    unfold from_start. destruct (scan_n K (upto K g) x 0) as [[i r]|]; reflexivity.
  - assert (He : Z.eqb (ci_ptr ci) (-1) = false) by (inversion Hci; auto).
    rewrite He; cbn [negb]. eexists; split; [reflexivity|].
    change (map v_int (v :: l0)) with (map (fun w => to_int (Z.of_N w)) (v :: l0)).
    rewrite <- (map_map Z.of_N to_int). apply c0_phase; auto; [|discriminate].
    apply Forall_forall. intros z Hz. apply in_map_iff in Hz. destruct Hz as [w [<- Hw]].
    exists w; split; auto. rewrite Forall_forall in HF0; auto.
Qed.

Lemma dk_neigh_it_eq g x : dk_neigh_it K g x = dk_neigh K g x.
Proof. reflexivity. Qed.
End Neigh.

(** ** Node iterator *)
Lemma node_loop_from s : forall k i, (0 <= i)%Z -> (i + Z.of_nat k = s)%Z ->
  forall j, j = i -> (0 < k)%nat -> node_loop (mkvit j s) (map (fun m => (i + Z.of_nat m)%Z) (seq 0 k)).
Proof.
  induction k as [|k IH]; intros i Hi Hs j -> Hk; [lia|]. cbn [seq map]. rewrite Z.add_0_r.
  assert (E : Z.eqb i (-1) = false) by (apply Z.eqb_neq; lia).
  destruct k as [|k].
  - eapply visits_cons with (it' := mkvit (-1) s); [exact E|reflexivity| |constructor; reflexivity].
    unfold vit_next; cbn [vi_size vi_ptr]. destruct (Z.leb_spec (s - 1) i); [reflexivity|lia].
  - eapply visits_cons with (it' := mkvit (i + 1) s); [exact E|reflexivity| |].
    + unfold vit_next; cbn [vi_size vi_ptr]. rewrite E. destruct (Z.leb_spec (s - 1) i); [lia|reflexivity].
    + rewrite <- seq_shift, map_map.
      replace (map (fun m => (i + Z.of_nat (S m))%Z) (seq 0 (S k))) with (map (fun m => (i + 1 + Z.of_nat m)%Z) (seq 0 (S k))).
      * apply IH; lia.
      * apply map_ext; intros; lia.
Qed.

Lemma node_loop_ok n : (n < 2 ^ 31)%N -> node_loop (vit_begin n) (map Z.of_nat (seq 0 (N.to_nat n))).
Proof.
  intros H. unfold vit_begin. rewrite to_int_id by lia. destruct (Z.ltb_spec 0 (Z.of_N n)).
  - replace (map Z.of_nat (seq 0 (N.to_nat n))) with (map (fun m => (0 + Z.of_nat m)%Z) (seq 0 (N.to_nat n))).
    + apply node_loop_from; lia.
    + apply map_ext; intros; lia.
  - replace (N.to_nat n) with 0 by lia. constructor; reflexivity.
Qed.

(** ** Edge iterator *)
Lemma skipn_cut {A} (l : list A) : forall q a, nth_error l q = Some a -> skipn q l = a :: skipn (S q) l.
Proof. induction l as [|b l IH]; intros [|q] a H; cbn in *; try discriminate; [congruence|]. apply IH; auto. Qed.

Section Edges.
Context (K : k2impl).
Local Notation dk := (dk K).
Local Notation ktree := (kt K).

(** The part of a sequence before the first (9999999, 9999999). *)
Fixpoint before_max (l : list edge) : list edge :=
  match l with [] => [] | e :: l => if eeqb e MAXE then [] else e :: before_max l end.
Lemma before_max_id l : ~ In MAXE l -> before_max l = l.
Proof.
  induction l as [|e l IH]; cbn [before_max]; intros H; auto.
  destruct (eeqb e MAXE) eqn:E.
  - apply eeqb_eq in E; subst. exfalso; apply H; left; auto.
  - f_equal. apply IH. intros A; apply H; right; auto.
Qed.

Definition ks_full (l : list (option ktree)) : Prop := forall t, In (Some t) l -> kt_edges K t <> [].

Lemma scan_spec : forall (l : list (option ktree)) i,
  match scan K l i with
  | None => ks_edges K l = []
  | Some j => exists t, i <= j < i + length l /\ nth_error l (j - i) = Some (Some t) /\
                        ks_edges K l = kt_edges K t ++ ks_edges K (skipn (S j - i) l)
  end.
Proof.
  induction l as [|[t|] l IH]; intros i; cbn [scan]; auto.
  - exists t. cbn [length]. rewrite Nat.sub_diag. replace (S i - i) with 1 by lia. split; [lia|]. split; reflexivity.
  - specialize (IH (S i)). destruct (scan K l (S i)) as [j|]; [|exact IH].
    destruct IH as (t & Hj & Hn & He). exists t. cbn [length]. split; [lia|].
    replace (j - i) with (S (j - S i)) by lia. replace (S j - i) with (S (S j - S i)) by lia.
    split; auto.
Qed.

Lemma edge_cons (it it' : eit K) l : (eeqb (ei_ptr it) MAXE = false -> eit_next K it = Ok it') ->
  (eeqb (ei_ptr it) MAXE = false -> edge_loop K it' (before_max l)) ->
  edge_loop K it (before_max (ei_ptr it :: l)).
Proof.
  intros H1 H2. cbn [before_max]. destruct (eeqb (ei_ptr it) MAXE) eqn:E.
  - constructor; exact E.
  - eapply visits_cons; [exact E|reflexivity|apply H1; auto|apply H2; auto].
Qed.

Lemma edge_end (it : eit K) : ei_ptr it = MAXE -> edge_loop K it [].
Proof. intros H. constructor. unfold eit_at_end. rewrite H. reflexivity. Qed.

Lemma etree_loop (c : c0) (l : list (option ktree)) dist : length l = RS -> ks_full l ->
  (Z.of_nat (c0_size c) <= dist)%Z ->
  forall len i q curr e r,
  length (r ++ ks_edges K (skipn (S q) l)) <= len ->
  i <= q -> scan K (skipn i l) i = Some q ->
  nth_error curr q = Some (e :: r) -> length curr = length l ->
  (forall j, q < j -> nth_error curr j = option_map (tree_begin K) (nth_error l j)) ->
  edge_loop K (mkeit c l e dist curr i) (before_max ((e :: r) ++ ks_edges K (skipn (S q) l))).
Proof.
  intros Hl Hfull Hd. assert (Hd' : (dist <? Z.of_nat (c0_size c))%Z = false) by (apply Z.ltb_ge; lia).
  induction len as [|len IH]; intros i q curr e r Hlen Hiq Hscan Hq Hcl Hrest; cbn [app].
  - rewrite app_length in Hlen. destruct r; [|cbn [length] in Hlen; lia].
    destruct (ks_edges K (skipn (S q) l)) eqn:E; [|cbn [length] in Hlen; lia]. cbn [app].
    apply (edge_cons (mkeit c l e dist curr i) (mkeit c l MAXE dist (upd curr q []) RS) []); intros _.
    + unfold eit_next; cbn [ei_c0 ei_ks ei_dist ei_curr ei_i]. rewrite Hd', Hscan.
      rewrite (proj2 (get_Ok _ _ _) Hq); cbn [obind].
      pose proof (scan_spec (skipn (S q) l) (S q)) as Hs. destruct (scan K (skipn (S q) l) (S q)) as [j|]; [|reflexivity].
      destruct Hs as (t & _ & Hn & He). rewrite E in He. exfalso.
      apply (Hfull t); [|destruct (kt_edges K t); [reflexivity|discriminate]].
      apply nth_error_In in Hn. rewrite <- (firstn_skipn (S q) l), in_app_iff; auto.
    + apply edge_end; reflexivity.
  - destruct r as [|e' r].
    + cbn [app]. pose proof (scan_spec (skipn (S q) l) (S q)) as Hs.
      destruct (scan K (skipn (S q) l) (S q)) as [j|] eqn:Es.
      * destruct Hs as (t & Hj & Hn & He). rewrite skipn_length in Hj.
        assert (Hnj : nth_error l j = Some (Some t)).
        { rewrite <- Hn, nth_error_skipn'. f_equal. lia. }
        rewrite skipn_skipn' in He. replace (S q + (S j - S q)) with (S j) in He by lia.
        assert (Hne : kt_edges K t <> []) by (apply Hfull; eapply nth_error_In; eauto).
        destruct (kt_edges K t) as [|e' r'] eqn:Et; [congruence|].
        assert (Hcj : nth_error (upd curr q []) j = Some (e' :: r')).
        { rewrite nth_error_upd_neq by lia. rewrite Hrest by lia. rewrite Hnj; cbn [option_map tree_begin]. rewrite Et; auto. }
        rewrite He in *.
        apply (edge_cons (mkeit c l e dist curr i) (mkeit c l e' dist (upd curr q []) j)); intros _.
        -- unfold eit_next; cbn [ei_c0 ei_ks ei_dist ei_curr ei_i]. rewrite Hd', Hscan.
           rewrite (proj2 (get_Ok _ _ _) Hq); cbn [obind]. rewrite Es. unfold tree_deref.
           rewrite (proj2 (get_Ok _ _ _) Hcj). reflexivity.
        -- apply (IH j j (upd curr q []) e' r'); auto.
           ++ cbn [length app] in Hlen. lia.
           ++ pose proof (scan_spec (skipn (S q) l) (S q)) as Hs. rewrite Es in Hs.
              rewrite (skipn_cut _ _ _ Hnj). reflexivity.
           ++ rewrite length_upd; auto.
           ++ intros m Hm. rewrite nth_error_upd_neq by lia. apply Hrest; lia.
      * rewrite Hs. apply (edge_cons (mkeit c l e dist curr i) (mkeit c l MAXE dist (upd curr q []) RS) []); intros _.
        -- unfold eit_next; cbn [ei_c0 ei_ks ei_dist ei_curr ei_i]. rewrite Hd', Hscan.
           rewrite (proj2 (get_Ok _ _ _) Hq); cbn [obind]. rewrite Es. reflexivity.
        -- apply edge_end; reflexivity.
    + assert (Hql : q < length curr) by (apply nth_error_Some; rewrite Hq; discriminate).
      apply (edge_cons (mkeit c l e dist curr i) (mkeit c l e' dist (upd curr q (e' :: r)) q)); intros _.
      * unfold eit_next; cbn [ei_c0 ei_ks ei_dist ei_curr ei_i]. rewrite Hd', Hscan.
        rewrite (proj2 (get_Ok _ _ _) Hq); cbn [obind]. reflexivity.
      * apply (IH q q (upd curr q (e' :: r)) e' r); auto.
        -- cbn [length app] in Hlen. lia.
        -- pose proof (scan_spec (skipn i l) i) as Hs. rewrite Hscan in Hs.
           destruct Hs as (t & Hj & Hn & _). rewrite nth_error_skipn' in Hn. replace (i + (q - i)) with q in Hn by lia.
           rewrite (skipn_cut _ _ _ Hn). reflexivity.
        -- apply nth_error_upd_eq; auto.
        -- rewrite length_upd; auto.
        -- intros m Hm. rewrite nth_error_upd_neq by lia. apply Hrest; lia.
Qed.

Lemma curr_nth (l : list (option ktree)) j : nth_error (map (tree_begin K) l) j = option_map (tree_begin K) (nth_error l j).
Proof. apply nth_error_map. Qed.

(** Entering the trees from the start, at whatever _i. *)
Lemma etree_start (c : c0) (l : list (option ktree)) dist i q e : length l = RS -> ks_full l ->
  (Z.of_nat (c0_size c) <= dist)%Z -> i <= q -> scan K (skipn i l) i = Some q ->
  tree_deref (map (tree_begin K) l) q = Ok e ->
  edge_loop K (mkeit c l e dist (map (tree_begin K) l) i) (before_max (ks_edges K (skipn q l))).
Proof.
  intros Hl Hfull Hd Hiq Hscan He.
  pose proof (scan_spec (skipn i l) i) as Hs. rewrite Hscan in Hs. destruct Hs as (t & Hj & Hn & _).
  rewrite nth_error_skipn' in Hn. replace (i + (q - i)) with q in Hn by lia.
  unfold tree_deref in He. unfold get in He. rewrite curr_nth, Hn in He; cbn [option_map tree_begin obind] in He.
  destruct (kt_edges K t) as [|e0 r] eqn:Et; [discriminate|]. inversion He; subst e0; clear He.
  assert (E : ks_edges K (skipn q l) = (e :: r) ++ ks_edges K (skipn (S q) l)).
  { rewrite (skipn_cut _ _ _ Hn), ks_edges_cons_some, Et. reflexivity. }
  rewrite E. eapply etree_loop; eauto.
  - rewrite curr_nth, Hn. cbn [option_map tree_begin]. rewrite Et; reflexivity.
  - apply map_length.
  - intros; apply curr_nth.
Qed.

Lemma ec0_loop (c : c0) (l : list (option ktree)) pre : length l = RS -> ks_full l ->
  length pre = c0_size c -> (forall i e, nth_error pre i = Some e -> node_at c i = Ok e) ->
  forall k d e i0, d + k = c0_size c -> nth_error pre d = Some e ->
  edge_loop K (mkeit c l e (Z.of_nat d) (map (tree_begin K) l) i0) (before_max (skipn d pre ++ ks_edges K l)).
Proof.
  intros Hl Hfull Hpre Hnode. induction k as [|k IH]; intros d e i0 Hk He.
  { assert (d < length pre) by (apply nth_error_Some; congruence). lia. }
  rewrite (skipn_cut _ _ _ He); cbn [app].
  assert (Hdl : (Z.of_nat d <? Z.of_nat (c0_size c))%Z = true) by (apply Z.ltb_lt; lia).
  destruct (Nat.eq_dec (S d) (c0_size c)) as [Elast|Hlast].
  - assert (Hl2 : (Z.of_nat d + 1 <? Z.of_nat (c0_size c))%Z = false) by (apply Z.ltb_ge; lia).
    replace (skipn (S d) pre) with (@nil edge) by (symmetry; apply skipn_all2; lia). cbn [app].
    pose proof (scan_spec l 0) as Hs. destruct (scan K l 0) as [q|] eqn:Eq.
    + destruct Hs as (t & Hq & Hn & Hedges). rewrite Nat.sub_0_r in *.
      assert (Hne : kt_edges K t <> []) by (apply Hfull; eapply nth_error_In; eauto).
      destruct (kt_edges K t) as [|e' r'] eqn:Et; [congruence|].
      assert (Hcj : nth_error (map (tree_begin K) l) q = Some (e' :: r')).
      { rewrite curr_nth, Hn. cbn [option_map tree_begin]. rewrite Et; auto. }
      assert (Hder : tree_deref (map (tree_begin K) l) q = Ok e').
      { unfold tree_deref. rewrite (proj2 (get_Ok _ _ _) Hcj). reflexivity. }
      assert (Hsq : scan K (skipn q l) q = Some q).
      { rewrite (skipn_cut _ _ _ Hn). reflexivity. }
      apply (edge_cons (mkeit c l e (Z.of_nat d) (map (tree_begin K) l) i0)
                       (mkeit c l e' (Z.of_nat d + 1) (map (tree_begin K) l) q)); intros _.
      * unfold eit_next; cbn [ei_c0 ei_ks ei_dist ei_curr ei_i]. rewrite Hdl, Hl2, Eq.
        rewrite (proj2 (get_Ok _ _ _) Hcj); cbn [obind]. rewrite (proj2 (get_Ok _ _ _) Hn); cbn [obind tree_begin].
        rewrite Et, Nat.eqb_refl, Hder. reflexivity.
      * replace (ks_edges K l) with (ks_edges K (skipn q l)).
        { eapply etree_start; eauto. lia. }
        rewrite Hedges, (skipn_cut _ _ _ Hn), ks_edges_cons_some, Et. reflexivity.
    + rewrite Hs. apply (edge_cons (mkeit c l e (Z.of_nat d) (map (tree_begin K) l) i0)
                                   (mkeit c l MAXE (Z.of_nat d + 1) (map (tree_begin K) l) i0) []); intros _.
      * unfold eit_next; cbn [ei_c0 ei_ks ei_dist ei_curr ei_i]. rewrite Hdl, Hl2, Eq. reflexivity.
      * apply edge_end; reflexivity.
  - assert (Hl2 : (Z.of_nat d + 1 <? Z.of_nat (c0_size c))%Z = true) by (apply Z.ltb_lt; lia).
    destruct (nth_error pre (S d)) as [e'|] eqn:Ed; [|apply nth_error_None in Ed; lia].
    apply (edge_cons (mkeit c l e (Z.of_nat d) (map (tree_begin K) l) i0)
                     (mkeit c l e' (Z.of_nat (S d)) (map (tree_begin K) l) i0)); intros _.
    + unfold eit_next; cbn [ei_c0 ei_ks ei_dist ei_curr ei_i]. rewrite Hdl, Hl2.
      replace (Z.to_nat (Z.of_nat d + 1)) with (S d) by lia. rewrite (Hnode _ _ Ed); cbn [obind].
      do 2 f_equal. lia.
    + apply IH; auto. lia.
Qed.

(** What a loop over the edges sees: as many buffer slots, from the front and dead or alive, as there are live
    buffer edges; then the trees; cut at the first (9999999, 9999999). *)
Definition edge_seen (g : dk) (sl : slots) : list edge :=
  before_max (firstn (length (live_edges sl)) (map fst sl) ++ ks_edges K (ks g)).

Lemma edge_loop_raw g sl i0 : (nv g <> 0)%N -> length (ks g) = RS -> c0_inv (C0_ g) sl -> ks_full (ks g) ->
  i0 = 0 \/ 0 < c0_size (C0_ g) ->
  exists it, dk_edge_begin K g i0 = Ok it /\ edge_loop K it (edge_seen g sl).
Proof.
  intros Hnv Hlen Hc Hfull Hi0. assert (Hsz := inv_size _ _ Hc).
  unfold dk_edge_begin, eit_new. destruct (N.eqb_spec (nv g) 0) as [E|_]; [lia|].
  unfold edge_seen. rewrite <- Hsz.
  assert (Hle : c0_size (C0_ g) <= length sl).
  { rewrite Hsz. pose proof (dead_live sl). lia. }
  destruct (Nat.ltb_spec 0 (c0_size (C0_ g))) as [Hpos|Hz].
  - set (pre := firstn (c0_size (C0_ g)) (map fst sl)).
    assert (Hpl : length pre = c0_size (C0_ g)) by (unfold pre; rewrite firstn_length, map_length; lia).
    assert (Hnode : forall i e, nth_error pre i = Some e -> node_at (C0_ g) i = Ok e).
    { intros i e He. assert (i < length pre) by (apply nth_error_Some; congruence).
      assert (He' : nth_error (map fst sl) i = Some e).
      { rewrite <- (firstn_skipn (c0_size (C0_ g)) (map fst sl)). rewrite nth_error_app1; auto. }
      clear He; rename He' into He. rewrite nth_error_map in He.
      destruct (nth_error sl i) as [[f b]|] eqn:Ef; [|discriminate]. cbn in He; inversion He; subst.
      eapply inv_node_at; eauto. }
    destruct (nth_error pre 0) as [e|] eqn:E0; [|apply nth_error_None in E0; lia].
    rewrite (Hnode _ _ E0); cbn [obind ei_c0 ei_ks ei_ptr ei_dist ei_curr].
    eexists; split; [reflexivity|]. change pre with (skipn 0 pre). change 0%Z with (Z.of_nat 0).
    apply ec0_loop with (k := c0_size (C0_ g)); auto.
  - assert (Hz0 : c0_size (C0_ g) = 0) by lia. rewrite Hz0. cbn [firstn app]. assert (i0 = 0) by lia; subst i0; clear Hi0.
    pose proof (scan_spec (ks g) 0) as Hs. destruct (scan K (ks g) 0) as [q|] eqn:Eq.
    + destruct Hs as (t & Hq & Hnq & Hed). rewrite Nat.sub_0_r in *.
      assert (Hne : kt_edges K t <> []) by (apply Hfull; eapply nth_error_In; eauto).
      destruct (kt_edges K t) as [|e' r'] eqn:Et; [congruence|].
      assert (Hcj : nth_error (map (tree_begin K) (ks g)) q = Some (e' :: r')).
      { rewrite curr_nth, Hnq. cbn [option_map tree_begin]. rewrite Et; auto. }
      assert (Hder : tree_deref (map (tree_begin K) (ks g)) q = Ok e').
      { unfold tree_deref. rewrite (proj2 (get_Ok _ _ _) Hcj). reflexivity. }
      rewrite Hder; cbn [obind ei_c0 ei_ks ei_ptr ei_dist ei_curr].
      eexists; split; [reflexivity|].
      replace (ks_edges K (ks g)) with (ks_edges K (skipn q (ks g))).
      * apply etree_start; auto. rewrite Hz0; lia. lia.
      * rewrite Hed, (skipn_cut _ _ _ Hnq), ks_edges_cons_some, Et. reflexivity.
    + cbn [obind ei_c0 ei_ks ei_ptr ei_dist ei_curr]. eexists; split; [reflexivity|]. rewrite Hs. apply edge_end; reflexivity.
Qed.

Lemma edge_loop_any L n g sl i0 : (2 <= n)%N -> dk_inv K L n g sl -> ks_full (ks g) ->
  i0 = 0 \/ 0 < c0_size (C0_ g) ->
  exists it, dk_edge_begin K g i0 = Ok it /\ edge_loop K it (edge_seen g sl).
Proof.
  intros Hn I F Hi. apply edge_loop_raw; auto; try apply I. rewrite (dv_nv _ _ _ _ _ I). lia.
Qed.
Lemma edge_loop_ok L n g sl : (2 <= n)%N -> dk_inv K L n g sl -> ks_full (ks g) ->
  exists it, dk_edge_begin K g 0 = Ok it /\ edge_loop K it (edge_seen g sl).
Proof. intros. eapply edge_loop_any; eauto. Qed.

End Edges.
