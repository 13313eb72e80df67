(** * C0Proof: representation invariant of the buffer and what each call does to it. *)
From Verif Require Import Base Spec Thresholds K2 C0.

(** Ghost description of a buffer: for each used slot, its edge and whether it is live. *)
Definition slots := list (edge * bool).
Definition live_edges (sl : slots) : list edge := map fst (filter snd sl).

Definition live_at (sl : slots) (x : N) (i : nat) : bool :=
  match nth_error sl i with Some (e, b) => b && N.eqb (fst e) x | None => false end.
(** Live slots with source x, most recent first. *)
Definition chain (sl : slots) (x : N) : list nat := rev (filter (live_at sl x) (seq 0 (length sl))).

Fixpoint linked (els : list node) (p : option nat) (l : list nat) : Prop :=
  match l with
  | [] => True
  | k :: t => nth_error els k = Some (mknode (hd_error t) p) /\ linked els (Some k) t
  end.

Definition dead_count (sl : slots) : nat := length (filter (fun p => negb (snd p)) sl).

Record c0_inv (c : c0) (sl : slots) : Prop := {
  iv_n : c_n c = length sl;
  iv_le : c_n c <= c_max c;
  iv_els_len : length (c_els c) = c_max c;
  iv_nodes_len : length (c_nodes c) = c_max c;
  iv_free_len : length (c_free c) = c_max c;
  iv_nodes : forall i e b, nth_error sl i = Some (e, b) -> nth_error (c_nodes c) i = Some (Some e);
  iv_free : forall i, i < c_max c ->
      nth_error (c_free c) i =
      Some (match nth_error sl i with Some (_, false) => (-1)%Z | _ => Z.of_nat i end);
  iv_lst : forall e i, eget e (c_lst c) = Some i <-> nth_error sl i = Some (e, true);
  iv_lst_nd : NoDup (map fst (c_lst c));
  iv_marked : c_marked c = dead_count sl;
  iv_adj : forall x, nget x (c_adj c) = hd_error (chain sl x);
  iv_adj_nd : NoDup (map fst (c_adj c));
  iv_chain : forall x, linked (c_els c) None (chain sl x);
  iv_fresh : forall i, length sl <= i < c_max c -> nth_error (c_els c) i = Some node0
}.

(** ** List facts *)
Lemma iota_nth m i : nth_error (iota m) i = if i <? m then Some (Z.of_nat i) else None.
Proof.
  unfold iota. rewrite map_option_nth. destruct (Nat.ltb_spec i m).
  - rewrite nth_error_nth' with (d := 0) by (rewrite seq_length; auto). rewrite seq_nth by auto. reflexivity.
  - rewrite (proj2 (nth_error_None _ _)); [reflexivity|rewrite seq_length; auto].
Qed.
Lemma iota_length m : length (iota m) = m.
Proof. unfold iota. rewrite map_length, seq_length; auto. Qed.

Lemma chain_In sl x i : In i (chain sl x) <-> exists y, nth_error sl i = Some ((x, y), true).
Proof.
  unfold chain. rewrite <- in_rev, filter_In, in_seq. unfold live_at. split.
  - intros [H1 H2]. destruct (nth_error sl i) as [[[a b] l]|]; [|discriminate].
    apply andb_true_iff in H2; destruct H2 as [-> H2]. apply N.eqb_eq in H2; cbn in H2; subst. eauto.
  - intros [y H]. split; [split; [lia|]; apply nth_error_Some; congruence|].
    rewrite H; cbn. apply N.eqb_refl.
Qed.

Lemma chain_nodup sl x : NoDup (chain sl x).
Proof. unfold chain. apply NoDup_rev, NoDup_filter, seq_NoDup. Qed.

Lemma chain_snoc_live sl (e : edge) z :
  chain (sl ++ [(e, true)]) z = if N.eqb (fst e) z then length sl :: chain sl z else chain sl z.
Proof.
  unfold chain. rewrite app_length; cbn. rewrite Nat.add_1_r, seq_S; cbn.
  rewrite filter_app, rev_app_distr. cbn.
  assert (E : filter (live_at (sl ++ [(e, true)]) z) (seq 0 (length sl))
              = filter (live_at sl z) (seq 0 (length sl))).
  { apply filter_ext_in. intros i Hi. apply in_seq in Hi. unfold live_at.
    rewrite nth_error_app1 by lia. reflexivity. }
  rewrite E. unfold live_at at 1. rewrite nth_error_app2, Nat.sub_diag by lia. cbn.
  destruct (N.eqb (fst e) z); reflexivity.
Qed.

(** Turning slot k dead removes exactly k from its chain. *)
Definition kill (sl : slots) (k : nat) : slots :=
  match nth_error sl k with Some (e, _) => upd sl k (e, false) | None => sl end.

Lemma kill_length sl k : length (kill sl k) = length sl.
Proof. unfold kill. destruct (nth_error sl k) as [[e b]|]; auto. apply length_upd. Qed.

Lemma kill_nth sl k i :
  nth_error (kill sl k) i = match nth_error sl i with
                            | Some (e, b) => Some (e, b && negb (Nat.eqb i k))
                            | None => None
                            end.
Proof.
  unfold kill. destruct (nth_error sl k) as [[e b]|] eqn:E.
  - rewrite nth_error_upd. destruct (Nat.eqb_spec k i) as [->|Hne].
    + rewrite E. replace (i <? length sl) with true.
      * rewrite Nat.eqb_refl, andb_false_r; auto.
      * symmetry; apply Nat.ltb_lt, nth_error_Some; congruence.
    + destruct (nth_error sl i) as [[e' b']|]; auto.
      destruct (Nat.eqb_spec i k); [congruence|]. rewrite andb_true_r; auto.
  - destruct (nth_error sl i) as [[e b]|] eqn:Ei; auto.
    destruct (Nat.eqb_spec i k) as [->|]; [congruence|]. rewrite andb_true_r; auto.
Qed.

Lemma chain_kill sl k x :
  chain (kill sl k) x = filter (fun i => negb (Nat.eqb i k)) (chain sl x).
Proof.
  unfold chain. rewrite kill_length.
  assert (G : forall l, filter (fun i => negb (i =? k)) (rev l) = rev (filter (fun i => negb (i =? k)) l)).
  { induction l as [|a l IH]; cbn; auto. rewrite filter_app, IH. cbn.
    destruct (negb (a =? k)); cbn; auto. apply app_nil_r. }
  rewrite G. f_equal.
  generalize (seq 0 (length sl)). induction l as [|i l IH]; cbn [filter]; auto.
  assert (E : live_at (kill sl k) x i = live_at sl x i && negb (i =? k)).
  { unfold live_at. rewrite kill_nth. destruct (nth_error sl i) as [[e b]|]; auto.
    rewrite <- !andb_assoc. f_equal. apply andb_comm. }
  rewrite E. destruct (live_at sl x i); cbn [filter andb]; auto.
  destruct (negb (i =? k)); rewrite IH; auto.
Qed.

Lemma live_edges_app a b : live_edges (a ++ b) = live_edges a ++ live_edges b.
Proof. unfold live_edges. rewrite filter_app, map_app; auto. Qed.

Lemma In_live_edges sl e : In e (live_edges sl) <-> exists i, nth_error sl i = Some (e, true).
Proof.
  unfold live_edges. rewrite in_map_iff. split.
  - intros [[e' b] [H1 H2]]. apply filter_In in H2. destruct H2 as [H2 H3]. cbn in *; subst.
    apply In_nth_error in H2. auto.
  - intros [i H]. exists (e, true). split; auto. apply filter_In. split; auto.
    eapply nth_error_In; eauto.
Qed.

(** In a buffer an edge is live in at most one slot. *)
Definition uniq (sl : slots) : Prop :=
  forall e i j, nth_error sl i = Some (e, true) -> nth_error sl j = Some (e, true) -> i = j.

Lemma inv_uniq c sl : c0_inv c sl -> uniq sl.
Proof.
  intros H e i j Hi Hj. apply (iv_lst _ _ H) in Hi. apply (iv_lst _ _ H) in Hj. congruence.
Qed.

Lemma uniq_nodup sl : uniq sl -> NoDup (live_edges sl).
Proof.
  induction sl as [|[e b] sl IH]; intros H; [constructor|].
  assert (Ht : uniq sl).
  { intros f i j Hi Hj. assert (S i = S j) by (apply (H f); auto). lia. }
  unfold live_edges; cbn. destruct b; cbn; [|apply IH; auto].
  constructor; [|apply IH; auto].
  intros Hin. apply In_live_edges in Hin. destruct Hin as [i Hi].
  assert (0 = S i) by (apply (H e); auto). lia.
Qed.

(** killing slot k with edge e = removing e from the live list *)
Lemma live_edges_kill sl k e : uniq sl -> nth_error sl k = Some (e, true) ->
  live_edges (kill sl k) = filter (fun f => negb (eeqb e f)) (live_edges sl).
Proof.
  unfold kill. intros Hu Hk. rewrite Hk.
  revert k Hu Hk. induction sl as [|[f b] sl IH]; intros [|k] Hu Hk; cbn in Hk; try discriminate.
  - inversion Hk; subst. unfold live_edges at 2; cbn. rewrite eeqb_refl; cbn.
    change (live_edges sl = filter (fun f => negb (eeqb e f)) (live_edges sl)).
    symmetry; apply filter_all. intros a Ha. apply negb_true_iff, eeqb_neq. intros ->.
    apply In_live_edges in Ha. destruct Ha as [i Hi].
    assert (0 = S i) by (apply (Hu a); auto). lia.
  - assert (Ht : uniq sl).
    { intros g i j Hi Hj. assert (S i = S j) by (apply (Hu g); auto). lia. }
    specialize (IH k Ht Hk). unfold live_edges in *; cbn. destruct b; cbn; auto.
    assert (eeqb e f = false) as ->; [|cbn; f_equal; auto].
    apply eeqb_neq. intros ->. assert (0 = S k) by (apply (Hu f); auto). lia.
Qed.

Lemma dead_kill sl k e : nth_error sl k = Some (e, true) -> dead_count (kill sl k) = S (dead_count sl).
Proof.
  unfold kill; intros Hk; rewrite Hk.
  revert k Hk; induction sl as [|[f b] sl IH]; intros [|k] Hk; cbn in Hk; try discriminate.
  - inversion Hk; subst. reflexivity.
  - specialize (IH k Hk). unfold dead_count in *; cbn. destruct b; cbn; auto.
Qed.

Lemma dead_live sl : dead_count sl + length (live_edges sl) = length sl.
Proof.
  unfold dead_count, live_edges. rewrite map_length.
  induction sl as [|[e b] sl IH]; cbn; auto. destruct b; cbn; lia.
Qed.

(** Neighbours read off the chain *)
Definition snd_at (sl : slots) (i : nat) : N := match nth_error sl i with Some (e, _) => snd e | None => 0%N end.

Lemma chain_neigh sl x :
  map (snd_at sl) (chain sl x) = rev (succs x (live_edges sl)).
Proof.
  unfold chain. rewrite map_rev. f_equal.
  induction sl as [|[e b] sl IH] using rev_ind; [reflexivity|].
  rewrite app_length; cbn [length]. rewrite Nat.add_1_r, seq_S; cbn [plus].
  rewrite live_edges_app, succs_app, filter_app, map_app.
  f_equal.
  - rewrite <- IH.
    assert (E : filter (live_at (sl ++ [(e, b)]) x) (seq 0 (length sl)) = filter (live_at sl x) (seq 0 (length sl))).
    { apply filter_ext_in. intros i Hi. apply in_seq in Hi. unfold live_at. rewrite nth_error_app1 by lia; auto. }
    rewrite E. apply map_ext_in. intros i Hi. apply filter_In in Hi. destruct Hi as [Hi _]. apply in_seq in Hi.
    unfold snd_at. rewrite nth_error_app1 by lia; auto.
  - cbn. unfold live_at. rewrite nth_error_app2, Nat.sub_diag by lia. cbn.
    unfold live_edges, succs, src_is; cbn. destruct b; cbn; auto.
    destruct (fst e =? x)%N; cbn; auto. unfold snd_at. rewrite nth_error_app2, Nat.sub_diag by lia. auto.
Qed.

(** ** linked lists *)
Lemma linked_ext els els' p l :
  (forall k, In k l -> nth_error els' k = nth_error els k) -> linked els p l -> linked els' p l.
Proof.
  revert p; induction l as [|k t IH]; cbn; intros p H Hl; auto.
  destruct Hl as [H1 H2]. split; [rewrite H; auto|apply IH; auto].
Qed.

Lemma modify_Ok l i f d : nth_error l i = Some d -> modify l i f = Ok (upd l i (f d)).
Proof.
  intros H. unfold modify. rewrite (proj2 (get_Ok _ _ _) H). cbn.
  apply set_Ok. apply nth_error_Some; congruence.
Qed.

Lemma modify_inv l i f l' : modify l i f = Ok l' -> exists d, nth_error l i = Some d /\ l' = upd l i (f d).
Proof.
  unfold modify. destruct (get l i) as [d|] eqn:E; cbn; [|discriminate]. intros H.
  apply get_Ok in E. apply set_inv in H. exists d; tauto.
Qed.

(** ** Establishing the invariant *)
Lemma inv_empty m nv :
  c0_inv (mkc0 [] [] (repeat node0 m) (repeat None m) (iota m) 0 0 m nv) [].
Proof.
  constructor; cbn; try reflexivity; try constructor; try lia.
  - apply repeat_length.
  - apply repeat_length.
  - apply iota_length.
  - intros [|i] e b H; discriminate.
  - intros i Hi. rewrite iota_nth. apply Nat.ltb_lt in Hi. rewrite Hi. destruct i; reflexivity.
  - intros H; discriminate.
  - destruct i; discriminate.
  - intros i Hi. rewrite nth_error_repeat. destruct (Nat.ltb_spec i m); auto; lia.
Qed.

Lemma inv_clean c sl : c0_inv c sl -> exists c', c0_clean c = Ok c' /\ c0_inv c' [] /\
  c_max c' = c_max c /\ c_nv c' = c_nv c.
Proof.
  intros H. unfold c0_clean. rewrite (iv_free_len _ _ H), Nat.ltb_irrefl.
  eexists; split; [reflexivity|]. split; [|cbn; auto].
  rewrite skipn_all2, app_nil_r by (rewrite (iv_free_len _ _ H); auto).
  apply inv_empty.
Qed.

Lemma inv_resize c sl m : c0_inv c sl ->
  c0_inv (c0_resize c m) sl /\ c_max (c0_resize c m) = Nat.max (c_max c) m /\
  c_nv (c0_resize c m) = c_nv c /\ c_lst (c0_resize c m) = c_lst c /\ c_n (c0_resize c m) = c_n c.
Proof.
  intros H. unfold c0_resize. destruct (Nat.ltb_spec (c_max c) m) as [Hlt|Hge].
  2: { split; auto. split; [lia|auto]. }
  split; [|cbn; split; [lia|auto]].
  pose proof (iv_le _ _ H) as Hle. pose proof (iv_n _ _ H) as Hn.
  assert (Hlen : length (vresize (c_free c) m 0%Z) = m) by apply length_vresize.
  constructor; cbn.
  - auto.
  - lia.
  - apply length_vresize.
  - apply length_vresize.
  - unfold fill_free. rewrite app_length, firstn_length, map_length, seq_length, Hlen. lia.
  - intros i e b Hi. pose proof (iv_nodes _ _ H i e b Hi) as G.
    rewrite nth_error_vresize by (rewrite (iv_nodes_len _ _ H); lia).
    assert (i < length (c_nodes c)) as Hil by (apply nth_error_Some; congruence).
    apply Nat.ltb_lt in Hil. rewrite Hil; auto.
  - intros i Hi. unfold fill_free. rewrite Hlen.
    destruct (Nat.lt_ge_cases i (c_n c)) as [Hin|Hin].
    + rewrite nth_error_app1 by (rewrite firstn_length, Hlen; lia).
      rewrite <- (iv_free _ _ H) by lia.
      assert (G : forall (l : list Z) j k, j < k -> nth_error (firstn k l) j = nth_error l j).
      { induction l as [|a l IH]; intros [|j] [|k] Hjk; cbn; auto; try lia. apply IH; lia. }
      rewrite G by auto. rewrite nth_error_vresize by (rewrite (iv_free_len _ _ H); lia).
      rewrite (iv_free_len _ _ H). destruct (Nat.ltb_spec i (c_max c)); auto; lia.
    + assert (Hfl : length (firstn (c_n c) (vresize (c_free c) m 0%Z)) = c_n c)
        by (rewrite firstn_length, Hlen; lia).
      rewrite nth_error_app2 by lia. rewrite Hfl.
      rewrite map_option_nth, nth_error_nth' with (d := 0) by (rewrite seq_length; lia).
      rewrite seq_nth by lia. cbn. rewrite (proj2 (nth_error_None sl i)) by lia.
      f_equal. lia.
  - apply (iv_lst _ _ H).
  - apply (iv_lst_nd _ _ H).
  - apply (iv_marked _ _ H).
  - apply (iv_adj _ _ H).
  - apply (iv_adj_nd _ _ H).
  - intros x. apply linked_ext with (els := c_els c); [|apply (iv_chain _ _ H)].
    intros k Hk. apply chain_In in Hk. destruct Hk as [y Hk].
    assert (k < length sl) by (apply nth_error_Some; congruence).
    rewrite nth_error_vresize by (rewrite (iv_els_len _ _ H); lia).
    rewrite (iv_els_len _ _ H). destruct (Nat.ltb_spec k (c_max c)); auto; lia.
  - intros i Hi. rewrite nth_error_vresize by (rewrite (iv_els_len _ _ H); lia).
    rewrite (iv_els_len _ _ H). destruct (Nat.ltb_spec i (c_max c)).
    + apply (iv_fresh _ _ H). lia.
    + destruct (Nat.ltb_spec i m); auto; lia.
Qed.

(** ** Queries *)
Lemma inv_contains c sl e : c0_inv c sl -> c0_contains c e = Ok (emem e (live_edges sl)).
Proof.
  intros H. unfold c0_contains. destruct (eget e (c_lst c)) as [m|] eqn:E.
  - pose proof E as E'. apply (iv_lst _ _ H) in E'.
    assert (m < length sl) by (apply nth_error_Some; congruence).
    pose proof (iv_le _ _ H). pose proof (iv_n _ _ H).
    assert (Hf := iv_free _ _ H m ltac:(lia)). rewrite E' in Hf.
    rewrite (proj2 (get_Ok _ _ _) Hf). cbn. f_equal.
    destruct (Z.eqb_spec (Z.of_nat m) (-1)); [lia|]. symmetry. apply emem_In, In_live_edges. eauto.
  - f_equal. symmetry. apply emem_false. intros Hin. apply In_live_edges in Hin.
    destruct Hin as [i Hi]. apply (iv_lst _ _ H) in Hi. congruence.
Qed.

Lemma inv_find_none c sl e : c0_inv c sl -> (eget e (c_lst c) = None <-> ~ In e (live_edges sl)).
Proof.
  intros H. rewrite In_live_edges. split.
  - intros E [i Hi]. apply (iv_lst _ _ H) in Hi. congruence.
  - intros Hn. destruct (eget e (c_lst c)) eqn:E; auto. apply (iv_lst _ _ H) in E. exfalso; eauto.
Qed.

Lemma inv_size c sl : c0_inv c sl -> c0_size c = length (live_edges sl).
Proof.
  intros H. unfold c0_size. rewrite (iv_n _ _ H), (iv_marked _ _ H). pose proof (dead_live sl). lia.
Qed.

Lemma inv_node_at c sl i e b : c0_inv c sl -> nth_error sl i = Some (e, b) -> node_at c i = Ok e.
Proof.
  intros H Hi. unfold node_at. apply (iv_nodes _ _ H) in Hi.
  rewrite (proj2 (get_Ok _ _ _) Hi). reflexivity.
Qed.

Lemma chain_walk_ok c sl l k p fuel :
  c0_inv c sl -> linked (c_els c) p (k :: l) ->
  (forall i, In i (k :: l) -> i < length sl) -> length (k :: l) <= fuel ->
  chain_walk c fuel k = Ok (map (snd_at sl) (k :: l)).
Proof.
  intros H. revert k p fuel. induction l as [|q l IH]; intros k p [|fuel] Hl Hin Hf; cbn in Hf; try lia.
  - destruct Hl as [Hk _]. assert (Hk' := Hin k (or_introl eq_refl)).
    destruct (nth_error sl k) as [[e b]|] eqn:E; [|apply nth_error_None in E; lia].
    cbn. rewrite (inv_node_at _ _ _ _ _ H E). cbn. rewrite (proj2 (get_Ok _ _ _) Hk). cbn.
    unfold snd_at. rewrite E. reflexivity.
  - destruct Hl as [Hk Hl]. assert (Hk' := Hin k (or_introl eq_refl)).
    destruct (nth_error sl k) as [[e b]|] eqn:E; [|apply nth_error_None in E; lia].
    cbn. rewrite (inv_node_at _ _ _ _ _ H E). cbn. rewrite (proj2 (get_Ok _ _ _) Hk). cbn.
    rewrite (IH q (Some k) fuel); auto.
    + cbn. unfold snd_at at 3. rewrite E. reflexivity.
    + intros i Hi. apply Hin. right; auto.
    + cbn; lia.
Qed.

Lemma inv_neigh c sl x : c0_inv c sl ->
  c0_neigh c x = Ok (rev (succs x (live_edges sl))).
Proof.
  intros H. rewrite <- chain_neigh. unfold c0_neigh. rewrite (iv_adj _ _ H).
  pose proof (iv_chain _ _ H x) as Hl.
  assert (Hlt : forall i, In i (chain sl x) -> i < length sl).
  { intros i Hi. apply chain_In in Hi. destruct Hi as [y Hi]. apply nth_error_Some; congruence. }
  pose proof (iv_le _ _ H) as Hle. pose proof (iv_n _ _ H) as Hn. pose proof (iv_els_len _ _ H) as Hel.
  assert (Hlen : length (chain sl x) <= length sl).
  { unfold chain. rewrite rev_length. rewrite <- (seq_length (length sl) 0) at 2. apply filter_length_le. }
  destruct (chain sl x) as [|k l] eqn:E; cbn [hd_error]; [reflexivity|].
  assert (length (c_els c) <> 0) by (specialize (Hlt k (or_introl eq_refl)); lia).
  destruct (c_els c) as [|d0 els] eqn:Eels; [cbn in *; lia|].
  rewrite <- Eels in *.
  erewrite chain_walk_ok; eauto. lia.
Qed.

Lemma inv_converted c sl : c0_inv c sl -> c0_converted c = Ok (live_edges sl).
Proof.
  intros H. unfold c0_converted. rewrite (iv_n _ _ H).
  pose proof (iv_le _ _ H) as Hle. pose proof (iv_n _ _ H) as Hn.
  assert (G : forall sl2 sl1, sl = sl1 ++ sl2 ->
    conv_slots c (seq (length sl1) (length sl2)) = Ok (live_edges sl2)).
  { induction sl2 as [|[e b] sl2 IH]; intros sl1 E; [reflexivity|].
    cbn [length seq conv_slots].
    assert (Hi : nth_error sl (length sl1) = Some (e, b)).
    { rewrite E, nth_error_app2, Nat.sub_diag by lia. reflexivity. }
    assert (Hlt : length sl1 < length sl) by (apply nth_error_Some; congruence).
    assert (Hf := iv_free _ _ H (length sl1) ltac:(lia)). rewrite Hi in Hf.
    rewrite (proj2 (get_Ok _ _ _) Hf). cbn.
    specialize (IH (sl1 ++ [(e, b)])). rewrite <- app_assoc in IH. cbn in IH.
    rewrite app_length in IH. cbn in IH. rewrite Nat.add_1_r in IH. specialize (IH E).
    destruct b; cbn.
    - destruct (Z.eqb_spec (Z.of_nat (length sl1)) (-1)); [lia|].
      destruct (Z.ltb_spec (Z.of_nat (length sl1)) 0); [lia|].
      rewrite Nat2Z.id, (inv_node_at _ _ _ _ _ H Hi). cbn. rewrite IH. reflexivity.
    - exact IH. }
  apply (G sl []). reflexivity.
Qed.

(** ** Insertion *)
Lemma insert_present T c sl e ne : c0_inv c sl -> In e (live_edges sl) -> c0_insert T c e ne = Ok c.
Proof.
  intros H Hin. unfold c0_insert. destruct (eget e (c_lst c)) eqn:E; auto.
  apply (inv_find_none _ _ _ H) in E. tauto.
Qed.

Lemma hd_error_linked els p l k : hd_error l = Some k -> linked els p l ->
  exists t, l = k :: t /\ nth_error els k = Some (mknode (hd_error t) p) /\ linked els (Some k) t.
Proof. destruct l as [|a t]; cbn; intros H; inversion H; subst. intros [H1 H2]. eauto. Qed.

(** The part of insert after the possible resize, on a buffer with a free slot. *)
Definition c0_insert_core (c : c0) (e : edge) : out c0 :=
    let* f := get (c_free c) (c_n c) in
    if (f <? 0)%Z then UB else
    let i := Z.to_nat f in
    let* nodes := set (c_nodes c) i (Some e) in
    let lst := eset e i (c_lst c) in
    let x := fst e in
    let* els := match nget x (c_adj c) with
                | None => Ok (c_els c)
                | Some h => let* els := modify (c_els c) i (set_nx (Some h)) in
                            modify els h (set_pv (Some i))
                end in
    Ok (mkc0 lst (nset x i (c_adj c)) els nodes (c_free c) (c_marked c) (S (c_n c)) (c_max c) (c_nv c)).

Lemma insert_core_ok c sl e : c0_inv c sl -> ~ In e (live_edges sl) -> c_n c < c_max c ->
  exists c', c0_insert_core c e = Ok c' /\ c0_inv c' (sl ++ [(e, true)]) /\
             c_max c' = c_max c /\ c_nv c' = c_nv c.
Proof.
  intros H Hnin Hlt. pose proof (iv_n _ _ H) as Hn.
  unfold c0_insert_core.
  assert (Hf := iv_free _ _ H (c_n c) Hlt).
  rewrite (proj2 (nth_error_None sl (c_n c))) in Hf by lia.
  rewrite (proj2 (get_Ok _ _ _) Hf). cbn.
  destruct (Z.ltb_spec (Z.of_nat (c_n c)) 0); [lia|]. rewrite Nat2Z.id.
  rewrite set_Ok by (rewrite (iv_nodes_len _ _ H); auto). cbn.
  remember (c_n c) as i eqn:Ei in *. remember (fst e) as x eqn:Ex.
  assert (Hfresh : nth_error (c_els c) i = Some node0) by (apply (iv_fresh _ _ H); lia).
  (* the new elements vector *)
  assert (HE : exists els,
    (match nget x (c_adj c) with
     | None => Ok (c_els c)
     | Some h => let* els := modify (c_els c) i (set_nx (Some h)) in modify els h (set_pv (Some i))
     end = Ok els) /\ length els = c_max c /\
    linked els None (i :: chain sl x) /\
    (forall j, j <> i -> ~ In j (chain sl x) -> nth_error els j = nth_error (c_els c) j)).
  { rewrite (iv_adj _ _ H). pose proof (iv_chain _ _ H x) as Hl.
    destruct (hd_error (chain sl x)) as [h|] eqn:Eh.
    - destruct (hd_error_linked _ _ _ _ Eh Hl) as [t [Et [Hh Ht]]].
      assert (Hhi : h < length sl).
      { assert (In h (chain sl x)) as Hin by (rewrite Et; left; auto).
        apply chain_In in Hin. destruct Hin as [z Hz]. apply nth_error_Some; congruence. }
      assert (Hhne : h <> i) by lia.
      rewrite (modify_Ok _ _ _ _ Hfresh). cbn.
      assert (Hh2 : nth_error (upd (c_els c) i (mknode (Some h) None)) h = Some (mknode (hd_error t) None))
        by (rewrite nth_error_upd_neq; auto).
      rewrite (modify_Ok _ _ _ _ Hh2). eexists; split; [reflexivity|]. cbn.
      set (els' := upd (upd (c_els c) i (mknode (Some h) None)) h (mknode (hd_error t) (Some i))).
      assert (HI : nth_error els' i = Some (mknode (Some h) None)).
      { unfold els'. rewrite nth_error_upd_neq by auto. apply nth_error_upd_eq. rewrite (iv_els_len _ _ H); auto. }
      assert (HH : nth_error els' h = Some (mknode (hd_error t) (Some i))).
      { unfold els'. apply nth_error_upd_eq. rewrite length_upd, (iv_els_len _ _ H). lia. }
      assert (HO : forall j, j <> i -> j <> h -> nth_error els' j = nth_error (c_els c) j).
      { intros j J1 J2. unfold els'. rewrite !nth_error_upd_neq by auto. auto. }
      split; [unfold els'; rewrite !length_upd; apply (iv_els_len _ _ H)|]. split.
      + rewrite Et. cbn [hd_error linked]. split; [exact HI|]. split; [exact HH|].
        apply linked_ext with (els := c_els c); auto.
        intros k Hk. apply HO.
        * assert (In k (chain sl x)) as Hin by (rewrite Et; right; auto).
          apply chain_In in Hin. destruct Hin as [z Hz].
          assert (k < length sl) by (apply nth_error_Some; congruence). lia.
        * intros ->. pose proof (chain_nodup sl x) as Hnd. rewrite Et in Hnd. inversion Hnd; auto.
      + intros j J1 J2. apply HO; auto. intros ->. apply J2. rewrite Et; left; auto.
    - eexists; split; [reflexivity|]. split; [apply (iv_els_len _ _ H)|].
      destruct (chain sl x); [|discriminate]. split; [|auto].
      cbn. split; auto. }
  destruct HE as [els [HE1 [HE2 [HE3 HE4]]]].
  cbn in HE1 |- *. rewrite HE1. cbn. eexists; split; [reflexivity|]. split; [|cbn; auto].
  assert (Hlast : nth_error (sl ++ [(e, true)]) i = Some (e, true)).
  { rewrite Hn, nth_error_app2, Nat.sub_diag by lia. reflexivity. }
  assert (Hprev : forall j, j <> i -> nth_error (sl ++ [(e, true)]) j = nth_error sl j).
  { intros j Hj. destruct (Nat.lt_ge_cases j (length sl)).
    - apply nth_error_app1; auto.
    - rewrite (proj2 (nth_error_None sl j)) by auto. apply nth_error_None.
      rewrite app_length; cbn. lia. }
  constructor; cbn.
  - rewrite app_length; cbn. lia.
  - lia.
  - exact HE2.
  - rewrite length_upd. apply (iv_nodes_len _ _ H).
  - apply (iv_free_len _ _ H).
  - intros j f b Hj. destruct (Nat.eq_dec j i) as [->|Hne].
    + rewrite Hlast in Hj. inversion Hj; subst. apply nth_error_upd_eq. rewrite (iv_nodes_len _ _ H). auto.
    + rewrite Hprev in Hj by auto. rewrite nth_error_upd_neq by auto. eapply (iv_nodes _ _ H); eauto.
  - intros j Hj. rewrite (iv_free _ _ H j Hj). destruct (Nat.eq_dec j i) as [->|Hne].
    + rewrite Hlast. rewrite (proj2 (nth_error_None sl i)) by lia. reflexivity.
    + rewrite Hprev by auto. reflexivity.
  - intros f j. change (if eeqb f e then Some i else eget f (edel e (c_lst c)))
      with (eget f (eset e i (c_lst c))).
    destruct (edge_dec f e) as [->|Hne].
    + rewrite aget_aset_eq by apply eeqb_eq. split.
      * intros E; inversion E; subst; auto.
      * intros Hj. destruct (Nat.eq_dec j i) as [->|Hji]; auto.
        rewrite Hprev in Hj by auto. exfalso; apply Hnin, In_live_edges; eauto.
    + rewrite aget_aset_neq by (apply eeqb_eq || auto). rewrite (iv_lst _ _ H).
      destruct (Nat.eq_dec j i) as [->|Hji].
      * rewrite Hlast. rewrite (proj2 (nth_error_None sl i)) by lia.
        split; [discriminate|intros E; inversion E; congruence].
      * rewrite Hprev by auto. reflexivity.
  - change (NoDup (map fst (eset e i (c_lst c)))). apply (aset_nodup eeqb eeqb_eq). apply (iv_lst_nd _ _ H).
  - unfold dead_count. rewrite filter_app, app_length; cbn. rewrite Nat.add_0_r. apply (iv_marked _ _ H).
  - intros z. rewrite chain_snoc_live, <- Hn, <- Ex. 
    change (if (z =? x)%N then Some i else nget z (ndel x (c_adj c))) with (nget z (nset x i (c_adj c))).
    destruct (N.eqb_spec x z) as [->|Hne].
    + rewrite aget_aset_eq by apply N.eqb_eq. reflexivity.
    + rewrite aget_aset_neq by (apply N.eqb_eq || auto). apply (iv_adj _ _ H).
  - change (NoDup (map fst (nset x i (c_adj c)))). apply (aset_nodup N.eqb N.eqb_eq). apply (iv_adj_nd _ _ H).
  - intros z. rewrite chain_snoc_live, <- Hn, <- Ex. 
    destruct (N.eqb_spec x z) as [->|Hne]; [exact HE3|].
    apply linked_ext with (els := c_els c); [|apply (iv_chain _ _ H)].
    intros k Hk. apply chain_In in Hk. destruct Hk as [w Hk]. apply HE4.
    + assert (k < length sl) by (apply nth_error_Some; congruence). lia.
    + intros Hin. apply chain_In in Hin. destruct Hin as [w' Hk']. congruence.
  - intros j Hj. rewrite app_length in Hj; cbn in Hj. rewrite HE4.
    + apply (iv_fresh _ _ H). lia.
    + lia.
    + intros Hin. apply chain_In in Hin. destruct Hin as [w Hw].
      assert (j < length sl) by (apply nth_error_Some; congruence). lia.
Qed.

(** The slot bound: insertion of a new edge is defined exactly when a slot is free, possibly after
    growing to MAXSZ(max(n_vertices, n_edges), 0). *)
Definition room (T : thresholds) (c : c0) (ne : N) : Prop :=
  c_n c < c_max c \/
  (N.max (c_nv c) ne <> 1%N /\ c_n c < N.to_nat (th_max T (N.max (c_nv c) ne) 0)).

Lemma insert_ok T c sl e ne : c0_inv c sl -> ~ In e (live_edges sl) -> room T c ne ->
  exists c', c0_insert T c e ne = Ok c' /\ c0_inv c' (sl ++ [(e, true)]) /\
             c_max c <= c_max c' /\ c_nv c' = c_nv c.
Proof.
  intros H Hnin Hroom. unfold c0_insert.
  rewrite (proj2 (inv_find_none _ _ _ H) Hnin). rewrite (iv_els_len _ _ H).
  destruct (Nat.leb_spec (c_max c) (c_n c)) as [Hfull|Hfree].
  - destruct Hroom as [?|[Hm Hr]]; [lia|].
    unfold maxsz. destruct (N.eqb_spec (N.max (c_nv c) ne) 1); [congruence|]. cbn [obind].
    destruct (inv_resize c sl (N.to_nat (th_max T (N.max (c_nv c) ne) 0)) H) as [H' [Hx [Hv [Hl Hn]]]].
    destruct (insert_core_ok _ _ e H' Hnin ltac:(lia)) as [c' [E [Hi [Hmx Hnv]]]].
    exists c'. split; [exact E|]. split; [exact Hi|]. split; [lia|congruence].
  - destruct (insert_core_ok _ _ e H Hnin Hfree) as [c' [E [Hi [Hmx Hnv]]]].
    exists c'. split; [exact E|]. split; [exact Hi|]. split; [lia|congruence].
Qed.

Lemma insert_room T c sl e ne c' : c0_inv c sl -> ~ In e (live_edges sl) ->
  c0_insert T c e ne = Ok c' -> room T c ne.
Proof.
  intros H Hnin. unfold c0_insert. rewrite (proj2 (inv_find_none _ _ _ H) Hnin), (iv_els_len _ _ H).
  destruct (Nat.leb_spec (c_max c) (c_n c)) as [Hfull|Hfree]; [|left; auto].
  unfold maxsz. destruct (N.eqb_spec (N.max (c_nv c) ne) 1); [discriminate|]. cbn [obind].
  set (m := N.to_nat (th_max T (N.max (c_nv c) ne) 0)) in *.
  destruct (inv_resize c sl m H) as [H' [Hx [Hv [Hl Hn]]]]. intros E.
  right; split; auto. fold m.
  destruct (get (c_free (c0_resize c m)) (c_n (c0_resize c m))) eqn:Eg; [|discriminate].
  apply get_Ok in Eg. assert (c_n (c0_resize c m) < length (c_free (c0_resize c m))) by (apply nth_error_Some; congruence).
  rewrite (iv_free_len _ _ H') in *. lia.
Qed.

(** Whatever it does, a completed insert leaves a well-formed buffer with the edge added. *)
Lemma insert_inv T c sl e ne c' : c0_inv c sl -> c0_insert T c e ne = Ok c' ->
  c_nv c' = c_nv c /\ c_max c <= c_max c' /\
  if emem e (live_edges sl) then c' = c else c0_inv c' (sl ++ [(e, true)]).
Proof.
  intros H E. destruct (emem e (live_edges sl)) eqn:Em.
  - apply emem_In in Em. rewrite (insert_present T _ _ _ ne H Em) in E. inversion E; auto.
  - apply emem_false in Em. pose proof (insert_room _ _ _ _ _ _ H Em E) as Hr.
    destruct (insert_ok T c sl e ne H Em Hr) as [c2 [E2 [H2 [H3 H4]]]].
    rewrite E in E2; inversion E2; subst. auto.
Qed.

(** ** Deletion *)
Lemma linked_split els l1 : forall p k l2,
  linked els p (l1 ++ k :: l2) ->
  nth_error els k = Some (mknode (hd_error l2) (match rev l1 with [] => p | a :: _ => Some a end)).
Proof.
  induction l1 as [|a l1 IH]; cbn; intros p k l2 H; [tauto|].
  destruct H as [_ H]. apply IH in H. rewrite H. do 2 f_equal.
  destruct (rev l1) eqn:E; cbn; auto.
Qed.

(** Cutting k out of the middle of a linked list. *)
Lemma linked_cut els els' l1 : forall p k l2,
  NoDup (l1 ++ k :: l2) ->
  linked els p (l1 ++ k :: l2) ->
  (forall j, In j (l1 ++ l2) ->
     nth_error els' j =
     match nth_error els j with
     | Some d => Some (mknode
          (if (match nx d with Some q => Nat.eqb q k | None => false end) then hd_error l2 else nx d)
          (if (match pv d with Some q => Nat.eqb q k | None => false end)
           then (match rev l1 with [] => p | a :: _ => Some a end) else pv d))
     | None => None end) ->
  (match p with Some q => q <> k | None => True end) ->
  linked els' p (l1 ++ l2).
Proof.
  induction l1 as [|a l1 IH]; intros p k l2 Hnd Hl He Hp.
  - cbn in *. destruct Hl as [Hk Hl]. destruct l2 as [|b l2]; cbn; auto.
    cbn in Hl. destruct Hl as [Hb Hl]. inversion Hnd as [|? ? Hk2 Hnd2]; subst.
    inversion Hnd2 as [|? ? Hb2 Hnd3]; subst.
    split.
    + rewrite He by (left; auto). rewrite Hb; cbn. rewrite Nat.eqb_refl. f_equal. f_equal.
      destruct l2 as [|c l2]; cbn; auto. destruct (Nat.eqb_spec c k); auto.
      subst; exfalso; apply Hk2; right; left; auto.
    + assert (G : forall l q, q <> k -> ~ In k l -> linked els (Some q) l ->
                  (forall j, In j l -> nth_error els' j = match nth_error els j with
                     | Some d => Some (mknode
                          (if (match nx d with Some q => Nat.eqb q k | None => false end) then Some b else nx d)
                          (if (match pv d with Some q => Nat.eqb q k | None => false end) then p else pv d))
                     | None => None end) -> linked els' (Some q) l).
      { induction l as [|c l IHl]; cbn; intros q Hq Hkl Hll Hee; auto.
        destruct Hll as [Hc Hll]. split.
        - rewrite Hee by auto. rewrite Hc; cbn. destruct (Nat.eqb_spec q k); [congruence|].
          destruct l as [|d l]; cbn; auto. destruct (Nat.eqb_spec d k); auto.
          subst; exfalso; apply Hkl; right; left; auto.
        - apply IHl; auto. }
      apply G; auto.
      * intros ->. apply Hk2; left; auto.
      * intros Hin. apply Hk2; right; auto.
      * intros j Hj. apply He. right; auto.
  - cbn in *. destruct Hl as [Ha Hl]. inversion Hnd as [|? ? Ha2 Hnd2]; subst.
    assert (Hak : a <> k) by (intros ->; apply Ha2, in_app_iff; right; left; auto).
    split.
    + rewrite He by auto. rewrite Ha; cbn.
      assert (Hpv : (match p with Some q => Nat.eqb q k | None => false end) = false).
      { destruct p as [q|]; auto. destruct (Nat.eqb_spec q k); congruence. }
      rewrite Hpv. f_equal. f_equal.
      destruct l1 as [|b l1]; cbn.
      * rewrite Nat.eqb_refl. auto.
      * destruct (Nat.eqb_spec b k); auto. subst. exfalso.
        inversion Hnd2 as [|? ? Hb2 _]; subst. apply Hb2, in_app_iff; right; left; auto.
    + apply (IH (Some a) k l2); auto.
      intros j Hj. rewrite He by auto. destruct (nth_error els j) as [d|]; auto.
      destruct (rev l1) as [|r rl] eqn:Er; cbn; auto.
Qed.

Lemma filter_cut l k : NoDup l -> In k l ->
  exists l1 l2, l = l1 ++ k :: l2 /\ filter (fun i => negb (Nat.eqb i k)) l = l1 ++ l2.
Proof.
  intros Hnd Hin. apply in_split in Hin. destruct Hin as [l1 [l2 ->]]. exists l1, l2. split; auto.
  rewrite filter_app; cbn. rewrite Nat.eqb_refl; cbn.
  apply NoDup_remove_2 in Hnd. rewrite in_app_iff in Hnd.
  rewrite !filter_all; auto; intros a Ha; apply negb_true_iff, Nat.eqb_neq; intros ->; tauto.
Qed.

Lemma hd_rev_last {A} (l1 : list A) : hd_error (rev l1) = match rev l1 with [] => None | a :: _ => Some a end.
Proof. destruct (rev l1); auto. Qed.

Lemma in_rev_hd {A} (l : list A) a t : rev l = a :: t -> In a l.
Proof. intros H. apply in_rev. rewrite H; left; auto. Qed.

Lemma erase_absent c sl e : c0_inv c sl -> ~ In e (live_edges sl) -> c0_erase c e = Ok (false, c).
Proof.
  intros H Hn. unfold c0_erase. rewrite (proj2 (inv_find_none _ _ _ H) Hn). reflexivity.
Qed.

Lemma erase_present c sl e : c0_inv c sl -> In e (live_edges sl) ->
  exists c' k, c0_erase c e = Ok (true, c') /\ nth_error sl k = Some (e, true) /\
    c0_inv c' (kill sl k) /\ c_max c' = c_max c /\ c_nv c' = c_nv c.
Proof.
  intros H Hin. destruct e as [x y].
  apply In_live_edges in Hin. destruct Hin as [k Hk].
  pose proof (iv_le _ _ H) as Hle. pose proof (iv_n _ _ H) as Hn. pose proof (iv_els_len _ _ H) as Hel.
  assert (Hkl : k < length sl) by (apply nth_error_Some; congruence).
  unfold c0_erase. rewrite (proj2 (iv_lst _ _ H _ _) Hk).
  assert (Hkc : In k (chain sl x)) by (apply chain_In; eauto).
  pose proof (chain_nodup sl x) as Hcnd.
  destruct (filter_cut (chain sl x) k Hcnd Hkc) as [l1 [l2 [Hc Hf]]].
  pose proof (iv_chain _ _ H x) as Hl. rewrite Hc in Hl.
  pose proof (linked_split _ _ _ _ _ Hl) as Hd.
  rewrite (proj2 (get_Ok _ _ _) Hd). cbn [obind nx pv].
  rewrite Hc in Hcnd.
  assert (Hl1 : forall j, In j l1 -> j < length sl).
  { intros j Hj. assert (In j (chain sl x)) as Hin by (rewrite Hc; apply in_app_iff; auto).
    apply chain_In in Hin. destruct Hin as [w Hw]. apply nth_error_Some; congruence. }
  assert (Hl2 : forall j, In j l2 -> j < length sl).
  { intros j Hj. assert (In j (chain sl x)) as Hin by (rewrite Hc; apply in_app_iff; right; right; auto).
    apply chain_In in Hin. destruct Hin as [w Hw]. apply nth_error_Some; congruence. }
  pose proof (NoDup_remove_2 _ _ _ Hcnd) as Hk12. rewrite in_app_iff in Hk12.
  pose proof (NoDup_remove_1 _ _ _ Hcnd) as Hnd12.
  (* neighbours of k in the chain *)
  assert (Hpk : forall p t, rev l1 = p :: t ->
     exists l1', l1 = l1' ++ [p]).
  { intros p t E. exists (rev t). rewrite <- (rev_involutive l1), E. reflexivity. }
  (* result of the pointer surgery *)
  assert (HS : exists adj els,
    match hd_error l2, (match rev l1 with [] => None | a :: _ => Some a end) with
    | None, None => Ok (ndel x (c_adj c), c_els c)
    | None, Some p => let* els := modify (c_els c) p (set_nx None) in Ok (c_adj c, els)
    | Some q, None => let* els := modify (c_els c) q (set_pv None) in Ok (nset x q (c_adj c), els)
    | Some q, Some p => let* els := modify (c_els c) q (set_pv (Some p)) in
                        let* els := modify els p (set_nx (Some q)) in Ok (c_adj c, els)
    end = Ok (adj, els) /\
    length els = length (c_els c) /\
    (forall z, nget z adj = if N.eqb z x then hd_error (l1 ++ l2) else nget z (c_adj c)) /\
    NoDup (map fst adj) /\
    linked els None (l1 ++ l2) /\
    (forall j, ~ In j (l1 ++ l2) -> nth_error els j = nth_error (c_els c) j)).
  { assert (Hadj0 : nget x (c_adj c) = hd_error (l1 ++ k :: l2)) by (rewrite <- Hc; apply (iv_adj _ _ H)).
    assert (Hadjkeep : l1 <> [] -> forall z, nget z (c_adj c) = if N.eqb z x then hd_error (l1 ++ l2) else nget z (c_adj c)).
    { intros Hne z. destruct (N.eqb_spec z x) as [->|]; auto. rewrite Hadj0. destruct l1; [congruence|]; auto. }
    destruct l2 as [|q l2]; destruct (rev l1) as [|p t] eqn:Er; cbn [hd_error].
    - (* alone *)
      assert (l1 = []) by (destruct l1; auto; cbn in Er; destruct (rev l1); discriminate). subst l1.
      do 2 eexists; split; [reflexivity|]. split; auto. split.
      { intros z. destruct (N.eqb_spec z x) as [->|Hne].
        - rewrite aget_adel_eq; auto.
        - rewrite aget_adel_neq by (apply N.eqb_eq || auto). auto. }
      split; [apply (adel_nodup N.eqb N.eqb_eq), (iv_adj_nd _ _ H)|]. cbn; auto.
    - (* last *)
      destruct (Hpk _ _ eq_refl) as [l1' ->]. rewrite <- app_assoc in Hl. cbn in Hl.
      pose proof (linked_split _ _ _ _ _ Hl) as Hp.
      rewrite (modify_Ok _ _ _ _ Hp). cbn [obind].
      do 2 eexists; split; [reflexivity|]. split; [apply length_upd|]. split.
      { apply Hadjkeep. destruct l1'; discriminate. }
      split; [apply (iv_adj_nd _ _ H)|]. split.
      + apply linked_cut with (els := c_els c) (k := k); auto.
        * rewrite <- app_assoc. exact Hl.
        * intros j Hj. rewrite app_nil_r in Hj, Hnd12. rewrite nth_error_upd.
          rewrite rev_app_distr in Er; cbn in Er.
          destruct (Nat.eqb_spec p j) as [<-|Hne].
          -- replace (p <? length (c_els c)) with true
               by (symmetry; apply Nat.ltb_lt, nth_error_Some; congruence).
             rewrite Hp. cbn. rewrite Nat.eqb_refl. unfold set_nx; cbn. do 2 f_equal.
             destruct (rev l1') as [|r rl] eqn:Er2; cbn; auto.
             destruct (Nat.eqb_spec r k); auto. subst r. exfalso; apply Hk12. left.
             apply in_app_iff; left. eapply in_rev_hd; eauto.
          -- assert (Hj' : In j l1') by (apply in_app_iff in Hj; destruct Hj as [|[|[]]]; [auto|congruence]).
             apply in_split in Hj'. destruct Hj' as [a [b ->]].
             rewrite <- app_assoc in Hl; cbn in Hl. pose proof (linked_split _ _ _ _ _ Hl) as Hj2.
             rewrite Hj2. cbn. do 2 f_equal.
             ++ destruct b as [|b0 b]; cbn.
                ** destruct (Nat.eqb_spec p k); auto. subst p. exfalso; apply Hk12; left. apply in_app_iff; right; left; auto.
                ** destruct (Nat.eqb_spec b0 k); auto. subst b0. exfalso; apply Hk12; left.
                   apply in_app_iff; left. apply in_app_iff; right; right; left; auto.
             ++ destruct (rev a) as [|r rl] eqn:Era; cbn; auto.
                destruct (Nat.eqb_spec r k); auto. subst r. exfalso; apply Hk12. left.
                apply in_app_iff; left. apply in_app_iff; left. eapply in_rev_hd; eauto.
      + intros j Hj. rewrite nth_error_upd_neq; auto. intros ->. apply Hj.
        apply in_app_iff; left; apply in_app_iff; right; left; auto.
    - (* first *)
      assert (l1 = []) by (destruct l1; auto; cbn in Er; destruct (rev l1); discriminate). subst l1.
      cbn in Hl. destruct Hl as [_ [Hq Hl]].
      rewrite (modify_Ok _ _ _ _ Hq). cbn [obind].
      do 2 eexists; split; [reflexivity|]. split; [apply length_upd|]. split.
      { intros z. destruct (N.eqb_spec z x) as [->|Hne].
        - rewrite aget_aset_eq by apply N.eqb_eq; auto.
        - rewrite aget_aset_neq by (apply N.eqb_eq || auto). auto. }
      split; [apply (aset_nodup N.eqb N.eqb_eq), (iv_adj_nd _ _ H)|]. cbn [app]. split.
      + cbn. split.
        * rewrite nth_error_upd_eq by (apply nth_error_Some; congruence). reflexivity.
        * apply linked_ext with (els := c_els c); auto. intros j Hj. apply nth_error_upd_neq.
          intros ->. cbn in Hnd12. inversion Hnd12; auto.
      + intros j Hj. apply nth_error_upd_neq. intros ->. apply Hj; left; auto.
    - (* middle *)
      destruct (Hpk _ _ eq_refl) as [l1' ->]. rewrite <- app_assoc in Hl. cbn in Hl.
      pose proof (linked_split _ _ _ _ _ Hl) as Hp. cbn in Hp.
      assert (Hl' : linked (c_els c) None (((l1' ++ [p]) ++ [k]) ++ q :: l2)).
      { rewrite <- !app_assoc. exact Hl. }
      pose proof (linked_split _ _ _ _ _ Hl') as Hq. rewrite rev_app_distr in Hq; cbn in Hq.
      rewrite (modify_Ok _ _ _ _ Hq). cbn [obind].
      assert (Hpq : q <> p).
      { intros ->. rewrite <- app_assoc in Hnd12. cbn in Hnd12. apply NoDup_remove_2 in Hnd12.
        apply Hnd12, in_app_iff; right; left; auto. }
      assert (Hpk' : p <> k) by (intros ->; apply Hk12; left; apply in_app_iff; right; left; auto).
      assert (Hqk' : q <> k) by (intros ->; apply Hk12; right; left; auto).
      assert (Hp2 : nth_error (upd (c_els c) q (set_pv (Some p) (mknode (hd_error l2) (Some k)))) p
              = Some (mknode (Some k) (match rev l1' with [] => None | a :: _ => Some a end)))
        by (rewrite nth_error_upd_neq; auto).
      rewrite (modify_Ok _ _ _ _ Hp2). cbn [obind].
      do 2 eexists; split; [reflexivity|]. split; [rewrite !length_upd; auto|]. split.
      { apply Hadjkeep. destruct l1'; discriminate. }
      split; [apply (iv_adj_nd _ _ H)|]. split.
      + apply linked_cut with (els := c_els c) (k := k); auto.
        * rewrite <- app_assoc. exact Hl.
        * intros j Hj.
          assert (Hother : j <> p -> j <> q -> forall d, nth_error (c_els c) j = Some d ->
              (match nx d with Some s => Nat.eqb s k | None => false end) = false /\
              (match pv d with Some s => Nat.eqb s k | None => false end) = false).
          { intros Jp Jq d Hdj.
            assert (Hjn : j < length (l1' ++ p :: k :: q :: l2) -> True) by auto.
            apply in_app_iff in Hj. destruct Hj as [Hj|Hj].
            - assert (Hj' : In j l1') by (apply in_app_iff in Hj; destruct Hj as [|[|[]]]; [auto|congruence]).
              apply in_split in Hj'. destruct Hj' as [a [b ->]].
              rewrite <- app_assoc in Hl; cbn in Hl. pose proof (linked_split _ _ _ _ _ Hl) as Hj2.
              rewrite Hj2 in Hdj; inversion Hdj; subst d; cbn. split.
              + destruct b as [|b0 b]; cbn.
                * apply Nat.eqb_neq; auto.
                * apply Nat.eqb_neq. intros ->. apply Hk12; left.
                  apply in_app_iff; left. apply in_app_iff; right; right; left; auto.
              + destruct (rev a) as [|r rl] eqn:Era; cbn; auto.
                apply Nat.eqb_neq. intros ->. apply Hk12. left.
                apply in_app_iff; left. apply in_app_iff; left. eapply in_rev_hd; eauto.
            - assert (Hj' : In j l2) by (destruct Hj; [congruence|auto]).
              apply in_split in Hj'. destruct Hj' as [a [b ->]].
              assert (Hl2' : linked (c_els c) None (((l1' ++ [p]) ++ [k] ++ q :: a) ++ j :: b)).
              { rewrite <- !app_assoc. cbn. exact Hl. }
              pose proof (linked_split _ _ _ _ _ Hl2') as Hj2.
              rewrite Hj2 in Hdj; inversion Hdj; subst d; cbn. split.
              + destruct b as [|b0 b]; cbn; auto. apply Nat.eqb_neq. intros ->. apply Hk12; right; right.
                apply in_app_iff; right; right; left; auto.
              + rewrite rev_app_distr. cbn. rewrite <- app_assoc. destruct (rev a) as [|r rl] eqn:Era; cbn.
                * apply Nat.eqb_neq; auto.
                * apply Nat.eqb_neq. intros ->. apply Hk12; right; right. apply in_app_iff; left. eapply in_rev_hd; eauto. }
          rewrite nth_error_upd, length_upd. destruct (Nat.eqb_spec p j) as [<-|Hpj].
          -- replace (p <? length (c_els c)) with true
               by (symmetry; apply Nat.ltb_lt, nth_error_Some; congruence).
             rewrite Hp; cbn. rewrite Nat.eqb_refl. unfold set_nx; cbn. do 2 f_equal.
             destruct (rev l1') as [|r rl] eqn:Er2; cbn; auto.
             destruct (Nat.eqb_spec r k); auto. subst r. exfalso; apply Hk12. left.
             apply in_app_iff; left. eapply in_rev_hd; eauto.
          -- rewrite nth_error_upd. destruct (Nat.eqb_spec q j) as [<-|Hqj].
             ++ replace (q <? length (c_els c)) with true
                  by (symmetry; apply Nat.ltb_lt, nth_error_Some; congruence).
                rewrite Hq; cbn. rewrite Nat.eqb_refl. unfold set_pv; cbn.
                rewrite rev_app_distr; cbn. do 2 f_equal.
                destruct l2 as [|b0 l2]; cbn; auto. destruct (Nat.eqb_spec b0 k); auto.
                subst b0; exfalso; apply Hk12; right; right; left; auto.
             ++ destruct (nth_error (c_els c) j) as [d|] eqn:Ed; auto.
                destruct (Hother ltac:(auto) ltac:(auto) d eq_refl) as [-> ->]. destruct d; auto.
      + intros j Hj. rewrite !nth_error_upd_neq; auto.
        * intros ->. apply Hj, in_app_iff; right; left; auto.
        * intros ->. apply Hj, in_app_iff; left; apply in_app_iff; right; left; auto. }
  destruct HS as [adj [els [HS1 [HS2 [HS3 [HS4 [HS5 HS6]]]]]]].
  cbn [fst]. cbn in HS1. rewrite HS1. cbn.
  rewrite set_Ok by (rewrite (iv_free_len _ _ H); lia). cbn.
  do 2 eexists; split; [reflexivity|]. split; [exact Hk|]. split; [|cbn; auto].
  constructor; cbn.
  - rewrite kill_length; auto.
  - auto.
  - rewrite HS2; auto.
  - apply (iv_nodes_len _ _ H).
  - rewrite length_upd. apply (iv_free_len _ _ H).
  - intros i e b Hi. rewrite kill_nth in Hi. destruct (nth_error sl i) as [[e' b']|] eqn:E; [|discriminate].
    inversion Hi; subst. eapply (iv_nodes _ _ H); eauto.
  - intros i Hi. rewrite nth_error_upd, kill_nth. destruct (Nat.eqb_spec k i) as [<-|Hne].
    + rewrite Hk, (iv_free_len _ _ H). destruct (Nat.ltb_spec k (c_max c)); [|lia].
      rewrite Nat.eqb_refl. reflexivity.
    + rewrite (iv_free _ _ H i Hi). destruct (nth_error sl i) as [[e' b']|]; auto.
      destruct (Nat.eqb_spec i k); [congruence|]. rewrite andb_true_r. auto.
  - intros e i. rewrite kill_nth. destruct (edge_dec (x, y) e) as [<-|Hne].
    + rewrite aget_adel_eq. split; [discriminate|].
      destruct (nth_error sl i) as [[e' b']|] eqn:E; [|discriminate]. intros G; inversion G; subst.
      destruct b'; [|discriminate].
      assert (i = k) by (apply (inv_uniq _ _ H (x, y)); auto). subst. rewrite Nat.eqb_refl in *. discriminate.
    + rewrite aget_adel_neq by (apply eeqb_eq || auto). rewrite (iv_lst _ _ H).
      destruct (nth_error sl i) as [[e' b']|] eqn:E; [|split; discriminate].
      destruct (Nat.eqb_spec i k) as [->|Hik].
      * rewrite Hk in E; inversion E; subst. split; intros G; inversion G; congruence.
      * rewrite andb_true_r. reflexivity.
  - apply (adel_nodup eeqb eeqb_eq), (iv_lst_nd _ _ H).
  - rewrite (dead_kill _ _ _ Hk). f_equal. apply (iv_marked _ _ H).
  - intros z. rewrite HS3, chain_kill. destruct (N.eqb_spec z x) as [->|Hne].
    + rewrite Hf; auto.
    + rewrite filter_all; [apply (iv_adj _ _ H)|].
      intros j Hj. apply negb_true_iff, Nat.eqb_neq. intros ->.
      apply chain_In in Hj. destruct Hj as [w Hw]. congruence.
  - auto.
  - intros z. rewrite chain_kill. destruct (N.eq_dec z x) as [->|Hne].
    + rewrite Hf; auto.
    + assert (Hz : forall j, In j (chain sl z) -> ~ In j (k :: l1 ++ l2)).
      { intros j Hj Hin. assert (In j (chain sl x)) as Hjx.
        { rewrite Hc. destruct Hin as [<-|Hin]; [apply in_app_iff; right; left; auto|].
          apply in_app_iff in Hin. apply in_app_iff. destruct Hin; [left; auto|right; right; auto]. }
        apply chain_In in Hj. apply chain_In in Hjx. destruct Hj as [w Hw], Hjx as [w' Hw']. congruence. }
      rewrite filter_all.
      * apply linked_ext with (els := c_els c); [|apply (iv_chain _ _ H)].
        intros j Hj. apply HS6. intros Hin. apply (Hz j Hj). right; auto.
      * intros j Hj. apply negb_true_iff, Nat.eqb_neq. intros ->. apply (Hz k Hj). left; auto.
  - intros i Hi. rewrite kill_length in Hi. rewrite HS6; [apply (iv_fresh _ _ H); lia|].
    intros Hin. apply in_app_iff in Hin. destruct Hin as [Hin|Hin]; [apply Hl1 in Hin|apply Hl2 in Hin]; lia.
Qed.

(** Erase in one statement. *)
Lemma erase_inv c sl e b c' : c0_inv c sl -> c0_erase c e = Ok (b, c') ->
  b = emem e (live_edges sl) /\ c_max c' = c_max c /\ c_nv c' = c_nv c /\
  exists sl', c0_inv c' sl' /\ length sl' = length sl /\
    live_edges sl' = filter (fun f => negb (eeqb e f)) (live_edges sl) /\ (b = false -> c' = c).
Proof.
  intros H E. destruct (emem e (live_edges sl)) eqn:Em.
  - apply emem_In in Em. destruct (erase_present _ _ _ H Em) as [c2 [k [E2 [Hk [H2 [H3 H4]]]]]].
    rewrite E in E2; inversion E2; subst. split; auto. split; auto. split; auto.
    exists (kill sl k). split; auto. split; [apply kill_length|]. split; [|discriminate].
    apply live_edges_kill; auto. apply (inv_uniq _ _ H).
  - apply emem_false in Em. rewrite (erase_absent _ _ _ H Em) in E. inversion E; subst.
    split; auto. split; auto. split; auto. exists sl. split; auto. split; auto. split; auto.
    symmetry; apply filter_all. intros a Ha. apply negb_true_iff, eeqb_neq. intros ->; auto.
Qed.
Lemma erase_total c sl e : c0_inv c sl -> exists b c', c0_erase c e = Ok (b, c').
Proof.
  intros H. destruct (emem e (live_edges sl)) eqn:Em.
  - apply emem_In in Em. destruct (erase_present _ _ _ H Em) as [c2 [k [E2 _]]]; eauto.
  - apply emem_false in Em. rewrite (erase_absent _ _ _ H Em); eauto.
Qed.
