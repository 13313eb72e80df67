(** * C0Hist: the buffer over arbitrary histories; serialization of the buffer. *)
From Verif Require Import Base Spec Thresholds K2 C0 C0Proof.

(** A call on the buffer: insert(x, y, n_edges) or erase(x, y). *)
Inductive cop := CIns (e : edge) (ne : N) | CErase (e : edge).
Definition cop_op (o : cop) : op := match o with CIns e _ => Add e | CErase e => Del e end.

Definition c0_step (T : thresholds) (c : c0) (o : cop) : out c0 :=
  match o with
  | CIns e ne => c0_insert T c e ne
  | CErase e => let* p := c0_erase c e in Ok (snd p)
  end.
Fixpoint c0_steps (T : thresholds) (c : c0) (h : list cop) : out c0 :=
  match h with
  | [] => Ok c
  | o :: t => let* c := c0_step T c o in c0_steps T c t
  end.
(** A fresh buffer for n vertices, then the calls of h. *)
Definition c0_hist (T : thresholds) (n : N) (h : list cop) : out c0 :=
  let* c := c0_new T n in c0_steps T c h.

(** Slots consumed by a history: insertions of edges absent at that moment. *)
Fixpoint slots_used (g : list edge) (h : list op) : nat :=
  match h with
  | [] => 0
  | o :: t => (match o with Add e => if emem e g then 0 else 1 | Del _ => 0 end) + slots_used (espec_step g o) t
  end.

Lemma c0_new_inv T n c : c0_new T n = Ok c -> c0_inv c [] /\ c_nv c = n.
Proof.
  unfold c0_new. destruct (maxsz T n 0); cbn; intros H; inversion H; subst. split; [apply inv_empty|auto].
Qed.

Lemma c0_step_inv T c sl o c' : c0_inv c sl -> c0_step T c o = Ok c' ->
  exists sl', c0_inv c' sl' /\ live_edges sl' = espec_step (live_edges sl) (cop_op o) /\
    c_nv c' = c_nv c /\
    length sl' = length sl + (match cop_op o with Add e => if emem e (live_edges sl) then 0 else 1 | Del _ => 0 end).
Proof.
  intros H E. destruct o as [e ne|e]; cbn in *.
  - destruct (insert_inv _ _ _ _ _ _ H E) as [Hv [_ Hi]].
    destruct (emem e (live_edges sl)).
    + subst c'. exists sl. sp; auto; lia.
    + eexists; split; [exact Hi|]. rewrite live_edges_app, app_length; cbn. sp; auto; lia.
  - destruct (c0_erase c e) as [[b c2]|] eqn:Ee; cbn in E; [|discriminate]. inversion E; subst.
    destruct (erase_inv _ _ _ _ _ H Ee) as [_ [_ [Hv [sl' [H1 [H2 [H3 _]]]]]]].
    exists sl'. sp; auto; lia.
Qed.

Lemma c0_steps_inv T h : forall c sl c', c0_inv c sl -> c0_steps T c h = Ok c' ->
  exists sl', c0_inv c' sl' /\ live_edges sl' = fold_left espec_step (map cop_op h) (live_edges sl) /\
    c_nv c' = c_nv c /\ length sl' = length sl + slots_used (live_edges sl) (map cop_op h).
Proof.
  induction h as [|o h IH]; cbn; intros c sl c' H E.
  - inversion E; subst. exists sl. sp; auto; lia.
  - destruct (c0_step T c o) as [c1|] eqn:E1; cbn in E; [|discriminate].
    destruct (c0_step_inv _ _ _ _ _ H E1) as [sl1 [H1 [H2 [H3 H4]]]].
    destruct (IH _ _ _ H1 E) as [sl' [G1 [G2 [G3 G4]]]].
    exists sl'. rewrite <- H2. sp; auto; try congruence. lia.
Qed.

Lemma c0_hist_inv T n h c : c0_hist T n h = Ok c ->
  exists sl, c0_inv c sl /\ live_edges sl = espec (map cop_op h) /\ c_nv c = n /\
             length sl = slots_used [] (map cop_op h).
Proof.
  unfold c0_hist. destruct (c0_new T n) as [c1|] eqn:E1; cbn; [|discriminate]. intros E.
  destruct (c0_new_inv _ _ _ E1) as [H Hn].
  destruct (c0_steps_inv _ _ _ _ _ H E) as [sl [H1 [H2 [H3 H4]]]].
  exists sl. sp; auto; congruence.
Qed.

(** ** Serialization *)
Lemma inv_save c sl : c0_inv c sl ->
  c0_save c = if Nat.eqb (dead_count sl) 0 then Ok (c_nv c, c_max c, live_edges sl) else UB.
Proof.
  intros H. unfold c0_save. rewrite (iv_n _ _ H).
  pose proof (iv_le _ _ H) as Hle. pose proof (iv_n _ _ H) as Hn.
  assert (G : forall sl2 sl1, sl = sl1 ++ sl2 ->
    save_slots c (seq (length sl1) (length sl2)) =
    if Nat.eqb (dead_count sl2) 0 then Ok (live_edges sl2) else UB).
  { induction sl2 as [|[e b] sl2 IH]; intros sl1 E; [reflexivity|].
    cbn [length seq save_slots].
    assert (Hi : nth_error sl (length sl1) = Some (e, b)).
    { rewrite E, nth_error_app2, Nat.sub_diag by lia. reflexivity. }
    assert (Hlt : length sl1 < length sl) by (apply nth_error_Some; congruence).
    assert (Hf := iv_free _ _ H (length sl1) ltac:(lia)). rewrite Hi in Hf.
    rewrite (proj2 (get_Ok _ _ _) Hf). cbn [obind].
    specialize (IH (sl1 ++ [(e, b)])). rewrite <- app_assoc in IH. cbn [app] in IH.
    rewrite app_length in IH. cbn [length] in IH. rewrite Nat.add_1_r in IH. specialize (IH E).
    destruct b; cbn.
    - destruct (Z.eqb_spec (Z.of_nat (length sl1)) (-1)); [lia|].
      rewrite (inv_node_at _ _ _ _ _ H Hi). cbn. rewrite IH. unfold dead_count, live_edges. cbn.
      destruct (Nat.eqb _ 0); reflexivity.
    - reflexivity. }
  pose proof (G sl [] eq_refl) as G0. cbn [length] in G0. rewrite G0. destruct (Nat.eqb (dead_count sl) 0); reflexivity.
Qed.

Lemma all_live sl : dead_count sl = 0 -> sl = map (fun e => (e, true)) (live_edges sl).
Proof.
  unfold dead_count, live_edges. induction sl as [|[e b] sl IH]; cbn; auto.
  destruct b; cbn; [|discriminate]. intros H. rewrite <- IH; auto.
Qed.

Lemma load_edges_inv T es : forall c sl, c0_inv c sl -> NoDup (live_edges sl ++ es) ->
  length sl + length es <= c_max c ->
  exists c', load_edges T c es = Ok c' /\ c0_inv c' (sl ++ map (fun e => (e, true)) es) /\
             c_max c' = c_max c /\ c_nv c' = c_nv c.
Proof.
  induction es as [|e es IH]; cbn; intros c sl H Hnd Hlen.
  - exists c. rewrite app_nil_r. auto.
  - pose proof (NoDup_remove_2 _ _ _ Hnd) as Hn. rewrite in_app_iff in Hn.
    pose proof (iv_n _ _ H) as Hcn.
    assert (Hroom : c_n c < c_max c) by lia.
    unfold c0_insert. rewrite (proj2 (inv_find_none _ _ _ H)) by tauto.
    rewrite (iv_els_len _ _ H). destruct (Nat.leb_spec (c_max c) (c_n c)); [lia|]. cbn [obind].
    destruct (insert_core_ok _ _ e H ltac:(tauto) Hroom) as [c' [E [Hi [Hm Hv]]]].
    unfold c0_insert_core in E. rewrite E. cbn [obind].
    destruct (IH c' (sl ++ [(e, true)])) as [c2 [E2 [H2 [H3 H4]]]]; auto.
    + rewrite live_edges_app. cbn. rewrite <- app_assoc. exact Hnd.
    + rewrite app_length; cbn. lia.
    + exists c2. split; auto. split; [|split; congruence].
      rewrite <- app_assoc in H2. exact H2.
Qed.

Lemma inv_load T c sl im : c0_inv c sl -> c0_save c = Ok im ->
  exists c', c0_load T im = Ok c' /\ c0_inv c' sl /\ c_max c' = c_max c /\ c_nv c' = c_nv c.
Proof.
  intros H E. rewrite (inv_save _ _ H) in E.
  destruct (Nat.eqb_spec (dead_count sl) 0) as [Hd|]; [|discriminate]. inversion E; subst. cbn.
  pose proof (all_live _ Hd) as Hsl.
  assert (Hlen : length (live_edges sl) = length sl) by (rewrite Hsl at 2; rewrite map_length; auto).
  destruct (load_edges_inv T (live_edges sl) _ _ (inv_empty (c_max c) (c_nv c))) as [c' [E' [H' [Hm Hv]]]].
  - cbn. apply uniq_nodup, (inv_uniq _ _ H).
  - cbn. rewrite Hlen. rewrite <- (iv_n _ _ H). apply (iv_le _ _ H).
  - exists c'. split; auto. split; auto. cbn in H'. rewrite <- Hsl in H'. auto.
Qed.

(** ** Equality *)
Lemma alist_length_eq {K} (eqb : K -> K -> bool) (Heq : forall a b, eqb a b = true <-> a = b)
  (a b : list (K * nat)) :
  NoDup (map fst a) -> NoDup (map fst b) -> (forall k, aget eqb k a = aget eqb k b) -> length a = length b.
Proof.
  intros Ha Hb H. rewrite <- (map_length fst a), <- (map_length fst b).
  apply NoDup_length_eq; auto. intros k.
  assert (G : forall m : list (K * nat), In k (map fst m) <-> aget eqb k m <> None).
  { induction m as [|[k' v] m IH]; cbn; [tauto|].
    destruct (eqb k k') eqn:E.
    - apply Heq in E; subst. split; [discriminate|auto].
    - rewrite <- IH. split; [intros [->|]; auto|auto].
      rewrite (proj2 (Heq k k) eq_refl) in E; discriminate. }
  rewrite !G, H. tauto.
Qed.

Lemma map_eqb_true {K} (eqb : K -> K -> bool) (Heq : forall a b, eqb a b = true <-> a = b)
  (a b : list (K * nat)) :
  NoDup (map fst a) -> NoDup (map fst b) -> (forall k, aget eqb k a = aget eqb k b) -> map_eqb eqb a b = true.
Proof.
  intros Ha Hb H. unfold map_eqb. rewrite (alist_length_eq eqb Heq a b Ha Hb H), Nat.eqb_refl. cbn.
  apply forallb_forall. intros [k v] Hin. cbn.
  rewrite <- H, (In_aget eqb Heq k v a Ha Hin). apply Nat.eqb_refl.
Qed.

Lemma zlist_eqb_refl l : zlist_eqb l l = true.
Proof. induction l as [|z l IH]; cbn; auto. rewrite Z.eqb_refl; auto. Qed.

Lemma c0_eqb_same a b sl : c0_inv a sl -> c0_inv b sl -> c_max a = c_max b -> c_nv a = c_nv b ->
  c0_eqb a b = Ok true.
Proof.
  intros Ha Hb Hm Hv. unfold c0_eqb.
  assert (Hnodes : nodes_eqb a b (seq 0 (c_n a)) = Ok true).
  { rewrite (iv_n _ _ Ha). assert (G : forall js, (forall j, In j js -> j < length sl) -> nodes_eqb a b js = Ok true).
    { induction js as [|j js IH]; cbn; intros Hj; auto.
      destruct (nth_error sl j) as [[e f]|] eqn:E.
      - rewrite (inv_node_at _ _ _ _ _ Ha E), (inv_node_at _ _ _ _ _ Hb E). cbn. rewrite IH by auto. cbn.
        rewrite eeqb_refl; auto.
      - apply nth_error_None in E. specialize (Hj j (or_introl eq_refl)). lia. }
    apply G. intros j Hj. apply in_seq in Hj. lia. }
  rewrite Hnodes. cbn. f_equal.
  rewrite (iv_n _ _ Ha), (iv_n _ _ Hb), Hm, Hv, !Nat.eqb_refl, N.eqb_refl.
  rewrite (iv_nodes_len _ _ Ha), (iv_nodes_len _ _ Hb), Hm, Nat.eqb_refl.
  rewrite (map_eqb_true eeqb eeqb_eq), (map_eqb_true N.eqb N.eqb_eq).
  - cbn. assert (Hf : c_free a = c_free b).
    { apply list_ext. intros i. destruct (Nat.lt_ge_cases i (c_max a)) as [Hi|Hi].
      - rewrite (iv_free _ _ Ha) by auto. rewrite (iv_free _ _ Hb) by lia. auto.
      - rewrite !(proj2 (nth_error_None _ _)); auto.
        + rewrite (iv_free_len _ _ Hb); lia.
        + rewrite (iv_free_len _ _ Ha); lia. }
    rewrite Hf. apply zlist_eqb_refl.
  - apply (iv_adj_nd _ _ Ha).
  - apply (iv_adj_nd _ _ Hb).
  - intros x. rewrite (iv_adj _ _ Ha), (iv_adj _ _ Hb). auto.
  - apply (iv_lst_nd _ _ Ha).
  - apply (iv_lst_nd _ _ Hb).
  - intros e. destruct (eget e (c_lst a)) as [i|] eqn:E.
    + apply (iv_lst _ _ Ha) in E. symmetry. apply (iv_lst _ _ Hb). auto.
    + destruct (eget e (c_lst b)) as [i|] eqn:E2; auto.
      apply (iv_lst _ _ Hb) in E2. apply (iv_lst _ _ Ha) in E2. congruence.
Qed.
