(** * TriProof: the hash table and the triangle counters. *)
From Verif Require Import Base Spec AlgoSpec Thresholds K2 C0 DK Iter IterProof Algo AlgoProof.

(** ** The key and the table *)
Lemma key_value x y : (x < 2 ^ 32)%N -> (y < 2 ^ 32)%N -> edge_to_uint64 (x, y) = (Z.of_N x * 2 ^ 32 + Z.of_N y)%Z.
Proof.
  intros Hx Hy. unfold edge_to_uint64, u64. cbn [fst snd]. rewrite Z.shiftl_mul_pow2 by lia.
  rewrite Z.mod_small by lia. apply Z.bits_inj'. intros i Hi. rewrite Z.lor_spec.
  destruct (Z.lt_ge_cases i 32) as [H|H].
  - rewrite Z.mul_pow2_bits_low by lia. cbn [orb].
    rewrite <- (Z.mod_pow2_bits_low (Z.of_N x * 2 ^ 32 + Z.of_N y) 32) by lia.
    rewrite Z.add_comm, Z.mod_add, Z.mod_small by lia. auto.
  - rewrite Z.mul_pow2_bits by lia.
    assert (E0 : Z.testbit (Z.of_N y) i = false).
    { rewrite <- (Z.mod_small (Z.of_N y) (2 ^ 32)) by lia. apply Z.mod_pow2_bits_high. lia. }
    rewrite E0, orb_false_r. replace i with ((i - 32) + 32)%Z at 2 by lia.
    rewrite <- Z.div_pow2_bits by lia. rewrite Z.div_add_l, (Z.div_small (Z.of_N y)) by lia. f_equal. lia.
Qed.

Section Table.
Context (nb : nat) (Hnb : 0 < nb).

Record tb_wf (t : table) : Prop := {
  tw_len : length t = nb;
  tw_nd : forall i, NoDup (map fst (nth i t []));
  tw_home : forall i e, In e (map fst (nth i t [])) -> bucket nb e = i
}.

Lemma bucket_lt e : bucket nb e < nb.
Proof using Hnb. unfold bucket. pose proof (Z.mod_pos_bound (edge_hash e) (Z.of_nat nb)). lia. Qed.

Lemma nth_upd {A} (l : list A) i j a dflt : i < length l -> nth j (upd l i a) dflt = if Nat.eqb i j then a else nth j l dflt.
Proof using Type.
  clear Hnb. revert i j; induction l as [|h t IH]; intros [|i] [|j] H; cbn in *; try lia; auto. apply IH; lia.
Qed.

Lemma tb_wf_new : tb_wf (tb_new nb).
Proof using Type.
  assert (E : forall i, nth i (tb_new nb) [] = []).
  { unfold tb_new. clear Hnb. induction nb as [|m IH]; intros [|i]; cbn; auto. }
  constructor; [apply repeat_length|intros i; rewrite E; constructor|intros i e; rewrite E; intros []].
Qed.

Lemma tb_find_new e : tb_find nb (tb_new nb) e = (-1)%Z.
Proof using Type.
  unfold tb_find. assert (E : forall i, nth i (tb_new nb) [] = []).
  { unfold tb_new. clear Hnb. induction nb as [|m IH]; intros [|i]; cbn; auto. }
  rewrite E. reflexivity.
Qed.

Lemma tb_insert_wf t e i : tb_wf t -> tb_wf (tb_insert nb t e i).
Proof using Hnb.
  intros [W1 W2 W3]. assert (Hb : bucket nb e < length t) by (rewrite W1; apply bucket_lt). unfold tb_insert. constructor.
  - rewrite length_upd. auto.
  - intros j. rewrite nth_upd by auto. destruct (Nat.eqb_spec (bucket nb e) j); auto.
    apply aset_nodup; auto. apply eeqb_eq.
  - intros j f. rewrite nth_upd by auto. destruct (Nat.eqb_spec (bucket nb e) j) as [<-|]; auto.
    cbn [aset map fst In]. intros [<-|G]; auto. apply in_map_iff in G. destruct G as [p [<- G]].
    apply filter_In in G. apply W3. apply in_map, G.
Qed.
Lemma tb_erase_wf t e : tb_wf t -> tb_wf (tb_erase nb t e).
Proof using Hnb.
  intros [W1 W2 W3]. assert (Hb : bucket nb e < length t) by (rewrite W1; apply bucket_lt). unfold tb_erase. constructor.
  - rewrite length_upd. auto.
  - intros j. rewrite nth_upd by auto. destruct (Nat.eqb_spec (bucket nb e) j); auto.
    apply adel_nodup; auto. apply eeqb_eq.
  - intros j f. rewrite nth_upd by auto. destruct (Nat.eqb_spec (bucket nb e) j) as [<-|]; auto.
    intros G. apply in_map_iff in G. destruct G as [p [<- G]].
    apply filter_In in G. apply W3. apply in_map, G.
Qed.

Lemma tb_find_insert t e i f : tb_wf t -> tb_find nb (tb_insert nb t e i) f = if eeqb e f then Z.of_N i else tb_find nb t f.
Proof using Hnb.
  intros [W1 W2 W3]. assert (Hb : bucket nb e < length t) by (rewrite W1; apply bucket_lt).
  unfold tb_find, tb_insert. rewrite nth_upd by auto. destruct (eeqb e f) eqn:E1.
  - apply eeqb_eq in E1. subst. rewrite Nat.eqb_refl, aget_aset_eq; auto. apply eeqb_eq.
  - apply eeqb_neq in E1. destruct (Nat.eqb_spec (bucket nb e) (bucket nb f)) as [G|]; auto.
    rewrite aget_aset_neq by (auto; apply eeqb_eq). rewrite G. auto.
Qed.
Lemma tb_find_erase t e f : tb_wf t -> tb_find nb (tb_erase nb t e) f = if eeqb e f then (-1)%Z else tb_find nb t f.
Proof using Hnb.
  intros [W1 W2 W3]. assert (Hb : bucket nb e < length t) by (rewrite W1; apply bucket_lt).
  unfold tb_find, tb_erase. rewrite nth_upd by auto. destruct (eeqb e f) eqn:E1.
  - apply eeqb_eq in E1. subst. rewrite Nat.eqb_refl, aget_adel_eq; auto.
  - apply eeqb_neq in E1. destruct (Nat.eqb_spec (bucket nb e) (bucket nb f)) as [G|]; auto.
    rewrite aget_adel_neq by (auto; apply eeqb_eq). rewrite G. auto.
Qed.

Lemma tb_fill_spec es : forall t i, tb_wf t -> tb_wf (tb_fill nb t i es) /\
  forall e, tb_contains nb (tb_fill nb t i es) e = emem e es || tb_contains nb t e.
Proof using Hnb.
  induction es as [|f es IH]; intros t i W; cbn [tb_fill].
  - split; auto.
  - destruct (IH (tb_insert nb t f (i mod 2 ^ 32)%N) (i + 1)%N (tb_insert_wf _ _ _ W)) as [W' H]. split; auto.
    intros e. rewrite H. unfold tb_contains at 1 2. rewrite tb_find_insert by auto.
    change (emem e (f :: es)) with (eeqb e f || emem e es)%bool.
    destruct (eeqb f e) eqn:E1.
    + apply eeqb_eq in E1. subst. rewrite eeqb_refl.
      assert (G : (Z.of_N (i mod 2 ^ 32) =? -1)%Z = false).
      { apply Z.eqb_neq. pose proof (N2Z.is_nonneg (i mod 2 ^ 32)). lia. }
      rewrite G. cbn [negb orb]. apply orb_true_r.
    + destruct (eeqb e f) eqn:E2; [apply eeqb_eq in E2; subst; rewrite eeqb_refl in E1; discriminate|]. cbn [orb].
      destruct (emem e es); auto.
Qed.

Lemma tb_In t e : tb_wf t -> (In e (map fst (concat t)) <-> tb_contains nb t e = true).
Proof using Hnb.
  intros [W1 W2 W3]. unfold tb_contains, tb_find. split.
  - intros G. apply in_map_iff in G. destruct G as [[f i] [<- G]]. apply in_concat in G. destruct G as [b [Hb G]].
    apply (In_nth _ _ []) in Hb. destruct Hb as [k [Hk <-]].
    assert (Hf : In f (map fst (nth k t []))) by (apply in_map_iff; exists (f, i); auto).
    cbn [fst]. rewrite (W3 k f Hf). rewrite (In_aget eeqb eeqb_eq f i) by auto.
    apply negb_true_iff, Z.eqb_neq. lia.
  - destruct (aget eeqb e (nth (bucket nb e) t [])) as [i|] eqn:Ea; [|intros; discriminate]. intros _.
    apply (aget_In eeqb eeqb_eq) in Ea. apply in_map_iff. exists (e, i). split; auto.
    apply in_concat. exists (nth (bucket nb e) t []). split; auto. apply nth_In. rewrite W1. apply bucket_lt.
Qed.

Lemma concat_nodup (t : table) : (forall i, NoDup (map fst (nth i t []))) ->
  (forall i j e, In e (map fst (nth i t [])) -> In e (map fst (nth j t [])) -> i = j) -> NoDup (map fst (concat t)).
Proof using Type.
  clear Hnb. induction t as [|b t IH]; cbn [concat map]; intros H1 H2; [constructor|]. rewrite map_app. apply NoDup_app.
  split; [apply (H1 0)|]. split.
  - apply IH; [intros i; apply (H1 (S i))|]. intros i j e G1 G2. specialize (H2 (S i) (S j) e G1 G2). lia.
  - intros e G1 G2. apply in_map_iff in G2. destruct G2 as [[f i] [<- G2]]. apply in_concat in G2. destruct G2 as [c [Hc G2]].
    apply (In_nth _ _ []) in Hc. destruct Hc as [k [Hk <-]]. specialize (H2 0 (S k) f G1).
    enough (0 = S k) by discriminate. apply H2. apply (in_map fst) in G2. exact G2.
Qed.
Lemma tb_nodup t : tb_wf t -> NoDup (map fst (concat t)).
Proof using Type.
  intros [W1 W2 W3]. apply concat_nodup; auto. intros i j e G1 G2. rewrite <- (W3 i e G1). auto.
Qed.
End Table.

(** ** Counting *)
Lemma count_loop {A} (f : A -> bool) l : forall r, (r < 2 ^ 32)%N ->
  fold_left (fun r u => if f u then u32_inc r else r) l r = ((r + N.of_nat (length (filter f l))) mod 2 ^ 32)%N.
Proof.
  induction l as [|u l IH]; intros r Hr; cbn [fold_left filter].
  - rewrite N.add_0_r, N.mod_small; auto.
  - destruct (f u).
    + rewrite IH by (apply N.mod_lt; lia). unfold u32_inc. rewrite N.add_mod_idemp_l by lia. f_equal. cbn [length]. lia.
    + apply IH; auto.
Qed.
Lemma fold_left_ext_in {A B} (f h : A -> B -> A) l : (forall a b, In b l -> f a b = h a b) ->
  forall a, fold_left f l a = fold_left h l a.
Proof.
  induction l as [|b l IH]; intros H a; cbn [fold_left]; auto. rewrite (H a b) by (left; auto). apply IH.
  intros a' b' Hb. apply H. right; auto.
Qed.

(** The graph shows the edge relation E exactly: in its edge walk, neighbour lists and walks, and membership test. *)
Record view (K : k2impl) (g : dk K) (n : N) (E : N -> N -> Prop) : Prop := {
  vw_n : nv g = n;
  vw_rng : forall x y, E x y -> (x < n)%N /\ (y < n)%N;
  vw_edges : exists l, ewalk K g l /\ NoDup l /\ forall x y, In (x, y) l <-> E x y;
  vw_neigh : forall x, (x < n)%N -> exists l, dk_neigh K g x = Ok l /\ nwalk K g x (map Z.of_N l) /\ NoDup l /\
               forall y, In y l <-> E x y;
  vw_mem : forall x y, (x < n)%N -> (y < n)%N -> exists b, dk_contains K g x y = Ok b /\ (b = true <-> E x y)
}.

Section Count.
Context (K : k2impl) (g : dk K) (n : N) (E : N -> N -> Prop) (V : view K g n E).
Context (Hn : (n < 2 ^ 31)%N).

Lemma ewalk_unique l1 l2 : ewalk K g l1 -> ewalk K g l2 -> l1 = l2.
Proof using Type.
  intros [it [E1 H1]] [it2 [E2 H2]]. assert (it2 = it) by congruence. subst. unfold edge_loop in *.
  eapply visits_unique; eauto.
Qed.

Lemma adj_fill_spec vs : (forall v, In v vs -> (v < n)%N) -> NoDup vs -> forall m,
  exists m', adj_fill K g (map Z.of_N vs) m = Ok m' /\
    forall x, (In x vs -> (forall l, dk_neigh K g x = Ok l -> aget N.eqb x m = None -> adj_at m' x = l)) /\
              (~ In x vs -> aget N.eqb x m' = aget N.eqb x m).
Proof using V Hn.
  induction vs as [|v vs IH]; intros Hr Hnd m; cbn [map adj_fill].
  - exists m. split; auto. intros x. split; [intros []|auto].
  - inversion Hnd as [|? ? Hv Hnd']; subst. rewrite to_u32_id by (specialize (Hr v (or_introl eq_refl)); lia).
    destruct (vw_neigh _ _ _ _ V v (Hr v (or_introl eq_refl))) as [l [El _]]. rewrite El. cbn [obind].
    destruct (IH (fun w Hw => Hr w (or_intror Hw)) Hnd' (match l with [] => m | _ => aset N.eqb v l m end)) as [m' [E1 E2]].
    exists m'. split; auto. intros x. destruct (E2 x) as [A1 A2]. split.
    + intros [->|Hx] l' El' Hm.
      * assert (l' = l) by congruence. subst l'. specialize (A2 Hv). unfold adj_at. rewrite A2.
        destruct l as [|a l]; [rewrite Hm; auto|]. rewrite aget_aset_eq; auto. apply N.eqb_eq.
      * apply A1; auto. destruct l as [|a l]; auto. rewrite aget_aset_neq; auto; [apply N.eqb_eq|]. intros ->. auto.
    + intros Hx. cbn [In] in Hx. rewrite A2 by tauto. destruct l as [|a l]; auto. apply aget_aset_neq; [apply N.eqb_eq|].
      intros ->. tauto.
Qed.

Definition verts : list N := map N.of_nat (seq 0 (N.to_nat n)).
Lemma verts_In v : In v verts <-> (v < n)%N.
Proof using Type.
  clear Hn. unfold verts. rewrite in_map_iff. split.
  - intros [k [<- H]]. apply in_seq in H. lia.
  - intros H. exists (N.to_nat v). split; [lia|]. apply in_seq. lia.
Qed.
Lemma verts_nodup : NoDup verts.
Proof using Type. clear V Hn. apply FinFun.Injective_map_NoDup; [|apply seq_NoDup]. intros a b. lia. Qed.
Lemma verts_Z : map Z.of_N verts = map Z.of_nat (seq 0 (N.to_nat n)).
Proof using Type. clear V Hn. unfold verts. rewrite map_map. apply map_ext. intros; lia. Qed.

Lemma adj_ok : exists adj, adj_fill K g (map Z.of_N verts) [] = Ok adj /\
  forall x, (x < n)%N -> dk_neigh K g x = Ok (adj_at adj x).
Proof using V Hn.
  destruct (adj_fill_spec verts (fun v Hv => proj1 (verts_In v) Hv) verts_nodup []) as [adj [E1 E2]].
  exists adj. split; auto. intros x Hx. destruct (vw_neigh _ _ _ _ V x Hx) as [l [El _]]. rewrite El.
  f_equal. symmetry. apply (proj1 (E2 x)); auto. apply verts_In; auto.
Qed.

(** The triangles seen through the edge (v1, v2). *)
Definition tri_at (nbs : N -> list N) (t : edge -> bool) (e : edge) : list (N * N * N) :=
  let (v1, v2) := e in
  if N.eqb v1 v2 then []
  else map (fun u => (v1, v2, u)) (filter (fun u => negb (N.eqb u v1) && negb (N.eqb u v2) && t (u, v1)) (nbs v2)).

Lemma flat_count {A} (h : edge -> list A) (f : N -> edge -> N) es :
  (forall r e, In e es -> (r < 2 ^ 32)%N -> f r e = ((r + N.of_nat (length (h e))) mod 2 ^ 32)%N) ->
  forall r, (r < 2 ^ 32)%N -> fold_left f es r = ((r + N.of_nat (length (flat_map h es))) mod 2 ^ 32)%N.
Proof using Type.
  clear V Hn. induction es as [|e es IH]; intros Hf r Hr; cbn [fold_left flat_map].
  - rewrite N.add_0_r, N.mod_small; auto.
  - rewrite (Hf r e (or_introl eq_refl) Hr), IH.
    + rewrite N.add_mod_idemp_l by lia. f_equal. rewrite app_length. lia.
    + intros r' e' He. apply Hf. right; auto.
    + apply N.mod_lt. lia.
Qed.

Lemma flat_map_nodup {A B} (h : A -> list B) l : NoDup l -> (forall a, In a l -> NoDup (h a)) ->
  (forall a a' b, In a l -> In a' l -> In b (h a) -> In b (h a') -> a = a') -> NoDup (flat_map h l).
Proof using Type.
  clear V Hn. induction 1 as [|a l Ha Hl IH]; intros H1 H2; cbn [flat_map]; [constructor|]. apply NoDup_app.
  split; [apply H1; left; auto|]. split.
  - apply IH; [intros; apply H1; right; auto|]. intros a1 a2 b G1 G2. apply H2; right; auto.
  - intros b Hb Hb'. apply in_flat_map in Hb'. destruct Hb' as [a' [Ha' Hb']].
    apply Ha. replace a with a'; auto. apply (H2 a' a b); cbn; auto.
Qed.

Lemma tri_list (nbs : N -> list N) (t : edge -> bool) es : NoDup es -> (forall x y, In (x, y) es <-> E x y) ->
  (forall x, (x < n)%N -> NoDup (nbs x) /\ forall y, In y (nbs x) <-> E x y) ->
  (forall e, t e = emem e es) ->
  NoDup (flat_map (tri_at nbs t) es) /\ forall x, In x (flat_map (tri_at nbs t) es) <-> triangle E x.
Proof using V.
  clear Hn. intros Hnd He Hnb Ht.
  assert (Hin : forall v1 v2 a b c, In (a, b, c) (tri_at nbs t (v1, v2)) <->
            v1 <> v2 /\ a = v1 /\ b = v2 /\ c <> v1 /\ c <> v2 /\ In c (nbs v2) /\ E c v1).
  { intros v1 v2 a b c. unfold tri_at. destruct (N.eqb_spec v1 v2) as [->|Hne]; [cbn; tauto|].
    rewrite in_map_iff. split.
    - intros [u [G1 G2]]. injection G1 as <- <- <-. apply filter_In in G2. destruct G2 as [G2 G3].
      rewrite !andb_true_iff, !negb_true_iff, !N.eqb_neq, Ht in G3. destruct G3 as [[G3 G4] G5]. apply emem_In, He in G5. tauto.
    - intros [_ [-> [-> [H1 [H2 [H3 H4]]]]]]. exists c. split; auto. apply filter_In. split; auto.
      rewrite !andb_true_iff, !negb_true_iff, !N.eqb_neq, Ht. split; auto. apply emem_In, He; auto. }
  split.
  - apply flat_map_nodup; auto.
    + intros [v1 v2] Hv. apply He in Hv. destruct (vw_rng _ _ _ _ V v1 v2 Hv) as [_ Hv2].
      unfold tri_at. destruct (N.eqb v1 v2); [constructor|]. apply FinFun.Injective_map_NoDup.
      * intros a b G. congruence.
      * apply NoDup_filter. apply Hnb; auto.
    + intros [a1 a2] [b1 b2] [[x y] z] _ _ G1 G2. apply Hin in G1. apply Hin in G2.
      destruct G1 as [_ [-> [-> _]]], G2 as [_ [-> [-> _]]]. auto.
  - intros [[a b] c]. rewrite in_flat_map. split.
    + intros [[v1 v2] [G1 G2]]. apply Hin in G2. destruct G2 as [H0 [-> [-> [H1 [H2 [H3 H4]]]]]].
      apply He in G1. destruct (vw_rng _ _ _ _ V v1 v2 G1) as [_ Hv2].
      apply (proj2 (Hnb v2 Hv2)) in H3. cbn [triangle]. intuition congruence.
    + cbn [triangle]. intros [H1 [H2 [H3 [H4 [H5 H6]]]]]. exists (a, b). split; [apply He; auto|]. apply Hin.
      destruct (vw_rng _ _ _ _ V b c H5) as [Hb _]. rewrite (proj2 (Hnb b Hb)). intuition congruence.
Qed.

Theorem hash_count nb : 0 < nb -> exists m r, count_of (triangle E) m /\ triangles_hash K g nb r /\
  (forall r', triangles_hash K g nb r' -> r' = r) /\ r = to_int (Z.of_nat m).
Proof using V Hn.
  intros Hnb. destruct (vw_edges _ _ _ _ V) as [es [Hw [Hnd He]]]. destruct adj_ok as [adj [Ea Hadj]].
  set (t := tb_fill nb (tb_new nb) 0 es).
  destruct (tb_fill_spec nb Hnb es (tb_new nb) 0 (tb_wf_new nb)) as [_ Ht].
  assert (Ht' : forall e, tb_contains nb t e = emem e es).
  { intros e. unfold t. rewrite Ht. unfold tb_contains. rewrite tb_find_new. cbn. apply orb_false_r. }
  assert (Hnbs : forall x, (x < n)%N -> NoDup (adj_at adj x) /\ forall y, In y (adj_at adj x) <-> E x y).
  { intros x Hx. destruct (vw_neigh _ _ _ _ V x Hx) as [l [El [_ [G1 G2]]]]. rewrite (Hadj x Hx) in El.
    injection El as <-. auto. }
  destruct (tri_list (adj_at adj) (tb_contains nb t) es Hnd He Hnbs Ht') as [T1 T2].
  set (ts := flat_map (tri_at (adj_at adj) (tb_contains nb t)) es) in *.
  assert (Hvw : vwalk K g (map Z.of_N verts)).
  { unfold vwalk. rewrite (vw_n _ _ _ _ V), verts_Z. apply IterProof.node_loop_ok. lia. }
  assert (Hr : fold_left (hash_edge nb t adj) es 0%N = (N.of_nat (length ts) mod 2 ^ 32)%N).
  { rewrite (flat_count (tri_at (adj_at adj) (tb_contains nb t))); [rewrite N.add_0_l; reflexivity| |lia].
    intros r [v1 v2] Hv Hr. unfold hash_edge, tri_at. destruct (N.eqb v1 v2); cbn [negb].
    - cbn [length]. rewrite N.add_0_r, N.mod_small; auto.
    - rewrite map_length. unfold hash_inner. apply count_loop. auto. }
  assert (Hz : to_int (Z.of_N (N.of_nat (length ts) mod 2 ^ 32)) = to_int (Z.of_nat (length ts))).
  { unfold to_int. rewrite N2Z.inj_mod, nat_N_Z by lia. change (Z.of_N (2 ^ 32)) with (2 ^ 32)%Z. rewrite Z.mod_mod by lia. auto. }
  exists (length ts), (to_int (Z.of_nat (length ts))). split; [exists ts; auto|]. split.
  - exists es, (map Z.of_N verts), adj, es. split; [auto|]. split; [auto|]. split; [auto|]. split; [auto|].
    fold t. rewrite Hr. symmetry. exact Hz.
  - split; auto. intros r' [es1 [vs [adj' [es2 [W1 [W2 [W3 [W4 ->]]]]]]]].
    rewrite (ewalk_unique es1 es W1 Hw), (ewalk_unique es2 es W4 Hw).
    assert (vs = map Z.of_N verts) by (unfold vwalk, node_loop in *; eapply visits_unique; eauto). subst vs.
    assert (adj' = adj) by congruence. subst adj'. fold t. rewrite Hr. exact Hz.
Qed.

(** ** The iterator version *)
Definition dtri_at (nbs : N -> list N) (t : edge -> bool) (e : edge) : list (N * N * N) :=
  let (v1, v2) := e in
  if N.eqb v1 v2 then [] else map (fun u => (v1, v2, u)) (filter (fun u => t (u, v1)) (nbs v2)).

Lemma dummy_inner_spec v1 (t : edge -> bool) us : (v1 < n)%N -> Forall (fun u => (u < n)%N) us ->
  (forall x y, (x < n)%N -> (y < n)%N -> dk_contains K g x y = Ok (t (x, y))) -> forall r, (r < 2 ^ 32)%N ->
  dummy_inner K g v1 (map Z.of_N us) r = Ok ((r + N.of_nat (length (filter (fun u => t (u, v1)) us))) mod 2 ^ 32)%N.
Proof using Hn.
  intros Hv HF Ht. induction HF as [|u us Hu HF IH]; intros r Hr; cbn [map dummy_inner filter].
  - rewrite N.add_0_r, N.mod_small; auto.
  - rewrite to_u32_id, Ht by (auto; lia). cbn [obind]. destruct (t (u, v1)).
    + rewrite IH by (apply N.mod_lt; lia). unfold u32_inc. rewrite N.add_mod_idemp_l by lia. f_equal. f_equal. cbn [length]. lia.
    + apply IH; auto.
Qed.

Lemma nwalk_unique x l1 l2 : nwalk K g x l1 -> nwalk K g x l2 -> l1 = l2.
Proof using Type.
  intros [it [E1 H1]] [it2 [E2 H2]]. assert (it2 = it) by congruence. subst. unfold neigh_loop in *.
  eapply visits_unique; eauto.
Qed.

Lemma dummy_loop_unique es r r1 : dummy_loop K g es r r1 -> forall r2, dummy_loop K g es r r2 -> r1 = r2.
Proof using Type.
  induction 1 as [r|v es r r' H IH|v1 v2 zs es r r1 r' Hne Hw Hi H IH]; intros r2 G; inversion G as [|? ? ? ? G1|? ? zs2 ? ? r12 ? Hne2 Hw2 Hi2 G1]; subst; auto; try congruence.
  apply IH. assert (zs2 = zs) by (eapply nwalk_unique; eauto). subst. assert (r12 = r1) by congruence. subst. auto.
Qed.

(** Triples counted by the iterator version: the third vertex may coincide with the others. *)
Definition closed_triple (t : N * N * N) : Prop :=
  let '(a, b, c) := t in a <> b /\ E a b /\ E b c /\ E c a.

Theorem dummy_count : exists m, count_of closed_triple m /\ triangles_dummy K g (N.of_nat m mod 2 ^ 32) /\
  forall r, triangles_dummy K g r -> r = (N.of_nat m mod 2 ^ 32)%N.
Proof using V Hn.
  destruct (vw_edges _ _ _ _ V) as [es [Hw [Hnd He]]].
  destruct adj_ok as [adj [Ea Hadj]]. clear Ea.
  assert (Hnbs : forall x, (x < n)%N -> nwalk K g x (map Z.of_N (adj_at adj x)) /\ NoDup (adj_at adj x) /\ forall y, In y (adj_at adj x) <-> E x y).
  { intros x Hx. destruct (vw_neigh _ _ _ _ V x Hx) as [l [El [G0 [G1 G2]]]]. rewrite (Hadj x Hx) in El.
    injection El as <-. auto. }
  set (t := fun e => emem e es).
  assert (Ht : forall x y, (x < n)%N -> (y < n)%N -> dk_contains K g x y = Ok (t (x, y))).
  { intros x y Hx Hy. destruct (vw_mem _ _ _ _ V x y Hx Hy) as [b [Eb Hb]]. rewrite Eb. f_equal.
    apply eq_true_iff_eq. unfold t. rewrite emem_In, He. auto. }
  set (ts := flat_map (dtri_at (adj_at adj) t) es).
  assert (Hrun : dummy_loop K g es 0 (N.of_nat (length ts) mod 2 ^ 32)).
  { unfold ts. clear ts. assert (Hes : forall x y, In (x, y) es -> (x < n)%N /\ (y < n)%N).
    { intros x y G. apply He in G. apply (vw_rng _ _ _ _ V); auto. }
    clearbody t. clear Hnd He Hw. enough (G : forall r, (r < 2 ^ 32)%N -> dummy_loop K g es r ((r + N.of_nat (length (flat_map (dtri_at (adj_at adj) t) es))) mod 2 ^ 32)).
    { specialize (G 0%N). rewrite N.add_0_l in G. apply G. lia. }
    induction es as [|[v1 v2] es IH]; intros r Hr; cbn [flat_map].
    - cbn [length]. rewrite N.add_0_r, N.mod_small by auto. constructor.
    - destruct (Hes v1 v2 (or_introl eq_refl)) as [Hv1 Hv2]. unfold dtri_at at 1. destruct (N.eqb_spec v1 v2) as [->|Hne].
      + constructor. cbn [app]. apply IH; auto. intros x y G. apply Hes. right; auto.
      + destruct (Hnbs v2 Hv2) as [G0 [G1 G2]]. eapply dl_edge; [exact Hne|exact G0| |].
        * apply dummy_inner_spec; auto. apply Forall_forall. intros u Hu. apply G2 in Hu. apply (vw_rng _ _ _ _ V v2 u); auto.
        * rewrite app_length, map_length, Nat2N.inj_add, N.add_assoc.
          rewrite <- (N.add_mod_idemp_l (r + _)) by lia. apply IH; [intros x y G; apply Hes; right; auto|].
          apply N.mod_lt. lia. }
  exists (length ts). split; [|split].
  - exists ts. split; [|split]; auto.
    + apply flat_map_nodup; auto.
      * intros [v1 v2] Hv. apply He in Hv. destruct (vw_rng _ _ _ _ V v1 v2 Hv) as [_ Hv2].
        unfold dtri_at. destruct (N.eqb v1 v2); [constructor|]. apply FinFun.Injective_map_NoDup.
        -- intros a b G. congruence.
        -- apply NoDup_filter. apply Hnbs; auto.
      * intros [a1 a2] [b1 b2] x _ _ G1 G2. unfold dtri_at in *. destruct (N.eqb a1 a2), (N.eqb b1 b2); try contradiction.
        apply in_map_iff in G1. apply in_map_iff in G2. destruct G1 as [u [<- _]], G2 as [u' [G2 _]]. congruence.
    + intros [[a b] c]. unfold ts. rewrite in_flat_map. cbn [closed_triple]. split.
      * intros [[v1 v2] [G1 G2]]. apply He in G1. destruct (vw_rng _ _ _ _ V v1 v2 G1) as [_ Hv2].
        unfold dtri_at in G2. destruct (N.eqb_spec v1 v2); [contradiction|].
        apply in_map_iff in G2. destruct G2 as [u [G2 G3]]. injection G2 as <- <- <-. apply filter_In in G3.
        destruct G3 as [G3 G4]. apply Hnbs in G3; auto. unfold t in G4. apply emem_In, He in G4. auto.
      * intros [H1 [H2 [H3 H4]]]. exists (a, b). split; [apply He; auto|]. unfold dtri_at. apply N.eqb_neq in H1. rewrite H1.
        apply in_map_iff. exists c. split; auto. apply filter_In. split; [|unfold t; apply emem_In, He; auto].
        apply Hnbs; auto. apply (vw_rng _ _ _ _ V a b); auto.
  - exists es. auto.
  - intros r [es' [W1 W2]]. rewrite (ewalk_unique es' es W1 Hw) in W2. eapply dummy_loop_unique; eauto.
Qed.

(** ** The heavy-hitter version: what it counts *)
Definition htri_at (adj : list (N * list N)) (t : edge -> bool) (e : edge) : list (N * N * N) :=
  let (v1, v2) := e in
  if negb (heavy K g (deg_at adj v1)) && heavy K g (deg_at adj v2) && minor v1 (deg_at adj v1) v2 (deg_at adj v2)
  then map (fun u => (v1, v2, u)) (filter (fun u => t (u, v2) && minor v1 (deg_at adj v1) u (deg_at adj u)) (adj_at adj v1))
  else [].

Definition outdeg (v : N) (m : nat) : Prop := count_of (E v) m.
Definition less_deg (a b : N) : Prop := exists da db, outdeg a da /\ outdeg b db /\ (da < db \/ (da = db /\ (a < b)%N)).
Definition big (v : N) : Prop := exists m, outdeg v m /\ (dk_edges K g <= N.of_nat m * N.of_nat m)%N.
(** v1 -> v2, v1 -> u, u -> v2 with v2 of large degree, v1 not, and v1 below both in the degree order. *)
Definition heavy_triple (t : N * N * N) : Prop :=
  let '(v1, v2, u) := t in E v1 v2 /\ E v1 u /\ E u v2 /\ ~ big v1 /\ big v2 /\ less_deg v1 v2 /\ less_deg v1 u.

Theorem heavy_count nb : 0 < nb -> exists m, count_of heavy_triple m /\ triangles_heavy K g nb (N.of_nat m mod 2 ^ 32) /\
  forall r, triangles_heavy K g nb r -> r = (N.of_nat m mod 2 ^ 32)%N.
Proof using V Hn.
  intros Hnb. destruct (vw_edges _ _ _ _ V) as [es [Hw [Hnd He]]]. destruct adj_ok as [adj [Ea Hadj]].
  set (t := tb_fill nb (tb_new nb) 0 es).
  destruct (tb_fill_spec nb Hnb es (tb_new nb) 0 (tb_wf_new nb)) as [Wt Ht].
  assert (Ht' : forall e, tb_contains nb t e = emem e es).
  { intros e. unfold t. rewrite Ht. unfold tb_contains. rewrite tb_find_new. cbn. apply orb_false_r. }
  assert (Hnbs : forall x, (x < n)%N -> NoDup (adj_at adj x) /\ forall y, In y (adj_at adj x) <-> E x y).
  { intros x Hx. destruct (vw_neigh _ _ _ _ V x Hx) as [l [El [_ [G1 G2]]]]. rewrite (Hadj x Hx) in El.
    injection El as <-. auto. }
  assert (Hvw : vwalk K g (map Z.of_N verts)).
  { unfold vwalk. rewrite (vw_n _ _ _ _ V), verts_Z. apply IterProof.node_loop_ok. lia. }
  assert (Hdeg : forall v m, (v < n)%N -> (outdeg v m <-> N.of_nat m = deg_at adj v)).
  { intros v m Hv. destruct (Hnbs v Hv) as [G1 G2]. assert (G : outdeg v (length (adj_at adj v))) by (exists (adj_at adj v); auto).
    unfold deg_at. split; [intros O; f_equal; eapply count_of_unique; eauto|intros O].
    replace m with (length (adj_at adj v)) by lia. auto. }
  assert (Hminor : forall a b, (a < n)%N -> (b < n)%N -> (minor a (deg_at adj a) b (deg_at adj b) = true <-> less_deg a b)).
  { intros a b Ha Hb. unfold minor. rewrite orb_true_iff, andb_true_iff, N.ltb_lt, N.eqb_eq, N.ltb_lt. split.
    - intros G. exists (length (adj_at adj a)), (length (adj_at adj b)). rewrite !Hdeg by auto. unfold deg_at in *. split; auto. split; auto. lia.
    - intros [da [db [G1 [G2 G3]]]]. apply Hdeg in G1; auto. apply Hdeg in G2; auto. lia. }
  assert (Hbig : forall v, (v < n)%N -> (heavy K g (deg_at adj v) = true <-> big v)).
  { intros v Hv. unfold heavy. rewrite N.leb_le. split.
    - intros G. exists (length (adj_at adj v)). rewrite Hdeg by auto. unfold deg_at in *. auto.
    - intros [m [G1 G2]]. apply Hdeg in G1; auto. rewrite <- G1. auto. }
  set (es' := map fst (concat t)).
  assert (Hes' : forall x y, In (x, y) es' <-> E x y).
  { intros x y. unfold es'. rewrite (tb_In nb Hnb t) by auto. rewrite Ht', emem_In. apply He. }
  assert (Hnd' : NoDup es') by (apply (tb_nodup nb); auto).
  set (ts := flat_map (htri_at adj (tb_contains nb t)) es').
  assert (Hr : fold_left (heavy_edge K g nb t adj) es' 0%N = (N.of_nat (length ts) mod 2 ^ 32)%N).
  { rewrite (flat_count (htri_at adj (tb_contains nb t))); [rewrite N.add_0_l; reflexivity| |lia].
    intros r [v1 v2] Hv Hr. unfold heavy_edge, htri_at.
    destruct (heavy K g (deg_at adj v1)), (heavy K g (deg_at adj v2)); cbn [andb negb];
      try (cbn [length]; rewrite N.add_0_r, N.mod_small; auto; fail).
    destruct (minor v1 (deg_at adj v1) v2 (deg_at adj v2)).
    - rewrite map_length. unfold heavy_inner. apply count_loop. auto.
    - cbn [length]. rewrite N.add_0_r, N.mod_small; auto. }
  exists (length ts). split; [|split].
  - exists ts. split; [|split]; auto.
    + apply flat_map_nodup; auto.
      * intros [v1 v2] Hv. apply Hes' in Hv. destruct (vw_rng _ _ _ _ V v1 v2 Hv) as [Hv1 Hv2].
        unfold htri_at. destruct (_ && _ && _); [|constructor]. apply FinFun.Injective_map_NoDup.
        -- intros a b G. congruence.
        -- apply NoDup_filter. apply Hnbs; auto.
      * intros [a1 a2] [b1 b2] x _ _ G1 G2. unfold htri_at in *.
        destruct (_ && _ && _) in G1; [|contradiction]. destruct (_ && _ && _) in G2; [|contradiction].
        apply in_map_iff in G1. apply in_map_iff in G2. destruct G1 as [u [<- _]], G2 as [u' [G2 _]]. congruence.
    + intros [[a b] c]. unfold ts. rewrite in_flat_map. cbn [heavy_triple].
      assert (Hin : forall v1 v2, (v1 < n)%N -> (v2 < n)%N -> (In (a, b, c) (htri_at adj (tb_contains nb t) (v1, v2)) <->
                a = v1 /\ b = v2 /\ E v1 c /\ E c v2 /\ ~ big v1 /\ big v2 /\ less_deg v1 v2 /\ less_deg v1 c)).
      { intros v1 v2 Hv1 Hv2. unfold htri_at.
        destruct (negb (heavy K g (deg_at adj v1)) && heavy K g (deg_at adj v2) && minor v1 (deg_at adj v1) v2 (deg_at adj v2)) eqn:Eb.
        - rewrite !andb_true_iff, negb_true_iff in Eb. destruct Eb as [[B1 B2] B3].
          apply Hbig in B2; auto. apply Hminor in B3; auto.
          assert (B1' : ~ big v1) by (intros G; apply Hbig in G; auto; congruence).
          rewrite in_map_iff. split.
          + intros [u [G1 G2]]. injection G1 as <- <- <-. apply filter_In in G2. destruct G2 as [G2 G3].
            apply andb_true_iff in G3. destruct G3 as [G3 G4]. rewrite Ht' in G3. apply emem_In, He in G3.
            apply Hnbs in G2; auto. destruct (vw_rng _ _ _ _ V v1 u G2) as [_ Hu]. apply Hminor in G4; auto. tauto.
          + intros [-> [-> [H1 [H2 [H3 [H4 [H5 H6]]]]]]]. exists c. split; auto. apply filter_In. split; [apply Hnbs; auto|].
            apply andb_true_iff. split; [rewrite Ht'; apply emem_In, He; auto|]. apply Hminor; auto.
            apply (vw_rng _ _ _ _ V v1 c); auto.
        - split; [intros []|]. intros [-> [-> [H1 [H2 [H3 [H4 [H5 H6]]]]]]]. exfalso.
          apply Hminor in H5; auto. apply Hbig in H4; auto. rewrite H5, H4 in Eb.
          destruct (heavy K g (deg_at adj v1)) eqn:Eh; [apply Hbig in Eh; auto|discriminate]. }
      split.
      * intros [[v1 v2] [G1 G2]]. apply Hes' in G1. destruct (vw_rng _ _ _ _ V v1 v2 G1) as [Hv1 Hv2].
        apply Hin in G2; auto. destruct G2 as [-> [-> G2]]. tauto.
      * intros [H1 H2]. exists (a, b). split; [apply Hes'; auto|]. destruct (vw_rng _ _ _ _ V a b H1) as [Hv1 Hv2].
        apply Hin; auto.
  - exists es, (map Z.of_N verts), adj. split; [auto|]. split; [auto|]. split; [auto|]. fold t es'. auto.
  - intros r [es1 [vs [adj' [W1 [W2 [W3 ->]]]]]]. rewrite (ewalk_unique es1 es W1 Hw).
    assert (vs = map Z.of_N verts) by (unfold vwalk, node_loop in *; eapply visits_unique; eauto). subst vs.
    assert (adj' = adj) by congruence. subst adj'. fold t es'. auto.
Qed.
End Count.
