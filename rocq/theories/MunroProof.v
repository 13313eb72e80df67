(** * MunroProof: invariant of DKtree_delay_munro. *)
From Verif Require Import Base Spec Thresholds C0 C0Proof Bits Union UnionProof UnionMerge UnionEdges Prop_Union Munro.

(** ** A buffer without deletions *)
Definition lv (B : list edge) : slots := map (fun e => (e, true)) B.
Lemma live_lv B : live_edges (lv B) = B.
Proof. unfold live_edges, lv. induction B as [|e B IH]; cbn; [auto|]. f_equal. exact IH. Qed.
Lemma lv_app A B : lv (A ++ B) = lv A ++ lv B.
Proof. apply map_app. Qed.
Lemma lv_len B : length (lv B) = length B.
Proof. apply map_length. Qed.

Lemma nth_ext' {A} : forall a b : list A, (forall i, nth_error a i = nth_error b i) -> a = b.
Proof.
  induction a as [|x a IH]; intros [|y b] G; auto; try (specialize (G 0); discriminate).
  pose proof (G 0) as G0. injection G0 as ->. f_equal. apply IH. intros i. apply (G (S i)).
Qed.
Lemma map_rep {A B} (f : A -> B) a k : map f (repeat a k) = repeat (f a) k.
Proof. induction k; cbn; congruence. Qed.
Lemma nth_skipn {A} : forall k (l : list A) i, nth_error (skipn k l) i = nth_error l (k + i).
Proof. induction k as [|k IH]; intros [|x l] i; cbn; auto. destruct i; auto. Qed.

(** ** The number of bits of a tree *)
Lemma cnt_app h : forall a b, cnt h (a ++ b) = cnt h a + cnt h b.
Proof. induction h as [|h IH]; intros a b; [reflexivity|]. cbn [cnt]. unfold kids in *. rewrite flat_map_app, IH, app_length. lia. Qed.
Lemma cnt_tofl h : forall ps, Forall (okp h) ps -> ps <> [] -> cnt h [tofl h ps] <= h * length ps.
Proof.
  induction h as [|h IH]; intros ps F Hne; [cbn; lia|]. cbn [cnt length].
  assert (G : forall d, cnt h (somes [match sub d ps with [] => None | l => Some (tofl h l) end]) <= h * length (sub d ps)).
  { intros d. pose proof (okp_sub h ps d F) as F'. destruct (sub d ps) as [|p l]; [cbn [somes app]; rewrite cnt_nil; lia|].
    cbn [somes app]. apply IH; [exact F'|discriminate]. }
  assert (E : kids [tofl (S h) ps] = somes [match sub 0 ps with [] => None | l => Some (tofl h l) end] ++
     somes [match sub 1 ps with [] => None | l => Some (tofl h l) end] ++
     somes [match sub 2 ps with [] => None | l => Some (tofl h l) end] ++
     somes [match sub 3 ps with [] => None | l => Some (tofl h l) end]).
  { cbn [tofl kids flat_map cs]. rewrite app_nil_r. change (seq 0 K4) with [0; 1; 2; 3]. cbn [map].
    repeat match goal with |- context [match ?x with [] => None | _ :: _ => _ end] => destruct x end; reflexivity. }
  rewrite E, !cnt_app.
  assert (S : length ps = length (sub 0 ps) + length (sub 1 ps) + length (sub 2 ps) + length (sub 3 ps)).
  { apply sub_count. eapply Forall_impl; [|exact F]. intros p [L Fp]. destruct p as [|d q]; [discriminate|]. exists d, q. inversion Fp; auto. }
  pose proof (G 0). pose proof (G 1). pose proof (G 2). pose proof (G 3).
  assert (1 <= length ps) by (destruct ps; [congruence|cbn; lia]). nia.
Qed.

Section Inv.
Context (T : thresholds) (hgt : N -> nat) (n : N).
Notation H := (hgt n).
Hypothesis H1 : 1 <= H.

Lemma ones_bound es : es <> [] -> get_ones (built hgt n es) <= 4 * H * length es.
Proof using H1.
  intros Hne. unfold get_ones, built. cbn [b_t b_l]. fold (tsz hgt n (etrie hgt n es)).
  rewrite tsz_cnt by (auto; apply tofl_wf). unfold etrie.
  pose proof (cnt_tofl H (paths hgt n es) (paths_ok hgt n es)) as G. unfold paths in *. rewrite map_length in G.
  assert (X : map (fun e : edge => epath H (fst e) (snd e)) es <> []) by (destruct es; [congruence|discriminate]).
  specialize (G X). change (cnt H [tofl H (map (fun e : edge => epath H (fst e) (snd e)) es)] * 4 <= 4 * H * length es). nia.
Qed.

(** all edges in the trees *)
Definition tl (Ls : list (option (list edge))) : list edge := concat (somes Ls).
Definition nonempty (Ls : list (option (list edge))) : Prop := forall l, In (Some l) Ls -> l <> [].
Lemma tl_app a b : tl (a ++ b) = tl a ++ tl b.
Proof. unfold tl. rewrite somes_app, concat_app. reflexivity. Qed.
Lemma tl_split Ls i : tl Ls = tl (firstn i Ls) ++ tl (skipn i Ls).
Proof. rewrite <- tl_app, firstn_skipn. reflexivity. Qed.
Lemma tl_repeat k : tl (repeat None k) = [].
Proof. induction k; auto. Qed.

Lemma sizes_bound Ls : nonempty Ls -> sizes (lev hgt n Ls) <= 4 * H * length (tl Ls).
Proof using H1.
  induction Ls as [|[l|] Ls IH]; intros Hne; [cbn; lia| |].
  - unfold lev, tl in *. cbn [map option_map sizes fold_right somes app concat]. fold (sizes (map (option_map (built hgt n)) Ls)).
    rewrite app_length. assert (l <> []) by (apply Hne; left; auto). pose proof (ones_bound l ltac:(auto)).
    assert (IH' := IH ltac:(intros l' Hl'; apply Hne; right; exact Hl')). nia.
  - apply IH. intros l' Hl'; apply Hne; right; exact Hl'.
Qed.
Lemma total_bound es Ls mi : nonempty Ls -> es <> [] -> total_bits hgt n es Ls mi <= 4 * H * (length es + length (tl Ls)).
Proof using H1.
  intros Hne He. unfold total_bits. pose proof (ones_bound es He).
  assert (E : firstn (S mi) (lev hgt n Ls) = lev hgt n (firstn (S mi) Ls)) by (unfold lev; apply firstn_map). rewrite E.
  pose proof (sizes_bound (firstn (S mi) Ls)) as G.
  assert (nonempty (firstn (S mi) Ls)) by (intros l Hl; apply Hne; rewrite <- (firstn_skipn (S mi) Ls); apply in_app_iff; auto).
  specialize (G ltac:(auto)). rewrite (tl_split Ls (S mi)), app_length. nia.
Qed.

(** the levels after a completed union *)
Definition merged (es : list edge) (Ls : list (option (list edge))) (mi : nat) : list (option (list edge)) :=
  repeat None mi ++ Some (es ++ tl (firstn (S mi) Ls)) :: skipn (S mi) Ls.
Lemma merged_len es Ls mi : mi < length Ls -> length (merged es Ls mi) = length Ls.
Proof. intros Hm. unfold merged. rewrite app_length, repeat_length. cbn [length]. rewrite skipn_length. lia. Qed.
Lemma merged_tl es Ls mi e : In e (tl (merged es Ls mi)) <-> In e es \/ In e (tl Ls).
Proof.
  unfold merged. rewrite tl_app, tl_repeat. unfold tl at 1. cbn [app somes concat]. fold (tl (skipn (S mi) Ls)).
  rewrite (tl_split Ls (S mi)), !in_app_iff. unfold tl. tauto.
Qed.
Lemma merged_tl_len es Ls mi : length (tl (merged es Ls mi)) = length es + length (tl Ls).
Proof.
  unfold merged. rewrite tl_app, tl_repeat. unfold tl at 1. cbn [app somes concat]. fold (tl (skipn (S mi) Ls)).
  rewrite (tl_split Ls (S mi)), !app_length. unfold tl. lia.
Qed.
Lemma merged_nonempty es Ls mi : es <> [] -> nonempty Ls -> nonempty (merged es Ls mi).
Proof.
  intros He Hl l Hin. unfold merged in Hin. apply in_app_iff in Hin. destruct Hin as [Hin|[Hin|Hin]].
  - apply repeat_spec in Hin. discriminate.
  - injection Hin as <-. destruct es; [congruence|discriminate].
  - apply Hl. rewrite <- (firstn_skipn (S mi) Ls). apply in_app_iff; auto.
Qed.
Lemma merged_lev es Ls mi ks : mi < length Ls -> length ks = length Ls ->
  (forall i, i < mi -> nth_error ks i = Some None) ->
  nth_error ks mi = Some (Some (built hgt n (es ++ concat (somes (firstn (S mi) Ls))))) ->
  (forall i, mi < i -> nth_error ks i = nth_error (lev hgt n Ls) i) -> ks = lev hgt n (merged es Ls mi).
Proof.
  intros Hm Hl A B C. apply nth_ext'. intros i. unfold merged, lev. rewrite map_app, map_rep. cbn [option_map map].
  destruct (Nat.lt_trichotomy i mi) as [L|[->|L]].
  - rewrite (A i L). rewrite nth_error_app1 by (rewrite repeat_length; lia). rewrite nth_error_repeat. destruct (Nat.ltb_spec i mi); [auto|lia].
  - rewrite B. rewrite nth_error_app2 by (rewrite repeat_length; lia). rewrite repeat_length, Nat.sub_diag. reflexivity.
  - rewrite (C i L). rewrite nth_error_app2 by (rewrite repeat_length; lia). rewrite repeat_length.
    destruct (i - mi) as [|k] eqn:Ek; [lia|]. cbn [nth_error]. unfold lev. rewrite <- skipn_map, nth_skipn. f_equal. lia.
Qed.
Hypothesis H256 : H <= 256.
Hypothesis Hn : (n <= 2 ^ N.of_nat H)%N.
Hypothesis Hn2 : (2 <= n)%N.

(** ** The invariant *)
Definition idle (g : mg) (Ls : list (option (list edge))) : Prop := m_ks g = lev hgt n Ls /\ s_fin (m_us g) = true.
Definition pending (g : mg) (Ls : list (option (list edge))) (P : list edge) (c : nat) : Prop :=
  exists ks0 u0 mi conv, P = conv ++ [m_tmp g] /\ mi < RSZ /\ mi <= m_maxr g /\
    us_new (built hgt n P) (length P) (lev hgt n Ls) mi = Ok (ks0, u0) /\
    union_calls K4 hgt c ks0 u0 = Ok (m_ks g, m_us g) /\ s_fin (m_us g) = false /\ m_copy g = lev hgt n Ls.

(** [hs]: the edges inserted; [Ls]: the edges of the trees that answer queries; [P]: the edges of the tree being merged;
    [B]: the buffer; [c]: calls of unionOperation since the union began. *)
Record minv (hs : list edge) (g : mg) (Ls : list (option (list edge))) (P B : list edge) (c : nat) : Prop := {
  mv_n : m_n g = n;
  mv_c0 : c0_inv (m_c0 g) (lv B);
  mv_c0n : c_nv (m_c0 g) = n;
  mv_len : length Ls = RSZ;
  mv_ne : nonempty Ls;
  mv_hist : forall e, In e hs <-> In e (B ++ tl Ls ++ P);
  mv_rng : in_rng n hs;
  mv_nt : m_nt g = N.of_nat (length (B ++ tl Ls ++ P));
  mv_le : (m_nt g <= N.of_nat (length hs))%N;
  mv_phase : (P = [] /\ idle g Ls) \/ pending g Ls P c;
  mv_calls : P <> [] -> length B < c
}.
(** what contains sees *)
Definition vis (g : mg) (Ls : list (option (list edge))) (P B : list edge) : list edge :=
  B ++ tl Ls ++ match P with [] => [] | _ => [m_tmp g] end.

Lemma calls_snoc c : forall ks u, union_calls K4 hgt (S c) ks u = (let* r := union_calls K4 hgt c ks u in union_op K4 hgt RSZ (fst r) (snd r)).
Proof.
  induction c as [|c IH]; intros ks u.
  - cbn [union_calls obind fst snd]. destruct (union_op K4 hgt RSZ ks u) as [[k v]|]; reflexivity.
  - change (union_calls K4 hgt (S (S c)) ks u) with (let* r := union_op K4 hgt RSZ ks u in let (k, v) := r in union_calls K4 hgt (S c) k v).
    change (union_calls K4 hgt (S c) ks u) with (let* r := union_op K4 hgt RSZ ks u in let (k, v) := r in union_calls K4 hgt c k v).
    destruct (union_op K4 hgt RSZ ks u) as [[k v]|]; [|reflexivity]. cbn [obind]. apply IH.
Qed.
Lemma op_fin ks u : s_fin u = true -> union_op K4 hgt RSZ ks u = Ok (ks, u).
Proof. intros F. rewrite union_op_body. unfold ubody. rewrite F. reflexivity. Qed.

Lemma rng_app a b : in_rng n (a ++ b) <-> in_rng n a /\ in_rng n b.
Proof. apply Forall_app. Qed.
Lemma rng_incl a b : in_rng n b -> (forall e, In e a -> In e b) -> in_rng n a.
Proof. intros R I. apply Forall_forall. intros e He. unfold in_rng in R. rewrite Forall_forall in R. auto. Qed.

Lemma trees_adj_spec Ls x y : in_rng n (tl Ls) -> (x < n)%N -> (y < n)%N ->
  (trees_adj (lev hgt n Ls) x y = true <-> In (x, y) (tl Ls)).
Proof using H1 Hn.
  intros R Hx Hy. induction Ls as [|[l|] Ls IH]; unfold tl, lev in *; cbn [map option_map trees_adj somes concat] in *.
  - split; [discriminate|intros []].
  - apply rng_app in R. destruct R as [R1 R2]. rewrite orb_true_iff, in_app_iff, (built_adj hgt n H1 Hn l x y R1 Hx Hy), (IH R2). tauto.
  - apply IH; auto.
Qed.

Lemma minv_rng hs g Ls P B c : minv hs g Ls P B c -> in_rng n B /\ in_rng n (tl Ls) /\ in_rng n P.
Proof.
  intros V. assert (R : in_rng n (B ++ tl Ls ++ P)) by (eapply rng_incl; [apply (mv_rng _ _ _ _ _ _ V)|]; intros e He; apply (mv_hist _ _ _ _ _ _ V); auto).
  apply rng_app in R. destruct R as [R1 R2]. apply rng_app in R2. tauto.
Qed.

Lemma contains_spec hs g Ls P B c x y : minv hs g Ls P B c -> (x < n)%N -> (y < n)%N ->
  mg_contains g x y = Ok (emem (x, y) (vis g Ls P B)).
Proof using H1 Hn.
  intros V Hx Hy. destruct (minv_rng _ _ _ _ _ _ V) as [_ [R2 _]].
  unfold mg_contains. rewrite (inv_contains _ _ _ (mv_c0 _ _ _ _ _ _ V)), live_lv. cbn [obind]. unfold vis.
  destruct (emem (x, y) B) eqn:Eb.
  { f_equal. symmetry. apply emem_In. apply emem_In in Eb. apply in_app_iff; auto. }
  apply emem_false in Eb. pose proof (trees_adj_spec Ls x y R2 Hx Hy) as TA.
  destruct (mv_phase _ _ _ _ _ _ V) as [[-> [E1 E2]]|(ks0 & u0 & mi & conv & EP & _ & _ & _ & _ & E2 & E3)].
  - rewrite E2, E1. f_equal. apply eq_true_iff_eq. rewrite TA, emem_In, !in_app_iff. cbn [In]. tauto.
  - rewrite E2, E3. assert (Hp : match P with [] => [] | _ :: _ => [m_tmp g] end = [m_tmp g]) by (subst P; destruct conv; reflexivity). rewrite Hp.
    destruct (eeqb (m_tmp g) (x, y)) eqn:Et.
    + apply eeqb_eq in Et. f_equal. symmetry. apply emem_In. rewrite !in_app_iff, Et. cbn. auto.
    + apply eeqb_neq in Et. f_equal. apply eq_true_iff_eq. rewrite TA, emem_In, !in_app_iff. cbn [In]. tauto.
Qed.

(** ** One call of unionOperation *)
Definition fitsn (k : N) : Prop := (4 * N.of_nat H * k <= CAP)%N.
Lemma fits_total P Ls mi B k : nonempty Ls -> P <> [] -> fitsn k -> (N.of_nat (length (B ++ tl Ls ++ P)) <= k)%N ->
  (N.of_nat (total_bits hgt n P Ls mi) <= CAP)%N.
Proof using H1.
  intros Hne Hp F L. pose proof (total_bound P Ls mi Hne Hp) as G. rewrite !app_length in L. unfold fitsn in F. revert F G L. clear -H1. intros. 
  assert (N.of_nat (total_bits hgt n P Ls mi) <= 4 * N.of_nat H * N.of_nat (length P + length (tl Ls)))%N by lia. nia.
Qed.

(** The state of a union [c] calls after it began. *)
Lemma union_at P Ls mi c : mi < RSZ -> length Ls = RSZ -> nonempty Ls -> P <> [] -> (N.of_nat (total_bits hgt n P Ls mi) <= CAP)%N ->
  exists ks0 u0, us_new (built hgt n P) (length P) (lev hgt n Ls) mi = Ok (ks0, u0) /\
  exists ks u, union_calls K4 hgt c ks0 u0 = Ok (ks, u) /\ (s_fin u = true -> ks = lev hgt n (merged P Ls mi)).
Proof using H1 H256 Hn Hn2.
  intros Hm Hl Hne Hp Hb.
  destruct (C27_union_correct hgt n P Ls mi H1 H256 Hp ltac:(lia) ltac:(lia) Hb) as (ks0 & u0 & w & E & _ & G).
  exists ks0, u0. split; [exact E|]. destruct (G c) as (ks & u & E2 & _ & F). exists ks, u. split; [exact E2|].
  intros Hf. destruct (F Hf) as (F1 & F2 & F3 & F4). apply merged_lev; auto; lia.
Qed.

Lemma step_spec hs g Ls P B c : minv hs g Ls P B c -> fitsn (m_nt g) ->
  exists g' Ls' P', mg_step hgt g = Ok g' /\ minv hs g' Ls' P' B (S c) /\
    m_nt g' = m_nt g /\ m_c0 g' = m_c0 g /\ m_tmp g' = m_tmp g /\ m_maxr g' = m_maxr g /\ m_n g' = m_n g /\
    ((Ls' = Ls /\ P' = P) \/ (P' = [] /\ P <> [] /\ forall e, In e (tl Ls') <-> In e P \/ In e (tl Ls))).
Proof using H1 H256 Hn Hn2.
  intros V Fit. unfold mg_step. destruct (mv_phase _ _ _ _ _ _ V) as [[-> [E1 E2]]|(ks0 & u0 & mi & conv & EP & M1 & M2 & U0 & UC & E2 & E3)].
  - rewrite (op_fin _ _ E2). cbn [obind fst snd]. eexists _, Ls, []. split; [reflexivity|]. cbn [m_nt m_c0 m_tmp m_maxr m_n].
    split; [|auto 10]. destruct V. constructor; auto; [|congruence]. left. split; auto. split; auto.
  - assert (Hp : P <> []) by (subst P; destruct conv; discriminate).
    assert (Hb : (N.of_nat (total_bits hgt n P Ls mi) <= CAP)%N).
    { apply (fits_total P Ls mi B (m_nt g)); auto; [apply (mv_ne _ _ _ _ _ _ V)|]. rewrite (mv_nt _ _ _ _ _ _ V). lia. }
    destruct (union_at P Ls mi (S c) M1 (mv_len _ _ _ _ _ _ V) (mv_ne _ _ _ _ _ _ V) Hp Hb) as (ks0' & u0' & U0' & ks & u & UC' & F).
    rewrite U0 in U0'. injection U0' as <- <-. rewrite calls_snoc, UC in UC'. cbn [obind fst snd] in UC'. rewrite UC'. cbn [obind fst snd].
    destruct (s_fin u) eqn:Ef.
    + eexists _, (merged P Ls mi), []. split; [reflexivity|]. cbn [m_nt m_c0 m_tmp m_maxr m_n].
      split.
      { destruct V. constructor; cbn [m_nt m_c0 m_tmp m_maxr m_n m_ks m_us m_copy]; auto.
        - rewrite merged_len; lia.
        - apply merged_nonempty; auto.
        - intros e. rewrite mv_hist0, !in_app_iff, merged_tl. cbn [In]. tauto.
        - rewrite mv_nt0, !app_length, merged_tl_len. cbn [length]. lia.
        - left. split; auto. split; cbn [m_ks m_us]; auto.
        - congruence. }
      repeat (split; [reflexivity|]). right. split; auto. split; auto. intros e. apply merged_tl.
    + eexists _, Ls, P. split; [reflexivity|]. cbn [m_nt m_c0 m_tmp m_maxr m_n].
      split; [|auto 10]. destruct V. constructor; cbn [m_nt m_c0 m_tmp m_maxr m_n m_ks m_us m_copy]; auto.
      2: { intros _. specialize (mv_calls0 Hp). lia. }
      right. exists ks0, u0, mi, conv. cbn [m_tmp m_maxr m_ks m_us m_copy]. rewrite calls_snoc, UC. cbn [obind fst snd]. auto 10.
Qed.

(** ** add_edge *)
Lemma lev_find_range m l : forall i acc j, lev_find T m l i acc = Some j -> i <= j < i + length l.
Proof.
  induction l as [|o l IH]; cbn [lev_find]; intros i acc j E; [discriminate|].
  destruct (_ <? _)%N; [injection E as <-; cbn; lia|]. apply IH in E. cbn. lia.
Qed.
Lemma built_m l : l <> [] -> in_rng n l -> (b_m (built hgt n l) <= N.of_nat (length l))%N.
Proof using H1 Hn.
  intros Hl R. assert (X : built hgt n (nodup edge_dec l) = built hgt n l) by (apply built_ext; intros e; apply nodup_In).
  rewrite <- X, built_total; auto using NoDup_nodup.
  - assert (G : (length (nodup edge_dec l) <= length l)%nat) by (apply NoDup_incl_length; [apply NoDup_nodup|intros e He; apply nodup_In in He; exact He]).
    clear -G. unfold edge in *. lia.
  - eapply rng_incl; [exact R|]. intros e He. apply nodup_In in He. exact He.
  - destruct l as [|e l]; [congruence|]. intros E. assert (In e (nodup edge_dec (e :: l))) by (apply nodup_In; left; auto). rewrite E in *. auto.
Qed.
(** the running total at level i is at most the number of edges *)
Lemma lev_find_none m Ls : forall i acc, nonempty Ls -> in_rng n (tl Ls) -> lev_find T m (lev hgt n Ls) i acc = None -> Ls <> [] ->
  (th_max T m (i + length Ls) <= acc + N.of_nat (length (tl Ls)) + 1)%N.
Proof using H1 H256 Hn Hn2.
  induction Ls as [|o Ls IH]; intros i acc Hne R E Hls; [congruence|]. unfold lev in E. cbn [map lev_find] in E. fold (lev hgt n Ls) in E.
  set (acc' := match option_map (built hgt n) o with Some t => (acc + b_m t)%N | None => acc end) in *.
  assert (Ha : (acc' + N.of_nat (length (tl Ls)) <= acc + N.of_nat (length (tl (o :: Ls))))%N).
  { unfold acc', tl in *. destruct o as [l|]; cbn [option_map somes concat] in *; [|lia]. apply rng_app in R. destruct R as [R1 R2].
    rewrite app_length. pose proof (built_m l (Hne l (or_introl eq_refl)) R1). lia. }
  assert (Hne' : nonempty Ls) by (intros l Hl; apply Hne; right; exact Hl).
  assert (R' : in_rng n (tl Ls)). { unfold tl in *. destruct o as [l|]; cbn [somes concat] in R; auto. apply rng_app in R. tauto. }
  destruct (N.ltb_spec (acc' + 1) (th_max T m (S i))) as [L|L]; [discriminate|].
  destruct Ls as [|o' Ls'].
  - cbn [length]. rewrite Nat.add_1_r. change (length (tl [])) with 0 in Ha. lia.
  - specialize (IH (S i) acc' Hne' R' E ltac:(discriminate)). cbn [length] in IH |- *.
    replace (S i + S (length Ls'))%nat with (i + S (S (length Ls')))%nat in IH by lia. lia.
Qed.

Lemma mg_m_ok g : m_n g = n -> maxsz T (mg_m g) 0 = Ok (th_max T (N.max n (m_nt g)) 0).
Proof using H1 H256 Hn Hn2. intros E. unfold maxsz, mg_m. rewrite E. destruct (N.eqb_spec (N.max n (m_nt g)) 1); [lia|reflexivity]. Qed.

Definition is_nil {A} (l : list A) : {l = []} + {l <> []}.
Proof. destruct l; [left; auto|right; discriminate]. Defined.

Lemma phase_fin hs g Ls P B c : minv hs g Ls P B c -> s_fin (m_us g) = (if is_nil P then true else false).
Proof.
  intros V. destruct (mv_phase _ _ _ _ _ _ V) as [[-> [_ E]]|(ks0 & u0 & mi & conv & EP & _ & _ & _ & _ & E2 & _)]; [exact E|].
  destruct (is_nil P) as [->|]; [|exact E2]. destruct conv; discriminate.
Qed.

Lemma add_spec hs g Ls P B c x y : minv hs g Ls P B c -> fitsn (m_nt g + 1) -> (x < n)%N -> (y < n)%N ->
  let e := (x, y) in let m := N.max n (m_nt g) in
  exists g1 Ls1 P1, mg_step hgt g = Ok g1 /\ minv hs g1 Ls1 P1 B (S c) /\
    m_nt g1 = m_nt g /\ m_tmp g1 = m_tmp g /\ m_maxr g1 = m_maxr g /\
    ((Ls1 = Ls /\ P1 = P) \/ (P1 = [] /\ P <> [] /\ forall e, In e (tl Ls1) <-> In e P \/ In e (tl Ls))) /\
    ((In e (vis g1 Ls1 P1 B) /\ mg_add T hgt g x y = Done g1 /\ minv (hs ++ [e]) g1 Ls1 P1 B (S c)) \/
     (~ In e (vis g1 Ls1 P1 B) /\
       (((N.of_nat (length B) < th_max T m 0)%N /\ exists g2, mg_add T hgt g x y = Done g2 /\ minv (hs ++ [e]) g2 Ls1 P1 (B ++ [e]) (S c) /\
          m_nt g2 = (m_nt g + 1)%N /\ m_tmp g2 = m_tmp g /\ m_maxr g2 = m_maxr g) \/
        ((th_max T m 0 <= N.of_nat (length B))%N /\ P1 <> [] /\ mg_add T hgt g x y = Undefined) \/
        ((th_max T m 0 <= N.of_nat (length B))%N /\ P1 = [] /\ lev_find T m (m_ks g1) 0 (th_max T m 0) = None /\
           exists g2, mg_add T hgt g x y = Thrown g2) \/
        ((th_max T m 0 <= N.of_nat (length B))%N /\ P1 = [] /\ exists i g2 Ls2 P2, lev_find T m (m_ks g1) 0 (th_max T m 0) = Some i /\
           mg_add T hgt g x y = Done g2 /\ minv (hs ++ [e]) g2 Ls2 P2 [] 1 /\
           m_nt g2 = (m_nt g + 1)%N /\ m_tmp g2 = e /\ m_maxr g2 = Nat.max i (m_maxr g) /\
           ((Ls2 = Ls1 /\ P2 = B ++ [e]) \/ (P2 = [] /\ forall f, In f (tl Ls2) <-> In f (B ++ [e]) \/ In f (tl Ls1))))))).
Proof using H1 H256 Hn Hn2.
  intros V Fit Hx Hy e m.
  assert (Fit0 : fitsn (m_nt g)) by (unfold fitsn in *; nia).
  destruct (step_spec hs g Ls P B c V Fit0) as (g1 & Ls1 & P1 & E1 & V1 & N1 & C1 & T1 & M1 & n1 & D).
  exists g1, Ls1, P1. do 5 (split; [assumption|]). split; [exact D|].
  unfold mg_add. rewrite E1. cbn [rbind]. rewrite (contains_spec _ _ _ _ _ _ x y V1 Hx Hy). cbn [rbind].
  assert (He : in_rng n [e]) by (constructor; [cbn; auto|constructor]).
  destruct (emem (x, y) (vis g1 Ls1 P1 B)) eqn:Em.
  { left. apply emem_In in Em. split; [exact Em|]. split; [reflexivity|].
    assert (Hin : In e (B ++ tl Ls1 ++ P1)).
    { unfold vis in Em. rewrite !in_app_iff in *. destruct Em as [G|[G|G]]; auto. right; right.
      destruct (mv_phase _ _ _ _ _ _ V1) as [[-> _]|(ks0 & u0 & mi & conv & EP & _)]; [destruct G|].
      destruct P1 as [|p P1]; [destruct G|]. destruct G as [G|[]]. rewrite EP, in_app_iff. right. left. exact G. }
    destruct V1. constructor; auto.
    - intros f. rewrite in_app_iff, mv_hist0. cbn [In]. split; [|auto]. intros [G|[<-|[]]]; auto.
    - apply rng_app; auto.
    - rewrite app_length. cbn [length]. lia. }
  right. apply emem_false in Em. split; [exact Em|].
  rewrite (mg_m_ok g1 (mv_n _ _ _ _ _ _ V1)), N1. fold m. cbn [rbind].
  assert (Emm : mg_m g1 = m) by (unfold mg_m; rewrite (mv_n _ _ _ _ _ _ V1), N1; reflexivity). cbv zeta. rewrite Emm.
  rewrite (inv_size _ _ (mv_c0 _ _ _ _ _ _ V1)), live_lv.
  assert (HnB : ~ In e B) by (intros G; apply Em; unfold vis; apply in_app_iff; auto).
  destruct (N.ltb_spec (N.of_nat (length B)) (th_max T m 0)) as [L|L].
  { left. split; [exact L|].
    destruct (insert_ok T (m_c0 g1) (lv B) e (m_nt g) (mv_c0 _ _ _ _ _ _ V1)) as (c' & Ei & Ic & _ & Ec).
    { rewrite live_lv. exact HnB. }
    { right. rewrite (mv_c0n _ _ _ _ _ _ V1), (iv_n _ _ (mv_c0 _ _ _ _ _ _ V1)), lv_len. fold m. split; [unfold m; lia|lia]. }
    fold e. rewrite Ei. cbn [rbind]. eexists. split; [reflexivity|]. cbn [m_nt m_tmp m_maxr]. split; [|auto].
    destruct V1. constructor; cbn [m_nt m_c0 m_tmp m_maxr m_n m_ks m_us m_copy]; auto.
    - rewrite lv_app. exact Ic.
    - congruence.
    - intros f. rewrite in_app_iff, mv_hist0, !in_app_iff. cbn [In]. tauto.
    - apply rng_app; auto.
    - rewrite <- N1, mv_nt0, !app_length. cbn [length]. lia.
    - rewrite app_length. cbn [length]. lia.
    - intros Hp. rewrite app_length. cbn [length]. destruct D as [[-> ->]|[-> _]]; [|congruence].
      pose proof (mv_calls _ _ _ _ _ _ V Hp). lia. }
  right. rewrite (phase_fin _ _ _ _ _ _ V1). destruct (is_nil P1) as [E0|Hp]; [|left; auto]. right.
  destruct (lev_find T m (m_ks g1) 0 (th_max T m 0)) as [i|] eqn:Ef; [|left; eauto 10]. right.
  split; [exact L|]. split; [exact E0|]. exists i.
  rewrite (inv_converted _ _ (mv_c0 _ _ _ _ _ _ V1)), live_lv. cbn [rbind]. fold e.
  destruct (inv_clean _ _ (mv_c0 _ _ _ _ _ _ V1)) as (c' & Ecl & Icl & _ & Enc). rewrite Ecl. cbn [rbind].
  subst P1. destruct (mv_phase _ _ _ _ _ _ V1) as [[_ [K1 K2]]|(ks0 & u0 & mi & conv & EP & _)]; [|destruct conv; discriminate].
  assert (Hi : i < RSZ). { apply lev_find_range in Ef. rewrite K1 in Ef. unfold lev in Ef. rewrite map_length, (mv_len _ _ _ _ _ _ V1) in Ef. lia. }
  set (Q := B ++ [e]). assert (HQ : Q <> []) by (unfold Q; destruct B; discriminate).
  assert (Hb : (N.of_nat (total_bits hgt n Q Ls1 i) <= CAP)%N).
  { apply (fits_total Q Ls1 i [] (m_nt g + 1)); auto; [apply (mv_ne _ _ _ _ _ _ V1)|]. rewrite <- N1, (mv_nt _ _ _ _ _ _ V1). unfold Q. rewrite !app_length. cbn [length]. lia. }
  destruct (union_at Q Ls1 i 1 Hi (mv_len _ _ _ _ _ _ V1) (mv_ne _ _ _ _ _ _ V1) HQ Hb) as (ks0 & u0 & U0 & ks & u & UC & F).
  rewrite (mv_n _ _ _ _ _ _ V1), K1. cbv zeta.
  match goal with |- context [us_new ?a ?b ?c ?d] => replace (us_new a b c d) with (Ok (ks0, u0)) by (symmetry; exact U0) end. cbn [rbind fst snd]. unfold mg_step. cbn [m_ks m_us m_c0 m_nt m_tmp m_maxr m_n m_copy].
  pose proof UC as UC'. rewrite calls_snoc in UC'. cbn [union_calls obind fst snd] in UC'. rewrite UC'. cbn [obind rbind fst snd m_ks m_us m_c0 m_nt m_tmp m_maxr m_n m_copy].
  assert (Hh : forall f, In f (hs ++ [e]) <-> In f Q \/ In f (tl Ls1)).
  { intros f. rewrite in_app_iff, (mv_hist _ _ _ _ _ _ V1 f). unfold Q. rewrite !in_app_iff. cbn [In]. tauto. }
  assert (Hcnt : (m_nt g + 1)%N = N.of_nat (length Q + length (tl Ls1))).
  { rewrite <- N1, (mv_nt _ _ _ _ _ _ V1). unfold Q. rewrite !app_length. cbn [length]. lia. }
  assert (Hle : (m_nt g + 1 <= N.of_nat (length (hs ++ [e])))%N).
  { rewrite app_length. cbn [length]. pose proof (mv_le _ _ _ _ _ _ V). lia. }
  destruct (s_fin u) eqn:Efu.
  - eexists _, (merged Q Ls1 i), []. split; [reflexivity|]. split; [reflexivity|]. cbn [m_nt m_tmp m_maxr]. rewrite ?N1, ?M1.
    split; [|split; [reflexivity|]; split; [reflexivity|]; split; [reflexivity|]; right; split; [reflexivity|]; intros f; rewrite merged_tl; tauto].
    constructor; cbn [m_nt m_c0 m_tmp m_maxr m_n m_ks m_us m_copy]; auto.
    + rewrite Enc. apply (mv_c0n _ _ _ _ _ _ V1).
    + rewrite merged_len, (mv_len _ _ _ _ _ _ V1); auto. rewrite (mv_len _ _ _ _ _ _ V1). exact Hi.
    + apply merged_nonempty; auto. apply (mv_ne _ _ _ _ _ _ V1).
    + intros f. rewrite Hh, app_nil_r. cbn [app]. rewrite merged_tl. tauto.
    + apply rng_app; auto. split; auto. apply (mv_rng _ _ _ _ _ _ V1).
    + rewrite app_nil_r. cbn [app]. rewrite merged_tl_len. exact Hcnt.
    + left. split; auto. split; cbn [m_ks m_us]; auto.
  - eexists _, Ls1, Q. split; [reflexivity|]. split; [reflexivity|]. cbn [m_nt m_tmp m_maxr]. rewrite ?N1, ?M1.
    split; [|auto 10].
    constructor; cbn [m_nt m_c0 m_tmp m_maxr m_n m_ks m_us m_copy]; auto.
    + rewrite Enc. apply (mv_c0n _ _ _ _ _ _ V1).
    + apply (mv_len _ _ _ _ _ _ V1).
    + apply (mv_ne _ _ _ _ _ _ V1).
    + intros f. rewrite Hh. cbn [app]. rewrite in_app_iff. tauto.
    + apply rng_app; auto. split; auto. apply (mv_rng _ _ _ _ _ _ V1).
    + cbn [app]. rewrite app_length, Hcnt. lia.
    + right. exists ks0, u0, i, B. cbn [m_tmp m_maxr m_ks m_us m_copy]. fold Q. split; [reflexivity|]. split; [exact Hi|]. split; [lia|]. auto 10.
Qed.

Lemma new_inv g : mg_new T n = Ok g -> minv [] g (repeat None RSZ) [] [] 0 /\ m_tmp g = (0, 0)%N /\ m_maxr g = 0 /\ m_nt g = 0%N.
Proof using H1 H256 Hn Hn2.
  unfold mg_new, c0_new, maxsz. destruct (N.eqb_spec n 1); [lia|]. cbn [obind]. intros E. injection E as <-. split; [|auto].
  constructor; cbn [m_nt m_c0 m_tmp m_maxr m_n m_ks m_us m_copy c_nv]; auto; try lia.
  - apply inv_empty.
  - intros l Hl. apply repeat_spec in Hl. discriminate.
  - intros e. rewrite tl_repeat. cbn. tauto.
  - constructor.
  - left. split; auto. split; auto.
  - congruence.
Qed.
End Inv.

(** ** Histories *)
Definition added (h : list op) : list edge := flat_map (fun o => match o with Add e => [e] | Del _ => [] end) h.
Lemma added_app a b : added (a ++ b) = added a ++ added b.
Proof. apply flat_map_app. Qed.
Lemma mg_ops_app T hgt h2 : forall h1 g, mg_ops T hgt g (h1 ++ h2) =
  match mg_ops T hgt g h1 with Done g => mg_ops T hgt g h2 | r => r end.
Proof. induction h1 as [|o h1 IH]; intros g; [reflexivity|]. cbn [app mg_ops]. destruct (mg_op T hgt g o); auto. Qed.
Lemma mg_hist_snoc T hgt n h o : mg_hist T hgt n (h ++ [o]) =
  match mg_hist T hgt n h with Done g => mg_op T hgt g o | r => r end.
Proof.
  unfold mg_hist. destruct (mg_new T n) as [g|]; [|reflexivity]. cbn [rbind]. rewrite mg_ops_app.
  destruct (mg_ops T hgt g h) as [g'|g'|]; auto. cbn [mg_ops]. destruct (mg_op T hgt g' o); auto.
Qed.

(** The height of the trees: ceil(log2 n) or, should the rounding of std::log make it so, more. *)
Definition height_ok (hgt : N -> nat) (n : N) : Prop := 1 <= hgt n /\ hgt n <= 256 /\ (n <= 2 ^ N.of_nat (hgt n))%N.
(** The history is short enough for the 32-bit sizes of union_support. *)
Definition small_hist (hgt : N -> nat) (n : N) (h : list op) : Prop := (4 * N.of_nat (hgt n) * N.of_nat (length (added h)) <= CAP)%N.

(** Where the hidden edges come from *)
Definition window (T : thresholds) (hgt : N -> nat) (n : N) (h : list op) (g : mg) Ls (P B : list edge) : Prop :=
  P <> [] -> exists h1 e h2 g1 B1, h = h1 ++ Add e :: h2 /\ mg_hist T hgt n h1 = Done g1 /\ c0_inv (m_c0 g1) (lv B1) /\
    P = B1 ++ [e] /\ m_tmp g = e /\ forall f, In f (added h2) -> In f (vis g Ls P B).

Section Hist.
Context (T : thresholds) (hgt : N -> nat) (n : N).
Hypothesis Hn2 : (2 <= n)%N.
Hypothesis HO : height_ok hgt n.

Lemma hist_inv h : Forall (op_in_range n) h -> small_hist hgt n h -> forall g, mg_hist T hgt n h = Done g ->
  exists Ls P B c, minv hgt n (added h) g Ls P B c /\ window T hgt n h g Ls P B /\
    (m_tmp g = (0, 0)%N \/ In (m_tmp g) (added h)) /\ (NoDup (added h) -> NoDup (B ++ tl Ls ++ P) /\ m_nt g = N.of_nat (length (added h))).
Proof using Hn2 HO.
  destruct HO as (H1 & H256 & Hn). induction h as [|o h IH] using rev_ind; intros F Sm g E.
  - unfold mg_hist in E. destruct (mg_new T n) as [g0|] eqn:E0; [|discriminate]. cbn in E. injection E as <-.
    destruct (new_inv T hgt n H1 H256 Hn Hn2 g0 E0) as (V & Et & _ & Ent). exists (repeat None RSZ), [], [], 0. split; [exact V|].
    split; [intros X; congruence|]. split; [auto|]. intros _. rewrite Ent, tl_repeat. split; [constructor|reflexivity].
  - apply Forall_app in F. destruct F as [F Fo]. inversion Fo as [|? ? Ro _]; subst.
    unfold small_hist in *. rewrite added_app, app_length in Sm.
    specialize (IH F ltac:(nia)). rewrite mg_hist_snoc in E. destruct (mg_hist T hgt n h) as [g0|g0|] eqn:E0; try discriminate.
    destruct (IH g0 eq_refl) as (Ls & P & B & c & V & W & Tm & Ct). destruct o as [[x y]|[x y]]; cbn [mg_op] in E.
    2: { injection E as <-. exists Ls, P, B, c. rewrite added_app, app_nil_r. split; [exact V|]. split; [|auto].
         intros Hp. destruct (W Hp) as (h1 & e & h2 & g1 & B1 & -> & W2 & W3 & W4 & W5 & W6).
         exists h1, e, (h2 ++ [Del (x, y)]), g1, B1. rewrite <- app_assoc, added_app, app_nil_r. auto 10. }
    destruct Ro as [Hx Hy]. cbn [op_edge fst snd] in Hx, Hy.
    assert (Fit : fitsn hgt n (m_nt g0 + 1)). { unfold fitsn. pose proof (mv_le _ _ _ _ _ _ _ _ V). cbn [added flat_map app length] in Sm. nia. }
    destruct (add_spec T hgt n H1 H256 Hn Hn2 (added h) g0 Ls P B c x y V Fit Hx Hy) as (g1 & Ls1 & P1 & E1 & V1 & N1 & T1 & M1 & D & C).
    rewrite added_app. change (added [Add (x, y)]) with [(x, y)].
    assert (D' : forall f, In f (vis g0 Ls P B) -> In f (vis g1 Ls1 P1 B)).
    { intros f. unfold vis. rewrite T1. destruct D as [[-> ->]|(-> & Hp & D)]; [auto|].
      rewrite !in_app_iff. intros [G|[G|G]]; auto; [right; left; apply D; auto|]. right. left. apply D. left.
      destruct (mv_phase _ _ _ _ _ _ _ _ V) as [[-> _]|(ks0 & u0 & mi & conv & EP & _)]; [congruence|].
      destruct P as [|p P']; [congruence|]. destruct G as [<-|[]]. rewrite EP. apply in_app_iff. right. left. reflexivity. }
    assert (W1 : window T hgt n h g1 Ls1 P1 B).
    { intros Hp. destruct D as [[-> ->]|[-> _]]; [|congruence]. destruct (W Hp) as (h1 & e & h2 & g2 & B1 & W1 & W2 & W3 & W4 & W5 & W6).
      exists h1, e, h2, g2, B1. rewrite T1. auto 10. }
    assert (Ct1 : NoDup (added h) -> NoDup (B ++ tl Ls1 ++ P1) /\ m_nt g1 = N.of_nat (length (added h))).
    { intros Nd. destruct (Ct Nd) as [C1 C2]. split; [|congruence]. destruct D as [[-> ->]|(-> & Hp & D)]; [auto|].
      apply NoDup_incl_NoDup with (l := B ++ tl Ls ++ P); auto.
      - pose proof (mv_nt _ _ _ _ _ _ _ _ V1) as X. pose proof (mv_nt _ _ _ _ _ _ _ _ V) as Y. unfold edge in *. lia.
      - intros f. rewrite !in_app_iff, D. cbn [In]. tauto. }
    assert (Snoc : forall gg PP BB LL, window T hgt n h g1 Ls1 P1 B -> m_tmp gg = m_tmp g1 -> PP = P1 -> LL = Ls1 ->
              (forall f, In f (vis g1 Ls1 P1 B) -> In f (vis gg LL PP BB)) -> In (x, y) (vis gg LL PP BB) ->
              window T hgt n (h ++ [Add (x, y)]) gg LL PP BB).
    { intros gg PP BB LL WW Et -> -> Iv Ix Hp. destruct (WW Hp) as (h1 & e & h2 & g2 & B1 & -> & W2 & W3 & W4 & W5 & W6).
      exists h1, e, (h2 ++ [Add (x, y)]), g2, B1. rewrite <- app_assoc, added_app, Et. split; [reflexivity|]. do 4 (split; [assumption|]).
      intros f Hf. apply in_app_iff in Hf. destruct Hf as [Hf|[<-|[]]]; auto. }
    assert (Nsnoc : NoDup (added h ++ [(x, y)]) -> NoDup (added h) /\ ~ In (x, y) (added h)).
    { intros Nd. apply NoDup_app in Nd. destruct Nd as (A & _ & A2). split; auto. intros G. apply (A2 _ G). left; auto. }
    destruct C as [(C1 & C2 & C3)|(C1 & [(C2 & g2 & C3 & C4 & C5 & C6 & C7)|[(C2 & C3 & C4)|[(C2 & C3 & C4 & g2 & C5)|(C2 & C3 & i & g2 & Ls2 & P2 & C4 & C5 & C6 & C7 & C8 & C9 & C10)]]])].
    + rewrite C2 in E. injection E as <-. exists Ls1, P1, B, (S c). split; [exact C3|]. split; [|split].
      * apply Snoc; auto.
      * rewrite T1. destruct Tm as [Tm|Tm]; [auto|right; apply in_app_iff; auto].
      * intros Nd. destruct (Nsnoc Nd) as [_ X]. exfalso. apply X. apply (mv_hist _ _ _ _ _ _ _ _ V1).
        unfold vis in C1. rewrite !in_app_iff in *. destruct C1 as [G|[G|G]]; auto. right; right.
        destruct (mv_phase _ _ _ _ _ _ _ _ V1) as [[-> _]|(ks0 & u0 & mi & conv & EP & _)]; [destruct G|].
        destruct P1 as [|p P1']; [destruct G|]. destruct G as [G|[]]. rewrite EP, in_app_iff. right. left. exact G.
    + rewrite C3 in E. injection E as <-. exists Ls1, P1, (B ++ [(x, y)]), (S c). split; [exact C4|]. split; [|split].
      * apply Snoc; auto; [congruence| |].
        -- intros f. unfold vis. rewrite C6, <- T1, !in_app_iff. tauto.
        -- unfold vis. rewrite !in_app_iff. left. right. left. reflexivity.
      * rewrite C6. destruct Tm as [Tm|Tm]; [auto|right; apply in_app_iff; auto].
      * intros Nd. destruct (Nsnoc Nd) as [A1 A2]. destruct (Ct1 A1) as [A3 A4]. split.
        -- rewrite <- app_assoc. cbn [app]. apply Permutation_NoDup with ((x, y) :: B ++ tl Ls1 ++ P1); [apply Permutation_middle|].
           constructor; auto. intros G. apply A2. apply (mv_hist _ _ _ _ _ _ _ _ V1). exact G.
        -- rewrite C5, <- N1, A4, app_length. cbn [length]. lia.
    + congruence.
    + congruence.
    + rewrite C5 in E. injection E as <-. exists Ls2, P2, [], 1. split; [exact C6|]. split; [|split].
      * intros Hp. destruct C10 as [[-> ->]|[-> _]]; [|congruence].
        exists h, (x, y), [], g0, B. split; [reflexivity|]. split; [exact E0|]. split; [apply (mv_c0 _ _ _ _ _ _ _ _ V)|]. split; [reflexivity|]. split; [exact C8|]. intros f [].
      * rewrite C8. right. apply in_app_iff. right. left. reflexivity.
      * intros Nd. destruct (Nsnoc Nd) as [A1 A2]. destruct (Ct1 A1) as [A3 A4].
        assert (Hl : m_nt g2 = N.of_nat (length (added h ++ [(x, y)]))) by (rewrite C7, <- N1, A4, app_length; cbn [length]; lia).
        split; [|exact Hl]. apply NoDup_incl_NoDup with (l := added h ++ [(x, y)]); auto.
        -- pose proof (mv_nt _ _ _ _ _ _ _ _ C6) as X. rewrite Hl in X. unfold edge in *. lia.
        -- intros f Hf. apply (mv_hist _ _ _ _ _ _ _ _ C6). exact Hf.
Qed.
End Hist.
