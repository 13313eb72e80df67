(** * Prop_Munro: properties of the incremental-union graph DKtree_delay_munro (C28, C29, C58, C59). *)
From Coq Require Import Reals.
From Verif Require Import Base Spec Thresholds Table Table2 C0 C0Proof Bits Union UnionProof UnionMerge UnionEdges Prop_Union Munro MunroProof MunroTime Table3.

(** The graphs meant: histories of in-range operations that did not fail, over trees of sufficient height, short
    enough for the 32-bit sizes of union_support (some 30 million insertions for trees of height 10). *)
Definition mreached (T : thresholds) (hgt : N -> nat) (n : N) (h : list op) (g : mg) : Prop :=
  height_ok hgt n /\ Forall (op_in_range n) h /\ small_hist hgt n h /\ mg_hist T hgt n h = Done g.

Lemma added_In h e : In e (added h) <-> In (Add e) h.
Proof.
  unfold added. rewrite in_flat_map. split.
  - intros [[f|f] [Hf G]]; [destruct G as [<-|[]]; exact Hf|destruct G].
  - intros G. exists (Add e). split; [exact G|left; reflexivity].
Qed.

Section P.
Context (T : thresholds) (hgt : N -> nat) (n : N).

Lemma vis_sub hs g Ls P B c f : minv hgt n hs g Ls P B c -> In f (vis g Ls P B) -> In f hs.
Proof.
  intros V G. apply (mv_hist _ _ _ _ _ _ _ _ V). unfold vis in G. rewrite !in_app_iff in *. destruct G as [G|[G|G]]; auto. right; right.
  destruct (mv_phase _ _ _ _ _ _ _ _ V) as [[-> _]|(ks0 & u0 & mi & conv & EP & _)]; [destruct G|].
  destruct P as [|p P']; [destruct G|]. destruct G as [<-|[]]. rewrite EP, in_app_iff. right. left. reflexivity.
Qed.
Lemma vis_fin hs g Ls P B c f : minv hgt n hs g Ls P B c -> mg_finished g = true -> In f hs -> In f (vis g Ls P B).
Proof.
  intros V Fn G. unfold mg_finished in Fn. rewrite (phase_fin _ _ _ _ _ _ _ _ V) in Fn. destruct (is_nil P) as [->|]; [|discriminate].
  apply (mv_hist _ _ _ _ _ _ _ _ V) in G. exact G.
Qed.

(** C28, what holds: contains never fails, never reports an edge that was not inserted, and reports every inserted edge
    whenever no union is in progress. *)
Theorem C28_contains_partial : forall h g x y, (2 <= n)%N -> mreached T hgt n h g -> (x < n)%N -> (y < n)%N ->
  exists b, mg_contains g x y = Ok b /\ (b = true -> In (Add (x, y)) h) /\
    (mg_finished g = true -> (b = true <-> In (Add (x, y)) h)).
Proof.
  intros h g x y Hn2 (HO & F & Sm & E) Hx Hy. destruct (hist_inv T hgt n Hn2 HO h F Sm g E) as (Ls & P & B & c & V & _).
  destruct HO as (H1 & H256 & Hn). rewrite (contains_spec hgt n H1 Hn _ _ _ _ _ _ x y V Hx Hy). eexists. split; [reflexivity|].
  rewrite emem_In, <- added_In. assert (A : In (x, y) (vis g Ls P B) -> In (x, y) (added h)) by (apply (vis_sub _ _ _ _ _ _ _ V)).
  split; [exact A|]. intros Fn. split; [exact A|]. apply (vis_fin _ _ _ _ _ _ _ V Fn).
Qed.

(** C28, the extent of the failure: an inserted edge is reported absent only while a union is in progress, only if it was in the
    buffer when the insertion that began that union was made, is not the edge of that insertion, and was not inserted again since. *)
Theorem C28_hidden_partial : forall h g x y, (2 <= n)%N -> mreached T hgt n h g -> (x < n)%N -> (y < n)%N ->
  In (Add (x, y)) h -> mg_contains g x y = Ok false ->
  mg_finished g = false /\
  exists h1 e h2 g1, h = h1 ++ Add e :: h2 /\ mreached T hgt n h1 g1 /\ c0_contains (m_c0 g1) (x, y) = Ok true /\
    e <> (x, y) /\ ~ In (Add (x, y)) h2 /\ mg_contains g (fst e) (snd e) = Ok true.
Proof.
  intros h g x y Hn2 (HO & F & Sm & E) Hx Hy Hin Hc. destruct (hist_inv T hgt n Hn2 HO h F Sm g E) as (Ls & P & B & c & V & W & _).
  pose proof HO as (H1 & H256 & Hn). rewrite (contains_spec hgt n H1 Hn _ _ _ _ _ _ x y V Hx Hy) in Hc. injection Hc as Hc. apply emem_false in Hc.
  apply added_In in Hin.
  assert (Fn : mg_finished g = false) by (destruct (mg_finished g) eqn:Fn; auto; exfalso; apply Hc; apply (vis_fin _ _ _ _ _ _ _ V Fn Hin)).
  split; [exact Fn|]. pose proof Fn as Fn'. unfold mg_finished in Fn'. rewrite (phase_fin _ _ _ _ _ _ _ _ V) in Fn'. destruct (is_nil P) as [|Hp]; [discriminate|].
  destruct (W Hp) as (h1 & e & h2 & g1 & B1 & Eh & W2 & W3 & W4 & W5 & W6).
  assert (He : In e (vis g Ls P B)). { unfold vis. rewrite !in_app_iff, W5. right; right. destruct P; [congruence|]. left. reflexivity. }
  exists h1, e, h2, g1. split; [exact Eh|]. split.
  { split; [exact HO|]. rewrite Eh in F, Sm. apply Forall_app in F. split; [tauto|]. split; [|exact W2]. unfold small_hist in *. rewrite added_app, app_length in Sm. nia. }
  assert (Hne : e <> (x, y)) by (intros ->; auto).
  split; [|split; [exact Hne|split]].
  - rewrite (inv_contains _ _ _ W3), live_lv. f_equal. apply emem_In.
    apply (mv_hist _ _ _ _ _ _ _ _ V) in Hin. rewrite W4 in Hin. unfold vis in Hc. rewrite !in_app_iff in *. cbn [In] in Hin. tauto.
  - intros G. apply added_In in G. auto.
  - assert (R : in_range n e). { rewrite Forall_forall in F. apply (F (Add e)). rewrite Eh. apply in_app_iff. right. left. reflexivity. }
    destruct e as [u v]. destruct R as [Ru Rv]. cbn [fst snd] in *. rewrite (contains_spec hgt n H1 Hn _ _ _ _ _ _ u v V Ru Rv). f_equal. apply emem_In. exact He.
Qed.

(** The count lies between the number of distinct insertions and the number of insertions, and is exact without repetitions. *)
Theorem C28_count_partial : forall h g, (2 <= n)%N -> mreached T hgt n h g ->
  (forall l, NoDup l -> (forall e, In e l -> In (Add e) h) -> (N.of_nat (length l) <= mg_edges g)%N) /\
  (mg_edges g <= N.of_nat (length (added h)))%N /\ (NoDup (added h) -> mg_edges g = N.of_nat (length (added h))).
Proof.
  intros h g Hn2 (HO & F & Sm & E). destruct (hist_inv T hgt n Hn2 HO h F Sm g E) as (Ls & P & B & c & V & _ & _ & Ct).
  split; [|split; [apply (mv_le _ _ _ _ _ _ _ _ V)|intros Nd; apply (Ct Nd)]].
  intros l Nd Hl. unfold mg_edges. rewrite (mv_nt _ _ _ _ _ _ _ _ V).
  pose proof (NoDup_incl_length Nd (l' := B ++ tl Ls ++ P)) as X. enough (length l <= length (B ++ tl Ls ++ P)) by lia. apply X.
  intros e He. apply (mv_hist _ _ _ _ _ _ _ _ V). apply added_In. auto.
Qed.

(** ** Neighbours *)
Lemma bneigh_In (es : list edge) x y : 1 <= hgt n -> (n <= 2 ^ N.of_nat (hgt n))%N -> in_rng n es -> (x < n)%N ->
  (In y (bneigh (built hgt n es) x) <-> In (x, y) es).
Proof.
  intros H1 Hn R Hx. unfold bneigh. rewrite filter_In, in_map_iff. change (b_n (built hgt n es)) with n. split.
  - intros [(i & <- & Hi) Ha]. apply in_seq in Hi. apply (built_adj hgt n H1 Hn es x (N.of_nat i) R Hx) in Ha; [exact Ha|lia].
  - intros G. pose proof R as R0. unfold in_rng in R. rewrite Forall_forall in R. destruct (R _ G) as [_ Hy]. cbn [snd] in Hy. split.
    + exists (N.to_nat y). split; [apply N2Nat.id|]. apply in_seq. lia.
    + apply (built_adj hgt n H1 Hn es x y R0 Hx Hy). exact G.
Qed.
Lemma trees_neigh_In Ls x y : 1 <= hgt n -> (n <= 2 ^ N.of_nat (hgt n))%N -> in_rng n (tl Ls) -> (x < n)%N ->
  (In y (trees_neigh (lev hgt n Ls) x) <-> In (x, y) (tl Ls)).
Proof.
  intros H1 Hn R Hx. induction Ls as [|[l|] Ls IH]; unfold tl, lev in *; cbn [map option_map trees_neigh somes concat] in *; [tauto| |apply IH; auto].
  apply (rng_app n) in R. destruct R as [R1 R2]. rewrite !in_app_iff, (bneigh_In l x y H1 Hn R1 Hx), (IH R2). tauto.
Qed.
Lemma neigh_spec hs g Ls P B c x : minv hgt n hs g Ls P B c -> 1 <= hgt n -> (n <= 2 ^ N.of_nat (hgt n))%N -> (x < n)%N ->
  exists l, mg_neigh g x = Ok l /\ forall y, In y l <-> In (x, y) (B ++ tl Ls) \/ (mg_finished g = true /\ m_tmp g = (x, y)).
Proof.
  intros V H1 Hn Hx. destruct (minv_rng _ _ _ _ _ _ _ _ V) as [_ [R2 _]].
  unfold mg_neigh. rewrite (inv_neigh _ _ _ (mv_c0 _ _ _ _ _ _ _ _ V)), live_lv. cbn [obind]. unfold mg_finished.
  assert (Sb : forall y, In y (rev (succs x B)) <-> In (x, y) B) by (intros y; rewrite <- in_rev; apply In_succs).
  pose proof (trees_neigh_In Ls x) as Tn.
  destruct (mv_phase _ _ _ _ _ _ _ _ V) as [[-> [E1 E2]]|(ks0 & u0 & mi & conv & EP & _ & _ & _ & _ & E2 & E3)]; rewrite E2.
  - rewrite E1. eexists. split; [reflexivity|]. intros y. rewrite !in_app_iff, Sb, (Tn y) by auto. destruct (m_tmp g) as [u v]. cbn [fst snd].
    destruct (N.eqb_spec u x) as [->|Hne]; cbn [In].
    + split; [intros [G|[[<-|[]]|G]]; auto|intros [[G|G]|[_ G]]; auto]. injection G as ->. auto.
    + split; [tauto|]. intros [G|[_ G]]; [tauto|congruence].
  - rewrite E3. eexists. split; [reflexivity|]. intros y. rewrite !in_app_iff, Sb, (Tn y) by auto. intuition discriminate.
Qed.

(** C29, what holds of list_neighbour: it never fails; every listed vertex was inserted as a neighbour, save that vertex 0 may be
    listed as a neighbour of itself; while no union is in progress every inserted neighbour is listed; and while one is,
    exactly the neighbours that contains reports, save the edge whose insertion began the union. *)
Theorem C29_neighbours_partial : forall h g x, (2 <= n)%N -> mreached T hgt n h g -> (x < n)%N ->
  exists l, mg_neigh g x = Ok l /\
    (forall y, In y l -> In (Add (x, y)) h \/ (x, y) = (0, 0)%N) /\
    (mg_finished g = true -> forall y, In (Add (x, y)) h -> In y l) /\
    (mg_finished g = false -> forall y, (y < n)%N -> In y l -> mg_contains g x y = Ok true) /\
    (mg_finished g = false -> forall y, (y < n)%N -> mg_contains g x y = Ok true -> In y l \/ m_tmp g = (x, y)).
Proof.
  intros h g x Hn2 (HO & F & Sm & E) Hx. destruct (hist_inv T hgt n Hn2 HO h F Sm g E) as (Ls & P & B & c & V & _ & Tm & _).
  destruct HO as (H1 & H256 & Hn). destruct (neigh_spec _ _ _ _ _ _ x V H1 Hn Hx) as (l & El & Hl). exists l. split; [exact El|].
  assert (Cs : forall y, (y < n)%N -> mg_contains g x y = Ok (emem (x, y) (vis g Ls P B))) by (intros y Hy; apply (contains_spec hgt n H1 Hn _ _ _ _ _ _ x y V Hx Hy)).
  split; [|split; [|split]].
  - intros y Hy. apply Hl in Hy. rewrite <- added_In. destruct Hy as [G|[_ G]].
    + left. apply (vis_sub _ _ _ _ _ _ _ V). unfold vis. rewrite !in_app_iff in *. tauto.
    + rewrite G in Tm. destruct Tm as [Tm|Tm]; auto.
  - intros Fn y Hy. apply Hl. left. apply added_In in Hy. pose proof (vis_fin _ _ _ _ _ _ _ V Fn Hy) as G.
    unfold mg_finished in Fn. rewrite (phase_fin _ _ _ _ _ _ _ _ V) in Fn. destruct (is_nil P) as [->|]; [|discriminate].
    unfold vis in G. rewrite app_nil_r in G. exact G.
  - intros Fn y Hy G. rewrite Cs by auto. f_equal. apply emem_In. apply Hl in G. unfold vis. rewrite !in_app_iff in *. destruct G as [G|[G _]]; [tauto|congruence].
  - intros Fn y Hy G. rewrite Cs in G by auto. injection G as G. apply emem_In in G. unfold vis in G. rewrite !in_app_iff in G.
    destruct G as [G|[G|G]]; [left; apply Hl; rewrite in_app_iff; auto..|]. right. destruct P; [destruct G|]. destruct G as [G|[]]. exact G.
Qed.

(** C29 refuted: del_edge removes nothing, for every graph and edge. *)
Theorem C29_refuted_delete : forall g x y, mg_del g x y = Done g.
Proof. reflexivity. Qed.
(** C29 refuted: a graph without edges lists vertex 0 as a neighbour of itself, for every number of vertices but one. *)
Theorem C29_refuted_fresh : n <> 1%N -> exists g, mg_hist T hgt n [] = Done g /\ mg_neigh g 0 = Ok [0%N] /\ mg_contains g 0 0 = Ok false /\ mg_edges g = 0%N.
Proof.
  intros Hn. unfold mg_hist, mg_new, c0_new, maxsz. destruct (N.eqb_spec n 1) as [X|_]; [congruence|]. cbn [obind rbind mg_ops].
  eexists. split; [reflexivity|]. split; [|split]; reflexivity.
Qed.

(** ** C58: insertion *)
(** What one insertion does: nothing but a step of the union when contains (after that step) reports the edge; otherwise the count grows by
    one and contains reports the edge -- unless the buffer is full and the union is not finished, when the assertion fails. *)
Theorem C58_insert : forall h g x y, (2 <= n)%N -> th_top T -> mreached T hgt n h g -> small_hist hgt n (h ++ [Add (x, y)]) -> (x < n)%N -> (y < n)%N ->
  exists g1, mg_step hgt g = Ok g1 /\
    ((mg_contains g1 x y = Ok true /\ mg_add T hgt g x y = Done g1 /\ mg_edges g1 = mg_edges g) \/
     (mg_contains g1 x y = Ok false /\
       ((mg_finished g1 = false /\ (th_max T (N.max n (mg_edges g)) 0 <= N.of_nat (c0_size (m_c0 g1)))%N /\ mg_add T hgt g x y = Undefined) \/
        ((mg_finished g1 = true \/ (N.of_nat (c0_size (m_c0 g1)) < th_max T (N.max n (mg_edges g)) 0)%N) /\
         exists g2, mg_add T hgt g x y = Done g2 /\ mg_edges g2 = (mg_edges g + 1)%N /\ mg_contains g2 x y = Ok true)))).
Proof.
  intros h g x y Hn2 HT (HO & F & Sm & E) Sm2 Hx Hy. destruct (hist_inv T hgt n Hn2 HO h F Sm g E) as (Ls & P & B & c & V & _ & _ & _).
  destruct HO as (H1 & H256 & Hn).
  assert (Fit : fitsn hgt n (m_nt g + 1)). { unfold fitsn. pose proof (mv_le _ _ _ _ _ _ _ _ V). unfold small_hist in Sm2. rewrite added_app, app_length in Sm2. cbn [added flat_map app length] in Sm2. nia. }
  destruct (add_spec T hgt n H1 H256 Hn Hn2 _ g Ls P B c x y V Fit Hx Hy) as (g1 & Ls1 & P1 & E1 & V1 & N1 & T1 & M1 & D & C).
  exists g1. split; [exact E1|]. rewrite (contains_spec hgt n H1 Hn _ _ _ _ _ _ x y V1 Hx Hy). unfold mg_edges, mg_finished.
  rewrite (phase_fin _ _ _ _ _ _ _ _ V1), (inv_size _ _ (mv_c0 _ _ _ _ _ _ _ _ V1)), live_lv.
  assert (Cv : forall gg LL PP BB cc hh, minv hgt n hh gg LL PP BB cc -> In (x, y) (vis gg LL PP BB) -> mg_contains gg x y = Ok true).
  { intros gg LL PP BB cc hh VV G. rewrite (contains_spec hgt n H1 Hn _ _ _ _ _ _ x y VV Hx Hy). f_equal. apply emem_In. exact G. }
  destruct C as [(C1 & C2 & C3)|(C1 & C)].
  - left. split; [f_equal; apply emem_In; exact C1|]. auto.
  - right. split; [f_equal; apply emem_false; exact C1|].
    destruct C as [(C2 & g2 & C3 & C4 & C5 & C6 & C7)|[(C2 & C3 & C4)|[(C2 & C3 & C4 & g2 & C5)|(C2 & C3 & i & g2 & Ls2 & P2 & C4 & C5 & C6 & C7 & C8 & C9 & C10)]]].
    + right. split; [right; exact C2|]. exists g2. split; [exact C3|]. split; [exact C5|]. apply (Cv _ _ _ _ _ _ C4). unfold vis. rewrite !in_app_iff. left. right. left. reflexivity.
    + left. destruct (is_nil P1) as [|_]; [congruence|]. auto.
    + exfalso. subst P1. destruct (mv_phase _ _ _ _ _ _ _ _ V1) as [[_ [K1 _]]|(ks0 & u0 & mi & conv & EP & _)]; [|destruct conv; discriminate].
      rewrite K1 in C4. destruct (minv_rng _ _ _ _ _ _ _ _ V1) as (_ & R2 & _).
      apply (lev_find_none T hgt n H1 H256 Hn Hn2) in C4; auto; [|apply (mv_ne _ _ _ _ _ _ _ _ V1)|pose proof (mv_len _ _ _ _ _ _ _ _ V1); destruct Ls1; [discriminate|congruence]].
      rewrite (mv_len _ _ _ _ _ _ _ _ V1) in C4. change (0 + RSZ) with 8 in C4. rewrite HT in C4 by lia.
      pose proof (mv_nt _ _ _ _ _ _ _ _ V1) as X. rewrite !app_length in X. cbn [length] in X. unfold edge in *. lia.
    + right. destruct (is_nil P1) as [_|]; [|congruence]. split; [left; reflexivity|]. exists g2. split; [exact C5|]. split; [exact C7|]. apply (Cv _ _ _ _ _ _ C6).
      destruct C10 as [[-> ->]|[-> C10]]; unfold vis; rewrite !in_app_iff.
      * rewrite C8. destruct (B ++ [(x, y)]) as [|q Q] eqn:Q0; [destruct B; discriminate|]. right; right. left. reflexivity.
      * right. left. apply C10. left. apply in_app_iff. right. left. reflexivity.
Qed.

(** C59, partial: the assertion has_finish() does not fail when the union in progress began with at most four trees at the levels
    merged so far ([m_copy] is the collection as it was when the union began) ... *)
Definition trees_upto (l : list (option bt)) (i : nat) : nat := length (somes (firstn (S i) l)).
Theorem C59_in_time_partial : forall h g x y, (9 <= n)%N -> th_real T -> mreached T hgt n h g -> trees_upto (m_copy g) (mg_max_r g) <= 4 ->
  small_hist hgt n (h ++ [Add (x, y)]) -> (x < n)%N -> (y < n)%N -> exists g', mg_add T hgt g x y = Done g'.
Proof.
  intros h g x y Hn9 HT (HO & F & Sm & E) M Sm2 Hx Hy. destruct (hist_time T hgt n HT Hn9 HO h F Sm g E) as (Ls & P & B & c & V & Ti).
  assert (Fit : fitsn hgt n (m_nt g + 1)). { unfold fitsn. pose proof (mv_le _ _ _ _ _ _ _ _ V). unfold small_hist in Sm2. rewrite added_app, app_length in Sm2. cbn [added flat_map app length] in Sm2. nia. }
  destruct (add_time T hgt n HT Hn9 HO _ _ _ _ _ _ x y V Fit Hx Hy Ti) as [(_ & Hp & X)|(g2 & _ & _ & _ & _ & E2 & _)]; [|eauto]. exfalso.
  destruct (mv_phase _ _ _ _ _ _ _ _ V) as [[-> _]|(ks0 & u0 & mi & conv & _ & _ & _ & _ & _ & _ & E3)]; [congruence|].
  unfold trees_upto, mg_max_r in M. rewrite E3 in M. unfold lev in M. rewrite firstn_map in M.
  replace (length (somes (map (option_map (built hgt n)) (firstn (S (m_maxr g)) Ls)))) with (length (somes (firstn (S (m_maxr g)) Ls))) in M; [lia|].
  clear. induction (firstn (S (m_maxr g)) Ls) as [|[l|] q IH]; cbn; congruence.
Qed.
(** ... hence not in any history of fewer than MAXSZ(n,4) insertions. *)
Theorem C59_short_partial : forall h, (9 <= n)%N -> th_real T -> height_ok hgt n -> Forall (op_in_range n) h -> small_hist hgt n h ->
  (N.of_nat (length (added h)) < th_max T n 4)%N -> exists g, mg_hist T hgt n h = Done g.
Proof. intros h Hn9 HT HO F Sm L. destruct (hist_total T hgt n HT Hn9 HO h F Sm L) as (g & _ & _ & _ & _ & E & _). eauto. Qed.
End P.

(** ** The failures exist, and the hypotheses are met *)
Definition ex_mh (k : nat) : list op := map (fun i => let j := (N.of_nat i * 13)%N in Add (j / 16, j mod 16)%N) (seq 1 k).
Lemma ex_reached T k g : th_real T -> k <= 12 -> mg_hist T lg 16 (ex_mh k) = Done g -> mreached T lg 16 (ex_mh k) g.
Proof.
  intros HT Hk E. split; [exact (lg_ok 16 ltac:(lia))|]. split; [|split; [|exact E]].
  - do 13 (destruct k as [|k]; [vm_compute; repeat constructor|]). lia.
  - do 13 (destruct k as [|k]; [vm_compute; discriminate|]). lia.
Qed.

(** decision procedures for concrete histories *)
Definition in_hist (e : edge) (h : list op) : bool := emem e (added h).
Lemma in_hist_ok e h : in_hist e h = true -> In (Add e) h.
Proof. intros G. apply emem_In in G. apply added_In. exact G. Qed.
Definition ranges_b (n : N) (h : list op) : bool := forallb (fun o => (fst (op_edge o) <? n) && (snd (op_edge o) <? n))%N h.
Lemma ranges_ok n h : ranges_b n h = true -> Forall (op_in_range n) h.
Proof.
  intros G. unfold ranges_b in G. rewrite forallb_forall in G. apply Forall_forall. intros o Ho. specialize (G o Ho).
  apply andb_true_iff in G. destruct G as [A B]. apply N.ltb_lt in A, B. split; assumption.
Qed.

Fixpoint nodup_b (l : list edge) : bool := match l with [] => true | e :: l => negb (emem e l) && nodup_b l end.
Lemma nodup_ok l : nodup_b l = true -> NoDup l.
Proof.
  induction l as [|e l IH]; cbn [nodup_b]; intros G; [constructor|]. apply andb_true_iff in G. destruct G as [A B].
  constructor; [|auto]. apply emem_false. destruct (emem e l); [discriminate|reflexivity].
Qed.

(** C28 refuted: 12 distinct insertions into a graph with 16 vertices; the eleventh edge is reported absent. *)
Theorem C28_refuted : forall T, th_real T -> exists h g x y, mreached T lg 16 h g /\ In (Add (x, y)) h /\ in_range 16 (x, y) /\ mg_contains g x y = Ok false.
Proof.
  intros T HT. assert (W : match mg_hist T lg 16 (ex_mh 12) with Done g => mg_contains g 8 15 = Ok false | _ => False end).
  { rewrite <- (tabled_eq T HT). vm_compute. reflexivity. }
  exists (ex_mh 12). destruct (mg_hist T lg 16 (ex_mh 12)) as [g| |] eqn:E; [|destruct W|destruct W]. exists g, 8%N, 15%N.
  split; [apply ex_reached; auto|]. split; [apply in_hist_ok; vm_compute; reflexivity|]. split; [split; reflexivity|exact W].
Qed.
(** get_number_edges counts an edge twice: 77 distinct edges, and one of them inserted again while it is hidden. *)
Definition ex_dbl : list op := map (fun i => let j := (N.of_nat i * 11) mod 400 in Add (j / 20, j mod 20))%N (seq 1 77).
Theorem C28_count_refuted : forall T, th_real T -> exists g, mreached T lg 20 (ex_dbl ++ [Add (0, 14)%N]) g /\ In (Add (0, 14)%N) ex_dbl /\
  length (nodup edge_dec (added (ex_dbl ++ [Add (0, 14)%N]))) = 77 /\ mg_edges g = 78%N.
Proof.
  intros T HT. assert (W : match mg_hist T lg 20 (ex_dbl ++ [Add (0, 14)%N]) with Done g => mg_edges g = 78%N | _ => False end).
  { rewrite <- (tabled2_eq T HT). vm_compute. reflexivity. }
  destruct (mg_hist T lg 20 _) as [g| |] eqn:E; [|destruct W|destruct W]. exists g. split.
  { split; [exact (lg_ok 20 ltac:(lia))|]. split; [|split; [vm_compute; discriminate|exact E]]. apply ranges_ok. vm_compute. reflexivity. }
  split; [apply in_hist_ok; vm_compute; reflexivity|]. split; [vm_compute; reflexivity|exact W].
Qed.
(** C29 refuted: a neighbour is listed twice, with no union in progress. *)
Theorem C29_refuted_twice : forall T, th_real T -> exists g, mg_hist T lg 8 [Add (1, 2)%N; Add (3, 4)%N] = Done g /\ mg_finished g = true /\ mg_neigh g 3 = Ok [4; 4]%N.
Proof.
  intros T HT. assert (W : match mg_hist T lg 8 [Add (1, 2)%N; Add (3, 4)%N] with Done g => mg_finished g = true /\ mg_neigh g 3 = Ok [4; 4]%N | _ => False end).
  { rewrite <- (tabled_eq T HT). vm_compute. auto. }
  destruct (mg_hist T lg 8 _) as [g| |]; [|destruct W|destruct W]. exists g. auto.
Qed.
(** The hypotheses of the theorems above are met with and without a union in progress; two merges have taken place. *)
Example C28_example : forall T, th_real T -> exists g g' g2, mreached T lg 16 (ex_mh 12) g /\ mg_finished g = false /\ trees_upto (m_copy g) (mg_max_r g) <= 4 /\ 0 < trees_upto (m_copy g) (mg_max_r g) /\
  small_hist lg 16 (ex_mh 12 ++ [Add (1, 1)%N]) /\ mg_add T lg g 1 1 = Done g' /\ mreached T lg 16 (ex_mh 11) g2 /\ mg_finished g2 = true.
Proof.
  intros T HT. assert (W : match mg_hist T lg 16 (ex_mh 12), mg_hist T lg 16 (ex_mh 11) with Done g, Done g2 => mg_finished g = false /\ ((trees_upto (m_copy g) (mg_max_r g) <=? 4) && (0 <? trees_upto (m_copy g) (mg_max_r g))) = true /\
    match mg_add T lg g 1 1 with Done g' => True | _ => False end /\ mg_finished g2 = true | _, _ => False end).
  { rewrite <- (tabled_eq T HT). vm_compute. repeat split. }
  destruct (mg_hist T lg 16 (ex_mh 12)) as [g| |] eqn:E1; try destruct W. destruct (mg_hist T lg 16 (ex_mh 11)) as [g2| |] eqn:E2; try tauto.
  destruct W as (W1 & W2 & W3 & W4). destruct (mg_add T lg g 1 1) as [g'| |] eqn:E3; try tauto. exists g, g', g2.
  split; [apply ex_reached; auto|]. split; [exact W1|]. apply andb_true_iff in W2. split; [apply Nat.leb_le; apply W2|]. split; [apply Nat.ltb_lt; apply W2|]. split; [vm_compute; discriminate|]. split; [exact E3|].
  split; [apply ex_reached; auto|exact W4].
Qed.
(** C59 refuted: 2453 distinct insertions into a graph with 1000 vertices -- 2219 edges among the first 48 vertices, row by row, then edges
    spread over the matrix (coordinates with their bits reversed) -- and the assertion fails. *)
Fixpoint rev_bits (k : nat) (i : N) : N := match k with O => 0 | S k => (i mod 2) * 2 ^ N.of_nat k + rev_bits k (i / 2) end%N.
Fixpoint odd_bits (k : nat) (i : N) : N := match k with O => 0 | S k => i mod 2 + 2 * odd_bits k (i / 4) end%N.
Definition spread (z : N) : edge := let r := rev_bits 20 z in (odd_bits 10 (r / 2), odd_bits 10 r)%N.
Definition ex_assert : list edge :=
  let dense := map (fun i => let i := N.of_nat i in (i / 48, i mod 48)%N) (seq 0 2219) in
  let far := filter (fun e => (fst e <? 1000) && (snd e <? 1000) && negb ((fst e <? 46) && (snd e <? 48)) && negb ((fst e =? 46) && (snd e <? 11)))%N (map (fun i => spread (N.of_nat i)) (seq 0 300)) in
  firstn 2453 (dense ++ far).
Theorem C59_refuted : forall T, th_real T ->
  NoDup ex_assert /\ length ex_assert = 2453 /\ height_ok lg 1000 /\ Forall (op_in_range 1000) (map Add ex_assert) /\ small_hist lg 1000 (map Add ex_assert) /\
  mg_hist T lg 1000 (map Add ex_assert) = Undefined.
Proof.
  intros T HT. split; [|split; [vm_compute; reflexivity|split; [exact (lg_ok 1000 ltac:(lia))|split; [apply ranges_ok; vm_compute; reflexivity|split; [vm_compute; discriminate|]]]]].
  - apply nodup_ok. vm_compute. reflexivity.
  - rewrite <- (tabled3_eq T HT). vm_compute. reflexivity.
Qed.
(** MAXSZ(48,4) = 17: up to 16 insertions into a graph with 48 vertices never fail. *)
Example C59_example : forall T, th_real T -> th_max T 48 4 = 17%N /\ height_ok lg 48.
Proof. intros T HT. rewrite <- (tabled_eq T HT). split; [vm_compute; reflexivity|]. exact (lg_ok 48 ltac:(lia)). Qed.
