(** * C88: triangle counts and pageRank on the incremental-union graph (DKtree_delay_munro).

    The edge loop and the neighbour loops are those of C80 ([mdk], MunroView.v); list_neighbour and contains are the graph's own
    ([mg_neigh], [mg_contains], Munro.v), which look at the union in progress and at the last edge that emptied the buffer. *)
From Coq Require Import Reals Lra.
From Verif Require Import Base Spec AlgoSpec Thresholds Table Table2 K2 K2Bits C0 C0Proof DK DKProof DKHist Iter IterProof Algo AlgoProof TriProof Prop_Algo ViewProof
  Bits Union UnionProof UnionMerge UnionEdges Prop_Union Munro MunroProof MunroSerial Prop_Munro MunroView Prop_MunroView Prop_AlgoDel
  PageRank PRProof Prop_PageRank Prop_Heavy PRExact Prop_PageRank2.
Open Scope nat_scope.

(** ** The model: the templates of Algorithm.hpp instantiated with this class *)
(** Algorithm.hpp:101-107 with DKtree_delay_.hpp:167-187 *)
Fixpoint madj_fill (g : mg) (vs : list Z) (m : list (N * list N)) : out (list (N * list N)) :=
  match vs with
  | [] => Ok m
  | v :: vs => let x := to_u32 v in
               let* l := mg_neigh g x in
               madj_fill g vs (match l with [] => m | _ => aset N.eqb x l m end)
  end.
(** Algorithm.hpp:91-120 *)
Definition mtriangles_hash (hgt : N -> nat) (g : mg) (nb : nat) (r : Z) : Prop :=
  exists es vs adj es2, ewalk (K2Bits hgt) (mdk hgt g) es /\ vwalk (K2Bits hgt) (mdk hgt g) vs /\ madj_fill g vs [] = Ok adj /\
    ewalk (K2Bits hgt) (mdk hgt g) es2 /\
    r = to_int (Z.of_N (fold_left (hash_edge nb (tb_fill nb (tb_new nb) 0 es) adj) es2 0%N)).
(** Algorithm.hpp:134-139 *)
Fixpoint mdummy_inner (g : mg) (v1 : N) (zs : list Z) (r : N) : out N :=
  match zs with
  | [] => Ok r
  | z :: zs => let* b := mg_contains g (to_u32 z) v1 in mdummy_inner g v1 zs (if b then u32_inc r else r)
  end.
(** Algorithm.hpp:128-143 *)
Inductive mdummy_loop (hgt : N -> nat) (g : mg) : list edge -> N -> N -> Prop :=
| mdl_nil r : mdummy_loop hgt g [] r r
| mdl_loop v es r r' : mdummy_loop hgt g es r r' -> mdummy_loop hgt g ((v, v) :: es) r r'
| mdl_edge v1 v2 zs es r r1 r' : v1 <> v2 -> nwalk (K2Bits hgt) (mdk hgt g) v2 zs -> mdummy_inner g v1 zs r = Ok r1 ->
    mdummy_loop hgt g es r1 r' -> mdummy_loop hgt g ((v1, v2) :: es) r r'.
Definition mtriangles_dummy (hgt : N -> nat) (g : mg) (r : N) : Prop :=
  exists es, ewalk (K2Bits hgt) (mdk hgt g) es /\ mdummy_loop hgt g es 0 r.
(** Algorithm.hpp:205-269 *)
Fixpoint mout_links (g : mg) (vs : list N) : out (list (list N)) :=
  match vs with
  | [] => Ok []
  | v :: vs => let* l := mg_neigh g v in let* r := mout_links g vs in Ok (l :: r)
  end.
Definition mpageRank (g : mg) (conv : R) (max_iterations : nat) (alpha : R) : out (list R) :=
  let nn := N.to_nat (m_n g) in
  let* outs := mout_links g (all_vertices (m_n g)) in
  pr_loop nn alpha conv outs max_iterations (pr_init nn outs).

(** ** Proofs *)
Lemma mfill_all g n : (n < 2 ^ 31)%N -> forall vs, (forall v, In v vs -> (v < n)%N) -> NoDup vs ->
  (forall v, In v vs -> exists l, mg_neigh g v = Ok l) -> forall m,
  exists m', madj_fill g (map Z.of_N vs) m = Ok m' /\
    forall x, (In x vs -> (forall l, mg_neigh g x = Ok l -> aget N.eqb x m = None -> adj_at m' x = l)) /\
              (~ In x vs -> aget N.eqb x m' = aget N.eqb x m).
Proof.
  intros Hn. induction vs as [|v vs IH]; intros Hr Hnd Ha m; cbn [map madj_fill].
  - exists m. split; auto. intros x. split; [intros []|auto].
  - inversion Hnd as [|? ? Hv Hnd']; subst. rewrite to_u32_id by (specialize (Hr v (or_introl eq_refl)); lia).
    destruct (Ha v (or_introl eq_refl)) as [l El]. rewrite El. cbn [obind].
    destruct (IH (fun w Hw => Hr w (or_intror Hw)) Hnd' (fun w Hw => Ha w (or_intror Hw)) (match l with [] => m | _ => aset N.eqb v l m end)) as [m' [E1 E2]].
    exists m'. split; auto. intros x. destruct (E2 x) as [A1 A2]. split.
    + intros [->|Hx] l' El' Hm.
      * assert (l' = l) by congruence. subst l'. specialize (A2 Hv). unfold adj_at. rewrite A2.
        destruct l as [|a l]; [rewrite Hm; auto|]. rewrite aget_aset_eq; auto. apply N.eqb_eq.
      * apply A1; auto. destruct l as [|a l]; auto. rewrite aget_aset_neq; auto; [apply N.eqb_eq|]. intros ->. auto.
    + intros Hx. cbn [In] in Hx. rewrite A2 by tauto. destruct l as [|a l]; auto. apply aget_aset_neq; [apply N.eqb_eq|].
      intros ->. tauto.
Qed.

(** What the hash count adds up, as a list of triples. *)
Definition tri_at (l : list edge) (nbs : N -> list N) (e : edge) : list (N * N * N) :=
  if N.eqb (fst e) (snd e) then []
  else map (pair e) (filter (fun c => negb (N.eqb c (fst e)) && negb (N.eqb c (snd e)) && emem (c, fst e) l) (nbs (snd e))).
Lemma tri_at_len l nbs e : length (tri_at l nbs e) = seen_from l nbs e.
Proof. unfold tri_at, seen_from. destruct (N.eqb _ _); [reflexivity|]. apply map_length. Qed.
Lemma tri_len l nbs : forall l2, length (flat_map (tri_at l nbs) l2) = list_sum (map (seen_from l nbs) l2).
Proof.
  induction l2 as [|e l2 IH]; [reflexivity|]. cbn [flat_map map]. rewrite app_length, tri_at_len, IH. reflexivity.
Qed.
Lemma tri_at_In l nbs e t : In t (tri_at l nbs e) -> fst t = e.
Proof.
  unfold tri_at. destruct (N.eqb _ _); [intros []|]. intros H. apply in_map_iff in H. destruct H as [c [<- _]]. reflexivity.
Qed.
Lemma seen_count (E : N -> N -> Prop) l nbs : NoDup l -> (forall x y, In (x, y) l <-> E x y) ->
  (forall e, In e l -> NoDup (nbs (snd e)) /\ forall y, In y (nbs (snd e)) <-> E (snd e) y) ->
  count_of (triangle E) (seen_triangles l nbs).
Proof.
  intros Hnd Hl Hnb. exists (flat_map (tri_at l nbs) l). split; [|split].
  - assert (G : forall l2, NoDup l2 -> (forall e, In e l2 -> In e l) -> NoDup (flat_map (tri_at l nbs) l2)).
    { induction l2 as [|e l2 IH]; intros D S; [constructor|]. inversion D as [|? ? D1 D2]; subst. cbn [flat_map]. apply NoDup_app. split; [|split].
      - unfold tri_at. destruct (N.eqb _ _); [constructor|]. apply FinFun.Injective_map_NoDup; [intros a b H; congruence|].
        apply NoDup_filter, Hnb, S; left; auto.
      - apply IH; auto. intros f Hf. apply S. right; auto.
      - intros t H1 H2. apply tri_at_In in H1. apply in_flat_map in H2. destruct H2 as [f [F1 F2]]. apply tri_at_In in F2. apply D1. rewrite <- H1, F2. exact F1. }
    apply G; auto.
  - intros [[a b] c]. rewrite in_flat_map. unfold triangle. split.
    + intros [[x y] [H1 H2]]. pose proof (tri_at_In _ _ _ _ H2) as H3. cbn [fst] in H3. injection H3 as -> ->. unfold tri_at in H2. cbn [fst snd] in H2.
      destruct (N.eqb_spec x y) as [|Hxy]; [destruct H2|]. apply in_map_iff in H2. destruct H2 as [c' [G1 G2]]. injection G1 as ->.
      apply filter_In in G2. destruct G2 as [G2 G3]. apply andb_true_iff in G3. destruct G3 as [G3 G4]. apply andb_true_iff in G3. destruct G3 as [G3 G5].
      apply negb_true_iff, N.eqb_neq in G3, G5. apply emem_In, Hl in G4. apply (Hnb (x, y) H1) in G2. apply Hl in H1. cbn [snd] in G2. auto 10.
    + intros (N1 & N2 & N3 & E1 & E2 & E3). exists (a, b). split; [apply Hl; auto|]. unfold tri_at. cbn [fst snd].
      destruct (N.eqb_spec a b); [congruence|]. apply in_map, filter_In. split; [apply (Hnb (a, b)); [apply Hl; auto|auto]|].
      apply andb_true_iff. split; [apply andb_true_iff; split; apply negb_true_iff, N.eqb_neq; auto|apply emem_In, Hl; auto].
  - apply tri_len.
Qed.

Lemma perm_filter {A} (f : A -> bool) l l' : Permutation l l' -> length (filter f l) = length (filter f l').
Proof.
  induction 1; cbn [filter].
  - reflexivity.
  - destruct (f x); cbn [length]; congruence.
  - destruct (f x), (f y); reflexivity.
  - congruence.
Qed.
(** One neighbour list with one entry more. *)
Lemma seen_extra (E : N -> N -> Prop) l nbs nbs' x y : NoDup l -> (forall x y, In (x, y) l <-> E x y) ->
  (forall z, Permutation (nbs' z) ((if N.eqb x z then [y] else []) ++ nbs z)) -> (x <> y -> E x y) ->
  exists k, count_of (fun a => triangle E (a, x, y)) k /\ seen_triangles l nbs' = seen_triangles l nbs + k.
Proof.
  intros Hnd Hl Hp Hxy. set (t := fun e : edge => N.eqb (snd e) x && negb (N.eqb (fst e) x) && negb (N.eqb y (fst e)) && negb (N.eqb y x) && emem (y, fst e) l).
  exists (length (filter t l)). split.
  - exists (map fst (filter t l)). split; [|split; [|apply map_length]].
    + assert (G : forall l2, NoDup l2 -> NoDup (map fst (filter t l2))).
      { induction l2 as [|e l2 IH]; intros D; [constructor|]. inversion D as [|? ? D1 D2]; subst. cbn [filter]. destruct (t e) eqn:Et; [|auto].
        cbn [map]. constructor; [|auto]. intros H. apply in_map_iff in H. destruct H as [f [F1 F2]]. apply filter_In in F2. destruct F2 as [F2 F3].
        unfold t in Et, F3. rewrite !andb_true_iff in Et, F3. destruct Et as [[[[Et _] _] _] _], F3 as [[[[F3 _] _] _] _]. apply N.eqb_eq in Et, F3.
        apply D1. destruct e, f; cbn in *. subst. auto. }
      auto.
    + intros a. rewrite in_map_iff. unfold triangle. split.
      * intros [[a' x'] [<- H]]. apply filter_In in H. destruct H as [H1 H2]. unfold t in H2. cbn [fst snd] in *. rewrite !andb_true_iff in H2.
        destruct H2 as [[[[H2 H3] H4] H5] H6]. apply N.eqb_eq in H2. subst x'. apply negb_true_iff, N.eqb_neq in H3, H4, H5. apply emem_In, Hl in H6. apply Hl in H1. auto 12.
      * intros (N1 & N2 & N3 & E1 & E2 & E3). exists (a, x). split; auto. apply filter_In. split; [apply Hl; auto|]. unfold t. cbn [fst snd].
        rewrite !andb_true_iff. rewrite N.eqb_refl. repeat split; try (apply negb_true_iff, N.eqb_neq; auto). apply emem_In, Hl; auto.
  - unfold seen_triangles. assert (G : forall l2, list_sum (map (seen_from l nbs') l2) = list_sum (map (seen_from l nbs) l2) + length (filter t l2)).
    { induction l2 as [|e l2 IH]; [reflexivity|]. cbn [map filter]. change (list_sum (?a :: ?b)) with (a + list_sum b). rewrite IH.
      assert (G : seen_from l nbs' e = seen_from l nbs e + (if t e then 1 else 0)).
      { unfold seen_from, t. destruct (N.eqb_spec (fst e) (snd e)) as [Ee|Ee].
        - destruct (N.eqb_spec (snd e) x) as [Ex|]; [|reflexivity]. rewrite <- Ex, <- Ee, N.eqb_refl. reflexivity.
        - rewrite (perm_filter _ _ _ (Hp (snd e))). rewrite filter_app, app_length.
          destruct (N.eqb_spec x (snd e)) as [Ex|Ex].
          + subst x. rewrite N.eqb_refl. destruct (N.eqb_spec (fst e) (snd e)) as [|_]; [congruence|]. cbn [negb andb filter].
            destruct (_ && _); cbn [length]; lia.
          + destruct (N.eqb_spec (snd e) x) as [|_]; [congruence|]. cbn [andb filter length]. lia. }
      rewrite G. destruct (t e); cbn [length]; lia. }
    apply G.
Qed.

Section P.
Context (T : thresholds) (hgt : N -> nat) (HG : forall m, (2 <= m)%N -> 1 <= hgt m /\ (m <= 2 ^ N.of_nat (hgt m))%N) (n : N).
Notation K := (K2Bits hgt).
Notation L := (K2Bits_laws hgt HG).
Context (Hn : (2 <= n < 2 ^ 31)%N).

Lemma mneigh_some h g x : mreached T hgt n h g -> (x < n)%N -> exists l, mg_neigh g x = Ok l.
Proof using Hn.
  intros H Hx. destruct (C29_neighbours_partial T hgt n h g x ltac:(lia) H Hx) as [l [E _]]. eauto.
Qed.
Lemma mvwalk h g : mreached T hgt n h g -> m_n g = n /\ vwalk K (mdk hgt g) (map Z.of_N (verts n)).
Proof using Hn.
  intros (HO & F & Sm & E). destruct (hist_inv T hgt n ltac:(lia) HO h F Sm g E) as (Ls & P & B & c & V & _).
  pose proof (mv_n _ _ _ _ _ _ _ _ V) as En. split; auto. unfold vwalk. cbn [mdk nv]. rewrite En, verts_Z. apply IterProof.node_loop_ok. lia.
Qed.

(** At any time: the count is that of the edges the edge loop sees and of the lists list_neighbour gives, as in C85. *)
Theorem C88_hash_exact : forall h g nb, mreached T hgt n h g -> ~ In (Add (9999999, 9999999)%N) h -> 0 < nb ->
  exists l nbs, ewalk K (mdk hgt g) l /\ (forall x, (x < n)%N -> mg_neigh g x = Ok (nbs x)) /\ (forall x, (n <= x)%N -> nbs x = []) /\
    forall r, mtriangles_hash hgt g nb r <-> r = to_int (Z.of_nat (seen_triangles l nbs)).
Proof using Hn HG.
  intros h g nb Hr HM Hnb. destruct (C80_busy_partial T hgt HG n Hn h g Hr HM) as [E [[[l [Hw [Hu _]]] _] _]].
  destruct (mvwalk h g Hr) as [Hv Hvw].
  destruct (mfill_all g n ltac:(lia) (verts n) (fun v => proj1 (verts_In n v)) (verts_nodup n) (fun v Hv => mneigh_some h g v Hr (proj1 (verts_In n v) Hv)) []) as [adj [Ea Hadj]].
  set (nbs := adj_at adj).
  assert (Hnbs : forall x, (x < n)%N -> mg_neigh g x = Ok (nbs x)).
  { intros x Hx. destruct (mneigh_some h g x Hr Hx) as [l0 H0]. rewrite H0. f_equal. symmetry. apply (proj1 (Hadj x)); auto. apply verts_In. auto. }
  assert (Hnbs' : forall x, (n <= x)%N -> nbs x = []).
  { intros x Hx. unfold nbs, adj_at. rewrite (proj2 (Hadj x)); [reflexivity|]. rewrite verts_In. lia. }
  set (t := tb_fill nb (tb_new nb) 0 l). destruct (tb_fill_spec nb Hnb l (tb_new nb) 0 (tb_wf_new nb)) as [_ Ht].
  assert (Ht' : forall e, tb_contains nb t e = emem e l).
  { intros e. unfold t. rewrite Ht. unfold tb_contains. rewrite tb_find_new. cbn. apply orb_false_r. }
  assert (Hres : to_int (Z.of_N (fold_left (hash_edge nb t adj) l 0%N)) = to_int (Z.of_nat (seen_triangles l nbs))).
  { rewrite (hash_fold nb t l nbs adj Ht'); [|reflexivity|lia].
    rewrite N.add_0_l. fold (seen_triangles l nbs). unfold to_int. rewrite N2Z.inj_mod, nat_N_Z by lia. change (Z.of_N (2 ^ 32)) with (2 ^ 32)%Z.
    rewrite Z.mod_mod by lia. reflexivity. }
  exists l, nbs. split; [exact Hw|]. split; [exact Hnbs|]. split; [exact Hnbs'|]. intros r. split.
  - intros [es1 [vs [adj' [es2 [W1 [W2 [W3 [W4 ->]]]]]]]]. rewrite (Hu es1 W1), (Hu es2 W4).
    assert (vs = map Z.of_N (verts n)) by (unfold vwalk, node_loop in *; eapply visits_unique; eauto). subst vs.
    assert (adj' = adj) by congruence. subst adj'. exact Hres.
  - intros ->. exists l, (map Z.of_N (verts n)), adj, l. repeat (split; [assumption|]). symmetry. exact Hres.
Qed.

Lemma neigh_upto l m x : (forall i t, nth_error l i = Some (Some t) -> i <= m) -> ks_neigh K (firstn (S m) l) x = ks_neigh K l x.
Proof using Hn.
  revert m. induction l as [|o l IH]; intros m H; [reflexivity|]. destruct m as [|m].
  - cbn [firstn]. assert (G : ks_neigh K l x = []).
    { clear IH. assert (G : forall i t, nth_error l i = Some (Some t) -> False) by (intros i t E; specialize (H (S i) t E); lia). clear H.
      induction l as [|[t|] l IH]; [reflexivity| |]; [exfalso; apply (G 0 t); reflexivity|]. cbn [ks_neigh]. apply IH. intros i t E. apply (G (S i) t E). }
    destruct o; cbn [ks_neigh]; rewrite G; reflexivity.
  - cbn [firstn]. assert (G : ks_neigh K (firstn (S m) l) x = ks_neigh K l x) by (apply IH; intros i t E; specialize (H (S i) t E); lia).
    cbn [firstn] in G. destruct o; cbn [ks_neigh]; rewrite G; reflexivity.
Qed.
Lemma trees_ks l x : trees_neigh l x = ks_neigh K (map (option_map mtree) l) x.
Proof using Type. induction l as [|[t|] l IH]; cbn [trees_neigh map option_map ks_neigh]; [reflexivity| |auto]. rewrite IH. reflexivity. Qed.

(** Everything about a graph without a union in progress and without repeated insertions. *)
Lemma idle_view h g : mreached T hgt n h g -> mg_finished g = true -> NoDup (added h) -> ~ In (Add (9999999, 9999999)%N) h ->
  TriProof.view K (mdk hgt g) n (fun x y => In (Add (x, y)) h) /\
  (forall x y, (x < n)%N -> (y < n)%N -> mg_contains g x y = dk_contains K (mdk hgt g) x y) /\
  (forall x l l', (x < n)%N -> dk_neigh K (mdk hgt g) x = Ok l -> mg_neigh g x = Ok l' ->
     Permutation l' ((if N.eqb (fst (m_tmp g)) x then [snd (m_tmp g)] else []) ++ l)) /\
  (m_tmp g = (0, 0)%N \/ In (Add (m_tmp g)) h).
Proof using Hn HG.
  intros (HO & F & Sm & E) Fn D M. destruct (hist_inv T hgt n ltac:(lia) HO h F Sm g E) as (Ls & P & B & c & V & _ & Tm & Nd).
  pose proof Fn as Fn'. unfold mg_finished in Fn'. rewrite (phase_fin _ _ _ _ _ _ _ _ V) in Fn'. destruct (is_nil P) as [->|]; [|discriminate].
  pose proof (hist_top T hgt n h g E) as Tp. pose proof (mdk_holds hgt HG n ltac:(lia) _ _ _ _ _ _ V Tp) as H.
  assert (X : forall x y, In (x, y) (dk_all K (mdk hgt g) (lv B)) <-> In (Add (x, y)) h).
  { intros x y. rewrite <- added_In, (mv_hist _ _ _ _ _ _ _ _ V), app_nil_r. split; [apply (all_sub hgt HG n Hn _ _ _ _ _ _ _ V)|apply (all_idle hgt HG n Hn _ _ _ _ _ _ V)]. }
  assert (W : TriProof.view K (mdk hgt g) n (fun x y => In (Add (x, y)) h)).
  { eapply view_ext; [exact X|]. apply (holds_view K L); auto; [lia|apply (all_nodup hgt HG n Hn _ _ _ _ _ _ V), Nd, D|]. intros G. apply X in G. auto. }
  split; [exact W|]. split; [|split].
  - intros x y Hx Hy. destruct (vw_mem _ _ _ _ W x y Hx Hy) as [b [Eb Hb]]. rewrite Eb.
    destruct HO as (H1 & _ & Hh). rewrite (contains_spec hgt n H1 Hh _ _ _ _ _ _ x y V Hx Hy). f_equal. apply eq_true_iff_eq.
    rewrite emem_In, Hb, <- added_In, (mv_hist _ _ _ _ _ _ _ _ V). unfold vis. reflexivity.
  - intros x l l' Hx E1 E2. unfold dk_neigh in E1. unfold mg_neigh in E2. unfold mg_finished in Fn. rewrite Fn in E2. cbn [mdk C0_ max_r ks] in E1.
    destruct (c0_neigh (m_c0 g) x) as [lb|]; cbn [obind] in E1, E2; [|discriminate].
    pose proof (hl_len _ _ _ _ _ H) as A1. pose proof (hl_maxr _ _ _ _ _ H) as A2. pose proof (hl_below _ _ _ _ _ H) as A3.
    cbn [mdk max_r ks] in A1, A2. match type of E1 with context [if ?b then _ else _] => destruct b eqn:C end; [|discriminate].
    assert (E3 : lb ++ ks_neigh K (firstn (S (m_maxr g)) (map (option_map mtree) (m_ks g))) x = l) by (injection E1 as E1; exact E1).
    rewrite neigh_upto in E3 by (intros i t G; apply (A3 i t); exact G). rewrite trees_ks in E2. injection E2 as <-. rewrite <- E3.
    rewrite !app_assoc. apply Permutation_app_tail. apply Permutation_app_comm.
  - destruct Tm as [Tm|Tm]; [left; exact Tm|right; apply added_In; exact Tm].
Qed.

(** While no union is in progress and if no edge was inserted twice: the hash count is the number of triangles, plus that of the
    triangles whose second edge is the one whose insertion last emptied the buffer (which list_neighbour gives twice). *)
Theorem C88_hash_idle_partial : forall h g nb, mreached T hgt n h g -> mg_finished g = true -> NoDup (added h) ->
  ~ In (Add (9999999, 9999999)%N) h -> 0 < nb ->
  let E := fun x y => In (Add (x, y)) h in
  exists m k, count_of (triangle E) m /\ count_of (fun a => triangle E (a, fst (m_tmp g), snd (m_tmp g))) k /\
    forall r, mtriangles_hash hgt g nb r <-> r = to_int (Z.of_nat (m + k)).
Proof using Hn HG.
  intros h g nb Hr Fn D M Hnb E. destruct (C88_hash_exact h g nb Hr M Hnb) as [l [nbs' [Hw [Hb' [_ Hres]]]]].
  destruct (idle_view h g Hr Fn D M) as [W [_ [Hp Htmp]]]. fold E in W.
  destruct (vw_edges _ _ _ _ W) as [l0 [Hw0 [Hnd Hin]]]. assert (l0 = l) by (eapply ViewProof.ewalk_unique; eauto). subst l0.
  set (nbs := fun x => nbs_of K (mdk hgt g) x).
  assert (Hnb0 : forall x, (x < n)%N -> dk_neigh K (mdk hgt g) x = Ok (nbs x) /\ NoDup (nbs x) /\ forall y, In y (nbs x) <-> E x y).
  { intros x Hx. destruct (vw_neigh _ _ _ _ W x Hx) as [q [E1 [_ [E2 E3]]]]. unfold nbs, nbs_of. rewrite E1. auto. }
  assert (Hs : forall e, In e l -> (snd e < n)%N). { intros [a b] He. apply Hin in He. apply (vw_rng _ _ _ _ W) in He. apply He. }
  pose proof (seen_count E l nbs Hnd Hin) as Hm. specialize (Hm (fun e He => conj (proj1 (proj2 (Hnb0 _ (Hs e He)))) (proj2 (proj2 (Hnb0 _ (Hs e He)))))).
  (* the lists outside the range do not matter *)
  set (tz := fun z => (if N.eqb (fst (m_tmp g)) z then [snd (m_tmp g)] else []) ++ nbs z).
  assert (Heq : seen_triangles l nbs' = seen_triangles l tz).
  { apply seen_same; [reflexivity|]. intros e He. pose proof (Hs e He) as He'. unfold tz.
    apply (Hp (snd e) (nbs (snd e)) (nbs' (snd e)) He'); [apply Hnb0; auto|apply Hb'; auto]. }
  destruct (seen_extra E l nbs tz (fst (m_tmp g)) (snd (m_tmp g)) Hnd Hin) as [k [Hk Hsum]].
  - intros z. reflexivity.
  - intros Hne. destruct Htmp as [Ht|Ht]; [rewrite Ht in Hne; cbn in Hne; congruence|]. unfold E. rewrite <- surjective_pairing. exact Ht.
  - exists (seen_triangles l nbs), k. split; [exact Hm|]. split; [exact Hk|]. intros r. rewrite Hres, Heq, Hsum. reflexivity.
Qed.

Lemma dummy_inner_eq h g v1 : mreached T hgt n h g -> mg_finished g = true -> NoDup (added h) -> ~ In (Add (9999999, 9999999)%N) h -> (v1 < n)%N ->
  forall l r, Forall (fun y => (y < n)%N) l -> mdummy_inner g v1 (map Z.of_N l) r = dummy_inner K (mdk hgt g) v1 (map Z.of_N l) r.
Proof using Hn HG.
  intros Hr Fn D M Hv. destruct (idle_view h g Hr Fn D M) as [_ [Hc _]]. induction l as [|y l IH]; intros r HF; [reflexivity|].
  inversion HF; subst. cbn [map mdummy_inner dummy_inner]. rewrite to_u32_id by lia. rewrite Hc by auto.
  destruct (dk_contains K (mdk hgt g) y v1) as [b|]; cbn [obind]; [|reflexivity]. apply IH; auto.
Qed.

(** The iterator-based count is, under the same conditions, what it is on the plain graph (C37): the triples a -> b -> c -> a with a <> b. *)
Theorem C88_dummy_idle_partial : forall h g, mreached T hgt n h g -> mg_finished g = true -> NoDup (added h) ->
  ~ In (Add (9999999, 9999999)%N) h ->
  let E := fun x y => In (Add (x, y)) h in
  exists m, count_of (fun t => let '(a, b, c) := t in a <> b /\ E a b /\ E b c /\ E c a) m /\
    forall r, mtriangles_dummy hgt g r <-> r = (N.of_nat m mod 2 ^ 32)%N.
Proof using Hn HG.
  intros h g Hr Fn D M E. destruct (idle_view h g Hr Fn D M) as [W _]. fold E in W.
  destruct (dummy_count K (mdk hgt g) n E W ltac:(lia)) as [m [Hm [H1 H2]]]. exists m. split; [exact Hm|].
  assert (Q : forall r, mtriangles_dummy hgt g r <-> triangles_dummy K (mdk hgt g) r).
  { assert (Nw : forall v2 zs, (v2 < n)%N -> nwalk K (mdk hgt g) v2 zs -> exists q, zs = map Z.of_N q /\ Forall (fun y => (y < n)%N) q).
    { intros v2 zs Hv Hz. destruct (vw_neigh _ _ _ _ W v2 Hv) as [q [_ [E1 [_ E2]]]]. exists q. split; [eapply nwalk_unique'; eauto|].
      apply Forall_forall. intros y Hy. apply E2 in Hy. apply (vw_rng _ _ _ _ W) in Hy. tauto. }
    intros r. unfold mtriangles_dummy, triangles_dummy. split; intros [es [We Hd]]; exists es; (split; [exact We|]);
      (assert (HF : Forall (fun e => (fst e < n)%N /\ (snd e < n)%N) es) by
        (destruct (vw_edges _ _ _ _ W) as [l0 [W0 [_ E0]]]; assert (l0 = es) by (eapply ViewProof.ewalk_unique; eauto); subst l0;
         apply Forall_forall; intros [a b] He; apply E0 in He; apply (vw_rng _ _ _ _ W) in He; exact He)); clear We.
    - induction Hd as [r|v es r r' Hd IH|v1 v2 zs es r r1 r' Hne Hz Hi Hd IH]; inversion HF as [|? ? [Ha Hb] HF']; subst; [constructor|constructor; auto|].
      cbn [fst snd] in Ha, Hb. destruct (Nw v2 zs Hb Hz) as [q [-> Hq]]. rewrite (dummy_inner_eq h g v1 Hr Fn D M Ha q r Hq) in Hi. econstructor; eauto.
    - induction Hd as [r|v es r r' Hd IH|v1 v2 zs es r r1 r' Hne Hz Hi Hd IH]; inversion HF as [|? ? [Ha Hb] HF']; subst; [constructor|constructor; auto|].
      cbn [fst snd] in Ha, Hb. destruct (Nw v2 zs Hb Hz) as [q [-> Hq]]. rewrite <- (dummy_inner_eq h g v1 Hr Fn D M Ha q r Hq) in Hi. econstructor; eauto. }
  intros r. rewrite Q. split; [apply H2|intros ->; exact H1].
Qed.

(** pageRank: the iteration of C86 on the lists list_neighbour gives, at any time. *)
Theorem C88_pagerank_exact : forall h g out alpha conv maxit, mreached T hgt n h g -> (forall x, (x < n)%N -> mg_neigh g x = Ok (out x)) ->
  (exists x, (x < n)%N /\ out x <> []) ->
  exists res, mpageRank g conv maxit alpha = Ok res /\ pagerank_spec n (w_lists out) (d_lists out) alpha conv maxit res.
Proof using Hn.
  intros h g out alpha conv maxit Hr Ho _. destruct (mvwalk h g Hr) as [En _]. set (nn := N.to_nat n).
  assert (El : mout_links g (all_vertices n) = Ok (map (fun i => out (N.of_nat i)) (seq 0 nn))).
  { assert (G : forall vs, (forall v, In v vs -> (v < n)%N) -> mout_links g vs = Ok (map out vs)).
    { induction vs as [|v vs IH]; intros Hv; [reflexivity|]. cbn [mout_links map]. rewrite (Ho v) by (apply Hv; left; auto). cbn [obind].
      rewrite IH by (intros w Hw; apply Hv; right; auto). reflexivity. }
    rewrite G by (intros v Hv; apply all_vertices_In; auto). unfold all_vertices. rewrite map_map. reflexivity. }
  unfold mpageRank. rewrite En, El. cbn [obind]. fold nn. rewrite (init_vec nn alpha out).
  assert (Hrng : forall u, (N.to_nat u < nn)%nat -> Forall (fun y => (N.to_nat y < nn)%nat) (out u)).
  { intros u Hu. assert (Hu' : (u < n)%N) by (unfold nn in Hu; lia). destruct (C29_neighbours_partial T hgt n h g u ltac:(lia) Hr Hu') as [l [E1 [E2 _]]].
    rewrite (Ho u Hu') in E1. injection E1 as <-. apply Forall_forall. intros y Hy. destruct Hr as (_ & F & _). destruct (E2 y Hy) as [G|G].
    - rewrite Forall_forall in F. apply F in G. destruct G as [_ G]. cbn in G. unfold nn. lia.
    - assert (y = 0%N) by congruence. subst. unfold nn. lia. }
  destruct (loop_vec nn alpha conv out ltac:(unfold nn; lia) Hrng maxit 0) as [[t [i [H1 [H2 [H3 [H4 H5]]]]]]|[H1 H2]].
  - eexists. split; [exact H5|]. left. exists t, i. split; [lia|]. split; auto. split; [exact H3|]. split.
    + intros s j Hj Hs. apply H4; auto. lia.
    + apply answers_vec.
  - eexists. split; [exact H2|]. right. split; [|apply answers_vec]. intros s j Hs Hj. apply H1; auto. lia.
Qed.
End P.

(** ** The failures exist *)
(** C88 refuted: one directed triangle on 8 vertices, no union in progress; the hash count says 4 instead of 3. *)
Definition w88 : list op := [Add (0, 1); Add (1, 2); Add (2, 0)]%N.
Theorem C88_refuted : forall T, th_real T -> exists g, mreached T lg 8 w88 g /\ mg_finished g = true /\ NoDup (added w88) /\
  count_of (triangle (fun x y => In (Add (x, y)) w88)) 3 /\ forall nb r, 0 < nb -> (mtriangles_hash lg g nb r <-> r = 4%Z).
Proof.
  intros T HT.
  assert (W : match mg_hist T lg 8 w88 with Done g => mg_finished g = true /\ m_tmp g = (1, 2)%N | _ => False end).
  { rewrite <- (tabled_eq T HT). vm_compute. auto. }
  destruct (mg_hist T lg 8 w88) as [g| |] eqn:E; try tauto. destruct W as [W1 W2].
  assert (Hr : mreached T lg 8 w88 g).
  { split; [exact (lg_ok 8 ltac:(lia))|]. split; [|split; [vm_compute; discriminate|exact E]]. apply ranges_ok. vm_compute. reflexivity. }
  assert (D : NoDup (added w88)) by (vm_compute; repeat constructor; cbn; intuition congruence).
  assert (Ht : forall a b c, triangle (fun x y => In (Add (x, y)) w88) (a, b, c) <-> In (a, b, c) [(0, 1, 2); (1, 2, 0); (2, 0, 1)]%N).
  { intros a b c. unfold triangle, w88. cbn [In]. split.
    - intros (_ & _ & _ & [G1|[G1|[G1|[]]]] & [G2|[G2|[G2|[]]]] & [G3|[G3|[G3|[]]]]); try congruence; injection G1 as <- <-; injection G2 as <-; auto.
    - intros [G|[G|[G|[]]]]; injection G as <- <- <-; repeat split; try discriminate; auto. }
  assert (C3 : count_of (triangle (fun x y => In (Add (x, y)) w88)) 3).
  { exists [(0, 1, 2); (1, 2, 0); (2, 0, 1)]%N. split; [repeat constructor; cbn; intuition congruence|]. split; [|reflexivity]. intros [[a b] c]. symmetry. apply Ht. }
  exists g. split; [exact Hr|]. split; [exact W1|]. split; [exact D|]. split; [exact C3|]. intros nb r Hnb.
  destruct (C88_hash_idle_partial T lg lg_height 8 ltac:(lia) w88 g nb Hr W1 D ltac:(cbn; intuition congruence) Hnb) as [m [k [Hm [Hk Hres]]]].
  assert (m = 3) by (eapply count_of_unique; eauto). subst m. rewrite W2 in Hk. cbn [fst snd] in Hk.
  assert (C1 : count_of (fun a => triangle (fun x y => In (Add (x, y)) w88) (a, 1, 2)%N) 1).
  { exists [0%N]. split; [repeat constructor; auto|]. split; [|reflexivity]. intros a. rewrite Ht. cbn [In]. split.
    - intros [<-|[]]. auto.
    - intros [G|[G|[G|[]]]]; injection G as <-; auto; discriminate. }
  assert (k = 1) by (eapply count_of_unique; eauto). subst k. rewrite Hres. reflexivity.
Qed.
