(** * C80: the iterators and the searches on the incremental-union graph (DKtree_delay_munro).

    [mdk hgt g] (MunroView.v) is what the iterator classes are given of the graph [g]; [searches] (ViewProof.v) says that the
    edge loop, the neighbour loops, bfs and dfs are right about a set of edges. *)
From Verif Require Import Base Spec AlgoSpec Thresholds Table Table2 K2 K2Bits C0 C0Proof DK DKProof DKHist Iter IterProof Algo AlgoProof TriProof Prop_Algo ViewProof
  Bits Union UnionProof UnionMerge UnionEdges Prop_Union Munro MunroProof MunroSerial Prop_Munro MunroView.

Section P.
Context (T : thresholds) (hgt : N -> nat) (HG : forall m, (2 <= m)%N -> 1 <= hgt m /\ (m <= 2 ^ N.of_nat (hgt m))%N) (n : N).
Notation K := (K2Bits hgt).
Notation L := (K2Bits_laws hgt HG).
Context (Hn : (2 <= n < 2 ^ 31)%N).

(** what the loops are given: the buffer and the trees of the collection *)
Lemma all_sub hs g Ls P B c e : minv hgt n hs g Ls P B c -> In e (dk_all K (mdk hgt g) (lv B)) -> In e (B ++ tl Ls).
Proof using Hn HG.
  intros V. unfold dk_all. rewrite live_lv, !in_app_iff. intros [G|G]; [auto|]. right. unfold ks_edges in G. apply in_concat in G.
  destruct G as (l & G & I). apply in_map_iff in G. destruct G as (o & <- & G). destruct o as [t|]; [|destruct I].
  cbn [mdk ks] in G. apply In_nth_error in G. destruct G as [i G]. apply ks_at in G. destruct G as (b & G & ->).
  destruct (tree_at hgt n _ _ _ _ _ _ _ _ V G) as (l & E & ->). destruct (lev_rng hgt n _ _ _ _ _ _ _ _ V E) as (R & _ & S).
  destruct (HG n ltac:(lia)) as [A1 A2]. apply S. cbn [kt_edges K2Bits mtree fst] in I. apply bedges_In in I; auto.
Qed.
Lemma all_idle hs g Ls B c e : minv hgt n hs g Ls [] B c -> In e (B ++ tl Ls) -> In e (dk_all K (mdk hgt g) (lv B)).
Proof using Hn HG.
  intros V. unfold dk_all. rewrite live_lv, !in_app_iff. intros [G|G]; [auto|]. right.
  destruct (mv_phase _ _ _ _ _ _ _ _ V) as [[_ [E _]]|(ks0 & u0 & mi & conv & EP & _)]; [|destruct conv; discriminate].
  unfold tl in G. apply in_concat in G. destruct G as (l & G & I). apply In_somes in G. pose proof G as G0. apply In_nth_error in G. destruct G as [i G].
  destruct (lev_rng hgt n _ _ _ _ _ _ _ _ V G) as (R & _ & _). destruct (HG n ltac:(lia)) as [A1 A2].
  unfold ks_edges. apply in_concat. exists (bedges (built hgt n l)). split; [|apply In_bedges; auto].
  apply in_map_iff. exists (Some (mtree (built hgt n l))). split; [reflexivity|]. cbn [mdk ks]. rewrite E. unfold lev. rewrite map_map.
  apply in_map_iff. exists (Some l). split; auto.
Qed.
Lemma all_nodup hs g Ls P B c : minv hgt n hs g Ls P B c -> NoDup (B ++ tl Ls ++ P) -> NoDup (dk_all K (mdk hgt g) (lv B)).
Proof using Hn HG.
  intros V D. unfold dk_all. rewrite live_lv. rewrite app_assoc in D. apply NoDup_app in D. destruct D as (D & _ & _). apply NoDup_app in D. destruct D as (D1 & D2 & D3).
  pose proof (phase_fewer hgt n _ _ _ _ _ _ V) as F. destruct (minv_rng _ _ _ _ _ _ _ _ V) as (_ & R & _). destruct (HG n ltac:(lia)) as [A1 A2].
  assert (X : forall ls k, fewer (lev hgt n ls) k -> in_rng n (tl ls) -> NoDup (tl ls) ->
    NoDup (ks_edges K (map (option_map mtree) k)) /\ forall e, In e (ks_edges K (map (option_map mtree) k)) -> In e (tl ls)).
  { clear - A1 A2. induction ls as [|o ls IH]; intros [|b k] [Fl F] R D; cbn [lev map length] in Fl; try discriminate.
    - split; [constructor|intros e []].
    - assert (F' : fewer (lev hgt n ls) k) by (split; [cbn [lev map]; injection Fl; auto|intros i; destruct (F (S i)) as [G|[G1 G2]]; [left; exact G|right; split; [cbn in G1; unfold lev; lia|exact G2]]]).
      assert (Dt : NoDup (tl ls) /\ in_rng n (tl ls) /\ forall e, In e (tl ls) -> In e (tl (o :: ls))).
      { unfold tl in *. destruct o as [l|]; cbn [somes concat] in *; [|auto]. apply NoDup_app in D. apply (rng_app n) in R. split; [tauto|]. split; [tauto|]. intros e G. apply in_app_iff. auto. }
      destruct Dt as (Dt & Rt & St). destruct (IH k F' Rt Dt) as [I1 I2]. cbn [map]. unfold ks_edges in *. cbn [map concat].
      destruct b as [b|]; cbn [option_map app]; [|split; auto].
      destruct (F 0) as [G|[_ G]]; [|discriminate]. cbn in G. destruct o as [l|]; [|discriminate]. cbn in G. injection G as ->.
      unfold tl in *. cbn [somes concat] in *. apply NoDup_app in D. destruct D as (E1 & E2 & E3). apply (rng_app n) in R. destruct R as [R1 R2].
      cbn [kt_edges K2Bits mtree fst]. split.
      + apply NoDup_app. split; [apply (nodup_bedges n); reflexivity|]. split; [exact I1|]. intros e G G'. apply bedges_In in G; auto. eapply E3; eauto.
      + intros e G. apply in_app_iff in G. apply in_app_iff. destruct G as [G|G]; [left; apply bedges_In in G; auto|auto]. }
  destruct (X _ _ F R D2) as [X1 X2]. apply NoDup_app. split; [exact D1|]. split; [exact X1|]. intros e G G'. exact (D3 e G (X2 e G')).
Qed.

(** C80, what holds: when no union is in progress, exactly the inserted edges are seen ... *)
Theorem C80_idle_partial : forall h g, mreached T hgt n h g -> mg_finished g = true -> ~ In (Add (9999999, 9999999)%N) h ->
  searches K (mdk hgt g) n (fun x y => In (Add (x, y)) h).
Proof using Hn HG.
  intros h g (HO & F & Sm & E) Fn M. destruct (hist_inv T hgt n ltac:(lia) HO h F Sm g E) as (Ls & P & B & c & V & _).
  pose proof Fn as Fn'. unfold mg_finished in Fn'. rewrite (phase_fin _ _ _ _ _ _ _ _ V) in Fn'. destruct (is_nil P) as [->|]; [|discriminate].
  pose proof (hist_top T hgt n h g E) as Tp. pose proof (mdk_holds hgt HG n ltac:(lia) _ _ _ _ _ _ V Tp) as H.
  assert (X : forall x y, In (x, y) (dk_all K (mdk hgt g) (lv B)) <-> In (Add (x, y)) h).
  { intros x y. rewrite <- added_In, (mv_hist _ _ _ _ _ _ _ _ V), app_nil_r. split; [apply (all_sub _ _ _ _ _ _ _ V)|apply (all_idle _ _ _ _ _ _ V)]. }
  eapply searches_ext; [exact X|]. apply (holds_searches K L); auto. intros G. apply X in G. auto.
Qed.
(** ... and, if no edge was inserted twice, each once -- even while a union is in progress. *)
Theorem C80_each_once_partial : forall h g, mreached T hgt n h g -> NoDup (added h) -> ~ In (Add (9999999, 9999999)%N) h ->
  exists l, ewalk K (mdk hgt g) l /\ NoDup l.
Proof using Hn HG.
  intros h g (HO & F & Sm & E) D M. destruct (hist_inv T hgt n ltac:(lia) HO h F Sm g E) as (Ls & P & B & c & V & _ & _ & Nd).
  pose proof (hist_top T hgt n h g E) as Tp. pose proof (mdk_holds hgt HG n ltac:(lia) _ _ _ _ _ _ V Tp) as H.
  exists (dk_all K (mdk hgt g) (lv B)). split; [|apply (all_nodup _ _ _ _ _ _ V), Nd, D].
  apply (holds_ewalk K L n); auto; [lia|]. intros G. apply (all_sub _ _ _ _ _ _ _ V) in G. apply M, added_In, (mv_hist _ _ _ _ _ _ _ _ V). rewrite app_assoc. apply in_app_iff. auto.
Qed.
(** At every moment the loops and searches are right about some set of inserted edges, and that set has every edge of the buffer and none
    that contains does not report. *)
Theorem C80_busy_partial : forall h g, mreached T hgt n h g -> ~ In (Add (9999999, 9999999)%N) h ->
  exists E : N -> N -> Prop, searches K (mdk hgt g) n E /\
    (forall x y, E x y -> In (Add (x, y)) h /\ mg_contains g x y = Ok true) /\
    (forall x y, c0_contains (m_c0 g) (x, y) = Ok true -> E x y).
Proof using Hn HG.
  intros h g (HO & F & Sm & E) M. destruct (hist_inv T hgt n ltac:(lia) HO h F Sm g E) as (Ls & P & B & c & V & _).
  pose proof (hist_top T hgt n h g E) as Tp. pose proof (mdk_holds hgt HG n ltac:(lia) _ _ _ _ _ _ V Tp) as H.
  exists (fun x y => In (x, y) (dk_all K (mdk hgt g) (lv B))). pose proof (all_sub _ _ _ _ _ _ MAXE V) as S0.
  assert (S : forall e, In e (dk_all K (mdk hgt g) (lv B)) -> In (Add e) h).
  { intros e G. apply (all_sub _ _ _ _ _ _ _ V) in G. apply added_In, (mv_hist _ _ _ _ _ _ _ _ V). rewrite app_assoc. apply in_app_iff. auto. }
  split; [apply (holds_searches K L); auto|]. split.
  - intros x y G. split; [auto|]. destruct (holds_range K L n _ _ _ H G) as [Hx Hy]. destruct HO as (H1 & _ & Hh). cbn [fst snd] in *.
    rewrite (contains_spec hgt n H1 Hh _ _ _ _ _ _ x y V Hx Hy). f_equal. apply emem_In. apply (all_sub _ _ _ _ _ _ _ V) in G. unfold vis. rewrite app_assoc. apply in_app_iff. auto.
  - intros x y G. rewrite (inv_contains _ _ _ (mv_c0 _ _ _ _ _ _ _ _ V)), live_lv in G. injection G as G. apply emem_In in G.
    unfold dk_all. rewrite live_lv. apply in_app_iff. auto.
Qed.
End P.

(** ** The failures exist *)
Fixpoint run_edges (K : k2impl) (fuel : nat) (it : eit K) : option (list edge) :=
  match fuel with
  | O => None
  | S f => if eit_at_end K it then Some [] else
           match eit_next K it with Ok it' => option_map (cons (ei_ptr it)) (run_edges K f it') | UB => None end
  end.
Lemma run_edges_ok K f : forall it l, run_edges K f it = Some l -> edge_loop K it l.
Proof.
  induction f as [|f IH]; cbn [run_edges]; intros it l E; [discriminate|]. destruct (eit_at_end K it) eqn:A; [injection E as <-; constructor; auto|].
  destruct (eit_next K it) as [it'|] eqn:Nx; [|discriminate]. destruct (run_edges K f it') as [l'|] eqn:R; [|discriminate]. injection E as <-.
  econstructor; eauto. apply IH. exact R.
Qed.
Definition all_edges (K : k2impl) (g : dk K) : option (list edge) :=
  match dk_edge_begin K g 0 with Ok it => run_edges K 200 it | UB => None end.
Lemma all_edges_ok K g l : all_edges K g = Some l -> ewalk K g l /\ forall l', ewalk K g l' -> l' = l.
Proof.
  unfold all_edges. destruct (dk_edge_begin K g 0) as [it|] eqn:E; [|discriminate]. intros R. apply run_edges_ok in R.
  assert (W : ewalk K g l) by (exists it; auto). split; [exact W|]. intros l' W'. eapply ewalk_unique; eauto.
Qed.

(** C80 refuted: while a union is in progress, 12 distinct edges have been inserted into a graph with 16 vertices; the loop misses edges for which
    contains is true. *)
Theorem C80_missed_refuted : forall T, th_real T -> exists g l, mreached T lg 16 (ex_mh 12) g /\ NoDup (added (ex_mh 12)) /\ length (added (ex_mh 12)) = 12 /\
  (ewalk (K2Bits lg) (mdk lg g) l /\ forall l', ewalk (K2Bits lg) (mdk lg g) l' -> l' = l) /\ length l = 6 /\
  exists x y, In (Add (x, y)) (ex_mh 12) /\ mg_contains g x y = Ok true /\ ~ In (x, y) l.
Proof.
  intros T HT. assert (W : match mg_hist T lg 16 (ex_mh 12) with Done g => exists l, all_edges (K2Bits lg) (mdk lg g) = Some l /\ length l = 6 /\
     mg_contains g 9 12 = Ok true /\ emem (9, 12)%N l = false | _ => False end).
  { rewrite <- (tabled_eq T HT). vm_compute. eexists. repeat split; reflexivity. }
  destruct (mg_hist T lg 16 (ex_mh 12)) as [g| |] eqn:E; [|destruct W|destruct W]. destruct W as (l & W1 & W2 & W3 & W4). exists g, l.
  split; [apply ex_reached; auto|]. split; [apply nodup_ok; vm_compute; reflexivity|]. split; [reflexivity|]. split; [apply all_edges_ok; exact W1|]. split; [exact W2|].
  exists 9%N, 12%N. split; [apply in_hist_ok; vm_compute; reflexivity|]. split; [exact W3|]. apply emem_false. exact W4.
Qed.
(** C80 refuted: with no union in progress the loop visits an edge twice, when that edge was inserted again while hidden (C28): 77 distinct edges
    on 20 vertices, one of them inserted a second time, and 60 more insertions of it, which do nothing but let the union proceed. *)
Definition ex_twice : list op := ex_dbl ++ repeat (Add (0, 14)%N) 61.
Theorem C80_twice_refuted : forall T, th_real T -> exists g l, mreached T lg 20 ex_twice g /\ mg_finished g = true /\
  length (nodup edge_dec (added ex_twice)) = 77 /\ (ewalk (K2Bits lg) (mdk lg g) l /\ forall l', ewalk (K2Bits lg) (mdk lg g) l' -> l' = l) /\ length l = 78 /\ ~ NoDup l.
Proof.
  intros T HT. assert (W : match mg_hist T lg 20 ex_twice with Done g => mg_finished g = true /\ exists l, all_edges (K2Bits lg) (mdk lg g) = Some l /\ length l = 78 /\
     length (nodup edge_dec l) = 77 | _ => False end).
  { rewrite <- (tabled2_eq T HT). vm_compute. split; [reflexivity|]. eexists. repeat split; reflexivity. }
  destruct (mg_hist T lg 20 ex_twice) as [g| |] eqn:E; [|destruct W|destruct W]. destruct W as (W0 & l & W1 & W2 & W3). exists g, l. split.
  { split; [exact (lg_ok 20 ltac:(lia))|]. split; [|split; [vm_compute; discriminate|exact E]]. apply ranges_ok. vm_compute. reflexivity. }
  split; [exact W0|]. split; [vm_compute; reflexivity|]. split; [apply all_edges_ok; exact W1|]. split; [exact W2|].
  intros D. rewrite (nodup_fixed_point edge_dec D), W2 in W3. discriminate.
Qed.
(** The hypotheses are met: eleven insertions (no union in progress) and twelve (one in progress), trees of the usual height. *)
Example C80_example : forall T, th_real T -> (forall m, (2 <= m)%N -> 1 <= lg m /\ (m <= 2 ^ N.of_nat (lg m))%N) /\ exists g g', mreached T lg 16 (ex_mh 11) g /\ mg_finished g = true /\
  mreached T lg 16 (ex_mh 12) g' /\ mg_finished g' = false /\ NoDup (added (ex_mh 12)) /\ ~ In (Add (9999999, 9999999)%N) (ex_mh 12).
Proof.
  intros T HT. split; [exact lg_height|]. destruct (C28_example T HT) as (g & _ & g2 & H1 & H2 & _ & _ & _ & _ & H3 & H4). exists g2, g.
  split; [exact H3|]. split; [exact H4|]. split; [exact H1|]. split; [exact H2|]. split; [apply nodup_ok; vm_compute; reflexivity|]. vm_compute. intuition discriminate.
Qed.
