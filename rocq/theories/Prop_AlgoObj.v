(** * C82: an Algorithm object works on the graph as it was when the object was built.

    Algorithm.hpp:18-25: the constructor and set_graph copy the graph.  In the notation of Alias.v the copy held by an Algorithm object is one of the
    objects of the process: the constructor is [WCopy], set_graph is [WAssign].  The copy shares its trees with the original. *)
From Verif Require Import Base Spec AlgoSpec Thresholds Table K2 C0 C0Proof DK DKProof DKHist Prop_DK Iter IterProof Prop_Iter Algo AlgoProof TriProof Prop_Algo ViewProof Alias AliasProof AliasFrame Prop_Alias.

Lemma traversals_ext K g n E E' : (forall x y, E x y <-> E' x y) -> traversals K g n E -> traversals K g n E'.
Proof.
  intros X (A & B & C & D & F). unfold traversals. split; [|split; [|split; [|split]]].
  - destruct A as (l & H1 & H2 & H3 & H4). exists l. repeat (split; [solve [auto]|]). intros x y. rewrite H4. apply X.
  - intros x Hx. destruct (B x Hx) as (l & H1 & H2 & H3 & H4). exists l. repeat (split; [solve [auto]|]). intros y. rewrite H4. apply X.
  - intros r Hr. destruct (C r Hr) as (p & H1 & H2 & H3 & H4 & H5 & H6). exists p. split; [auto|]. split; [auto|]. split; [auto|].
    split; [intros v; rewrite H4; apply reach_ext, X|]. split; [auto|]. exact (by_distance_ext _ _ r p X H6).
  - intros r Hr. destruct (D r Hr) as (p & H1 & H2 & H3 & H4 & H5). exists p. split; [auto|]. split; [auto|]. split; [auto|]. split; [intros v; rewrite H4; apply reach_ext, X|auto].
  - intros nb Hnb. destruct (F nb Hnb) as (m & (l & L1 & L2 & L3) & H2 & H3). exists m. split; [|auto]. exists l. split; [auto|]. split; [|auto].
    intros [[a b] c]. rewrite L2. unfold triangle. rewrite !X. tauto.
Qed.
Lemma own_solo h : forall s r, fold_left own_step (map (WOp 0) h) (s :: r) = (s ++ h) :: r.
Proof. induction h as [|o h IH]; intros s r; cbn [map fold_left own_step upd nth]; [rewrite app_nil_r; auto|]. rewrite IH, <- app_assoc. reflexivity. Qed.

(** Insertions, Algorithm objects built and set_graph called at any moments, on any of the graphs: every Algorithm object traverses exactly the edges that
    its graph had when it was taken (and received itself). *)
Theorem C82_inserts_partial : forall T K (L : k2laws K) n h, th_top T -> (2 <= n < 2 ^ 31)%N -> Forall (wop_in n) h -> no_del h -> known_objs 1 h ->
  exists w, whist T K n h = Done w /\ length (w_os w) = length (owns h) /\
    forall j d, nth_error (w_os w) j = Some d -> ~ In (9999999, 9999999)%N (espec (own h j)) ->
      traversals K (Alias.view K (w_hp w) d) n (fun x y => In (x, y) (espec (own h j))).
Proof.
  intros T K L n h HT Hn F ND KO. destruct (inserts_indep T K L n h HT ltac:(lia) F ND KO) as (w & E & [W [Len V]] & A).
  exists w. split; [exact E|]. split; [exact Len|]. intros j d Ej M. specialize (V j d Ej). fold (own h j) in V.
  destruct (adds_nth n (owns h) j A) as [es [Fes Es]]. fold (own h j) in Es. rewrite Es in V, M |- *.
  destruct (inserts_view T K L n es HT ltac:(lia) Fes) as (g & Eg & Vg); [intros I; apply M; apply espec_adds; auto|].
  rewrite V in Eg. injection Eg as <-. apply view_traversals; [auto|]. eapply view_ext; [|exact Vg].
  intros x y. unfold of_list. symmetry. apply espec_adds.
Qed.

(** In words: insert es, build an Algorithm, insert more into the graph: the Algorithm's results are those for es, the graph's those for all. *)
Theorem C82_snapshot_partial : forall T K (L : k2laws K) n es es', th_top T -> (2 <= n < 2 ^ 31)%N -> Forall (in_range n) (es ++ es') -> ~ In (9999999, 9999999)%N (es ++ es') ->
  exists w g a, whist T K n (map (WOp 0) (map Add es) ++ WCopy 0 :: map (WOp 0) (map Add es')) = Done w /\ w_os w = [g; a] /\
    traversals K (Alias.view K (w_hp w) a) n (fun x y => In (x, y) es) /\
    traversals K (Alias.view K (w_hp w) g) n (fun x y => In (x, y) (es ++ es')).
Proof.
  intros T K L n es es' HT Hn F M. set (h := map (WOp 0) (map Add es) ++ WCopy 0 :: map (WOp 0) (map Add es')).
  assert (O : owns h = [map Add es ++ map Add es'; map Add es]).
  { unfold owns, h. rewrite fold_left_app, own_solo. cbn [fold_left own_step nth app]. rewrite own_solo. reflexivity. }
  assert (FW : forall l, Forall (in_range n) l -> Forall (wop_in n) (map (WOp 0) (map Add l))).
  { intros l Fl. induction Fl; cbn; constructor; auto. }
  assert (KO : forall k l, 0 < k -> forall h, known_objs k h -> known_objs k (map (WOp 0) (map Add l) ++ h)).
  { intros k l Hk. induction l as [|e l IH]; intros h0 H0; cbn; auto. }
  apply Forall_app in F. destruct F as [F1 F2].
  destruct (C82_inserts_partial T K L n h HT Hn) as (w & E & Len & A).
  { apply Forall_app. split; [apply FW; auto|]. constructor; [exact I|apply FW; auto]. }
  { intros i e H. unfold h in H. apply in_app_iff in H. destruct H as [H|[H|H]]; [|discriminate|];
      apply in_map_iff in H; destruct H as (o & H & G); apply in_map_iff in G; destruct G as (? & <- & _); discriminate. }
  { apply KO; [lia|]. cbn [known_objs]. split; [lia|]. rewrite <- (app_nil_r (map _ _)). apply KO; [lia|exact I]. }
  rewrite O in Len. destruct (w_os w) as [|g [|a [|]]] eqn:Os; try discriminate Len. exists w, g, a. split; [exact E|]. split; [auto|].
  pose proof (A 1 a eq_refl) as A1. pose proof (A 0 g eq_refl) as A0. unfold own in A0, A1. rewrite O in A0, A1. cbn [nth] in A0, A1. rewrite <- map_app in A0. split.
  - assert (M1 : ~ In (9999999, 9999999)%N (espec (map Add es))) by (rewrite espec_adds; intros G; apply M, in_app_iff; auto).
    refine (traversals_ext _ _ _ _ _ _ (A1 M1)). intros x y. apply espec_adds.
  - assert (M1 : ~ In (9999999, 9999999)%N (espec (map Add (es ++ es')))) by (rewrite espec_adds; exact M).
    refine (traversals_ext _ _ _ _ _ _ (A0 M1)). intros x y. apply espec_adds.
Qed.

(** Whatever was done to the graph before, deletions included: insertions into it do not change one field or tree of the Algorithm's copy. *)
Theorem C82_frozen_partial : forall T K (L : k2laws K) n h0 es w g, adjf_is_query L -> (2 <= n)%N -> Forall (op_in_range n) h0 -> Forall (in_range n) es ->
  dk_hist T K n h0 = Done g -> whist T K n (map (WOp 0) h0 ++ WCopy 0 :: map (WOp 0) (map Add es)) = Done w ->
  forall a, nth_error (w_os w) 1 = Some a -> Alias.view K (w_hp w) a = g.
Proof.
  intros T K L n h0 es w g Q Hn F0 F E Ew a Ea.
  assert (FW : forall l, Forall (in_range n) l -> Forall (wop_in n) (map (WOp 0) (map Add l))).
  { intros l Fl. induction Fl; cbn; constructor; auto. }
  pose proof (C42_copies_independent T K L n h0 (WCopy 0 :: map (WOp 0) (map Add es)) w Q Hn F0) as X.
  specialize (X ltac:(constructor; [exact I|apply FW; auto])).
  specialize (X ltac:(intros i e [H|H]; [discriminate|]; apply in_map_iff in H; destruct H as (o & H & G); apply in_map_iff in G; destruct G as (? & <- & _); discriminate)).
  specialize (X Ew 1 a Ea). unfold own, owns in X. rewrite fold_left_app, own_solo in X. cbn [fold_left own_step nth app] in X. rewrite own_solo in X. cbn [nth] in X.
  rewrite E in X. injection X as ->. reflexivity.
Qed.

(** False with deletions: on 8 vertices insert (6,7) and (0,7), build an Algorithm, delete (6,7) from the graph.  The Algorithm's breadth-first search from 6
    reached 7 before and does not reach it after, although the Algorithm's own graph was not touched and still counts two edges. *)
Definition t82 (K : k2impl) := kt_build K [(6, 7); (0, 7)]%N 8.
Definition h82 : list wop := [WOp 0 (Add (6, 7)); WOp 0 (Add (0, 7)); WCopy 0]%N.
Lemma t82_facts K (L : k2laws K) : wf L 8 (t82 K) /\ forall e, In e (kt_edges K (t82 K)) <-> In e [(6, 7); (0, 7)]%N.
Proof.
  destruct (law_build L 8 [(6, 7); (0, 7)]%N) as [A [B C]]; [lia|discriminate| |repeat constructor|].
  { constructor; [cbn; intuition congruence|]. repeat constructor. auto. }
  split; [exact A|exact C].
Qed.
Lemma w82 T K : th_real T -> exists d, whist T K 8 h82 = Done (mkw [t82 K] [d; d]) /\ o_r d = 1 /\ o_nv d = 8%N /\ o_nt d = 2%N /\
  o_ks d = [None; Some 0; None; None; None; None; None; None] /\ c0_inv (o_c0 d) [].
Proof.
  intros HT. rewrite <- (tabled_eq T HT). eexists. split; [vm_compute; reflexivity|]. do 4 (split; [reflexivity|]).
  cbn [o_c0]. exact (inv_empty 1 8).
Qed.
Theorem C82_refuted : forall T K (L : k2laws K), th_real T -> adjf_is_query L ->
  exists w w' a p p', whist T K 8 h82 = Done w /\ wstep T K w (WOp 0 (Del (6, 7)%N)) = Done w' /\
    nth_error (w_os w) 1 = Some a /\ nth_error (w_os w') 1 = Some a /\
    bfs K (Alias.view K (w_hp w) a) 6 p /\ In 7%N p /\ bfs K (Alias.view K (w_hp w') a) 6 p' /\ ~ In 7%N p'.
Proof.
  intros T K L HT Q. destruct (w82 T K HT) as (d & E & Er & En & Et & Ek & Hc). destruct (t82_facts K L) as (Wt & Et82).
  set (w := mkw [t82 K] [d; d]) in *. set (h0 := [Add (6, 7); Add (0, 7)]%N).
  assert (F0 : Forall (op_in_range 8) (h0 ++ [Del (6, 7)%N])) by (repeat constructor; cbn; lia).
  assert (F1 : Forall (wop_in 8) h82) by (repeat constructor; cbn; lia).
  assert (F2 : Forall (wop_in 8) (h82 ++ [WOp 0 (Del (6, 7)%N)])) by (repeat constructor; cbn; lia).
  assert (V0 : dk_hist T K 8 h0 = Done (Alias.view K (w_hp w) d)).
  { refine (C42_copies_independent T K L 8 h0 [WCopy 0] w Q _ _ _ _ E 0 d eq_refl); [lia|apply Forall_app in F0; tauto|repeat constructor|intros i e [X|[]]; discriminate]. }
  destruct (whist_ok T K L 8 ltac:(lia) h82 w F1 E) as [HW HO].
  assert (O0 : obj_ok K 8 (w_hp w) d) by (inversion HO; auto).
  destruct (o_op_view T K (w_hp w) d (Del (6, 7)%N) (ob_refs _ _ _ _ O0) (ob_len _ _ _ _ O0)) as [VV _].
  rewrite <- (hist_snoc T K 8 h0 (Del (6, 7)%N) _ V0) in VV.
  pose proof (transfer T K L 8 _ Q ltac:(lia) F0) as HS.
  assert (HR : match dk_hist T K2Ref 8 (h0 ++ [Del (6, 7)%N]) with Done g => True | _ => False end) by (rewrite <- (tabled_eq T HT); vm_compute; exact I).
  destruct (dk_hist T K2Ref 8 (h0 ++ [Del (6, 7)%N])) as [gr|gr|]; try tauto.
  destruct (dk_hist T K 8 (h0 ++ [Del (6, 7)%N])) as [g|g|]; try tauto.
  destruct (o_op T K (w_hp w) d (Del (6, 7)%N)) as [[hp d']|[hp d']|] eqn:Eo; try discriminate.
  set (w' := mkw hp [d'; d]). assert (Ew : wstep T K w (WOp 0 (Del (6, 7)%N)) = Done w') by (cbn [wstep w w_os nth_error]; rewrite Eo; reflexivity).
  assert (E' : whist T K 8 (h82 ++ [WOp 0 (Del (6, 7)%N)]) = Done w').
  { unfold whist in E |- *. destruct (o_new T 8); cbn [rbind] in *; [|discriminate]. rewrite wrun_app, E. cbn [wrun]. rewrite Ew. reflexivity. }
  destruct (whist_ok T K L 8 ltac:(lia) _ w' F2 E') as [HW' HO'].
  assert (O1 : obj_ok K 8 hp d) by (inversion HO' as [|? ? ? X]; inversion X; auto).
  destruct (C43_deletion_frame_partial T K L 8 h82 w 0 (6, 7)%N w' Q ltac:(lia) F2 E Ew 1 d ltac:(lia) eq_refl) as (_ & _ & FC & _).
  destruct (C43_leak_exact T K L 8 h0 (6, 7)%N w w' d Q ltac:(lia) F0 E Ew eq_refl) as [_ LK].
  specialize (LK ltac:(rewrite (inv_contains _ _ _ Hc); reflexivity)). cbn [fst snd] in LK.
  (* the tree of the copy, before and after *)
  pose proof (ob_refs _ _ _ _ O1) as RF. rewrite Ek in RF.
  assert (Et' : exists t', nth_error hp 0 = Some t') by (destruct hp as [|t' hp']; [|cbn; eauto]; exfalso; assert (0 < 0) by (apply RF; cbn; auto); lia).
  destruct Et' as [t' Et'].
  assert (CT : forall hp0 t0, heap_wf K L 8 hp0 -> nth_error hp0 0 = Some t0 -> forall x y, in_range 8 (x, y) ->
     wf L 8 t0 /\ (dk_contains K (Alias.view K hp0 d) x y = Ok true <-> In (x, y) (kt_edges K t0))).
  { intros hp0 t0 HW0 E0 x y R. assert (W0 : wf L 8 t0) by exact (proj1 (Forall_forall _ _) HW0 _ (nth_error_In _ _ E0)). split; [exact W0|].
    unfold dk_contains. cbn [Alias.view C0_ DK.ks]. rewrite (inv_contains _ _ _ Hc). cbn [live_edges filter map emem existsb obind]. rewrite Ek.
    cbn [map deref ks_adj]. rewrite E0. cbn [ks_adj]. destruct R as [Rx Ry]. rewrite <- (law_adj L 8 t0 x y W0 Rx Ry). destruct (kt_adj K t0 x y); cbn; split; congruence. }
  assert (H : forall hp0 t0, heap_wf K L 8 hp0 -> nth_error hp0 0 = Some t0 -> kt_edges K t0 <> [] -> 
     searches K (Alias.view K hp0 d) 8 (fun x y => In (x, y) (kt_edges K t0))).
  { intros hp0 t0 HW0 E0 NE. destruct (CT hp0 t0 HW0 E0 0%N 0%N) as [W0 _]; [split; cbn; lia|].
    assert (A : dk_all K (Alias.view K hp0 d) [] = kt_edges K t0).
    { unfold dk_all, ks_edges. cbn [Alias.view DK.ks live_edges filter map app]. rewrite Ek. cbn [map deref]. rewrite E0. cbn. apply app_nil_r. }
    eapply searches_ext; [|apply (holds_searches K L 8 _ [])]; [intros x y; rewrite A; reflexivity|lia| |].
    - constructor; cbn [Alias.view nv DK.ks max_r C0_]; auto.
      + rewrite Ek. reflexivity. + rewrite Er. unfold RS. lia. + constructor. + constructor.
      + rewrite Ek. cbn [map deref]. rewrite E0. unfold ks_wf. repeat (constructor; auto).
      + rewrite Ek. cbn [map deref]. rewrite E0. intros t [G|[G|[G|[G|[G|[G|[G|[G|[]]]]]]]]]; try discriminate. injection G as <-. exact NE.
      + intros i t. cbn [Alias.view DK.ks max_r]. rewrite Ek, Er. cbn [map deref]. rewrite E0. do 2 (destruct i as [|i]; [intros; lia|]). do 6 (destruct i as [|i]; [discriminate|]). destruct i; discriminate.
    - rewrite A. intros G. apply (law_edges_range L 8) in G; auto. cbn in G. lia. }
  destruct (CT hp t' HW' Et' 6%N 7%N) as [W' C67]; [split; cbn; lia|].
  assert (N67 : ~ In (6, 7)%N (kt_edges K t')) by (rewrite <- C67; unfold w' in LK; cbn [w_hp] in LK; rewrite LK; discriminate).
  assert (SAME : forall x y, in_range 8 (x, y) -> (x, y) <> (6, 7)%N -> In (x, y) (kt_edges K t') <-> In (x, y) (kt_edges K (t82 K))).
  { intros x y R Ne. destruct (CT hp t' HW' Et' x y R) as [_ C1]. destruct (CT [t82 K] (t82 K) HW eq_refl x y R) as [_ C2]. rewrite <- C1, <- C2.
    specialize (FC x y R Ne). cbn [w w' w_hp] in FC. rewrite FC. reflexivity. }
  destruct (H [t82 K] (t82 K) HW eq_refl) as (_ & _ & B1 & _). { intros Z. assert (G : In (0, 7)%N (kt_edges K (t82 K))) by (apply Et82; cbn; auto). rewrite Z in G. destruct G. }
  destruct (H hp t' HW' Et') as (_ & _ & B2 & _). { intros Z. assert (G : In (0, 7)%N (kt_edges K t')) by (apply SAME; [split; cbn; lia|discriminate|apply Et82; cbn; auto]). rewrite Z in G. destruct G. }
  destruct (B1 6%N ltac:(lia)) as (p & P1 & _ & _ & P2 & _). destruct (B2 6%N ltac:(lia)) as (p' & P3 & _ & _ & P4 & _).
  exists w, w', d, p, p'. split; [exact E|]. split; [exact Ew|]. split; [reflexivity|]. split; [reflexivity|]. split; [exact P1|].
  split; [apply P2|split; [exact P3|]].
  - eapply reach_step; [apply reach_refl|]. apply Et82. cbn; auto.
  - rewrite P4. intros G. assert (X : forall u v, reach (fun x y => In (x, y) (kt_edges K t')) u v -> u = 6%N -> v = 6%N); [|discriminate (X _ _ G eq_refl)].
    clear - N67 SAME Et82 W'. intros u v G. induction G as [|x y G IH GE]; auto. intros Hu. specialize (IH Hu). subst u x. exfalso.
    assert (R : in_range 8 (6, y)%N) by (split; [cbn; lia|exact (proj2 (law_edges_range L 8 t' _ W' GE))]).
    assert (Ne : (6, y)%N <> (6, 7)%N) by (intros Z; injection Z as ->; auto).
    apply (SAME 6%N y R Ne) in GE. apply Et82 in GE. destruct GE as [Z|[Z|[]]]; [apply Ne; rewrite <- Z; reflexivity|discriminate].
Qed.

(** The hypotheses are met: 12 insertions into a graph of 8 vertices, an Algorithm built after six of them, with more than one tree by then. *)
Definition es82 : list edge := [(0, 1); (1, 2); (2, 3); (3, 4); (4, 5); (5, 6)]%N.
Definition es82' : list edge := [(6, 7); (7, 0); (0, 2); (1, 3); (2, 4); (3, 5)]%N.
Example ex82_hyp : (2 <= 8 < 2 ^ 31)%N /\ Forall (in_range 8) (es82 ++ es82') /\ ~ In (9999999, 9999999)%N (es82 ++ es82').
Proof. split; [lia|]. split; [repeat constructor; cbn; lia|]. cbn. intuition discriminate. Qed.
Example ex82_case : forall T, th_real T ->
  match whist T K2Ref 8 (map (WOp 0) (map Add es82) ++ WCopy 0 :: map (WOp 0) (map Add es82')) with
  | Done w => length (w_hp w) > 1 /\ match w_os w with [g; a] => dk_edges K2Ref (Alias.view K2Ref (w_hp w) g) = 12%N /\ dk_edges K2Ref (Alias.view K2Ref (w_hp w) a) = 6%N | _ => False end
  | _ => False
  end.
Proof. intros T HT. rewrite <- (tabled_eq T HT). vm_compute. repeat constructor. Qed.
(** For C82_frozen_partial: a deletion before the Algorithm is built. *)
Example ex82_frozen : forall T, th_real T ->
  match dk_hist T K2Ref 8 (map Add es82 ++ [Del (2, 3)])%N, whist T K2Ref 8 (map (WOp 0) (map Add es82 ++ [Del (2, 3)]) ++ WCopy 0 :: map (WOp 0) (map Add es82'))%N with
  | Done g, Done w => match nth_error (w_os w) 1 with Some a => Alias.view K2Ref (w_hp w) a = g | None => False end
  | _, _ => False
  end.
Proof. intros T HT. rewrite <- (tabled_eq T HT). vm_compute. reflexivity. Qed.
