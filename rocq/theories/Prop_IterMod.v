(** * C83: a graph may be modified inside a loop over its edges or neighbours.

    [eloop], [nloop] (IterMod.v): the loops with a body that calls add_edge and del_edge on the graph; what it calls may depend on everything the loop has
    seen.  [sees l r]: if the loop ends, it has seen l; it does not use anything destroyed. *)
From Verif Require Import Base Spec AlgoSpec Thresholds Table K2 C0 C0Proof DK DKProof DKHist Prop_DK Iter IterProof Prop_Iter Alias AliasProof AliasFrame Prop_Alias IterMod IterModProof Prop_AlgoObj.

Lemma edge_begin_ks K (g : dk K) it : dk_edge_begin K g 0 = Ok it -> ei_ks it = DK.ks g.
Proof.
  unfold dk_edge_begin. destruct (eit_new K g) as [i0|] eqn:En; cbn [obind]; [|discriminate]. intros Eb. injection Eb as <-. cbn [ei_ks].
  unfold eit_new in En. destruct (N.eqb (nv g) 0); [injection En as <-; reflexivity|].
  destruct (0 <? c0_size (C0_ g)); [destruct (node_at (C0_ g) 0); cbn [obind] in En; [injection En as <-; reflexivity|discriminate]|].
  destruct (scan K (DK.ks g) 0) as [i|]; [|injection En as <-; reflexivity].
  destruct (tree_deref _ i); cbn [obind] in En; [injection En as <-; reflexivity|discriminate].
Qed.

(** ** Edge loops: insertions, and deletions of buffered edges, are not noticed *)
(** After any history, with any other graphs that share trees: the loop with the body sees what the loop without it would have seen. *)
Theorem C83_edges_partial : forall T K (L : k2laws K) n h w d it l body, adjf_is_query L -> (2 <= n)%N -> Forall (wop_in n) h ->
  whist T K n h = Done w -> nth_error (w_os w) 0 = Some d -> dk_edge_begin K (view K (w_hp w) d) 0 = Ok it -> edge_loop K it l ->
  exists r, eloop T K (each T K (edge_ok K n)) (o_ks d) body w it [] r /\ sees K l r.
Proof.
  intros T K L n h w d it l body Q Hn F E Ed Eb El. pose proof (whist_ok T K L n Hn h w F E) as W.
  assert (G : good K L n w) by (split; [exact W|apply (query_pure K L n); [exact Q|apply W]]).
  pose proof (good_obj K L n w 0 d G Ed) as O.
  pose proof (edge_begin_ks K _ it Eb) as Eks. cbn [view DK.ks] in Eks.
  exact (eloop_same T K L n Hn (o_ks d) body it l El w [] G (ob_refs _ _ _ _ O) (eq_sym Eks)).
Qed.

(** Insertions only, before the loop and in it: the loop ends, has seen exactly the edges there were when it began, each once, and afterwards the graph is the
    one obtained by inserting everything in order. *)
Definition added (body : list edge -> list edge) (l : list edge) : list edge := flat_map (fun i => body (firstn (S i) l)) (seq 0 (length l)).

Lemma each_adds T K n b : Forall (in_range n) b -> forall w, each T K (edge_ok K n) w (map Add b).
Proof. induction 1 as [|e b He Hb IH]; intros w; cbn [map each]; [exact I|]. destruct (wstep T K w (WOp 0 (Add e))); [split; [exact He|apply IH]|exact I|exact I]. Qed.
Lemma adds_done T K (L : k2laws K) n es : th_top T -> (2 <= n)%N -> Forall (in_range n) es ->
  exists w d, whist T K n (map (WOp 0) (map Add es)) = Done w /\ w_os w = [d] /\ good K L n w /\ dk_hist T K n (map Add es) = Done (view K (w_hp w) d).
Proof.
  intros HT Hn F. destruct (inserts_indep T K L n (map (WOp 0) (map Add es)) HT Hn) as (w & E & [W [Len V]] & _).
  { clear - F. induction F; cbn; constructor; auto. }
  { intros i e H. apply in_map_iff in H; destruct H as (o & H & G); apply in_map_iff in G; destruct G as (? & <- & _); discriminate. }
  { clear F. induction es as [|e es IH]; cbn; auto. }
  unfold owns in Len, V. rewrite own_solo in Len, V. cbn [length app] in Len. destruct (w_os w) as [|d [|]] eqn:Os; try discriminate Len.
  exists w, d. split; [exact E|]. split; [auto|]. split; [|exact (V 0 d eq_refl)].
  unfold whist in E. destruct (o_new T n) as [d0|] eqn:E0; cbn [rbind] in E; [|discriminate].
  assert (G0 : good K L n (mkw [] [d0])) by (split; [apply (o_new_ok T); auto|intros t e []]).
  refine (proj1 (edge_calls T K L n Hn (map Add es) _ w G0 (each_adds T K n es F _) _)). unfold calls. rewrite E. reflexivity.
Qed.
Fixpoint added_from (body : list edge -> list edge) (seen l : list edge) : list edge :=
  match l with [] => [] | e :: l => body (seen ++ [e]) ++ added_from body (seen ++ [e]) l end.
Lemma added_from_eq body l : forall seen, added_from body seen l = flat_map (fun i => body (seen ++ firstn (S i) l)) (seq 0 (length l)).
Proof.
  induction l as [|e l IH]; intros seen; [reflexivity|]. cbn [added_from length seq flat_map firstn]. f_equal. rewrite IH, <- seq_shift. rewrite !flat_map_concat_map, map_map. f_equal.
  apply map_ext. intros i. rewrite <- app_assoc. reflexivity.
Qed.
Lemma added_eq body l : added body l = added_from body [] l.
Proof. symmetry. exact (added_from_eq body l []). Qed.

Theorem C83_edges_inserts_partial : forall T K (L : k2laws K) n es body, th_top T -> (2 <= n)%N -> Forall (in_range n) es -> ~ In (9999999, 9999999)%N es ->
  (forall s, Forall (in_range n) (body s)) ->
  exists w d it l w' d', whist T K n (map (WOp 0) (map Add es)) = Done w /\ w_os w = [d] /\ dk_edge_begin K (view K (w_hp w) d) 0 = Ok it /\
    eloop T K (fun _ _ => True) (o_ks d) (fun s => map Add (body s)) w it [] (LEnd l w') /\
    NoDup l /\ (forall e, In e l <-> In e es) /\ w_os w' = [d'] /\ dk_hist T K n (map Add (es ++ added body l)) = Done (view K (w_hp w') d').
Proof.
  intros T K L n es body HT Hn F M B. destruct (adds_done T K L n es HT Hn F) as (w & d & E & Os & G & H).
  destruct (C06_edge_iterator_inserts T K L n es HT Hn F M) as (g & it & l & Eg & Eb & El & ND & Hl). rewrite H in Eg. injection Eg as <-.
  pose proof (good_obj K L n w 0 d G ltac:(rewrite Os; reflexivity)) as O.
  pose proof (edge_begin_ks K _ it Eb) as Eks. cbn [view DK.ks] in Eks.
  assert (X : forall it l, edge_loop K it l -> forall hh w seen, Forall (in_range n) hh -> whist T K n (map (WOp 0) (map Add hh)) = Done w -> refs_ok (length (w_hp w)) (o_ks d) ->
     map (deref K (w_hp w)) (o_ks d) = ei_ks it ->
     exists w', eloop T K (fun _ _ => True) (o_ks d) (fun s => map Add (body s)) w it seen (LEnd (seen ++ l) w') /\
       whist T K n (map (WOp 0) (map Add (hh ++ added_from body seen l))) = Done w').
  { clear - HT Hn B L. intros it l El. induction El as [it Ee|it it' l Ee Nx El IH]; intros hh w seen Fh Ew R Mk.
    - exists w. cbn [added_from]. rewrite !app_nil_r. split; [constructor; auto|auto].
    - pose proof (B (seen ++ [ei_ptr it])) as Fb. set (b := body (seen ++ [ei_ptr it])) in *.
      assert (Fhb : Forall (in_range n) (hh ++ b)) by (apply Forall_app; auto).
      destruct (adds_done T K L n hh HT Hn Fh) as (w0 & _ & E0 & _ & G0 & _). rewrite Ew in E0. injection E0 as <-.
      destruct (adds_done T K L n (hh ++ b) HT Hn Fhb) as (w1 & _ & E1 & _).
      assert (C : calls T K w (map Add b) = Some w1).
      { unfold calls. unfold whist in Ew, E1. destruct (o_new T n); cbn [rbind] in *; [|discriminate]. rewrite !map_app, wrun_app, Ew in E1. rewrite E1. reflexivity. }
      destruct (edge_calls T K L n Hn _ w w1 G0 (each_adds T K n b Fb w) C) as [G1 [s Hs]].
      assert (M1 : map (deref K (w_hp w1)) (o_ks d) = ei_ks it) by (rewrite Hs, deref_app; auto).
      destruct (IH (hh ++ b) w1 (seen ++ [ei_ptr it]) Fhb E1) as (w' & Hr & Ew').
      { eapply refs_le; [|exact R]. rewrite Hs, app_length. lia. }
      { rewrite M1. symmetry. apply eit_next_ks; auto. }
      exists w'. rewrite <- app_assoc in Hr. split; [eapply el_step; eauto; exact I|]. cbn [added_from]. fold b. rewrite app_assoc. exact Ew'. }
  destruct (X it l El es w [] F E (ob_refs _ _ _ _ O) (eq_sym Eks)) as (w' & Hr & Ew').
  assert (FA : Forall (in_range n) (es ++ added_from body [] l)).
  { apply Forall_app. split; [auto|]. rewrite added_from_eq. apply Forall_flat_map, Forall_forall. intros i _. apply B. }
  destruct (adds_done T K L n _ HT Hn FA) as (w2 & d' & E2 & Os2 & _ & H2). rewrite Ew' in E2. injection E2 as <-.
  exists w, d, it, l, w', d'. rewrite added_eq. repeat (split; [solve [auto]|]). exact H2.
Qed.

(** ** Neighbour loops *)
(** After any history: a body that inserts without a tree being built, and deletes buffered edges, those of the vertex itself only after the loop has seen them,
    is not noticed.  (n <= 2^31: the iterator keeps vertices in an int.) *)
Theorem C83_neighbours_partial : forall T K (L : k2laws K) n h w d x l body, adjf_is_query L -> (2 <= n <= 2 ^ 31)%N -> (x < n)%N -> Forall (wop_in n) h ->
  whist T K n h = Done w -> nth_error (w_os w) 0 = Some d -> dk_neigh K (view K (w_hp w) d) x = Ok l ->
  exists it r, nit_begin K (view K (w_hp w) d) x = Ok it /\
    nloop T K (fun seen w b => each T K (neigh_ok K n x seen) w b) x body w it (cell K (w_hp w) d it) [] r /\ sees K (map Z.of_N l) r.
Proof.
  intros T K L n h w d x l body Q Hn Hx F E Ed El. pose proof (whist_ok T K L n ltac:(lia) h w F E) as W.
  assert (G : good K L n w) by (split; [exact W|apply (query_pure K L n); [exact Q|apply W]]).
  apply (nloop_same T K L n ltac:(lia) x body w d l); auto; lia.
Qed.

(** Deleting every neighbour in the loop over the neighbours works if they are all in the buffer: the loop sees each of them, ends, and leaves the vertex without
    neighbours and the edges of every other vertex as they were.  (If some are in a tree: [C83_delete_refuted].) *)
Lemma delete_buffered T K (L : k2laws K) n x : (2 <= n <= 2 ^ 31)%N -> (x < n)%N -> forall q w d sl k seen, good K L n w -> nth_error (w_os w) 0 = Some d -> c0_inv (o_c0 d) sl -> chain sl x = k :: q ->
  o_r d < length (o_ks d) -> ks_neigh K (upto K (view K (w_hp w) d)) x = [] ->
  exists w' d' sl', nloop T K (fun _ _ _ => True) x (fun s => [Del (x, Z.to_N (last s 0%Z))]) w (bit (snd_at sl k) k) None seen (LEnd (seen ++ map (fun s => Z.of_N (snd_at sl s)) (k :: q)) w') /\
    w_hp w' = w_hp w /\ w_os w' = upd (w_os w) 0 d' /\ c0_inv (o_c0 d') sl' /\ chain sl' x = [] /\ o_ks d' = o_ks d /\ o_r d' = o_r d /\ o_nv d' = o_nv d /\
    o_nt d' = Nat.iter (length (k :: q)) u64_dec (o_nt d) /\ forall u v, u <> x -> (In (u, v) (live_edges sl') <-> In (u, v) (live_edges sl)).
Proof.
  intros Hn2 Hx. induction q as [|s q IH]; intros w d sl k seen G Ed Hc Ch Hr Kn; set (it := bit (snd_at sl k) k); set (y := snd_at sl k) in *.
  all: assert (Ck : In k (chain sl x)) by (rewrite Ch; left; auto); destruct (live_small K n d sl x k w (proj2 Hn2) Hc (live_in K L n w d sl G Ed Hc) Ck) as [_ Ly]; fold y in Ly.
  all: apply chain_In in Ck; destruct Ck as [y0 Ck]; assert (y0 = y) by (unfold y, snd_at; rewrite Ck; reflexivity); subst y0.
  all: assert (Lv : In (x, y) (live_edges sl)) by (apply In_live_edges; eauto).
  all: destruct (erase_present _ _ _ Hc Lv) as (c' & j & Er & Ej & Hc' & _); assert (j = k) by exact (inv_uniq _ _ Hc _ _ _ Ej Ck); subst j.
  all: set (d1 := mkobj (o_r d) (o_nv d) (u64_dec (o_nt d)) c' (o_ks d)); set (w1 := mkw (w_hp w) (upd (w_os w) 0 d1)).
  all: assert (C : calls T K w [Del (x, Z.to_N (last (seen ++ [ni_ptr it]) 0%Z))] = Some w1)
         by (rewrite last_last; cbn [it bit ni_ptr]; rewrite N2Z.id; unfold calls; cbn [map wrun wstep]; rewrite Ed; cbn [o_op]; unfold o_del; rewrite Er; reflexivity).
  all: assert (Ed1 : nth_error (w_os w1) 0 = Some d1) by (cbn; destruct (w_os w); [discriminate|reflexivity]).
  all: assert (G1 : good K L n w1)
         by (refine (proj1 (edge_step T K L n (proj1 Hn2) w (Del (x, y)) w1 G _ _)); [cbn [wstep]; rewrite Ed; cbn [o_op]; unfold o_del; rewrite Er; reflexivity|
         split; [split; cbn; lia|exists d; split; [auto|rewrite (inv_contains _ _ _ Hc), (proj2 (emem_In _ _) Lv); reflexivity]]]).
  all: assert (Ne : nit_at_end it = false) by (unfold nit_at_end, it, bit; cbn [ni_ptr]; apply Z.eqb_neq; lia).
  all: pose proof (iv_chain _ _ Hc x) as Lk; rewrite Ch in Lk; cbn [linked] in Lk; destruct Lk as [Lk _].
  all: destruct (erase_nx _ _ _ k k _ Er (proj2 (iv_lst _ _ Hc _ _) Ck) Lk) as (nd & Q2 & Q3); [intros dj Dj; rewrite Lk in Dj; injection Dj as <-; discriminate|].
  all: assert (Post : c0it_post (C0_ (view K (w_hp w1) d1)) (ni_c0 it) = c0it_next c' (mkc0it (Z.of_N y) k))
         by (unfold c0it_post; cbn [it bit ni_c0 ci_ptr view C0_ d1 o_c0]; destruct (Z.eqb_spec (Z.of_N y) (-1)); [lia|reflexivity]).
  all: unfold c0it_next in Post; cbn [ci_k] in Post; rewrite (proj2 (get_Ok _ _ _) Q2) in Post; cbn [obind] in Post; rewrite Q3 in Post; cbn [nx hd_error] in Post.
  all: assert (LE : forall u v, u <> x -> (In (u, v) (live_edges (kill sl k)) <-> In (u, v) (live_edges sl)))
         by (intros u v Nu; rewrite (live_edges_kill _ _ _ (inv_uniq _ _ Hc) Ck), filter_In; destruct (eeqb (x, y) (u, v)) eqn:Z; [apply eeqb_eq in Z; congruence|cbn [negb]; split; [intros [W _]; exact W|auto]]).
  - assert (Nx : nit_next K (view K (w_hp w1) d1) x it = Ok (from_start K (view K (w_hp w) d) x (mkc0it (-1) k))).
    { unfold nit_next. cbn [it bit ni_c0i ni_cur]. fold it. rewrite Post. cbn [obind ci_ptr Z.eqb negb Pos.eqb]. cbn [view DK.ks max_r d1 o_ks o_r w1 w_hp].
      rewrite map_length, (proj2 (Nat.ltb_lt _ _) Hr). unfold from_start, upto. cbn [view DK.ks max_r]. destruct (scan_n K _ x 0) as [[i r]|]; reflexivity. }
    assert (FS : nit_at_end (from_start K (view K (w_hp w) d) x (mkc0it (-1) k)) = true).
    { pose proof (from_start_loop K (view K (w_hp w) d) x (mkc0it (-1) k) ltac:(cbn [view DK.ks max_r]; rewrite map_length; exact Hr)) as FL. rewrite Kn in FL. specialize (FL ltac:(constructor)).
      cbn [map] in FL. unfold neigh_loop in FL. inversion FL; auto. }
    exists w1, d1, (kill sl k). split.
    + refine (nl_step T K _ x _ w it None seen w1 d1 _ _ Ne I C I Ed1 Nx _). apply nl_end. exact FS.
    + repeat (split; [reflexivity || exact Hc' |]). split; [|repeat (split; [reflexivity|]); exact LE].
      rewrite chain_kill, Ch. cbn [filter]. rewrite Nat.eqb_refl. reflexivity.
  - assert (Ns : ~ In k (s :: q)) by (pose proof (chain_nodup sl x) as ND; rewrite Ch in ND; inversion ND; auto).
    assert (Ch1 : chain (kill sl k) x = s :: q).
    { assert (FO : filter (fun i => negb (i =? k)) (s :: q) = s :: q) by (apply filter_out; intros a Ha; destruct (Nat.eqb_spec a k) as [-> |]; [contradiction|reflexivity]).
      rewrite chain_kill, Ch. cbn [filter] in FO |- *. rewrite Nat.eqb_refl. exact FO. }
    assert (Cs : In s (chain (kill sl k) x)) by (rewrite Ch1; left; auto).
    destruct (live_small K n d1 (kill sl k) x s w1 (proj2 Hn2) Hc' (live_in K L n w1 d1 _ G1 Ed1 Hc') Cs) as [Na Nb]. cbn [d1 o_c0] in Na. rewrite Na in Post. cbn [obind snd] in Post.
    assert (Nx : nit_next K (view K (w_hp w1) d1) x it = Ok (bit (snd_at (kill sl k) s) s)).
    { unfold nit_next. cbn [it bit ni_c0i ni_cur ni_kit]. fold it. rewrite Post. cbn [obind ci_ptr]. destruct (Z.eqb_spec (Z.of_N (snd_at (kill sl k) s)) (-1)) as [X|X]; [lia|]. cbn [negb].
      rewrite to_int_id by lia. reflexivity. }
    destruct (IH w1 d1 (kill sl k) s (seen ++ [Z.of_N y]) G1 Ed1 Hc' Ch1 Hr Kn) as (w' & d' & sl' & Hl & H1 & H2 & H3 & H4 & H5 & H6 & H7 & H8 & H9).
    exists w', d', sl'. split.
    + refine (nl_step T K _ x _ w it None seen w1 d1 _ _ Ne I C I Ed1 Nx _). cbn [stayed it bit ni_cur]. rewrite <- app_assoc in Hl. cbn [app map] in Hl |- *.
      rewrite kill_snd in Hl. rewrite (map_ext (fun s => Z.of_N (snd_at (kill sl k) s)) (fun s => Z.of_N (snd_at sl s))) in Hl by (intros a; rewrite kill_snd; reflexivity).
      rewrite kill_snd. cbn [cell bit ni_c0i orb]. exact Hl.
    + split; [exact H1|]. split; [rewrite H2; cbn [w1 w_os]; destruct (w_os w); reflexivity|]. repeat (split; [assumption|]).
      split; [rewrite H8; cbn [length d1 o_nt]; clear; induction (length q) as [|m IHm]; [reflexivity|]; cbn [Nat.iter nat_rect] in *; rewrite IHm; reflexivity|].
      intros u v Nu. rewrite (H9 u v Nu). apply LE, Nu.
Qed.
Theorem C83_delete_neighbours_partial : forall T K (L : k2laws K) n h w d x l, adjf_is_query L -> (2 <= n <= 2 ^ 31)%N -> (x < n)%N -> Forall (wop_in n) h ->
  whist T K n h = Done w -> nth_error (w_os w) 0 = Some d -> dk_neigh K (view K (w_hp w) d) x = Ok l -> c0_neigh (o_c0 d) x = Ok l ->
  exists it w' d', nit_begin K (view K (w_hp w) d) x = Ok it /\
    nloop T K (fun _ _ _ => True) x (fun seen => [Del (x, Z.to_N (last seen 0%Z))]) w it (cell K (w_hp w) d it) [] (LEnd (map Z.of_N l) w') /\
    nth_error (w_os w') 0 = Some d' /\ dk_neigh K (view K (w_hp w') d') x = Ok [] /\
    (forall u v, u <> x -> dk_contains K (view K (w_hp w') d') u v = dk_contains K (view K (w_hp w) d) u v) /\
    ((N.of_nat (length l) <= dk_edges K (view K (w_hp w) d))%N -> dk_edges K (view K (w_hp w') d') = (dk_edges K (view K (w_hp w) d) - N.of_nat (length l))%N).
Proof.
  intros T K L n h w d x l Q Hn Hx F E Ed El El0. pose proof (whist_ok T K L n ltac:(lia) h w F E) as W.
  assert (G : good K L n w) by (split; [exact W|apply (query_pure K L n); [exact Q|apply W]]).
  destruct (ob_c0 _ _ _ _ (good_obj K L n w 0 d G Ed)) as (sl & Hc & Fr).
  unfold dk_neigh in El. cbn [view C0_ max_r DK.ks] in El. rewrite El0 in El. cbn [obind] in El. rewrite map_length in El. destruct (Nat.ltb_spec (o_r d) (length (o_ks d))) as [Hr|]; [|discriminate].
  injection El as El. rewrite <- (app_nil_r l) in El at 2. apply app_inv_head in El.
  assert (Kn : ks_neigh K (upto K (view K (w_hp w) d)) x = []) by exact El.
  pose proof El0 as Ec. rewrite (inv_neigh _ _ x Hc), <- chain_neigh in El0. injection El0 as <-.
  destruct (chain sl x) as [|k q] eqn:Ch.
  - exists (from_start K (view K (w_hp w) d) x (mkc0it (-1) 0)), w, d.
    assert (FS : nit_at_end (from_start K (view K (w_hp w) d) x (mkc0it (-1) 0)) = true).
    { pose proof (from_start_loop K (view K (w_hp w) d) x (mkc0it (-1) 0) ltac:(cbn [view DK.ks max_r]; rewrite map_length; exact Hr)) as FL. rewrite Kn in FL. specialize (FL ltac:(constructor)).
      cbn [map] in FL. unfold neigh_loop in FL. inversion FL; auto. }
    split. { unfold nit_begin, c0it_begin. cbn [view C0_ max_r DK.ks]. rewrite (iv_adj _ _ Hc), Ch. cbn [hd_error obind ci_ptr Z.eqb Pos.eqb negb]. rewrite map_length, (proj2 (Nat.ltb_lt _ _) Hr).
      unfold from_start. destruct (scan_n K _ x 0) as [[i r]|]; reflexivity. }
    split; [apply nl_end; exact FS|]. split; [auto|]. split; [|split; [auto|intros _; cbn; lia]].
    unfold dk_neigh. cbn [view C0_ max_r DK.ks]. rewrite Ec. cbn [map obind]. rewrite map_length, (proj2 (Nat.ltb_lt _ _) Hr). cbn [app]. unfold upto in Kn. cbn [view max_r DK.ks] in Kn. rewrite Kn. reflexivity.
  - destruct (delete_buffered T K L n x Hn Hx q w d sl k [] G Ed Hc Ch Hr Kn) as (w' & d' & sl' & Hl & H1 & H2 & H3 & H4 & H5 & H6 & H7 & H8 & H9).
    assert (Ck : In k (chain sl x)) by (rewrite Ch; left; auto). destruct (live_small K n d sl x k w (proj2 Hn) Hc Fr Ck) as [Na Nb].
    assert (Els : c_els (o_c0 d) <> []). { intros Z. pose proof (iv_chain _ _ Hc x) as Lk. rewrite Ch in Lk. cbn [linked] in Lk. rewrite Z in Lk. destruct Lk as [Lk _]. destruct k; discriminate. }
    assert (V' : forall u v, u <> x -> c0_contains (o_c0 d') (u, v) = c0_contains (o_c0 d) (u, v)).
    { intros u v Nu. rewrite (inv_contains _ _ _ H3), (inv_contains _ _ _ Hc). f_equal. specialize (H9 u v Nu). rewrite <- !emem_In in H9.
      destruct (emem (u, v) (live_edges sl')), (emem (u, v) (live_edges sl)); auto; [symmetry|]; apply H9; auto. }
    exists (bit (snd_at sl k) k), w', d'. split.
    { unfold nit_begin, c0it_begin. cbn [view C0_]. rewrite (iv_adj _ _ Hc), Ch. cbn [hd_error]. destruct (c_els (o_c0 d)); [contradiction|]. rewrite Na. cbn [obind snd ci_ptr].
      destruct (Z.eqb_spec (Z.of_N (snd_at sl k)) (-1)) as [X|X]; [lia|]. cbn [negb]. rewrite to_int_id by lia. reflexivity. }
    split; [rewrite map_map; exact Hl|]. split; [rewrite H2; destruct (w_os w); [discriminate|reflexivity]|]. split; [|split].
    + unfold dk_neigh. cbn [view C0_ max_r DK.ks]. rewrite (inv_neigh _ _ x H3), <- chain_neigh, H4. cbn [map obind]. rewrite map_length, H5, H6, (proj2 (Nat.ltb_lt _ _) Hr), H1. cbn [app].
      unfold upto in Kn. cbn [view max_r DK.ks] in Kn. rewrite Kn. reflexivity.
    + intros u v Nu. unfold dk_contains. cbn [view C0_ DK.ks]. rewrite (V' u v Nu), H5, H1. reflexivity.
    + unfold dk_edges. cbn [view nt]. rewrite H8, map_length. generalize (length (k :: q)) as m. generalize (o_nt d) as t. clear. intros t m. induction m as [|m IH]; intros H; [cbn; lia|].
      cbn [Nat.iter nat_rect]. fold (Nat.iter m u64_dec t). unfold Nat.iter in IH |- *. rewrite IH by lia. unfold u64_dec. destruct (N.eqb_spec (t - N.of_nat m) 0); lia.
Qed.
