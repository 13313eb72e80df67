(** * C83, continued: what makes a loop over the neighbours of a vertex fail. *)
From Verif Require Import Base Spec AlgoSpec Thresholds Table K2 C0 C0Proof DK DKProof DKHist Prop_DK Iter IterProof Prop_Iter Alias AliasProof AliasFrame Prop_Alias IterMod IterModProof Prop_AlgoObj Prop_IterMod.

Local Notation any := (fun _ _ _ => True).

(** The tree that (6,7), (0,7) leave. *)
Lemma neigh1 K (L : k2laws K) n t x y : wf L n t -> (x < n)%N -> (forall z, In (x, z) (kt_edges K t) <-> z = y) -> kt_neigh K t x = [y].
Proof.
  intros W Hx H. pose proof (law_neigh_nodup L n t x W Hx) as ND. assert (I : forall z, In z (kt_neigh K t x) <-> z = y) by (intros z; rewrite (law_neigh L n t x z W Hx); apply H).
  destruct (kt_neigh K t x) as [|a [|b r]].
  - destruct (proj2 (I y) eq_refl).
  - f_equal. apply I. left; auto.
  - exfalso. inversion ND as [|? ? N _]. apply N. left. rewrite (proj1 (I a)), (proj1 (I b)); cbn; auto.
Qed.
Lemma t82_more K (L : k2laws K) : kt_neigh K (t82 K) 6 = [7%N] /\ kt_total K (t82 K) = 2%N /\ kt_adjf K (t82 K) 0 7 = (true, t82 K) /\
  kt_adjf K (t82 K) 1 2 = (false, t82 K) /\ kt_adjf K (t82 K) 3 4 = (false, t82 K).
Proof.
  destruct (t82_facts K L) as [W C]. assert (ND : NoDup [(6, 7); (0, 7)]%N) by (repeat constructor; cbn; intuition congruence).
  split; [|split; [|split]].
  - apply (neigh1 K L 8); [exact W|lia|]. intros z. rewrite C. cbn. intuition congruence.
  - rewrite (law_total L 8 _ W). destruct (law_build L 8 [(6, 7); (0, 7)]%N) as [_ [B _]]; [lia|discriminate|exact ND|repeat constructor|]. unfold t82 at 2. rewrite B.
    assert (P : Permutation (kt_edges K (t82 K)) [(6, 7); (0, 7)]%N) by (apply NoDup_Permutation; auto; apply (law_edges_nodup L 8); auto). rewrite (Permutation_length P). reflexivity.
  - assert (I : In (0, 7)%N (kt_edges K (t82 K))) by (apply C; cbn; auto).
    destruct (law_adjf L 8 (t82 K) 0 7 W ltac:(lia) ltac:(lia)) as [A _]. rewrite (surjective_pairing (kt_adjf K (t82 K) 0 7)). f_equal; [apply A, (law_known_live L 8); auto|].
    apply (law_adjf_live L 8); auto; lia.
  - assert (X : forall x y, (x < 8)%N -> (y < 8)%N -> ~ In (x, y) [(6, 7); (0, 7)]%N -> kt_adjf K (t82 K) x y = (false, t82 K)).
    { intros x y Hx Hy N. destruct (law_adjf L 8 (t82 K) x y W Hx Hy) as [A B]. rewrite (surjective_pairing (kt_adjf K (t82 K) x y)).
      destruct (fst (kt_adjf K (t82 K) x y)) eqn:E; [|rewrite B; reflexivity]. exfalso. apply N. apply (law_known_build L 8); [lia|discriminate|exact ND|repeat constructor|]. apply A. reflexivity. }
    split; apply X; try lia; cbn; intuition congruence.
Qed.

(** An insertion that empties the buffer while the loop is in it: the loop goes over into the tree that now holds the edges it has already seen. *)
Theorem C83_twice_refuted : forall T K (L : k2laws K), th_real T ->
  exists w d it w', whist T K 8 [WOp 0 (Add (6, 7)%N)] = Done w /\ w_os w = [d] /\ dk_neigh K (view K (w_hp w) d) 6 = Ok [7%N] /\
    nit_begin K (view K (w_hp w) d) 6 = Ok it /\ nloop T K any 6 (fun _ => [Add (0, 7)%N]) w it (cell K (w_hp w) d it) [] (LEnd [7; 7]%Z w').
Proof.
  intros T K L HT. destruct (t82_more K L) as (Nb & _ & Aj & _). unfold t82 in *. clear L. destruct K as [? ? ? ? ? ? ? ? ? ? ? ? ? ?]. cbn [K2.kt_neigh K2.kt_adjf K2.kt_build K2.kt] in *.
  rewrite <- (tabled_eq T HT). do 4 eexists. split; [vm_compute; reflexivity|]. split; [reflexivity|]. split; [vm_compute; reflexivity|]. split; [vm_compute; reflexivity|].
  eapply nl_step; [reflexivity|exact I|vm_compute; reflexivity|exact I|reflexivity|lazy -[to_int]; rewrite Nb; vm_compute; reflexivity|].
  eapply nl_step; [reflexivity|exact I|lazy; rewrite Aj; reflexivity| |reflexivity|vm_compute; reflexivity|].
  - lazy. split; [|reflexivity]. eexists. split; [left; reflexivity|]. cbn. auto.
  - apply nl_end. reflexivity.
Qed.

(** An insertion that merges the tree the loop is in: the tree is destroyed, and the loop uses it (use after free).  The body only inserts, and only edges of
    other vertices. *)
Theorem C83_dangling_refuted : forall T K (L : k2laws K), th_real T ->
  exists w d it, whist T K 8 [WOp 0 (Add (6, 7)); WOp 0 (Add (0, 7))]%N = Done w /\ w_os w = [d] /\ dk_neigh K (view K (w_hp w) d) 6 = Ok [7%N] /\
    nit_begin K (view K (w_hp w) d) 6 = Ok it /\ nloop T K any 6 (fun _ => [Add (1, 2); Add (3, 4)]%N) w it (cell K (w_hp w) d it) [] LDead.
Proof.
  intros T K L HT. destruct (t82_more K L) as (Nb & Tt & _ & A1 & A2). unfold t82 in *. clear L. destruct K as [? ? ? ? ? ? ? ? ? ? ? ? ? ?]. cbn [K2.kt_neigh K2.kt_total K2.kt_adjf K2.kt_build K2.kt] in *.
  rewrite <- (tabled_eq T HT). do 3 eexists. split; [vm_compute; reflexivity|]. split; [reflexivity|]. split; [lazy; rewrite Nb; reflexivity|].
  split; [lazy -[to_int]; rewrite Nb; vm_compute; reflexivity|].
  eapply nl_dead; [reflexivity|rewrite calls_cons; match goal with |- context [wstep ?a ?b ?c ?d] => eassert (Y : wstep a b c d = Done _) by (lazy; rewrite A1; lazy; reflexivity); rewrite Y; clear Y end;
    lazy; rewrite A2; lazy; rewrite Tt; lazy; reflexivity|].
  intros (d & [<-|[]] & H). cbn in H. intuition discriminate.
Qed.

(** A deletion of the edge just seen, in a tree: del_edge rebuilds everything into a new tree, and the loop uses the old one.  So "delete every neighbour of a
    vertex in a loop over its neighbours" fails as soon as one of them is in a tree. *)
Lemma t82_erased K (L : k2laws K) : exists t, kt_erase K (t82 K) 6 7 = (true, t) /\ kt_marked K t = 1%N /\ kt_total K t = 2%N /\ kt_adj K t 1 1 = false /\ kt_adjf K t 1 1 = (false, t).
Proof.
  destruct (t82_facts K L) as [W C]. assert (ND : NoDup [(6, 7); (0, 7)]%N) by (repeat constructor; cbn; intuition congruence).
  assert (I : In (6, 7)%N (kt_edges K (t82 K))) by (apply C; cbn; auto).
  pose proof (proj2 (law_erase_res L 8 (t82 K) 6 7 W ltac:(lia) ltac:(lia)) I) as R. destruct (law_erase L 8 (t82 K) 6 7 W ltac:(lia) ltac:(lia)) as (W' & E' & M').
  destruct (law_build L 8 [(6, 7); (0, 7)]%N) as [_ [B _]]; [lia|discriminate|exact ND|repeat constructor|]. fold (t82 K) in B. rewrite R, B in M'.
  exists (snd (kt_erase K (t82 K) 6 7)). split; [rewrite (surjective_pairing (kt_erase K (t82 K) 6 7)), R; reflexivity|]. set (t := snd (kt_erase K (t82 K) 6 7)) in *.
  split; [exact M'|]. split; [|split].
  - rewrite (law_total L 8 _ W'), M'. assert (P : Permutation (kt_edges K t) [(0, 7)]%N).
    { apply NoDup_Permutation; [apply (law_edges_nodup L 8); auto|repeat constructor; auto|]. intros e. rewrite E', C. cbn. intuition congruence. }
    rewrite (Permutation_length P). reflexivity.
  - destruct (kt_adj K t 1 1) eqn:X; auto. apply (law_adj L 8 t 1 1 W' ltac:(lia) ltac:(lia)) in X. apply E' in X. rewrite C in X. cbn in X. intuition congruence.
  - destruct (law_adjf L 8 t 1 1 W' ltac:(lia) ltac:(lia)) as [A A']. rewrite (surjective_pairing (kt_adjf K t 1 1)).
    destruct (fst (kt_adjf K t 1 1)) eqn:E; [|rewrite A'; reflexivity]. exfalso. pose proof (proj1 A eq_refl) as Kn. apply (law_known_erase L 8) in Kn; [|exact W|lia|lia].
    apply (law_known_build L 8) in Kn; [cbn in Kn; intuition congruence|lia|discriminate|exact ND|repeat constructor].
Qed.
Theorem C83_delete_refuted : forall T K (L : k2laws K), th_real T ->
  exists w d it, whist T K 8 [WOp 0 (Add (6, 7)); WOp 0 (Add (0, 7))]%N = Done w /\ w_os w = [d] /\ dk_neigh K (view K (w_hp w) d) 6 = Ok [7%N] /\
    nit_begin K (view K (w_hp w) d) 6 = Ok it /\ nloop T K any 6 (fun seen => [Del (6%N, Z.to_N (last seen 0%Z))]) w it (cell K (w_hp w) d it) [] LDead.
Proof.
  intros T K L HT. destruct (t82_more K L) as (Nb & _). destruct (t82_erased K L) as (t & Er & Mk & Tt & Ad & Af). unfold t82 in *. clear L. destruct K as [? ? ? ? ? ? ? ? ? ? ? ? ? ?].
  cbn [K2.kt_neigh K2.kt_total K2.kt_adjf K2.kt_build K2.kt K2.kt_erase K2.kt_marked K2.kt_adj] in *.
  destruct (kt_erase (kt_union (kt_build [(1, 1)]%N 8%N) t) 1%N 1%N) as [b1 t1] eqn:E1.
  rewrite <- (tabled_eq T HT). do 3 eexists. split; [vm_compute; reflexivity|]. split; [reflexivity|]. split; [lazy; rewrite Nb; reflexivity|].
  split; [lazy -[to_int]; rewrite Nb; vm_compute; reflexivity|].
  eapply nl_dead; [reflexivity| |].
  - lazy. rewrite Er. lazy. rewrite Mk, Tt. lazy. rewrite Ad. lazy. rewrite Af. lazy. rewrite E1. reflexivity.
  - intros (d & [<-|[]] & H). cbn in H. intuition discriminate.
Qed.

(** ** The hypotheses are met *)
(** Insertions: es83 into 8 vertices, (several trees); a body that inserts after each edge (x,y) it sees the edge (y,x): trees are built during the loop. *)
Definition es83 : list edge := [(0, 1); (1, 2); (2, 3); (3, 4); (4, 5); (5, 6); (6, 7)]%N.
Definition rev83 (s : list edge) : list edge := match rev s with (x, y) :: _ => if (N.ltb x 8 && N.ltb y 8)%bool then [(y, x)] else [] | [] => [] end.
Example ex83_inserts : Forall (in_range 8) es83 /\ ~ In (9999999, 9999999)%N es83 /\ (forall s, Forall (in_range 8) (rev83 s)) /\
  added rev83 [(6, 7); (0, 1)]%N = [(7, 6); (1, 0)]%N.
Proof.
  split; [repeat constructor; cbn; lia|]. split; [cbn; intuition discriminate|]. split; [|reflexivity].
  intros s. unfold rev83. destruct (rev s) as [|[x y] r]; [constructor|]. destruct (N.ltb_spec x 8), (N.ltb_spec y 8); cbn; repeat constructor; cbn; lia.
Qed.
(** For the others: a history with a deletion and a copy, and a buffer that holds (2,4), (2,5).  The loop over the neighbours of 2 with a body that deletes the edge
    just seen sees [5; 4] and ends; the body is in the class of C83_neighbours_partial, and of C83_edges_partial when it is run once. *)
Definition h83 : list wop := (map (WOp 0) (map Add [(0, 1); (0, 2); (0, 3)]) ++ [WOp 0 (Del (0, 2)); WCopy 0; WOp 0 (Add (2, 4)); WOp 0 (Add (2, 5))])%N.
Example ex83_hyp : forall T, th_real T -> Forall (wop_in 16) h83 /\ exists w d it, whist T K2Ref 16 h83 = Done w /\ nth_error (w_os w) 0 = Some d /\ length (w_hp w) = 1 /\ length (w_os w) = 2 /\
  dk_neigh K2Ref (view K2Ref (w_hp w) d) 2 = Ok [5; 4]%N /\ c0_neigh (o_c0 d) 2 = Ok [5; 4]%N /\
  dk_edge_begin K2Ref (view K2Ref (w_hp w) d) 0 = Ok it /\ edge_loop K2Ref it [(2, 4); (2, 5); (0, 1); (0, 3)]%N /\
  each T K2Ref (neigh_ok K2Ref 16 2 [5]%Z) w [Add (0, 3); Del (2, 5)]%N /\ each T K2Ref (edge_ok K2Ref 16) w [Del (2, 5); Add (0, 1); Del (2, 4)]%N /\ each T K2Ref (edge_ok K2Ref 16) w [Add (7, 7); Add (8, 8); Add (9, 9); Del (8, 8)]%N.
Proof.
  intros T HT. rewrite <- (tabled_eq T HT). split; [repeat constructor; cbn; lia|]. do 3 eexists. split; [vm_compute; reflexivity|]. do 3 (split; [reflexivity|]).
  split; [vm_compute; reflexivity|]. split; [vm_compute; reflexivity|]. split; [vm_compute; reflexivity|]. split.
  { do 4 (eapply visits_cons; [vm_compute; reflexivity|vm_compute; reflexivity|vm_compute; reflexivity|]). apply visits_end. reflexivity. }
  split; [|split].
  - vm_compute. split; [split; [split; reflexivity|]|]; [do 2 eexists; repeat split|]. split; [split; [split; reflexivity|split; [eexists; split; reflexivity|auto]]|exact I].
  - vm_compute. split; [split; [split; reflexivity|eexists; split; reflexivity]|]. split; [split; reflexivity|]. split; [split; [split; reflexivity|eexists; split; reflexivity]|exact I].
  - vm_compute. do 3 (split; [split; reflexivity|]). split; [split; [split; reflexivity|eexists; split; reflexivity]|exact I].
Qed.
