(** * BgIter: a loop over the edges, or over the neighbours of a vertex, of a background graph while the merging thread goes on.

    Model of edge_begin() and of a loop from neighbour_begin(x) to neighbour_end() as steps of the calling thread, interleaved with the
    steps of the merging thread ([back_step], Bg.v).  DKtree_background.hpp:262-310 (DKtree_background_wait.hpp:303-351 is the same),
    DKtreeEdgeIterator.hpp:52-86, DKtreeNeighbourIterator.hpp:23-118.
    The edge iterator copies the buffer (which only the calling thread uses) and then, element by element, the array of shared
    pointers k_collection; afterwards it only uses its copies.  The neighbour iterator keeps a pointer to the graph: it reads max_r and
    k_collection whenever it looks for the next tree, and inside a tree it uses the tree object without holding a shared pointer to it.
    Simplifications: the neighbours in the buffer are listed in one step (the buffer is not shared); inside a tree the iterator is the
    list of what it has still to yield; the object of a tree ends when the merging thread resets its element of k_collection (:56; the
    copies in k_collection_background are objects of their own), unless an edge iterator of the same graph still holds it. *)
From Verif Require Import Base Spec AlgoSpec Thresholds K2 C0 C0Proof DK DKProof DKHist Iter IterProof Prop_Iter Algo AlgoProof TriProof Prop_Algo ViewProof Delay MunroProof BgSpec Bg BgProof BgView.

Section M.
Context (T : thresholds) (K : k2impl).
Local Notation ktree := (kt K).

(** Where the loop is. *)
Inductive xpc :=
| XCopy (acc : list (option ktree))                          (* :67-69 of the graph: the elements copied so far *)
| XGot (l : list (option ktree))                             (* edge_begin() has returned *)
| XLev (x : N) (out : list N) (i : nat)                      (* NeighbourIterator :33, :79, :99: about to look at k_collection[i] *)
| XIn (x : N) (out : list N) (i : nat) (alive : bool) (r : list N)  (* :92: inside the tree of level i *)
| XEnd (out : list N).                                       (* the loop has ended; the values seen *)

(** A step of the calling thread. *)
Definition xmain (g : bg K) (p : xpc) : out xpc :=
  match p with
  | XCopy acc => match nth_error (b_ks g) (length acc) with Some o => Ok (XCopy (acc ++ [o])) | None => Ok (XGot acc) end
  | XGot l => Ok (XGot l)
  | XLev x out i =>
    if i <=? b_maxr g then
      match nth_error (b_ks g) i with
      | None => UB
      | Some None => Ok (XLev x out (S i))
      | Some (Some t) => match kt_neigh K t x with [] => Ok (XLev x out (S i)) | y :: r => Ok (XIn x (out ++ [y]) i true r) end
      end
    else Ok (XEnd out)
  | XIn x out i alive r =>
    if alive then match r with y :: r => Ok (XIn x (out ++ [y]) i true r) | [] => Ok (XLev x out (S i)) end else UB
  | XEnd out => Ok (XEnd out)
  end.
(** The next step of the merging thread resets k_collection[i], DKtree_background.hpp:54-57. *)
Definition resets (b : bpc K) (i : nat) : bool := match b with BMerge _ k j => ((j =? i) && (j <=? k))%bool | _ => false end.
Definition xback (g : bg K) (p : xpc) : xpc :=
  match p with XIn x out i alive r => XIn x out i (alive && negb (resets (b_b g) i)) r | _ => p end.

(** A schedule: true, a step of the calling thread; false, one of the merging thread. *)
Fixpoint xrun (s : list bool) (g : bg K) (p : xpc) : out (bg K * xpc) :=
  match s with
  | [] => Ok (g, p)
  | true :: s => let* p := xmain g p in xrun s g p
  | false :: s => let* g' := back_step T K g in xrun s g' (xback g p)
  end.

(** The loops begin. *)
Definition edge_begin_bg : xpc := XCopy [].
Definition neigh_begin_bg (g : bg K) (x : N) : out xpc := let* l := c0_neigh (b_c0 g) x in Ok (XLev x l 0).
(** The graph the edge iterator sees: the buffer of the moment edge_begin() was called, and the copied array. *)
Definition xsnap (g : bg K) (l : list (option ktree)) : dk K := mkdk (b_maxr g) (b_n g) (b_nt g) (b_c0 g) l.

(** Data races: what the next step of the calling thread reads, against Bg.back_acc *)
Definition xacc (p : xpc) : list loc :=
  match p with XCopy _ => [LKs] | XLev _ _ _ => [LMaxR; LKs] | _ => [] end.
Definition xrace (g : bg K) (p : xpc) : Prop := exists l, In l (xacc p) /\ In (l, true) (back_acc K (b_b g)).
End M.
Arguments XCopy {K}. Arguments XGot {K}. Arguments XLev {K}. Arguments XIn {K}. Arguments XEnd {K}.

Section P.
Context (wt : bool) (T : thresholds) (K : k2impl) (L : k2laws K) (n : N) (Hn : (2 <= n)%N) (HT : th_top T).

(** ** No merge when the loop begins: the merging thread only polls *)
Lemma idle_back (g : bg K) : b_nw g = false -> b_b g = BPoll -> back_step T K g = Ok g.
Proof. intros W B. unfold back_step. rewrite B, W. reflexivity. Qed.
Lemma idle_xback (g : bg K) p : b_b g = BPoll -> xback K g p = p.
Proof. intros B. destruct p; cbn; auto. rewrite B. cbn. rewrite andb_true_r. reflexivity. Qed.

Definition xok (g : bg K) (x0 : N) (out0 : list N) (p : xpc K) : Prop :=
  match p with
  | XCopy acc => acc = firstn (length acc) (b_ks g)
  | XGot l => l = b_ks g
  | XLev x out i => x = x0 /\ out = out0 ++ nbrs K x (firstn i (b_ks g))
  | XIn x out i alive r => x = x0 /\ alive = true /\ i < length (b_ks g) /\ out ++ r = out0 ++ nbrs K x (firstn (S i) (b_ks g))
  | XEnd out => out = out0 ++ nbrs K x0 (firstn (S (b_maxr g)) (b_ks g))
  end.
Lemma nbrs_S x (l : list (option (kt K))) i o : nth_error l i = Some o ->
  nbrs K x (firstn (S i) l) = nbrs K x (firstn i l) ++ match o with Some t => kt_neigh K t x | None => [] end.
Proof. intros E. rewrite (firstn_S _ _ _ E). unfold nbrs. rewrite flat_map_app. cbn. rewrite app_nil_r. reflexivity. Qed.

Lemma xmain_idle (g : bg K) x0 out0 p : b_maxr g < length (b_ks g) -> none_above K (b_maxr g) (b_ks g) ->
  (match p with XLev _ _ i => i <= S (b_maxr g) | XIn _ _ i _ _ => i <= b_maxr g | _ => True end) -> xok g x0 out0 p ->
  exists p', xmain K g p = Ok p' /\ xok g x0 out0 p' /\ (match p' with XLev _ _ i => i <= S (b_maxr g) | XIn _ _ i _ _ => i <= b_maxr g | _ => True end).
Proof using.
  clear Hn HT. intros R A B X. destruct p as [acc|l|x out i|x out i al r|out]; cbn [xmain xok] in *.
  - destruct (nth_error (b_ks g) (length acc)) as [o|] eqn:E; eexists; (split; [reflexivity|]); split; auto; cbn [xok].
    + rewrite app_length. cbn [length]. rewrite Nat.add_1_r, (firstn_S _ _ _ E). congruence.
    + apply nth_error_None in E. rewrite X. apply firstn_all2. exact E.
  - eauto.
  - destruct X as [-> X]. destruct (Nat.leb_spec i (b_maxr g)) as [G|G].
    + destruct (nth_error (b_ks g) i) as [[t|]|] eqn:E; [| |apply nth_error_None in E; lia].
      * destruct (kt_neigh K t x0) as [|y r] eqn:En; eexists; (split; [reflexivity|]); cbn [xok].
        -- split; [|lia]. split; auto. rewrite (nbrs_S _ _ _ _ E), En, app_nil_r. exact X.
        -- split; [|lia]. do 2 (split; [auto|]). split; [lia|]. rewrite (nbrs_S _ _ _ _ E), En, app_assoc, <- X, <- app_assoc. reflexivity.
      * eexists. split; [reflexivity|]. cbn [xok]. split; [|lia]. split; auto. rewrite (nbrs_S _ _ _ _ E), app_nil_r. exact X.
    + eexists. split; [reflexivity|]. cbn [xok]. split; auto. rewrite X. replace i with (S (b_maxr g)) by lia. reflexivity.
  - destruct X as (-> & -> & I & X). destruct r as [|y r]; eexists; (split; [reflexivity|]); cbn [xok]; split; auto; try lia.
    + rewrite app_nil_r in X. auto.
    + split; [auto|]. split; [auto|]. split; auto. rewrite <- app_assoc. exact X.
  - eauto.
Qed.

Lemma xrun_idle s : forall (g : bg K) x0 out0 p, b_nw g = false -> b_b g = BPoll -> b_maxr g < length (b_ks g) -> none_above K (b_maxr g) (b_ks g) ->
  (match p with XLev _ _ i => i <= S (b_maxr g) | XIn _ _ i _ _ => i <= b_maxr g | _ => True end) -> xok g x0 out0 p ->
  exists p', xrun T K s g p = Ok (g, p') /\ xok g x0 out0 p'.
Proof using.
  induction s as [|[|] s IH]; intros g x0 out0 p W B R A Hp X; cbn [xrun]; [eauto| |].
  - destruct (xmain_idle g x0 out0 p R A Hp X) as (p1 & E & X1 & Hp1). rewrite E. cbn [obind]. apply (IH g x0 out0); auto.
  - rewrite (idle_back g W B). cbn [obind]. rewrite (idle_xback g p B). apply (IH g x0 out0); auto.
Qed.

(** ** A merge is going on: a race lies ahead unless the merged tree is already stored *)
Definition rank (b : bpc K) : nat := match b with BPoll => 4 | BBuild => 3 | BClear _ => 2 | BLevel _ => 1 | _ => 0 end.
Lemma back_rank (g g' : bg K) : inv T K L n g -> b_nw g = true -> 0 < rank (b_b g) -> back_step T K g = Ok g' -> inv T K L n g' ->
  b_nw g' = true /\ rank (b_b g') < rank (b_b g) /\ b_b g' <> BDone.
Proof.
  intros V W R E V'. unfold back_step in E. destruct (b_b g) eqn:B; cbn [rank] in R; try lia; rewrite ?W in E.
  - injection E as <-. cbn. split; auto. split; [lia|discriminate].
  - injection E as <-. cbn. split; auto. split; [lia|discriminate].
  - injection E as <-. cbn. split; auto. split; [lia|discriminate].
  - destruct (maxsz T (b_msz g) 0) as [ms|]; cbn [obind] in E; [|discriminate]. destruct (find_level T K (b_msz g) (b_ks g) 0 ms) as [i|]; injection E as <-.
    + cbn. split; auto. split; [lia|discriminate].
    + exfalso. pose proof (bi_st _ _ _ _ _ V') as S. pose proof (st_b _ _ _ _ _ _ _ _ _ _ _ S) as F. cbn in F. rewrite W in F. exact F.
Qed.
Lemma to_write k : forall g : bg K, inv T K L n g -> b_nw g = true -> b_b g <> BDone -> rank (b_b g) <= k ->
  exists j g', (forall p, xback K g p = p -> (forall h, xback K h p = p) -> xrun T K (repeat false j) g p = Ok (g', p)) /\ In (LKs, true) (back_acc K (b_b g')).
Proof using Hn HT.
  induction k as [|k IH]; intros g V W D R.
  - exists 0, g. split; [reflexivity|]. destruct (b_b g) eqn:B; cbn [rank] in R; try lia; try congruence; cbn; auto.
    pose proof (bi_st _ _ _ _ _ V) as S. pose proof (st_b _ _ _ _ _ _ _ _ _ _ _ S) as F. unfold bfact in F. rewrite W, B in F. destruct F.
  - destruct (Nat.eq_dec (rank (b_b g)) 0) as [Z|Z]; [apply IH; auto; lia|].
    destruct (back_ok T K L n Hn HT g V) as (g1 & E & V1). destruct (back_rank g g1 V W ltac:(lia) E V1) as (W1 & R1 & D1).
    destruct (IH g1 V1 W1 D1 ltac:(lia)) as (j & g' & X & A). exists (S j), g'. split; [|exact A].
    intros p P1 P2. cbn [repeat xrun]. rewrite E. cbn [obind]. rewrite P1. apply X; auto.
Qed.
(** once the merged tree is stored the merging thread does not write k_collection or max_r again before the next merge, which only the calling
    thread can ask for *)
Lemma quiet_run s : forall (g : bg K) p g' p', (b_nw g = false /\ b_b g = BPoll) \/ (b_nw g = true /\ b_b g = BDone) -> xrun T K s g p = Ok (g', p') ->
  (b_nw g' = false /\ b_b g' = BPoll) \/ (b_nw g' = true /\ b_b g' = BDone).
Proof.
  induction s as [|[|] s IH]; intros g p g' p' Q E; cbn [xrun] in E.
  - injection E as <- _. exact Q.
  - destruct (xmain K g p) as [p1|]; cbn [obind] in E; [|discriminate]. eapply IH; eauto.
  - destruct (back_step T K g) as [g1|] eqn:B; cbn [obind] in E; [|discriminate]. apply (IH g1 _ g' p') in E; auto. left.
    unfold back_step in B. destruct Q as [[W Q]|[W Q]]; rewrite Q in B; [rewrite W in B|]; injection B as <-; cbn; auto.
Qed.
Lemma quiet_no_race (g : bg K) p : (b_nw g = false /\ b_b g = BPoll) \/ (b_nw g = true /\ b_b g = BDone) -> ~ xrace K g p.
Proof. intros [[_ B]|[_ B]] (l & _ & H); rewrite B in H; destruct H. Qed.
End P.
