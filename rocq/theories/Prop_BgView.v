(** * C76: the iterators and the algorithms on the background graphs.

    [wt = false]: DKtree_background; [wt = true]: DKtree_background_wait.  [b_m g = MIdle]: no call is running;
    [b_nw g = false]: no merge is running (the public flag needs_work). *)
From Verif Require Import Base Spec AlgoSpec Thresholds Table K2 C0 C0Proof DK DKProof DKHist Prop_DK Iter IterProof Prop_Iter Algo AlgoProof TriProof Prop_Algo ViewProof Delay MunroProof BgSpec Bg BgProof BgTime Prop_Bg BgView.

Section Main.
Context (wt : bool) (T : thresholds) (K : k2impl) (L : k2laws K) (HT : th_top T).

(** Insertions and queries under any schedule, then a loop while no merge is going on: the edge loop visits exactly the inserted
    edges, the neighbour loop exactly the neighbours; bfs and dfs are right. *)
Theorem C76_idle_partial : forall n s g, (2 <= n < 2 ^ 31)%N -> Forall (act_in n) s -> exec wt T K n s = Ok g ->
  b_m g = MIdle -> b_nw g = false -> ~ In (9999999, 9999999)%N (inserted (b_log g)) ->
  searches K (snap g) n (fun x y => In (x, y) (inserted (b_log g))).
Proof using L HT.
  intros n s g Hn F E Em W M. destruct (exec_full wt T K L n ltac:(lia) HT s F) as (g0 & E0 & V & Fu). rewrite E in E0. injection E0 as <-.
  eapply searches_ext; [|apply (holds_searches K L n (snap g) (lv (rev (recent (b_log g)))) Hn)].
  - intros x y. apply (snap_idle T K L n); auto.
  - apply (inv_holds T); auto.
  - intros I. apply M. apply (snap_idle T K L n); auto.
Qed.
(** If moreover no edge was inserted twice, each edge is visited once and the triangle count is right. *)
Theorem C76_each_once_partial : forall n s g, (2 <= n < 2 ^ 31)%N -> Forall (act_in n) s -> exec wt T K n s = Ok g ->
  b_m g = MIdle -> b_nw g = false -> ~ In (9999999, 9999999)%N (inserted (b_log g)) -> NoDup (inserted (b_log g)) ->
  traversals K (snap g) n (fun x y => In (x, y) (inserted (b_log g))).
Proof using L HT.
  intros n s g Hn F E Em W M ND. destruct (exec_full wt T K L n ltac:(lia) HT s F) as (g0 & E0 & V & Fu). rewrite E in E0. injection E0 as <-.
  apply view_traversals; auto.
  eapply view_ext; [|apply (holds_view K L n (snap g) (lv (rev (recent (b_log g)))) ltac:(lia))].
  - intros x y. apply (snap_idle T K L n); auto.
  - apply (inv_holds T); auto.
  - apply (snap_nodup T K L n); auto; lia.
  - intros I. apply M. apply (snap_idle T K L n); auto.
Qed.
(** While a merge is going on, the merging thread taking no step: the loop is defined, visits only inserted edges, and all
    those inserted since the merge was asked for. *)
Theorem C76_busy_partial : forall n s g, (2 <= n < 2 ^ 31)%N -> Forall (act_in n) s -> exec wt T K n s = Ok g ->
  b_m g = MIdle -> ~ In (9999999, 9999999)%N (inserted (b_log g)) ->
  exists E, searches K (snap g) n E /\ (forall x y, E x y -> In (x, y) (inserted (b_log g))) /\
    (forall x y, In (x, y) (recent (b_log g)) -> E x y).
Proof using L HT.
  intros n s g Hn F E Em M. destruct (exec_full wt T K L n ltac:(lia) HT s F) as (g0 & E0 & V & Fu). rewrite E in E0. injection E0 as <-.
  exists (fun x y => In (x, y) (dk_all K (snap g) (lv (rev (recent (b_log g)))))). split; [|split].
  - apply (holds_searches K L n (snap g) _ Hn).
    + apply (inv_holds T); auto.
    + intros I. apply M. apply (snap_busy T K L n g); auto.
  - intros x y. apply (snap_busy T K L n g); auto.
  - intros x y. apply (snap_busy T K L n g); auto.
Qed.
End Main.

(** C76 is false of the code in general.  (i) During a merge: after two insertions on 8 vertices edge_begin() is already the
    end. *)
Theorem C76_missed_refuted : forall T K (L : k2laws K), th_real T ->
  exists g, Forall (act_in 8) w30 /\ exec false T K 8 w30 = Ok g /\ b_m g = MIdle /\ b_nw g = true /\
    inserted (b_log g) = [(0, 2); (0, 1)]%N /\ ewalk K (snap g) [].
Proof.
  intros T K L HT. rewrite <- (tabled_eq T HT). eexists. split; [repeat constructor|]. split; [vm_compute; reflexivity|].
  split; [reflexivity|]. split; [reflexivity|]. split; [reflexivity|].
  eexists. split; [vm_compute; reflexivity|]. unfold edge_loop. constructor. reflexivity.
Qed.
(** (ii) Afterwards: an edge inserted again during the merge is visited twice. *)
Definition w76 : list act := w30 ++ ACall (CIns (0, 1)%N) :: repeat AMain 24 ++ repeat ABack 15.
Theorem C76_twice_refuted : forall T K (L : k2laws K), th_real T ->
  exists g l, Forall (act_in 8) w76 /\ exec false T K 8 w76 = Ok g /\ b_m g = MIdle /\ b_nw g = false /\
    ewalk K (snap g) l /\ ~ NoDup l /\ forall l', ewalk K (snap g) l' -> l' = l.
Proof.
  intros T K L HT.
  assert (E : exists g, exec false T K 8 w76 = Ok g /\ b_m g = MIdle /\ b_nw g = false /\ recent (b_log g) = [(0, 1)]%N /\
     nth_error (b_ks g) 1 = Some (Some (kt_build K [(0, 1); (0, 2)]%N 8)) /\ ~ In (9999999, 9999999)%N (inserted (b_log g))).
  { rewrite <- (tabled_eq T HT). eexists. split; [vm_compute; reflexivity|]. repeat split; try reflexivity. vm_compute. intuition discriminate. }
  destruct E as (g & E & Em & W & Rc & Ek & M). assert (F : Forall (act_in 8) w76) by (repeat constructor).
  pose proof (th_real_top T HT) as HT'.
  destruct (exec_full false T K L 8 ltac:(lia) HT' w76 F) as (g0 & E0 & V & Fu). rewrite E in E0. injection E0 as <-.
  assert (A : In (0, 1)%N (kt_edges K (kt_build K [(0, 1); (0, 2)]%N 8))).
  { destruct (law_build L 8 [(0, 1); (0, 2)]%N) as [_ [_ B]]; [lia|discriminate| |repeat constructor|].
    - constructor; [cbn; intuition congruence|]. repeat constructor. auto.
    - apply B. left; auto. }
  assert (X : ewalk K (snap g) (rev (recent (b_log g)) ++ ks_edges K (b_ks g))).
  { rewrite <- snap_all. apply (holds_ewalk K L 8); [lia|apply (inv_holds T); auto|]. intros I. apply M. apply (snap_idle T K L 8); auto. }
  exists g. eexists. split; [exact F|]. split; [exact E|]. split; [exact Em|]. split; [exact W|]. split; [exact X|]. split.
  - rewrite Rc. cbn [rev app]. intros D. inversion D as [|? ? D1 D2]; subst. apply D1. eapply nth_kse; eauto.
  - intros l' G. eapply ewalk_unique; eauto.
Qed.
(** (iii) With deletions, and no merge: after deleting a buffered edge the loop still sees it and misses a live one. *)
Definition w76d : list act :=
  ACall (CIns (0, 0)%N) :: repeat AMain 10 ++ ACall (CIns (0, 1)%N) :: repeat AMain 10 ++ ACall (CIns (1, 0)%N) :: repeat AMain 10 ++
  ACall (CDel (0, 0)%N) :: repeat AMain 9.
Theorem C76_deleted_refuted : forall T K (L : k2laws K), th_real T ->
  exists g, exec false T K 2 w76d = Ok g /\ b_m g = MIdle /\ b_nw g = false /\
    b_log g = [EDel (0, 0)%N; EIns (1, 0)%N Buffered; EIns (0, 1)%N Buffered; EIns (0, 0)%N Buffered] /\
    ewalk K (snap g) [(0, 0); (0, 1)]%N.
Proof.
  intros T K L HT. rewrite <- (tabled_eq T HT). eexists. split; [vm_compute; reflexivity|].
  split; [reflexivity|]. split; [reflexivity|]. split; [reflexivity|].
  eexists. split; [vm_compute; reflexivity|]. unfold edge_loop. do 2 loop_step. apply visits_end. vm_compute; reflexivity.
Qed.

(** ** The hypotheses are met *)
(** five insertions on 8 vertices with two merges in between *)
Definition x76 : list act := flat_map (fun e => ACall (CIns e) :: repeat AMain 30 ++ repeat ABack 15) [(0, 1); (0, 2); (1, 2); (2, 3); (3, 3)]%N.
Example C76_example : Forall (act_in 8) x76 /\ exists g, exec false th_exact K2Ref 8 x76 = Ok g /\ b_m g = MIdle /\ b_nw g = false /\
  inserted (b_log g) = rev [(0, 1); (0, 2); (1, 2); (2, 3); (3, 3)]%N /\ recent (b_log g) <> [] /\ ks_edges K2Ref (b_ks g) <> [].
Proof.
  split; [repeat constructor|]. rewrite <- (tabled_eq th_exact th_real_inhabited). eexists. split; [vm_compute; reflexivity|].
  split; [reflexivity|]. split; [reflexivity|]. split; [reflexivity|]. split; vm_compute; discriminate.
Qed.
Example C76_once_example : NoDup (rev [(0, 1); (0, 2); (1, 2); (2, 3); (3, 3)]%N).
Proof. repeat constructor; cbn; intuition congruence. Qed.
