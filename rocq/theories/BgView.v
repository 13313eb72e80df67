(** * BgView: the iterators and the algorithms on the background graphs.

    DKtree_background.hpp:267-310 and DKtree_background_wait.hpp:308-351 are DKtree.hpp:266-297 again: the iterators are built
    from the buffer, k_collection, max_r and n_vertices of the moment; neither the copy made for queries nor the edges handed
    to the merging thread are looked at.  The calling thread makes the loop; it is modelled for a merging thread that takes no
    step meanwhile (idle, or not scheduled). *)
From Verif Require Import Base Spec AlgoSpec Thresholds K2 C0 C0Proof DK DKProof DKHist Iter IterProof Prop_Iter Algo AlgoProof TriProof Prop_Algo ViewProof Delay MunroProof BgSpec Bg BgProof.

(** The members the iterators read. *)
Definition snap {K} (g : bg K) : dk K := mkdk (b_maxr g) (b_n g) (b_nt g) (b_c0 g) (b_ks g).

Section V.
Context (wt : bool) (T : thresholds) (K : k2impl) (L : k2laws K) (n : N) (Hn : (2 <= n)%N) (HT : th_top T).

(** No tree is empty, the one the merging thread is working on included. *)
Definition full (g : bg K) : Prop := ks_full K (b_ks g) /\
  match b_b g with BClear t | BLevel t | BMerge t _ _ | BStore t _ => kt_edges K t <> [] | _ => True end.

Lemma full_upd l i o : ks_full K l -> (forall t, o = Some t -> kt_edges K t <> []) -> ks_full K (upd l i o).
Proof. intros F G t I. apply In_upd in I. destruct I as [I|I]; auto. Qed.
Lemma union_nonempty a b : wf L n a -> wf L n b -> kt_edges K a <> [] -> kt_edges K (kt_union K a b) <> [].
Proof.
  intros Wa Wb H G. destruct (law_union L n a b Wa Wb) as [_ [U _]]. destruct (kt_edges K a) as [|e l] eqn:E; [congruence|].
  assert (X : In e (kt_edges K (kt_union K a b))) by (apply U; left; left; auto). rewrite G in X. destruct X.
Qed.

Lemma main_same g g' : inv T K L n g -> main_step wt T K g = Ok g' -> b_ks g' = b_ks g /\ b_b g' = b_b g.
Proof.
  intros V E. pose proof (bi_m _ _ _ _ _ V) as M. pose proof (bi_todo _ _ _ _ _ V) as Td. unfold mfact in M. unfold main_step in E.
  assert (I : forall (h : bg K) e w h', b_todo h = None -> ins_end K h e w = Ok h' -> b_ks h' = b_ks h /\ b_b h' = b_b h).
  { intros h e w h' Th. unfold ins_end, ins_done. rewrite Th. intros X; injection X as <-. auto. }
  assert (H : forall k e b busy h', has_end K g k e b busy = Ok h' -> b_ks h' = b_ks g /\ b_b h' = b_b g).
  { intros k e b busy h'. unfold has_end. destruct k, b; try (intros X; injection X as <-; auto; fail). apply I; auto. }
  destruct (b_m g) eqn:Em; try contradiction;
  repeat match type of E with
  | (if ?x then _ else _) = _ => destruct x
  | obind ?x _ = _ => destruct x eqn:?; cbn [obind] in E; [|discriminate]
  | match ?x with _ => _ end = _ => destruct x
  | has_end _ _ _ _ _ _ = _ => apply H in E; exact E
  | ins_end _ _ _ _ = _ => apply I in E; [exact E|exact Td]
  | Ok _ = Ok _ => injection E as <-; auto
  | UB = _ => discriminate
  end.
Qed.
Lemma call_same g c g' : inv T K L n g -> call_in n c -> call_step K c g = Ok g' -> b_ks g' = b_ks g /\ b_b g' = b_b g.
Proof.
  intros V C E. pose proof (bi_todo _ _ _ _ _ V) as Td. unfold call_step in E. destruct (b_m g); try (injection E as <-; auto; fail).
  destruct c as [e|e|x|e]; cbn [call_in] in C; try contradiction.
  - unfold start, fuel_of in E. rewrite Td in E. cbn [ins_start] in E. destruct (c0_contains (b_c0 g) e) as [[|]|]; cbn [obind] in E; try discriminate.
    + unfold ins_done in E. rewrite Td in E. injection E as <-. auto.
    + injection E as <-. auto.
  - destruct (c0_contains (b_c0 g) e) as [[|]|]; cbn [obind] in E; try discriminate; injection E as <-; auto.
  - destruct (c0_neigh (b_c0 g) x) as [l|]; cbn [obind] in E; try discriminate; injection E as <-; auto.
Qed.
Lemma back_full g g' : inv T K L n g -> full g -> back_step T K g = Ok g' -> full g'.
Proof using Hn.
  intros V [F1 F2] E. pose proof (bi_st _ _ _ _ _ V) as S. pose proof (st_b _ _ _ _ _ _ _ _ _ _ _ S) as B. unfold bfact in B.
  unfold back_step in E. destruct (b_nw g) eqn:W.
  2: { rewrite B in E. injection E as <-. split; auto. }
  destruct (st_ok _ _ _ _ _ _ _ _ _ _ _ S) as [S1 S2]. unfold full.
  destruct (b_b g) eqn:EB.
  - injection E as <-. unfold set_b; gcbn. auto.
  - injection E as <-. unfold set_b; gcbn. split; auto. destruct B as [[B1 [B2 B3]] _]. rewrite (bi_nn _ _ _ _ _ V).
    destruct (law_build L n (b_conv g) Hn B1 B2 B3) as [_ [_ L3]]. destruct (b_conv g) as [|e l]; [congruence|].
    intros G. assert (X : In e (kt_edges K (kt_build K (e :: l) n))) by (apply L3; left; auto). rewrite G in X. destruct X.
  - injection E as <-. unfold set_b, set_conv; gcbn. auto.
  - destruct (maxsz T (b_msz g) 0) as [ms|]; cbn [obind] in E; [|discriminate]. destruct (find_level T K (b_msz g) (b_ks g) 0 ms); injection E as <-;
    unfold set_b, set_ks; gcbn; auto.
  - destruct (j <=? i); [|injection E as <-; unfold set_b; gcbn; auto].
    destruct (nth_error (b_ks g) j) as [[s|]|] eqn:Ej; try discriminate; injection E as <-; unfold set_b, set_ks; gcbn; auto.
    split; [apply full_upd; auto; discriminate|]. destruct B as [[B1 _] _]. apply union_nonempty; auto.
    apply (S2 s). eapply nth_error_In; eauto.
  - destruct (i <? length (b_ks g)); [|discriminate]. injection E as <-. unfold set_b, set_ks; gcbn. split; auto.
    apply full_upd; auto. intros t X; injection X as <-; auto.
  - injection E as <-. unfold set_b, set_nw; gcbn. auto.
  - injection E as <-. rewrite EB. auto.
Qed.
Lemma run_full s : forall g, inv T K L n g -> full g -> Forall (act_in n) s -> exists g', run wt T K s g = Ok g' /\ inv T K L n g' /\ full g'.
Proof using Hn HT.
  induction s as [|a s IH]; intros g V Fu F; cbn [run]; [eauto|]. inversion F as [|? ? A F']; subst.
  destruct (step_ok wt T K L n Hn HT g a V A) as (g1 & E & V1). rewrite E. cbn [obind]. apply IH; auto.
  destruct a as [c| |]; cbn [step act_in] in *.
  - destruct (call_same g c g1 V A E) as [X Y]. unfold full. rewrite X, Y. exact Fu.
  - destruct (main_same g g1 V E) as [X Y]. unfold full. rewrite X, Y. exact Fu.
  - exact (back_full g g1 V Fu E).
Qed.
Lemma exec_full s : Forall (act_in n) s -> exists g, exec wt T K n s = Ok g /\ inv T K L n g /\ full g.
Proof using Hn HT L.
  intros F. unfold exec. destruct (bg_new_ok wt T K L n Hn) as (g0 & E & V0). rewrite E. cbn [obind]. apply run_full; auto.
  unfold bg_new in E. destruct (c0_new T n); cbn [obind] in E; [|discriminate]. injection E as <-. split; cbn; auto.
  intros t I. repeat (destruct I as [I|I]; [discriminate|]). destruct I.
Qed.

Lemma inv_holds g : inv T K L n g -> full g -> b_m g = MIdle -> holds K L n (snap g) (lv (rev (recent (b_log g)))).
Proof.
  intros V [F _] Em. pose proof (bi_st _ _ _ _ _ V) as S. pose proof (bi_rng _ _ _ _ _ V) as R. rewrite Em in S, R. cbn [vlog] in S, R.
  constructor; unfold snap; cbn [nv ks max_r C0_].
  - apply (bi_nn _ _ _ _ _ V).
  - apply (st_ok _ _ _ _ _ _ _ _ _ _ _ S).
  - apply (st_maxr _ _ _ _ _ _ _ _ _ _ _ S).
  - apply (bi_c0 _ _ _ _ _ V).
  - unfold all_live, lv. apply Forall_forall. intros e I. apply in_map_iff in I. destruct I as [? [<- _]]. reflexivity.
  - rewrite live_lv. apply Forall_forall. intros e I. apply in_rev in I. rewrite Forall_forall in R. apply R, stored_split. auto.
  - apply ks_ok_wf. apply (st_ok _ _ _ _ _ _ _ _ _ _ _ S).
  - exact F.
  - intros i t G. cbn [ks max_r] in *. exact (st_above _ _ _ _ _ _ _ _ _ _ _ S _ _ G).
Qed.
Lemma snap_all g : dk_all K (snap g) (lv (rev (recent (b_log g)))) = rev (recent (b_log g)) ++ ks_edges K (b_ks g).
Proof. unfold dk_all. rewrite live_lv. reflexivity. Qed.
Lemma snap_idle g e : inv T K L n g -> b_m g = MIdle -> b_nw g = false ->
  (In e (dk_all K (snap g) (lv (rev (recent (b_log g))))) <-> In e (inserted (b_log g))).
Proof.
  intros V Em W. rewrite snap_all, in_app_iff, <- in_rev. pose proof (bi_st _ _ _ _ _ V) as S. rewrite Em, W in S. cbn [vlog] in S.
  rewrite <- (scan_all _ _ _ _ _ _ _ _ _ _ S). split; [apply stored_inserted|apply inserted_stored, (bi_log _ _ _ _ _ V)].
Qed.
Lemma snap_nodup g : inv T K L n g -> b_m g = MIdle -> b_nw g = false -> NoDup (inserted (b_log g)) ->
  NoDup (dk_all K (snap g) (lv (rev (recent (b_log g))))).
Proof.
  intros V Em W ND. pose proof (bi_log _ _ _ _ _ V) as LO. apply (nodup_of_len (inserted (b_log g))); auto.
  - rewrite <- (stored_exact _ LO ND), stored_len, snap_all, app_length, rev_length. pose proof (bi_st _ _ _ _ _ V) as S. rewrite Em, W in S. cbn [vlog] in S.
    pose proof (st_le _ _ _ _ _ _ _ _ _ _ _ S) as Le. cbn [pend] in Le. rewrite app_nil_r in Le. lia.
  - intros e. symmetry. apply snap_idle; auto.
Qed.
(** while a merge is going on *)
Lemma snap_busy g e : inv T K L n g -> b_m g = MIdle ->
  (In e (dk_all K (snap g) (lv (rev (recent (b_log g))))) -> In e (inserted (b_log g))) /\
  (In e (recent (b_log g)) -> In e (dk_all K (snap g) (lv (rev (recent (b_log g)))))).
Proof.
  intros V Em. rewrite snap_all, in_app_iff, <- in_rev. split; [|auto]. pose proof (bi_st _ _ _ _ _ V) as S. rewrite Em in S. cbn [vlog] in S.
  intros I. apply stored_inserted, stored_split. destruct I as [I|I]; [auto|]. right.
  apply (st_set _ _ _ _ _ _ _ _ _ _ _ S). apply in_app_iff; auto.
Qed.
End V.
