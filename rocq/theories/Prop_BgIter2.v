(** * C81: exactly when a loop over neighbours uses a tree that has been destroyed.

    [run wt T K (repeat ABack m) g]: the merging thread alone takes m steps from g. *)
From Verif Require Import Base Spec AlgoSpec Thresholds Table K2 C0 C0Proof DK DKProof DKHist Prop_DK Iter IterProof BgSpec Bg BgProof BgTime Prop_Bg BgView Prop_BgView BgIter Prop_BgIter Prop_BgFoot.

Section Main.
Context (wt : bool) (T : thresholds) (K : k2impl) (L : k2laws K) (HT : th_top T).

(** The merging thread, going on alone from g, throws away a tree with a neighbour of x. *)
Definition merge_drops (g : bg K) (x : N) : Prop :=
  exists m g1 g2 i t y, run wt T K (repeat ABack m) g = Ok g1 /\ back_step T K g1 = Ok g2 /\
    nth_error (b_ks g1) i = Some (Some t) /\ In y (kt_neigh K t x) /\ nth_error (b_ks g2) i = Some None.

Lemma drops_reset (g1 g2 : bg K) i t : back_step T K g1 = Ok g2 -> nth_error (b_ks g1) i = Some (Some t) -> nth_error (b_ks g2) i = Some None ->
  resets K (b_b g1) i = true.
Proof.
  unfold back_step. intros E A B. destruct (b_b g1) as [| |t0|t0|t0 q j|t0 q| |] eqn:EB.
  - destruct (b_nw g1); injection E as <-; cbn in B; congruence.
  - injection E as <-; cbn in B; congruence.
  - injection E as <-; cbn in B; congruence.
  - destruct (maxsz T (b_msz g1) 0) as [ms|]; cbn [obind] in E; [|discriminate].
    destruct (find_level T K (b_msz g1) (b_ks g1) 0 ms) as [q|]; injection E as <-; cbn in B; congruence.
  - cbn [resets]. destruct (Nat.leb_spec j q) as [J|J].
    + destruct (nth_error (b_ks g1) j) as [[u|]|] eqn:EJ; [| |discriminate]; injection E as <-; cbn in B; [|congruence].
      destruct (Nat.eqb_spec j i) as [->|Ne]; [reflexivity|]. rewrite nth_error_upd_neq in B by auto. congruence.
    + injection E as <-; cbn in B; congruence.
  - destruct (q <? length (b_ks g1)) eqn:Q; [|discriminate]. injection E as <-. cbn in B. apply Nat.ltb_lt in Q.
    destruct (Nat.eq_dec q i) as [->|Ne].
    + rewrite nth_error_upd_eq in B by auto. discriminate.
    + rewrite nth_error_upd_neq in B by auto. congruence.
  - injection E as <-; cbn in B; congruence.
  - injection E as <-; cbn in B; congruence.
Qed.

Lemma backs_run m : forall (g g1 : bg K) x out i, run wt T K (repeat ABack m) g = Ok g1 -> xrun T K (repeat false m) g (XLev x out i) = Ok (g1, XLev x out i).
Proof.
  induction m as [|m IH]; intros g g1 x out i E; cbn [repeat run xrun step] in *; [congruence|].
  destruct (back_step T K g) as [g'|]; cbn [obind] in *; [|discriminate]. cbn [xback]. apply IH. exact E.
Qed.
Lemma run_snoc m : forall (g g1 g2 : bg K), run wt T K (repeat ABack m) g = Ok g1 -> back_step T K g1 = Ok g2 -> run wt T K (repeat ABack (S m)) g = Ok g2.
Proof.
  induction m as [|m IH]; intros g g1 g2 E B.
  - cbn in *. injection E as ->. rewrite B. reflexivity.
  - cbn [repeat run step] in E |- *. destruct (back_step T K g) as [g'|]; cbn [obind] in *; [|discriminate]. exact (IH g' g1 g2 E B).
Qed.

(** the caller alone leaves a tree, and comes to the tree of level i *)
Lemma leaves r : forall (g : bg K) x out k, exists s out', xrun T K s g (XIn x out k true r) = Ok (g, XLev x out' (S k)).
Proof.
  induction r as [|y r IH]; intros g x out k.
  - exists [true]. eexists. reflexivity.
  - destruct (IH g x (out ++ [y]) k) as (s & out' & E). exists (true :: s), out'. cbn [xrun xmain obind]. exact E.
Qed.
Lemma comes (g : bg K) x i t y : i <= b_maxr g -> i < length (b_ks g) -> nth_error (b_ks g) i = Some (Some t) -> In y (kt_neigh K t x) ->
  forall d k out, k + d = i -> exists s out' r, xrun T K s g (XLev x out k) = Ok (g, XIn x out' i true r).
Proof.
  intros Mi Li Et Iy. induction d as [|d IH]; intros k out Ek.
  - assert (k = i) by lia. subst k. exists [true]. cbn [xrun xmain]. rewrite (proj2 (Nat.leb_le _ _) Mi), Et.
    destruct (kt_neigh K t x) as [|z r]; [destruct Iy|]. cbn [obind]. eauto.
  - assert (exists s out', xrun T K s g (XLev x out k) = Ok (g, XLev x out' (S k))) as (s1 & o1 & E1).
    { destruct (nth_error (b_ks g) k) as [o|] eqn:En; [|apply nth_error_None in En; lia].
      assert (Q : (k <=? b_maxr g) = true) by (apply Nat.leb_le; lia).
      destruct o as [u|].
      - destruct (kt_neigh K u x) as [|z r] eqn:Ek'.
        + exists [true], out. cbn [xrun xmain]. rewrite Q, En, Ek'. reflexivity.
        + destruct (leaves r g x (out ++ [z]) k) as (s & o & E). exists (true :: s), o. cbn [xrun xmain]. rewrite Q, En, Ek'. exact E.
      - exists [true], out. cbn [xrun xmain]. rewrite Q, En. reflexivity. }
    destruct (IH (S k) o1 ltac:(lia)) as (s2 & o2 & r & E2). exists (s1 ++ s2), o2, r. rewrite xrun_app, E1. cbn [obind fst snd]. exact E2.
Qed.

(** the merge has gone through the levels *)
Definition past (g : bg K) : Prop := match b_b g with BStore _ _ | BDone => True | BPoll => b_nw g = false | _ => False end.
Lemma past_back (g g' : bg K) : past g -> back_step T K g = Ok g' -> past g' /\ forall i, resets K (b_b g) i = false.
Proof.
  unfold past, back_step. intros P E. destruct (b_b g) as [| |t0|t0|t0 q j|t0 q| |] eqn:EB; try (destruct P; fail).
  - rewrite P in E. injection E as <-. rewrite EB. auto.
  - destruct (q <? length (b_ks g)); [|discriminate]. injection E as <-. cbn. auto.
  - injection E as <-. cbn. auto.
Qed.
Lemma back_tree (g g' : bg K) i t : nth_error (b_ks g) i = Some (Some t) -> back_step T K g = Ok g' ->
  past g' \/ nth_error (b_ks g') i = Some (Some t) \/ (resets K (b_b g) i = true /\ nth_error (b_ks g') i = Some None).
Proof.
  unfold back_step, past. intros A E. destruct (b_b g) as [| |t0|t0|t0 q j|t0 q| |] eqn:EB.
  - destruct (b_nw g); injection E as <-; cbn; rewrite ?EB; auto.
  - injection E as <-; cbn; auto.
  - injection E as <-; cbn; auto.
  - destruct (maxsz T (b_msz g) 0) as [ms|]; cbn [obind] in E; [|discriminate].
    destruct (find_level T K (b_msz g) (b_ks g) 0 ms) as [q|]; injection E as <-; cbn; auto.
  - cbn [resets]. destruct (Nat.leb_spec j q) as [J|J].
    + destruct (nth_error (b_ks g) j) as [[u|]|] eqn:EJ; [| |discriminate]; injection E as <-; cbn.
      * destruct (Nat.eqb_spec j i) as [->|Ne].
        -- right; right. split; auto. apply nth_error_upd_eq. apply nth_error_Some. congruence.
        -- right; left. rewrite nth_error_upd_neq; auto.
      * auto.
    + injection E as <-; cbn; auto.
  - destruct (q <? length (b_ks g)) eqn:Q; [|discriminate]. injection E as <-. cbn. auto.
  - injection E as <-; cbn; auto.
  - injection E as <-; rewrite ?EB; cbn; auto.
Qed.
(** a level without a tree is not emptied: in a reset step there was a tree or there is nothing to lose *)
Definition dang (g0 g : bg K) (x : N) (p : xpc K) : Prop :=
  match p with
  | XLev x' _ _ => x' = x
  | XIn x' _ i al _ => x' = x /\ (merge_drops g0 x \/ (al = true /\ (past g \/ exists t y, nth_error (b_ks g) i = Some (Some t) /\ In y (kt_neigh K t x))))
  | XEnd _ => True
  | _ => False
  end.

Lemma ub_drops n (Hn : (2 <= n)%N) s : forall (g0 g : bg K) x p m, run wt T K (repeat ABack m) g0 = Ok g -> inv T K L n g -> dang g0 g x p ->
  xrun T K s g p = UB -> merge_drops g0 x.
Proof using HT.
  induction s as [|[|] s IH]; intros g0 g x p m E V D R; cbn [xrun] in R; [discriminate| |].
  - destruct p as [acc|l|x' out i|x' out i al r|out]; cbn [dang] in D; try (destruct D; fail); cbn [xmain] in R.
    + subst x'. destruct (Nat.leb_spec i (b_maxr g)) as [Q|Q].
      * destruct (nth_error (b_ks g) i) as [[t|]|] eqn:En.
        -- destruct (kt_neigh K t x) as [|y r] eqn:Ek; cbn [obind] in R; (eapply IH; [exact E|exact V| |exact R]); cbn [dang]; auto.
           split; auto. right. split; auto. right. exists t, y. split; auto. rewrite Ek. left; auto.
        -- cbn [obind] in R. eapply IH; [exact E|exact V| |exact R]. reflexivity.
        -- exfalso. apply nth_error_None in En. pose proof (bi_st _ _ _ _ _ V) as S. destruct (st_ok _ _ _ _ _ _ _ _ _ _ _ S) as [S1 _].
           pose proof (st_maxr _ _ _ _ _ _ _ _ _ _ _ S). lia.
      * cbn [obind] in R. eapply IH; [exact E|exact V| |exact R]. exact I.
    + destruct D as [-> [D|[-> D]]]; [exact D|]. destruct r as [|y r]; cbn [obind] in R; (eapply IH; [exact E|exact V| |exact R]); cbn [dang]; auto.
    + cbn [obind] in R. eapply IH; [exact E|exact V| |exact R]. exact I.
  - destruct (back_ok T K L n Hn HT g V) as (g' & B & V'). rewrite B in R. cbn [obind] in R.
    refine (IH g0 g' x _ (S m) (run_snoc m _ _ _ E B) V' _ R).
    destruct p as [acc|l|x' out i|x' out i al r|out]; cbn [dang xback] in *; auto.
    destruct D as [-> D]. split; auto. destruct D as [D|[-> [P|(t & y & N1 & I1)]]]; [auto| |].
    + destruct (past_back g g' P B) as [P' Rs]. rewrite Rs. cbn. auto.
    + destruct (back_tree g g' i t N1 B) as [P'|[N2|[Rs N2]]].
      * destruct (resets K (b_b g) i) eqn:Rs; [|cbn; auto]. left. exists m, g, g', i, t, y. do 4 (split; auto).
        unfold back_step in B. unfold resets in Rs. destruct (b_b g) as [| |t0|t0|t0 q j|t0 q| |]; try discriminate.
        apply andb_true_iff in Rs. destruct Rs as [R1 R2]. apply Nat.eqb_eq in R1. subst j. rewrite R2, N1 in B. injection B as <-. cbn.
        apply nth_error_upd_eq. apply nth_error_Some. congruence.
      * destruct (resets K (b_b g) i) eqn:Rs.
        -- exfalso. unfold back_step in B. unfold resets in Rs. destruct (b_b g) as [| |t0|t0|t0 q j|t0 q| |]; try discriminate.
           apply andb_true_iff in Rs. destruct Rs as [R1 R2]. apply Nat.eqb_eq in R1. subst j. rewrite R2, N1 in B. injection B as <-. cbn in N2.
           rewrite nth_error_upd_eq in N2 by (apply nth_error_Some; congruence). discriminate.
        -- cbn. right. split; auto. right. eauto.
      * left. exists m, g, g', i, t, y. auto 6.
Qed.

(** C81, the exact condition for the neighbour loop: a schedule under which it uses a tree that has been destroyed exists if and only if the
    merge that is in progress, left to itself, throws away a tree in which x has a neighbour. *)
Theorem C81_dangling_exact : forall n s g x p0, (2 <= n)%N -> Forall (act_in n) s -> exec wt T K n s = Ok g -> b_m g = MIdle ->
  neigh_begin_bg K g x = Ok p0 -> ((exists xs, xrun T K xs g p0 = UB) <-> merge_drops g x).
Proof using HT L.
  intros n s g x p0 Hn F E Em P0.
  destruct (exec_ok wt T K L n ltac:(lia) HT s F) as (g0 & E0 & V). rewrite E in E0. injection E0 as <-.
  unfold neigh_begin_bg in P0. destruct (c0_neigh (b_c0 g) x) as [l|]; cbn [obind] in P0; [|discriminate]. injection P0 as <-. split.
  - intros [xs R]. apply (ub_drops n Hn xs g g x (XLev x l 0) 0 eq_refl V eq_refl R).
  - intros (m & g1 & g2 & i & t & y & R1 & B & N1 & I1 & N2).
    assert (V1 : inv T K L n g1).
    { clear B. revert g1 R1 N1. revert V. clear E Em N2. revert g. induction m as [|m IH]; intros g V g1 R1 N1; cbn [repeat run step] in R1; [congruence|].
      destruct (back_ok T K L n Hn HT g V) as (g' & B & V'). rewrite B in R1. cbn [obind] in R1. eapply IH; eauto. }
    pose proof (bi_st _ _ _ _ _ V1) as S1.
    assert (Li : i < length (b_ks g1)) by (apply nth_error_Some; congruence).
    assert (Mi : i <= b_maxr g1).
    { exact (st_above _ _ _ _ _ _ _ _ _ _ _ S1 i t N1). }
    destruct (comes g1 x i t y Mi Li N1 I1 i 0 l eq_refl) as (s2 & o2 & r & E2).
    exists (repeat false m ++ s2 ++ [false; true]). rewrite xrun_app, (backs_run m g g1 x l 0 R1). cbn [obind fst snd].
    rewrite xrun_app, E2. cbn [obind fst snd xrun]. rewrite B. cbn [obind xback]. rewrite (drops_reset g1 g2 i t B N1 N2). reflexivity.
Qed.
End Main.

(** The reads the race condition of C81 counts ([xacc]) are all the reads of shared fields the loops make. *)
Theorem C81_footprint : forall K l (g h : bg K) p, ~ In l (xacc K p) -> xmain K (put K l h g) p = xmain K g p.
Proof.
  intros K l g h p A. destruct p as [acc|c|x out i|x out i al r|out]; cbn [xmain xacc] in *; try reflexivity.
  - destruct l; try reflexivity. exfalso; apply A; cbn; auto.
  - destruct l; try reflexivity; exfalso; apply A; cbn; auto.
Qed.

(** The condition is met on w81 for vertex 0, and not for vertex 5, whose loop no schedule can break. *)
Lemma stays wt T K m : forall g : bg K, back_step T K g = Ok g -> run wt T K (repeat ABack m) g = Ok g.
Proof. induction m as [|m IH]; intros g E; cbn [repeat run step]; [reflexivity|]. rewrite E. cbn [obind]. auto. Qed.

Example C81_dangling_example : exists g, Forall (act_in 8) w81 /\ exec false th_exact K2Ref 8 w81 = Ok g /\ b_m g = MIdle /\
  merge_drops false th_exact K2Ref g 0 /\ ~ merge_drops false th_exact K2Ref g 5.
Proof.
  rewrite <- (tabled_eq th_exact th_real_inhabited). eexists. split; [repeat constructor|]. split; [vm_compute; reflexivity|]. split; [reflexivity|]. split.
  - exists 5. do 2 eexists. exists 1. do 2 eexists. split; [vm_compute; reflexivity|]. split; [vm_compute; reflexivity|].
    split; [vm_compute; reflexivity|]. split; [|vm_compute; reflexivity]. vm_compute. left. reflexivity.
  - intros (m & g1 & g2 & i & t & y & R & _ & N & I & _).
    do 12 (destruct m as [|m]; [vm_compute in R; injection R as <-; cbn [b_ks] in N; do 8 (destruct i as [|i]; [cbn in N; try discriminate; injection N as <-; vm_compute in I; exact I|]); destruct i; discriminate|]).
    change (S (S (S (S (S (S (S (S (S (S (S (S m)))))))))))) with (12 + m) in R. rewrite repeat_app, run_app in R.
    match type of R with obind ?X _ = _ => let v := eval vm_compute in X in assert (Y : X = v) by (vm_compute; reflexivity); rewrite Y in R; clear Y end.
    cbn [obind] in R. rewrite stays in R by (vm_compute; reflexivity). injection R as <-. cbn [b_ks] in N.
    do 8 (destruct i as [|i]; [cbn in N; try discriminate; injection N as <-; vm_compute in I; exact I|]); destruct i; discriminate.
Qed.
