(** * Property theorems about pageRank in floating point (C96).

    The numbers are IEEE 754 doubles (Flocq's [binary_float 53 1024], here [double]), [is_finite] and [B2R] (the real number that a
    finite double stands for) are Flocq's; [md] is the rounding mode. *)
From Coq Require Import Reals Lra.
From Flocq Require Import Core.Core IEEE754.BinarySingleNaN.
From Verif Require Import Base Spec AlgoSpec Thresholds K2 C0 DK DKProof DKHist Prop_DK Iter Prop_Iter Algo TriProof Prop_Algo PageRank PRProof
  Prop_PageRank PRFloat PRFloatProof PRFloatLoop PRFloatLow PRFloatLow2 PRFloatLow3.
Open Scope R_scope.
Local Existing Instances p53 p24 l53 l24.

(** The sum of the ranks, as an exact sum of the real numbers that the doubles stand for. *)
Definition total (res : list double) : R := fold_right (fun x s => B2R x + s) 0 res.
(** Every rank is a finite double (not an infinity, not a NaN) and not negative. *)
Definition sane (res : list double) : Prop := forall x, In x res -> is_finite x = true /\ 0 <= B2R x.
(** What the sum would be after t iterations in exact arithmetic (C39): n vertices, m of them with an out-edge. *)
Definition exact_sum (n : N) (m : nat) (alpha : R) (t : nat) : R := 1 + alpha ^ t * (INR (N.to_nat n) / INR m - 1).

(** ** Proofs *)
Lemma total_rsum res : total res = rsum (reals res).
Proof. unfold reals. unfold total. induction res as [|x res IH]; [reflexivity|]. cbn [map fold_right]. rewrite rsum_cons, IH. reflexivity. Qed.
Lemma fine_sane res : fine res -> sane res.
Proof. intros H x Hx. unfold fine in H. rewrite Forall_forall in H. apply (H x Hx). Qed.

Lemma setup_float T K (L : k2laws K) n h g m : (2 <= n <= 2 ^ 31)%N -> reached T K n h g ->
  count_of (fun x => (x < n)%N /\ exists y, lists K g x y) m -> (0 < m)%nat ->
  exists outs, dk_nodes K g = n /\ out_links K g (all_vertices n) = Ok outs /\ outs_ok (N.to_nat n) outs /\ total_nodes outs = m /\ (1 <= m <= N.to_nat n)%nat.
Proof.
  intros Hn HR Hc Hm. destruct (setup T K L n h g m Hn HR Hc Hm) as [outs [Eq [Env [Eo [Hlen [Hr [Ht _]]]]]]].
  destruct (nbs_of_spec T K L n h g Hn HR) as [_ [N2 N3]]. exists outs. split; [exact Env|]. split; [exact Eo|]. split; [|split; [exact Ht|]].
  - split; [exact Hlen|]. rewrite Eq. apply Forall_map, Forall_forall. intros x Hx. apply all_vertices_In in Hx.
    assert (Nd : NoDup (nbs_of K g x)).
    { destruct (C46_neighbours_sound T K L n h g x ltac:(lia) HR Hx) as [l [El [Hd _]]]. rewrite (N3 x Hx) in El. injection El as <-. exact Hd. }
    split; [exact Nd|]. split.
    + replace (N.to_nat n) with (length (all_vertices n)) by (unfold all_vertices; rewrite map_length, seq_length; reflexivity).
      apply NoDup_incl_length; auto. intros y Hy. apply all_vertices_In. eapply N2; eauto.
    + apply Forall_forall. intros y Hy. specialize (N2 x y Hx Hy). lia.
  - rewrite <- Ht. split; [lia|]. rewrite <- Hlen. unfold total_nodes. clear. induction outs as [|l outs IH]; cbn [filter length]; [lia|]. destruct (negb _); cbn [length]; lia.
Qed.

Lemma nn_bound n : (n <= 2 ^ 31)%N -> INR (N.to_nat n) <= 2147483648.
Proof. intros H. rewrite INR_IZR_INZ, N_nat_Z. apply IZR_le. lia. Qed.

(** C96: with at least one edge left and 0 <= alpha <= 1, in double (and float) arithmetic, in any rounding mode and with any
    convergence bound (also NaN): no rank overflows and none is NaN or negative; after the t iterations that were made the sum of the
    ranks is at most that of exact arithmetic and a relative error of 1/100000 per iteration.  (If alpha is above 15/16, for at most a
    million iterations.) *)
Theorem C96_pagerank_float : forall T K (L : k2laws K) n h g m md conv alpha maxit,
  (2 <= n <= 2 ^ 31)%N -> reached T K n h g ->
  count_of (fun x => (x < n)%N /\ exists y, lists K g x y) m -> (0 < m)%nat ->
  is_finite alpha = true -> 0 <= B2R alpha <= 1 -> B2R alpha <= 15 / 16 \/ (N.of_nat maxit <= 1000000)%N ->
  exists res t, pageRank_double md K g conv maxit alpha = Ok res /\ length res = N.to_nat n /\ sane res /\ (t <= maxit)%nat /\
    total res <= (1 + / 100000) ^ (t + 1) * (exact_sum n m (B2R alpha) t + INR t / 100000000000000).
Proof.
  intros T K L n h g m md conv alpha maxit Hn HR Hc Hm Fa Ha Hk.
  destruct (setup_float T K L n h g m Hn HR Hc Hm) as (outs & Env & Eo & HO & Ht & Hm1).
  destruct (run_ok md (N.to_nat n) alpha conv outs m ltac:(lia) (nn_bound n (proj2 Hn)) Fa Ha Hm1 HO Ht maxit Hk) as (res & t & G1 & G2 & G3 & G4 & G5).
  exists res, t. unfold pageRank_double. rewrite Env, Eo. cbn [obind]. split; [exact G1|]. split; [exact G3|]. split; [apply fine_sane; exact G2|].
  split; [exact G4|]. rewrite total_rsum. replace (t + 1)%nat with (S t) by lia. exact G5.
Qed.

(** With a convergence bound of 0 all iterations are made, and the sum of the ranks is that of exact arithmetic, from both sides, up to
    a relative error of 1/100000 per iteration. *)
Theorem C96_pagerank_float_sum : forall T K (L : k2laws K) n h g m md alpha maxit,
  (2 <= n <= 2 ^ 31)%N -> reached T K n h g ->
  count_of (fun x => (x < n)%N /\ exists y, lists K g x y) m -> (0 < m)%nat ->
  is_finite alpha = true -> 0 <= B2R alpha <= 1 -> B2R alpha <= 15 / 16 \/ (N.of_nat maxit <= 1000000)%N ->
  exists res, pageRank_double md K g zero maxit alpha = Ok res /\ length res = N.to_nat n /\ sane res /\
    (1 - / 100000) ^ (maxit + 1) * exact_sum n m (B2R alpha) maxit - INR maxit / 100000000000000 <= total res <=
    (1 + / 100000) ^ (maxit + 1) * (exact_sum n m (B2R alpha) maxit + INR maxit / 100000000000000).
Proof.
  intros T K L n h g m md alpha maxit Hn HR Hc Hm Fa Ha Hk.
  destruct (setup_float T K L n h g m Hn HR Hc Hm) as (outs & Env & Eo & HO & Ht & Hm1).
  destruct (run_low md (N.to_nat n) alpha outs m ltac:(lia) (nn_bound n (proj2 Hn)) Fa Ha Hm1 HO Ht maxit Hk) as (res & G1 & G2 & G3 & G4).
  exists res. unfold pageRank_double. rewrite Env, Eo. cbn [obind]. split; [exact G1|]. split; [exact G3|]. split; [apply fine_sane; exact G2|].
  rewrite total_rsum. replace (maxit + 1)%nat with (S maxit) by lia. exact G4.
Qed.

(** After insertions only, in terms of the inserted edges. *)
Theorem C96_pagerank_float_inserts : forall T K (L : k2laws K) n es m md conv alpha maxit,
  th_top T -> (2 <= n <= 2 ^ 31)%N -> Forall (in_range n) es ->
  count_of (fun x => exists y, In (x, y) es) m -> (0 < m)%nat ->
  is_finite alpha = true -> 0 <= B2R alpha <= 1 -> B2R alpha <= 15 / 16 \/ (N.of_nat maxit <= 1000000)%N ->
  exists g res t, dk_hist T K n (map Add es) = Done g /\
    pageRank_double md K g conv maxit alpha = Ok res /\ length res = N.to_nat n /\ sane res /\ (t <= maxit)%nat /\
    total res <= (1 + / 100000) ^ (t + 1) * (exact_sum n m (B2R alpha) t + INR t / 100000000000000).
Proof.
  intros T K L n es m md conv alpha maxit HT Hn HF Hc Hm Fa Ha Hk.
  destruct (inserts_nbs T K L n es HT Hn HF) as [g [E [HR [N1 [N2 [N3 [N4 HE]]]]]]].
  destruct (C96_pagerank_float T K L n _ g m md conv alpha maxit Hn HR) as (res & t & H); auto; [|exists g, res, t; auto].
  destruct Hc as [l [C1 [C2 C3]]]. exists l. split; auto. split; auto. intros x. rewrite C2. split.
  - intros [y Hy]. apply HE in Hy. destruct Hy as [Hx Hy]. split; auto. exists y, (nbs_of K g x). auto.
  - intros [Hx [y [ll [El Hy]]]]. exists y. apply HE. split; auto. unfold nbs_of. rewrite El. auto.
Qed.

(** The same from both sides, with a convergence bound of 0, after insertions only. *)
Theorem C96_pagerank_float_sum_inserts : forall T K (L : k2laws K) n es m md alpha maxit,
  th_top T -> (2 <= n <= 2 ^ 31)%N -> Forall (in_range n) es ->
  count_of (fun x => exists y, In (x, y) es) m -> (0 < m)%nat ->
  is_finite alpha = true -> 0 <= B2R alpha <= 1 -> B2R alpha <= 15 / 16 \/ (N.of_nat maxit <= 1000000)%N ->
  exists g res, dk_hist T K n (map Add es) = Done g /\
    pageRank_double md K g zero maxit alpha = Ok res /\ length res = N.to_nat n /\ sane res /\
    (1 - / 100000) ^ (maxit + 1) * exact_sum n m (B2R alpha) maxit - INR maxit / 100000000000000 <= total res <=
    (1 + / 100000) ^ (maxit + 1) * (exact_sum n m (B2R alpha) maxit + INR maxit / 100000000000000).
Proof.
  intros T K L n es m md alpha maxit HT Hn HF Hc Hm Fa Ha Hk.
  destruct (inserts_nbs T K L n es HT Hn HF) as [g [E [HR [N1 [N2 [N3 [N4 HE]]]]]]].
  destruct (C96_pagerank_float_sum T K L n _ g m md alpha maxit Hn HR) as (res & H); auto; [|exists g, res; auto].
  destruct Hc as [l [C1 [C2 C3]]]. exists l. split; auto. split; auto. intros x. rewrite C2. split.
  - intros [y Hy]. apply HE in Hy. destruct Hy as [Hx Hy]. split; auto. exists y, (nbs_of K g x). auto.
  - intros [Hx [y [ll [El Hy]]]]. exists y. apply HE. split; auto. unfold nbs_of. rewrite El. auto.
Qed.

(** If every vertex has an out-edge, the ranks sum to at most 1.0102 after at most 1000 iterations (the default is 100). *)
Theorem C96_no_dangling : forall T K (L : k2laws K) n h g md conv alpha maxit,
  (2 <= n <= 2 ^ 31)%N -> reached T K n h g -> (forall x, (x < n)%N -> exists y, lists K g x y) ->
  is_finite alpha = true -> 0 <= B2R alpha <= 1 -> (maxit <= 1000)%nat ->
  exists res, pageRank_double md K g conv maxit alpha = Ok res /\ length res = N.to_nat n /\ sane res /\ 0 <= total res <= 1.0102.
Proof.
  intros T K L n h g md conv alpha maxit Hn HR Hall Fa Ha Hk.
  assert (Hc : count_of (fun x => (x < n)%N /\ exists y, lists K g x y) (N.to_nat n)).
  { exists (all_vertices n). split; [apply verts_nodup|]. split.
    - intros x. rewrite all_vertices_In. split; [intros Hx; split; auto|tauto].
    - unfold all_vertices. rewrite map_length, seq_length. auto. }
  destruct (C96_pagerank_float T K L n h g _ md conv alpha maxit Hn HR Hc ltac:(lia) Fa Ha ltac:(right; lia)) as (res & t & E & Ll & Sn & Ht & Hs).
  exists res. split; [exact E|]. split; [exact Ll|]. split; [exact Sn|]. split.
  - clear - Sn. induction res as [|x res IH]; cbn; [lra|]. destruct (Sn x (or_introl eq_refl)) as [_ S1].
    assert (0 <= total res) by (apply IH; intros y Hy; apply Sn; right; exact Hy). unfold total in H. lra.
  - assert (N0 : INR (N.to_nat n) <> 0) by (apply not_0_INR; lia).
    assert (ES : exact_sum n (N.to_nat n) (B2R alpha) t = 1) by (unfold exact_sum; replace (INR (N.to_nat n) / INR (N.to_nat n)) with 1 by (field; auto); ring).
    rewrite ES in Hs. assert (T1 : 0 <= INR t <= 1000) by (split; [apply pos_INR|rewrite INR_IZR_INZ; apply IZR_le; lia]).
    pose proof (pow_lin (/ 100000) (t + 1) ltac:(lra)) as P. rewrite plus_INR in P. cbn [INR] in P.
    set (q := (1 + / 100000) ^ (t + 1)) in *. assert (Q0 : 1 <= q) by (apply pow_R1_Rle; lra).
    assert (Q1 : q * (1 - 1001 * / 100000) <= q * (1 - (INR t + 1) * / 100000)) by (apply Rmult_le_compat_l; lra).
    assert (Q2 : q <= 1.01012) by lra.
    eapply Rle_trans; [exact Hs|]. apply Rle_trans with (1.01012 * (1 + 1000 / 100000000000000)); [apply Rmult_le_compat; lra|lra].
Qed.

(** ... and at least 0.9899 if the convergence bound is 0: the ranks are a distribution up to about one percent. *)
Theorem C96_distribution : forall T K (L : k2laws K) n h g md alpha maxit,
  (2 <= n <= 2 ^ 31)%N -> reached T K n h g -> (forall x, (x < n)%N -> exists y, lists K g x y) ->
  is_finite alpha = true -> 0 <= B2R alpha <= 1 -> (maxit <= 1000)%nat ->
  exists res, pageRank_double md K g zero maxit alpha = Ok res /\ length res = N.to_nat n /\ sane res /\ 0.9899 <= total res <= 1.0102.
Proof.
  intros T K L n h g md alpha maxit Hn HR Hall Fa Ha Hk.
  destruct (C96_no_dangling T K L n h g md zero alpha maxit Hn HR Hall Fa Ha Hk) as (res & E & Ll & Sn & Hs).
  assert (Hc : count_of (fun x => (x < n)%N /\ exists y, lists K g x y) (N.to_nat n)).
  { exists (all_vertices n). split; [apply verts_nodup|]. split.
    - intros x. rewrite all_vertices_In. split; [intros Hx; split; auto|tauto].
    - unfold all_vertices. rewrite map_length, seq_length. auto. }
  destruct (C96_pagerank_float_sum T K L n h g _ md alpha maxit Hn HR Hc ltac:(lia) Fa Ha ltac:(right; lia)) as (res' & E' & _ & _ & Hl & _).
  rewrite E in E'. injection E' as <-. exists res. split; [exact E|]. split; [exact Ll|]. split; [exact Sn|]. split; [|apply Hs].
  assert (N0 : INR (N.to_nat n) <> 0) by (apply not_0_INR; lia).
  assert (ES : exact_sum n (N.to_nat n) (B2R alpha) maxit = 1) by (unfold exact_sum; replace (INR (N.to_nat n) / INR (N.to_nat n)) with 1 by (field; auto); ring).
  rewrite ES in Hl. assert (T1 : 0 <= INR maxit <= 1000) by (split; [apply pos_INR|rewrite INR_IZR_INZ; apply IZR_le; lia]).
  assert (P : forall k, 1 - INR k * / 100000 <= (1 - / 100000) ^ k).
  { induction k as [|k IH]; [cbn; lra|]. rewrite S_INR. cbn [pow]. assert (Q : 0 <= (1 - / 100000) ^ k <= 1).
    { clear. induction k as [|k IH]; cbn [pow]; [lra|]. split; [apply Rmult_le_pos; lra|].
      assert ((1 - / 100000) * (1 - / 100000) ^ k <= 1 * (1 - / 100000) ^ k) by (apply Rmult_le_compat_r; lra). lra. }
    lra. }
  specialize (P (maxit + 1)%nat). rewrite plus_INR in P. cbn [INR] in P. lra.
Qed.

(** The default arguments, Algorithm.hpp:206: the floats 1.0e-6f, 0.85f, widened. *)
Definition conv_default : double := binary_normalize 53 1024 p53 l53 mode_NE 8796093 (-43) false.
Definition alpha_default : double := binary_normalize 53 1024 p53 l53 mode_NE 14260634 (-24) false.
Definition infinite : double := B754_infinity false.

(** ** A graph without edges *)
Lemma inv_finite md n : (1 <= n)%nat -> INR n <= 2147483648 -> exists m e pf, ddiv md one (d_of md n) = B754_finite false m e pf.
Proof.
  intros H1 HN. assert (K1 : 1 <= INR n) by (apply (le_INR 1); lia). pose proof eta_val as Et. pose proof u_val as U.
  destruct (d_of_ok md n ltac:(lra)) as [Fd Bd]. set (y := d_of md n) in *.
  rewrite U in Bd. assert (By : 0 < B2R y <= 4294967296) by lra.
  assert (P : 0 < B2R (ddiv md one y) /\ is_finite (ddiv md one y) = true).
  { pose proof (Bdiv_correct 53 1024 p53 l53 md one y ltac:(lra)) as C. pose proof (Bone_correct 53 1024 p53 l53 : B2R one = 1) as O. rewrite O in C.
    assert (Q : bpow radix2 (-32) <= 1 / B2R y <= 2).
    { change (bpow radix2 (-32)) with (/ 4294967296). unfold Rdiv. rewrite Rmult_1_l. split; [apply Rinv_le_contravar; lra|].
      replace 2 with (/ / 2) by lra. apply Rinv_le_contravar; lra. }
    assert (R1 : bpow radix2 (-32) <= round radix2 (SpecFloat.fexp 53 1024) (round_mode md) (1 / B2R y)).
    { apply round_ge_generic; try apply fexp_correct; try apply valid_rnd_round_mode; try exact p53; [|apply Q].
      apply generic_format_bpow. cbv. discriminate. }
    assert (B0 : 0 <= 1 / B2R y) by (pose proof (bpow_gt_0 radix2 (-32)); lra).
    destruct (rnd64 md (1 / B2R y) 2 ltac:(lra) ltac:(pose proof big_val; lra)) as [R2 _]. rewrite R2 in C.
    destruct C as [C1 [C2 _]]. unfold ddiv. rewrite C1. split; [pose proof (bpow_gt_0 radix2 (-32)); lra|]. rewrite C2. apply is_finite_Bone. }
  destruct P as [P1 P2]. destruct (ddiv md one y) as [s|s| |s m e pf]; try discriminate; cbn in P1; [lra|].
  destruct s; [|eauto]. exfalso. cbn in P1. pose proof (F2R_lt_0 radix2 (Float radix2 (Zneg m) e) ltac:(cbn; lia)). lra.
Qed.
Lemma add_inf md x : is_finite x = true \/ x = infinite -> dadd md x infinite = infinite.
Proof. intros [F| ->]; [destruct x; try discriminate F; reflexivity|reflexivity]. Qed.
Lemma inf_add md x : is_finite x = true -> dadd md infinite x = infinite.
Proof. intros F; destruct x; try discriminate F; reflexivity. Qed.

Section Empty.
Context (md : mode) (n : nat) (alpha conv : double).
Context (Hn : (1 <= n)%nat) (HN : INR n <= 2147483648) (Fa : is_finite alpha = true) (Ha : 0 < B2R alpha <= 1).
Lemma dangling_inf k : forall acc, is_finite acc = true \/ acc = infinite ->
  ddangling md (repeat [] (S k)) (repeat infinite (S k)) acc = infinite.
Proof using. induction k as [|k IH]; intros acc H; cbn [repeat ddangling]; [apply add_inf; exact H|]. rewrite (add_inf md acc H). apply (IH infinite). right; reflexivity. Qed.
Lemma base_inf : base md n alpha (dmul md infinite alpha) = infinite.
Proof using Hn HN Fa Ha.
  destruct (inv_finite md n Hn HN) as (m & e & pf & E). unfold base.
  assert (A1 : dmul md infinite alpha = infinite).
  { clear HN. destruct alpha as [s|s| |s m' e' pf']; try discriminate; [cbn in Ha; lra|]. destruct s; [|reflexivity]. exfalso.
    destruct Ha as [Ha1 _]. cbn [B2R cond_Zopp] in Ha1.
    pose proof (F2R_lt_0 radix2 (Float radix2 (Zneg m') e') ltac:(cbn; lia)) as Q. exact (Rlt_asym _ _ Ha1 Q). }
  rewrite A1. destruct (inv_n md n alpha Hn HN Fa ltac:(lra)) as [[Fi Bi] [Hi _]]. rewrite E in *. change (dmul md infinite (B754_finite false m e pf)) with infinite. apply inf_add.
  pose proof (le_sub1 md alpha Fa ltac:(lra)) as S1. pose proof eta_val as Et. pose proof u_val as U. rewrite U in S1.
  assert (S2 : le (dsub md one alpha) 2) by (eapply le_weaken; [exact S1|lra]).
  assert (S3 : le (B754_finite false m e pf : double) 2) by (split; [reflexivity|lra]).
  apply (le_mul md _ _ 2 2 S2 S3). pose proof big_val. lra.
Qed.
Lemma err_nan k : forall acc, is_nan acc = true -> forall pr, derr md pr (repeat infinite k) acc = B754_nan.
Proof using. induction k as [|k IH]; intros acc Hacc pr; destruct acc; try discriminate; destruct pr as [|x pr]; cbn [repeat derr]; auto; try (apply IH; reflexivity). Qed.
Lemma sweep_inf k : forall i, (i + k = n)%nat ->
  dsweep md n alpha conv (repeat infinite n) (dmul md infinite alpha) (repeat [] k) i (repeat infinite i ++ repeat zero k) = Ok (false, repeat infinite n).
Proof using Hn HN Fa Ha.
  induction k as [|k IH]; intros i Hi; cbn [repeat dsweep].
  - rewrite app_nil_r. replace i with n by lia. reflexivity.
  - assert (G0 : get (repeat infinite n) i = Ok infinite).
    { unfold get. rewrite (nth_error_nth' _ infinite) by (rewrite repeat_length; lia). rewrite nth_repeat. reflexivity. }
    rewrite G0. cbn [obind dspread]. unfold dbump.
    assert (G1 : get (repeat infinite i ++ zero :: repeat zero k) i = Ok zero).
    { unfold get. rewrite nth_error_app2 by (rewrite repeat_length; lia). rewrite repeat_length, Nat.sub_diag. reflexivity. }
    rewrite G1. cbn [obind]. rewrite base_inf. change (dadd md zero infinite) with infinite.
    assert (G2 : set (repeat infinite i ++ zero :: repeat zero k) i infinite = Ok (repeat infinite (S i) ++ repeat zero k)).
    { rewrite set_Ok by (rewrite app_length, repeat_length; cbn [length]; lia). f_equal. clear. induction i as [|i IH]; [reflexivity|].
      cbn [repeat app upd]. f_equal. exact IH. }
    rewrite G2. cbn [obind].
    assert (G3 : derr md (repeat infinite (S i) ++ repeat zero k) (repeat infinite n) zero = B754_nan).
    { destruct n as [|n']; [lia|]. cbn [repeat app derr]. apply err_nan. reflexivity. }
    rewrite G3. change (Bltb (B754_nan : double) (dmul md (d_of md n) conv)) with false. apply (IH (S i)). lia.
Qed.
Lemma loop_inf k : dloop md n alpha conv (repeat [] n) k (repeat infinite n) = Ok (repeat infinite n).
Proof using Hn HN Fa Ha.
  induction k as [|k IH]; [reflexivity|]. cbn [dloop]. unfold dpass.
  assert (D : ddangling md (repeat [] n) (repeat infinite n) zero = infinite).
  { destruct n as [|n']; [lia|]. apply dangling_inf. left; reflexivity. }
  rewrite D. pose proof (sweep_inf n 0 eq_refl) as S. cbn [repeat app] in S. rewrite S. cbn [obind]. exact IH.
Qed.
End Empty.

(** On a graph without edges, whatever its size, every rank is +infinity: the initial rank is 1.0f / total_nodes with total_nodes = 0. *)
Theorem C96_refuted_no_edges : forall T K (L : k2laws K) n md conv alpha maxit,
  th_top T -> (2 <= n <= 2 ^ 31)%N -> is_finite alpha = true -> 0 < B2R alpha <= 1 ->
  exists g, dk_hist T K n [] = Done g /\ pageRank_double md K g conv maxit alpha = Ok (repeat infinite (N.to_nat n)).
Proof.
  intros T K L n md conv alpha maxit HT Hn Fa Ha.
  destruct (inserts_nbs T K L n [] HT Hn ltac:(constructor)) as [g [E [HR [N1 [N2 [N3 [N4 HE]]]]]]].
  exists g. split; [exact E|]. unfold pageRank_double.
  assert (Eo : out_links K g (all_vertices n) = Ok (repeat [] (N.to_nat n))).
  { rewrite (out_links_ok K g (nbs_of K g)) by (intros x Hx; apply N2, all_vertices_In; exact Hx). f_equal.
    rewrite (map_ext_in (nbs_of K g) (fun _ => [])).
    - unfold all_vertices. rewrite map_map. generalize 0%nat. induction (N.to_nat n) as [|k IH]; intros s; [reflexivity|]. cbn [seq map repeat]. f_equal. apply IH.
    - intros x Hx. apply all_vertices_In in Hx. destruct (nbs_of K g x) as [|y l] eqn:En; auto. exfalso. specialize (HE x y). rewrite En in HE.
      assert (G : of_list [] x y) by (apply HE; split; [exact Hx|left; reflexivity]). destruct G. }
  assert (En : dk_nodes K g = n).
  { destruct (hist_rel T K L n ltac:(lia) _ g (proj1 HR) (proj2 HR)) as [sl R]. apply (dv_nv _ _ _ _ _ (rl_inv _ _ _ _ _ _ R)). }
  rewrite En, Eo. cbn [obind].
  assert (Ei : dinit md (N.to_nat n) (repeat [] (N.to_nat n)) = repeat infinite (N.to_nat n)).
  { unfold dinit. assert (Z : forall k, total_nodes (repeat [] k) = 0%nat) by (induction k as [|k IH]; [reflexivity|exact IH]). rewrite Z. destruct md; reflexivity. }
  rewrite Ei. apply loop_inf; auto; [lia|apply nn_bound; lia].
Qed.

(** ** The hypotheses are met *)
Lemma alpha_default_ok : is_finite alpha_default = true /\ 0 < B2R alpha_default <= 15 / 16.
Proof.
  assert (E : B2SF alpha_default = SpecFloat.S754_finite false 7656119581278208 (-53)) by (vm_compute; reflexivity).
  split; [vm_compute; reflexivity|]. rewrite <- SF2R_B2SF, E. cbn [SF2R]. unfold F2R. cbn [Fnum Fexp cond_Zopp].
  change (bpow radix2 (-53)) with (/ 9007199254740992). lra.
Qed.
(** The default arguments, and a graph with a vertex without out-edges. *)
Definition w96 : list edge := [(0, 1); (0, 2); (1, 2)]%N.
Example C96_example : is_finite alpha_default = true /\ 0 <= B2R alpha_default <= 1 /\ B2R alpha_default <= 15 / 16 /\
  Forall (in_range 3) w96 /\ count_of (fun x => exists y, In (x, y) w96) 2 /\
  (forall K g, dk_nodes K g = 3%N -> out_links K g (all_vertices 3) = Ok [[1; 2]; [2]; []]%N ->
    exists res, pageRank_double mode_NE K g conv_default 100 alpha_default = Ok res /\
      map B2SF res = [SpecFloat.S754_finite false 7118656540379766 (-55); SpecFloat.S754_finite false 5072046560814782 (-54);
                      SpecFloat.S754_finite false 4691648729262730 (-53)]).
Proof.
  pose proof alpha_default_ok as [A1 A2]. split; [exact A1|]. split; [lra|]. split; [apply A2|].
  split; [repeat constructor; vm_compute; reflexivity|]. split.
  - exists [0; 1]%N. split; [repeat constructor; cbn; intuition congruence|]. split; [|reflexivity]. intros x. cbn [In]. split.
    + intros [<-|[<-|[]]]; [exists 1%N; left; reflexivity|exists 2%N; right; right; left; reflexivity].
    + intros [y H]. unfold w96 in H. cbn [In] in H. intuition congruence.
  - intros K g Hn Ho. unfold pageRank_double. rewrite Hn, Ho. cbn [obind].
    assert (HW : match dloop mode_NE 3 alpha_default conv_default [[1; 2]; [2]; []]%N 100 (dinit mode_NE 3 [[1; 2]; [2]; []]%N) with
      Ok l => map B2SF l = [SpecFloat.S754_finite false 7118656540379766 (-55); SpecFloat.S754_finite false 5072046560814782 (-54);
                      SpecFloat.S754_finite false 4691648729262730 (-53)] | _ => False end) by (vm_compute; reflexivity).
    change (N.to_nat 3) with 3%nat. destruct (dloop mode_NE 3 _ _ _ _ _) as [l|]; [exists l; auto|destruct HW].
Qed.
