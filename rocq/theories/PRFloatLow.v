(** * PRFloatLow: a complete pass of pageRank in floating point loses, up to rounding, nothing of the sum of the ranks. *)
From Coq Require Import Reals Lra.
From Flocq Require Import Core.Core IEEE754.BinarySingleNaN.
From Verif Require Import Base Spec Thresholds K2 C0 DK PageRank PRProof PRFloat PRFloatProof.
Open Scope R_scope.
Local Existing Instances p53 p24 l53 l24.

Section Md.
Context (md : mode).
Lemma rnd64_low z b : 0 <= z <= b -> b <= big ->
  z * (1 - u) - eta <= round radix2 (SpecFloat.fexp 53 1024) (round_mode md) z.
Proof.
  intros Hz Hb. destruct (rnd_ok 53 1024 p53 md z ltac:(lra)) as [_ B]. change (1 - 53)%Z with (-52)%Z in B. change (3 - 1024 - 53)%Z with (-1074)%Z in B.
  fold u in B. fold eta in B. apply Rabs_le_inv in B. lra.
Qed.
Lemma ge_add x y a b : le x a -> le y b -> a + b <= big -> (B2R x + B2R y) * (1 - u) - eta <= B2R (dadd md x y).
Proof.
  intros [F1 B1] [F2 B2] H. pose proof (Bplus_correct 53 1024 p53 l53 md x y F1 F2) as C.
  destruct (rnd64 md (B2R x + B2R y) (a + b) ltac:(lra) H) as [R1 _]. rewrite R1 in C. destruct C as [C1 _].
  unfold dadd. rewrite C1. apply (rnd64_low _ (a + b)); [lra|exact H].
Qed.
Lemma ge_mul x y a b l m : le x a -> le y b -> a * b <= big -> 0 <= l <= B2R x -> 0 <= m <= B2R y -> l * m * (1 - u) - eta <= B2R (dmul md x y).
Proof.
  intros [F1 B1] [F2 B2] H Hl Hm. pose proof (Bmult_correct 53 1024 p53 l53 md x y) as C. pose proof u_pos as U.
  assert (G : 0 <= B2R x * B2R y <= a * b) by (split; [apply Rmult_le_pos; lra|apply Rmult_le_compat; lra]).
  assert (G2 : l * m <= B2R x * B2R y) by (apply Rmult_le_compat; lra).
  destruct (rnd64 md (B2R x * B2R y) (a * b) G H) as [R1 _]. rewrite R1 in C. destruct C as [C1 _].
  unfold dmul. rewrite C1. eapply Rle_trans; [|apply (rnd64_low _ (a * b) G H)]. apply Rplus_le_compat_r. apply Rmult_le_compat_r; lra.
Qed.
Lemma ge_sub1 y : is_finite y = true -> 0 <= B2R y <= 1 -> (1 - B2R y) * (1 - u) - eta <= B2R (dsub md one y).
Proof.
  intros F B. pose proof (Bminus_correct 53 1024 p53 l53 md one y (is_finite_Bone 53 1024 p53 l53) F) as C.
  pose proof (Bone_correct 53 1024 p53 l53 : B2R one = 1) as O. rewrite O in C. pose proof big_val as Bv.
  destruct (rnd64 md (1 - B2R y) (1 - B2R y) ltac:(lra) ltac:(lra)) as [R1 _]. rewrite R1 in C. destruct C as [C1 _].
  unfold dsub. rewrite C1. apply (rnd64_low _ (1 - B2R y)); lra.
Qed.
(** 1.0 / n *)
Lemma inv_low n : (1 <= n)%nat -> INR n <= 4294967296 -> 1 / INR n * (1 - / 1000000000) <= B2R (ddiv md one (d_of md n)).
Proof.
  intros H1 HN. assert (K1 : 1 <= INR n) by (apply (le_INR 1); lia). pose proof eta_val as Et. pose proof u_val as U. pose proof big_val as Bv.
  destruct (d_of_ok md n ltac:(lra)) as [Fd Bd]. rewrite U in Bd. set (y := d_of md n) in *.
  pose proof (Bdiv_correct 53 1024 p53 l53 md one y ltac:(lra)) as C. pose proof (Bone_correct 53 1024 p53 l53 : B2R one = 1) as O. rewrite O in C.
  assert (I1 : 0 < 1 / INR n <= 1).
  { split; [apply Rdiv_lt_0_compat; lra|]. apply Rmult_le_reg_r with (INR n); [lra|]. unfold Rdiv. rewrite Rmult_assoc, Rinv_l by lra. lra. }
  assert (G2 : 1 / INR n >= / 4294967296) by (unfold Rdiv; rewrite Rmult_1_l; apply Rle_ge, Rinv_le_contravar; lra).
  assert (Y : B2R y <= INR n * (1 + / 100000000000)) by lra.
  assert (Y0 : / 2 <= B2R y) by lra.
  assert (Q : 1 / INR n * (1 - / 10000000000) <= 1 / B2R y <= 2).
  { split.
    - apply Rmult_le_reg_r with (B2R y); [lra|]. unfold Rdiv at 2. rewrite Rmult_1_l, Rinv_l by lra.
      apply Rle_trans with (1 / INR n * (1 - / 10000000000) * (INR n * (1 + / 100000000000))).
      + apply Rmult_le_compat_l; [|exact Y]. apply Rmult_le_pos; lra.
      + replace (1 / INR n * (1 - / 10000000000) * (INR n * (1 + / 100000000000))) with ((1 - / 10000000000) * (1 + / 100000000000)) by (field; lra). lra.
    - unfold Rdiv. rewrite Rmult_1_l. replace 2 with (/ / 2) by lra. apply Rinv_le_contravar; lra. }
  destruct (rnd64 md (1 / B2R y) 2 ltac:(lra) ltac:(lra)) as [R2 _]. rewrite R2 in C. destruct C as [C1 _]. unfold ddiv. rewrite C1.
  eapply Rle_trans; [|apply (rnd64_low _ 2); lra]. rewrite U. clear - Q G2 I1 Et. lra.
Qed.
Lemma widen_low (x : single) : is_finite x = true -> 0 <= B2R x <= 10000000000 -> B2R x * (1 - u) - eta <= B2R (widen md x).
Proof.
  intros F B. pose proof eta_val as E. pose proof u_val as U. destruct x as [s|s| |s m e p]; try discriminate.
  - cbn. lra.
  - cbn [widen]. pose proof (binary_normalize_correct 53 1024 p53 l53 md (cond_Zopp s (Zpos m)) e s) as C. cbv zeta in C.
    change (F2R {| Fnum := cond_Zopp s (Zpos m); Fexp := e |}) with (B2R (B754_finite s m e p : single)) in C.
    pose proof big_val as Bv.
    destruct (rnd64 md (B2R (B754_finite s m e p : single)) (B2R (B754_finite s m e p : single)) ltac:(lra) ltac:(lra)) as [R1 _].
    rewrite R1 in C. destruct C as [C1 _]. rewrite C1. apply (rnd64_low _ (B2R (B754_finite s m e p : single))); lra.
Qed.
Lemma share_low k : (1 <= k)%nat -> INR k <= 4294967296 -> 1 / INR k * (1 - / 2000000) <= B2R (share md k).
Proof.
  intros H1 Hk. assert (K1 : 1 <= INR k) by (apply (le_INR 1); lia).
  pose proof (binary_normalize_correct 24 128 p24 l24 md (Z.of_nat k) 0 false) as C. cbv zeta in C.
  replace (F2R {| Fnum := Z.of_nat k; Fexp := 0 |}) with (INR k) in C by (unfold F2R; cbn [Fnum Fexp bpow]; rewrite <- INR_IZR_INZ; ring).
  destruct (rnd32 md (INR k) ltac:(lra)) as [R1 [R2 R3]]. cbv zeta in R1, R2, R3. rewrite R1 in C. destruct C as [C1 [C2 _]].
  fold (s_of md k) in C1, C2. rewrite <- C1 in R3. apply Rabs_le_inv in R3.
  assert (T : 0 < / 10000000000000000000000000000000000000000 <= / 10000000000) by lra.
  unfold us in R3. set (y := B2R (s_of md k)) in *.
  assert (Y : y <= INR k * (1 + / 8000000)) by (clear - R3 T K1; lra).
  assert (Y0 : / 2 <= y) by (clear - R3 T K1; lra).
  pose proof (Bdiv_correct 24 128 p24 l24 md (Bone : single) (s_of md k) ltac:(fold y; clear - Y0; lra)) as D.
  rewrite (Bone_correct 24 128 p24 l24) in D. fold y in D.
  assert (I1 : 0 < 1 / INR k <= 1).
  { split; [apply Rdiv_lt_0_compat; lra|]. apply Rmult_le_reg_r with (INR k); [lra|]. unfold Rdiv. rewrite Rmult_assoc, Rinv_l by lra. lra. }
  assert (G : 1 / INR k * (1 - / 7000000) <= 1 / y <= 2).
  { split.
    - apply Rmult_le_reg_r with y; [clear - Y0; lra|]. unfold Rdiv at 2. rewrite Rmult_1_l, Rinv_l by (clear - Y0; lra).
      apply Rle_trans with (1 / INR k * (1 - / 7000000) * (INR k * (1 + / 8000000))).
      + apply Rmult_le_compat_l; [|exact Y]. apply Rmult_le_pos; lra.
      + replace (1 / INR k * (1 - / 7000000) * (INR k * (1 + / 8000000))) with ((1 - / 7000000) * (1 + / 8000000)) by (field; lra). lra.
    - unfold Rdiv. rewrite Rmult_1_l. replace 2 with (/ / 2) by lra. apply Rinv_le_contravar; lra. }
  assert (G2 : 1 / INR k >= / 4294967296) by (unfold Rdiv; rewrite Rmult_1_l; apply Rle_ge, Rinv_le_contravar; lra).
  destruct (rnd32 md (1 / y) ltac:(lra)) as [S1 [S2 S3]]. cbv zeta in S1, S2, S3. rewrite S1 in D. destruct D as [D1 [D2 _]].
  rewrite <- D1 in S2, S3. apply Rabs_le_inv in S3. unfold us in S3.
  assert (T2 : / 10000000000000000000000000000000000000000 <= / 1000000000000000000000) by lra.
  set (q := B2R (Bdiv md (Bone : single) (s_of md k))) in *.
  assert (Q : 1 / INR k * (1 - / 3000000) <= q <= 4) by (clear - S3 T T2 G G2 I1; lra).
  assert (F : is_finite (Bdiv md (Bone : single) (s_of md k)) = true) by (rewrite D2; apply is_finite_Bone).
  unfold share. eapply Rle_trans; [|apply widen_low; [exact F|fold q; lra]]. fold q. rewrite u_val.
  assert (E : eta <= / 1000000000000000000000) by (pose proof eta_val; lra).
  clear - Q G2 E I1 S2. lra.
Qed.

Definition pd (k : nat) : R := (1 - u) ^ k.
Lemma pd_pos k : 0 < pd k <= 1.
Proof.
  pose proof u_pos as U. unfold pd. split; [apply pow_lt; lra|]. induction k as [|k IH]; cbn [pow]; [lra|].
  assert (0 < (1 - u) ^ k) by (apply pow_lt; lra). assert ((1 - u) * (1 - u) ^ k <= 1 * (1 - u) ^ k) by (apply Rmult_le_compat_r; lra). lra.
Qed.
Lemma pd_mono k l : (k <= l)%nat -> pd l <= pd k.
Proof.
  intros H. induction H as [|l H IH]; [lra|]. change (pd (S l)) with ((1 - u) * pd l). pose proof (pd_pos l). pose proof u_pos as U.
  assert ((1 - u) * pd l <= 1 * pd l) by (apply Rmult_le_compat_r; lra). lra.
Qed.
Lemma pd_ge k : INR k <= 4294967296 -> 1 - / 1000000 <= pd k.
Proof.
  intros H. assert (G : 1 - INR k * u <= pd k).
  { clear H. induction k as [|k IH]; [cbn; lra|]. change (pd (S k)) with ((1 - u) * pd k). rewrite S_INR. pose proof u_pos as U. pose proof (pd_pos k).
    assert (u * pd k <= u * 1) by (apply Rmult_le_compat_l; lra). lra. }
  rewrite u_val in G. lra.
Qed.

(** Each number of pr is at least the exact sum r of what was added, up to (1-u)^k and k times eta. *)
Definition low (k : nat -> nat) (pr : list double) (f : list R) : Prop :=
  length pr = length f /\ forall j x r, nth_error pr j = Some x -> nth_error f j = Some r -> r * pd (k j) - eta * INR (k j) <= B2R x.
Definition both k pr e f := bel k pr e /\ nonneg e /\ low k pr f /\ nonneg f.

Lemma both_bump k pr e f i v w : both k pr e f -> (i < length e)%nat -> le v w -> rsum e + w <= T30 -> INR (k i) <= 4294967296 ->
  exists pr' e' f', dbump md pr i v = Ok pr' /\ both (fun j => if Nat.eqb j i then S (k i) else k j) pr' e' f' /\
    length e' = length e /\ rsum e' = rsum e + (w + eta) /\ rsum f' = rsum f + B2R v.
Proof.
  intros (Be & Ne & [Lf Bf] & Nf) Hi Hv Hs Hk.
  destruct (bel_bump md k pr e i v w Be Ne Hi Hv Hs Hk) as (pr' & e' & E & Be' & Ne' & Le' & Se').
  pose proof Be as [L B]. destruct (bump_ok f i (B2R v)) as (f' & Ef & Lf' & Sf & Nf'); [lia|].
  exists pr', e', f'. split; [exact E|]. split; [|split; [auto|split; [auto|auto]]]. split; [auto|]. split; [auto|].
  pose proof (proj1 (proj2 Hv)) as V0. split; [|apply Nf'; auto].
  unfold dbump, get in E. destruct (nth_error pr i) as [x|] eqn:Ex; [|discriminate]. cbn [obind] in E.
  assert (Hip : (i < length pr)%nat) by (apply nth_error_Some; congruence). rewrite set_Ok in E by auto. injection E as <-.
  unfold bump, get in Ef. destruct (nth_error f i) as [s|] eqn:Es; [|discriminate]. cbn [obind] in Ef. rewrite set_Ok in Ef by lia. injection Ef as <-.
  destruct (nth_error e i) as [r|] eqn:Er; [|apply nth_error_None in Er; lia].
  split; [rewrite !length_upd; exact Lf|]. intros j y z Hy Hz. destruct (Nat.eqb_spec j i) as [->|Hj].
  - rewrite nth_error_upd_eq in Hy by lia. rewrite nth_error_upd_eq in Hz by lia. injection Hy as <-. injection Hz as <-.
    pose proof (B i x r Ex Er) as Bx. pose proof (in_rsum e i r Ne Er) as Rr. pose proof (pw_le (k i) Hk) as P. pose proof (pw_pos (k i)) as P1.
    assert (Q : r * pw (k i) <= r * (1 + / 1000000)) by (apply Rmult_le_compat_l; lra).
    pose proof (Bf i x s Ex Es) as Lx. pose proof eta_val as Et. pose proof u_pos as U. pose proof (le_pos _ _ Hv) as W0.
    pose proof (ge_add x v (r * pw (k i)) w Bx Hv ltac:(pose proof big_val; unfold T30 in Hs; lra)) as G.
    eapply Rle_trans; [|exact G]. change (pd (S (k i))) with ((1 - u) * pd (k i)). rewrite S_INR. pose proof (pd_pos (k i)) as P2.
    assert (E1 : (s * pd (k i) - eta * INR (k i)) * (1 - u) <= B2R x * (1 - u)) by (apply Rmult_le_compat_r; lra).
    assert (E2 : B2R v * pd (k i) * (1 - u) <= B2R v * 1 * (1 - u)) by (apply Rmult_le_compat_r; [lra|]; apply Rmult_le_compat_l; lra).
    assert (E3 : 0 <= eta * INR (k i) * u) by (apply Rmult_le_pos; [apply Rmult_le_pos; [lra|apply pos_INR]|lra]). lra.
  - rewrite nth_error_upd_neq in Hy by lia. rewrite nth_error_upd_neq in Hz by lia. eauto.
Qed.

Lemma both_spread ys v w : le v w -> forall k Km pr e f, NoDup ys -> Forall (fun y => (N.to_nat y < length e)%nat) ys -> both k pr e f ->
  rsum e + INR (length ys) * (w + eta) <= T30 -> (forall y, In y ys -> (k (N.to_nat y) <= Km)%nat) -> (forall j, (k j <= S Km)%nat) -> INR (S Km) <= 4294967296 ->
  exists pr' e' f' k', dspread md pr ys v = Ok pr' /\ both k' pr' e' f' /\ length e' = length e /\
    rsum e' = rsum e + INR (length ys) * (w + eta) /\ rsum f' = rsum f + INR (length ys) * B2R v /\ (forall j, (k' j <= S Km)%nat).
Proof.
  intros Hv. pose proof (le_pos _ _ Hv) as W0. pose proof eta_val as Et.
  induction ys as [|y ys IH]; intros k Km pr e f ND HF Hb Hs Hk1 Hk2 Hm; cbn [dspread].
  - exists pr, e, f, k. cbn [length]. change (INR 0) with 0. do 3 (split; [auto|]). split; [ring|]. split; [ring|auto].
  - inversion HF as [|? ? Hy HF']; subst. inversion ND as [|? ? Hni ND']; subst. cbn [length] in Hs. rewrite S_INR in Hs.
    assert (0 <= INR (length ys) * (w + eta)) as Pz by (apply Rmult_le_pos; [apply pos_INR|lra]).
    destruct (both_bump k pr e f (N.to_nat y) v w Hb Hy Hv ltac:(lra)) as (p1 & e1 & f1 & E1 & B1 & L1 & S1 & S1').
    { eapply Rle_trans; [apply le_INR, Hk2|exact Hm]. }
    rewrite E1. cbn [obind].
    destruct (IH (fun j => if Nat.eqb j (N.to_nat y) then S (k (N.to_nat y)) else k j) Km p1 e1 f1) as (p2 & e2 & f2 & k2 & E2 & B2 & L2 & S2 & S2' & K2); auto.
    + eapply Forall_impl; [|exact HF']. intros z Hz. cbn in *. rewrite L1. exact Hz.
    + rewrite S1. lra.
    + intros z Hz. destruct (Nat.eqb_spec (N.to_nat z) (N.to_nat y)) as [G|G]; [|apply Hk1; right; auto]. apply N2Nat.inj in G. subst. tauto.
    + intros j. destruct (Nat.eqb_spec j (N.to_nat y)); [|auto]. specialize (Hk1 y (or_introl eq_refl)). lia.
    + exists p2, e2, f2, k2. split; auto. split; auto. split; [lia|]. cbn [length]. rewrite S_INR. split; [rewrite S2, S1; lra|]. split; [rewrite S2', S1'; lra|auto].
Qed.
End Md.
