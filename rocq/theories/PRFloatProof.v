(** * PRFloatProof: pageRank in floating point: no operation overflows, and how large the ranks can become. *)
From Coq Require Import Reals Lra.
From Flocq Require Import Core.Core IEEE754.BinarySingleNaN.
From Verif Require Import Base Spec Thresholds K2 C0 DK PageRank PRProof PRFloat.
Open Scope R_scope.
Local Existing Instances p53 p24 l53 l24.

(** ** Rounding *)
Lemma rnd_ok prec emax (P : Prec_gt_0 prec) md z : 0 <= z ->
  let r := round radix2 (SpecFloat.fexp prec emax) (round_mode md) z in
  0 <= r /\ Rabs (r - z) <= z * bpow radix2 (1 - prec) + bpow radix2 (3 - emax - prec).
Proof.
  intros Hz r. change (SpecFloat.fexp prec emax) with (FLT_exp (3 - emax - prec) prec) in *. unfold r. clear r.
  pose proof (FLT_exp_valid (3 - emax - prec) prec) as V. split.
  - apply round_ge_generic; auto with typeclass_instances. apply generic_format_0.
  - pose proof (bpow_gt_0 radix2 (1 - prec)) as B1. pose proof (bpow_gt_0 radix2 (3 - emax - prec)) as B2.
    eapply Rle_trans; [apply error_le_ulp; auto with typeclass_instances|].
    destruct (Rle_or_lt (bpow radix2 (3 - emax - prec + prec - 1)) (Rabs z)) as [G|G].
    + pose proof (ulp_FLT_le radix2 (3 - emax - prec) prec z G) as U. rewrite (Rabs_pos_eq z Hz) in U. lra.
    + rewrite ulp_FLT_small; auto.
      * assert (0 <= z * bpow radix2 (1 - prec)) by (apply Rmult_le_pos; lra). lra.
      * eapply Rlt_le_trans; [exact G|]. apply bpow_le. lia.
Qed.
Lemma rnd_le prec emax (P : Prec_gt_0 prec) md z e : (3 - emax - prec <= e)%Z -> 0 <= z <= bpow radix2 e ->
  Rabs (round radix2 (SpecFloat.fexp prec emax) (round_mode md) z) <= bpow radix2 e.
Proof.
  intros He [H0 H1]. change (SpecFloat.fexp prec emax) with (FLT_exp (3 - emax - prec) prec).
  pose proof (FLT_exp_valid (3 - emax - prec) prec) as V.
  rewrite Rabs_pos_eq.
  - apply round_le_generic; auto with typeclass_instances. apply generic_format_FLT_bpow; auto.
  - apply round_ge_generic; auto with typeclass_instances. apply generic_format_0.
Qed.

(** The relative error of one operation, and the absolute error near 0. *)
Definition u : R := bpow radix2 (-52).
Definition eta : R := bpow radix2 (-1074).
Definition big : R := bpow radix2 1000.
Lemma u_val : u = / 4503599627370496.
Proof. reflexivity. Qed.
Lemma eta_val : 0 < eta <= / 10000000000000000000000000000000000000000.
Proof.
  split; [apply bpow_gt_0|]. unfold eta. eapply Rle_trans; [apply (bpow_le radix2 (-1074) (-133)); lia|].
  change (bpow radix2 (-133)) with (/ 10889035741470030830827987437816582766592). lra.
Qed.
Lemma big_val : 10000000000000000000000000000000000000000 <= big.
Proof.
  unfold big. eapply Rle_trans; [|apply (bpow_le radix2 133 1000); lia]. change (bpow radix2 133) with (10889035741470030830827987437816582766592). lra.
Qed.
Lemma big_lt : big < bpow radix2 1024.
Proof. apply bpow_lt. lia. Qed.

(** A finite number between 0 and r. *)
Definition le (x : double) (r : R) : Prop := is_finite x = true /\ 0 <= B2R x <= r.
Lemma le_weaken x r s : le x r -> r <= s -> le x s.
Proof. intros [F B] H. split; auto. lra. Qed.
Lemma le_pos x r : le x r -> 0 <= r.
Proof. intros [_ B]. lra. Qed.

Section Md.
Context (md : mode).
Lemma rnd64 z b : 0 <= z <= b -> b <= big ->
  let r := round radix2 (SpecFloat.fexp 53 1024) (round_mode md) z in
  Rlt_bool (Rabs r) (bpow radix2 1024) = true /\ 0 <= r <= b * (1 + u) + eta.
Proof.
  intros Hz Hb r. split.
  - apply Rlt_bool_true. eapply Rle_lt_trans; [|exact big_lt]. apply (rnd_le 53 1024 p53 md z 1000); [lia|]. change (0 <= z <= big). lra.
  - destruct (rnd_ok 53 1024 p53 md z ltac:(lra)) as [A B]. fold r in A, B. change (1 - 53)%Z with (-52)%Z in B. change (3 - 1024 - 53)%Z with (-1074)%Z in B.
    fold u in B. fold eta in B. apply Rabs_le_inv in B. split; auto. rewrite u_val in *. lra.
Qed.

Lemma le_add x y a b : le x a -> le y b -> a + b <= big -> le (dadd md x y) ((a + b) * (1 + u) + eta).
Proof.
  intros [F1 B1] [F2 B2] H. pose proof (Bplus_correct 53 1024 p53 l53 md x y F1 F2) as C.
  destruct (rnd64 (B2R x + B2R y) (a + b) ltac:(lra) H) as [R1 R2]. cbv zeta in R1, R2. rewrite R1 in C. destruct C as [C1 [C2 _]].
  split; [exact C2|]. unfold dadd. rewrite C1. exact R2.
Qed.
Lemma le_mul x y a b : le x a -> le y b -> a * b <= big -> le (dmul md x y) (a * b * (1 + u) + eta).
Proof.
  intros [F1 B1] [F2 B2] H. pose proof (Bmult_correct 53 1024 p53 l53 md x y) as C.
  assert (G : 0 <= B2R x * B2R y <= a * b) by (split; [apply Rmult_le_pos; lra|apply Rmult_le_compat; lra]).
  destruct (rnd64 (B2R x * B2R y) (a * b) G H) as [R1 R2]. cbv zeta in R1, R2. rewrite R1 in C. destruct C as [C1 [C2 _]].
  split; [unfold dmul; rewrite C2, F1, F2; reflexivity|]. unfold dmul. rewrite C1. exact R2.
Qed.
Lemma le_div x y a d : le x a -> 0 < d <= B2R y -> a / d <= big -> le (ddiv md x y) (a / d * (1 + u) + eta).
Proof.
  intros [F1 B1] B2 H. pose proof (Bdiv_correct 53 1024 p53 l53 md x y ltac:(lra)) as C.
  assert (G : 0 <= B2R x / B2R y <= a / d).
  { unfold Rdiv. assert (0 < / B2R y) by (apply Rinv_0_lt_compat; lra). assert (/ B2R y <= / d) by (apply Rinv_le_contravar; lra).
    split; [apply Rmult_le_pos; lra|apply Rmult_le_compat; lra]. }
  destruct (rnd64 (B2R x / B2R y) (a / d) G H) as [R1 R2]. cbv zeta in R1, R2. rewrite R1 in C. destruct C as [C1 [C2 _]].
  split; [unfold ddiv; rewrite C2; exact F1|]. unfold ddiv. rewrite C1. exact R2.
Qed.
Lemma le_sub1 y : is_finite y = true -> 0 <= B2R y <= 1 -> le (dsub md one y) (((1 - B2R y) * (1 + u)) + eta).
Proof.
  intros F B. pose proof (Bminus_correct 53 1024 p53 l53 md one y (is_finite_Bone 53 1024 p53 l53) F) as C.
  pose proof (Bone_correct 53 1024 p53 l53 : B2R one = 1) as O. rewrite O in C. pose proof big_val as Bv.
    destruct (rnd64 (1 - B2R y) (1 - B2R y) ltac:(lra) ltac:(lra)) as [R1 R2]. cbv zeta in R1, R2. rewrite R1 in C. destruct C as [C1 [C2 _]].
  split; [exact C2|]. unfold dsub. rewrite C1. exact R2.
Qed.
Lemma le_one : le one 1.
Proof. split; [apply is_finite_Bone|]. change (B2R one) with (B2R (@Bone 53 1024 p53 l53)). rewrite (Bone_correct 53 1024 p53 l53). lra. Qed.
Lemma le_zero : le zero 0.
Proof. split; [reflexivity|]. cbn. lra. Qed.

(** conversions *)
Lemma d_of_ok k : INR k <= 1000000000000000000000000000000 -> is_finite (d_of md k) = true /\ INR k * (1 - u) - eta <= B2R (d_of md k) <= INR k * (1 + u) + eta.
Proof.
  intros Hk. pose proof (binary_normalize_correct 53 1024 p53 l53 md (Z.of_nat k) 0 false) as C. cbv zeta in C.
  replace (F2R {| Fnum := Z.of_nat k; Fexp := 0 |}) with (INR k) in C by (unfold F2R; cbn [Fnum Fexp bpow]; rewrite <- INR_IZR_INZ; ring).
  pose proof (pos_INR k) as P. pose proof big_val as Bv.
  destruct (rnd64 (INR k) (INR k) ltac:(lra) ltac:(lra)) as [R1 R2]. cbv zeta in R1, R2. rewrite R1 in C. destruct C as [C1 [C2 _]].
  split; [exact C2|]. unfold d_of. rewrite C1. split; [|apply R2].
  destruct (rnd_ok 53 1024 p53 md (INR k) ltac:(lra)) as [_ B]. change (1 - 53)%Z with (-52)%Z in B. change (3 - 1024 - 53)%Z with (-1074)%Z in B.
  fold u in B. fold eta in B. apply Rabs_le_inv in B. lra.
Qed.

Definition us : R := / 8388608.   (* 2^-23 *)
Lemma rnd32 z : 0 <= z <= 10000000000 ->
  let r := round radix2 (SpecFloat.fexp 24 128) (round_mode md) z in
  Rlt_bool (Rabs r) (bpow radix2 128) = true /\ 0 <= r /\ Rabs (r - z) <= z * us + / 10000000000000000000000000000000000000000.
Proof.
  intros Hz r. split.
  - apply Rlt_bool_true. eapply Rle_lt_trans; [|apply (bpow_lt radix2 34 128); lia]. apply (rnd_le 24 128 p24 md z 34); [lia|].
    change (0 <= z <= 17179869184). lra.
  - destruct (rnd_ok 24 128 p24 md z ltac:(lra)) as [A B]. fold r in A, B. split; auto.
    eapply Rle_trans; [exact B|]. change (bpow radix2 (1 - 24)) with us. 
    assert (bpow radix2 (3 - 128 - 24) <= / 10000000000000000000000000000000000000000).
    { change (bpow radix2 (3 - 128 - 24)) with (/ 713623846352979940529142984724747568191373312). lra. }
    lra.
Qed.
Lemma widen_ok (x : single) : is_finite x = true -> 0 <= B2R x <= 10000000000 -> le (widen md x) (B2R x * (1 + u) + eta).
Proof.
  intros F B. pose proof eta_val as E. pose proof u_val as U. destruct x as [s|s| |s m e p]; try discriminate.
  - cbn. split; [reflexivity|]. cbn. lra.
  - cbn [widen]. pose proof (binary_normalize_correct 53 1024 p53 l53 md (cond_Zopp s (Zpos m)) e s) as C. cbv zeta in C.
    change (F2R {| Fnum := cond_Zopp s (Zpos m); Fexp := e |}) with (B2R (B754_finite s m e p : single)) in C.
    pose proof big_val as Bv.
    destruct (rnd64 (B2R (B754_finite s m e p : single)) (B2R (B754_finite s m e p : single)) ltac:(lra) ltac:(lra)) as [R1 R2]. cbv zeta in R1, R2.
    rewrite R1 in C. destruct C as [C1 [C2 _]]. split; [exact C2|]. rewrite C1. exact R2.
Qed.
(** 1.0f / size() *)
Lemma share_ok k : (1 <= k)%nat -> INR k <= 4294967296 -> le (share md k) (1 / INR k * (1 + / 2000000)).
Proof.
  intros H1 Hk. assert (K1 : 1 <= INR k) by (apply (le_INR 1); lia).
  pose proof (binary_normalize_correct 24 128 p24 l24 md (Z.of_nat k) 0 false) as C. cbv zeta in C.
  replace (F2R {| Fnum := Z.of_nat k; Fexp := 0 |}) with (INR k) in C by (unfold F2R; cbn [Fnum Fexp bpow]; rewrite <- INR_IZR_INZ; ring).
  destruct (rnd32 (INR k) ltac:(lra)) as [R1 [R2 R3]]. cbv zeta in R1, R2, R3. rewrite R1 in C. destruct C as [C1 [C2 _]].
  fold (s_of md k) in C1, C2. rewrite <- C1 in R3. apply Rabs_le_inv in R3.
  assert (T : 0 < / 10000000000000000000000000000000000000000 <= / 10000000000) by lra.
  unfold us in R3. set (y := B2R (s_of md k)) in *.
  assert (Y : INR k * (1 - / 8000000) <= y) by (clear - R3 T K1; lra).
  pose proof (Bdiv_correct 24 128 p24 l24 md (Bone : single) (s_of md k) ltac:(fold y; clear - Y K1; lra)) as D.
  rewrite (Bone_correct 24 128 p24 l24) in D. fold y in D.
  assert (G : 0 < 1 / y <= 1 / INR k * (1 + / 7000000)).
  { split; [apply Rdiv_lt_0_compat; clear - Y K1; lra|].
    apply Rmult_le_reg_r with y; [clear - Y K1; lra|]. unfold Rdiv. rewrite Rmult_1_l, Rinv_l by (clear - Y K1; lra).
    apply Rle_trans with (1 * / INR k * (1 + / 7000000) * (INR k * (1 - / 8000000))).
    - replace (1 * / INR k * (1 + / 7000000) * (INR k * (1 - / 8000000))) with ((1 + / 7000000) * (1 - / 8000000)) by (field; lra). lra.
    - apply Rmult_le_compat_l; auto. apply Rmult_le_pos; [|lra]. rewrite Rmult_1_l. apply Rlt_le, Rinv_0_lt_compat. lra. }
  assert (I1 : 0 < 1 / INR k <= 1).
  { split; [apply Rdiv_lt_0_compat; lra|]. apply Rmult_le_reg_r with (INR k); [lra|]. unfold Rdiv. rewrite Rmult_assoc, Rinv_l by lra. lra. }
  assert (G2 : 1 / INR k >= / 4294967296).
  { unfold Rdiv. rewrite Rmult_1_l. apply Rle_ge, Rinv_le_contravar; lra. }
  destruct (rnd32 (1 / y) ltac:(lra)) as [S1 [S2 S3]]. cbv zeta in S1, S2, S3. rewrite S1 in D. destruct D as [D1 [D2 _]].
  rewrite <- D1 in S2, S3. apply Rabs_le_inv in S3. unfold us in S3.
  assert (T2 : / 10000000000000000000000000000000000000000 <= / 1000000000000000000000) by lra.
  set (q := B2R (Bdiv md (Bone : single) (s_of md k))) in *.
  assert (Q : q <= 1 / INR k * (1 + / 3000000)) by (clear - S3 T T2 G G2; lra).
  assert (F : is_finite (Bdiv md (Bone : single) (s_of md k)) = true) by (rewrite D2; apply is_finite_Bone).
  eapply le_weaken; [apply widen_ok; [exact F|fold q; lra]|]. fold q. rewrite u_val.
  assert (E : eta <= / 1000000000000000000000) by (pose proof eta_val; lra).
  clear - Q G2 E I1 S2. lra.
Qed.
End Md.

(** ** Powers of 1 + u *)
Lemma pow_lin x m : 0 <= x -> (1 + x) ^ m * (1 - INR m * x) <= 1.
Proof.
  intros Hx. induction m as [|m IH]; [cbn; lra|]. rewrite S_INR. cbn [pow]. pose proof (pow_lt (1 + x) m ltac:(lra)) as P. pose proof (pos_INR m) as M.
  apply Rle_trans with ((1 + x) ^ m * (1 - INR m * x)); [|exact IH].
  replace ((1 + x) * (1 + x) ^ m * (1 - (INR m + 1) * x)) with ((1 + x) ^ m * ((1 + x) * (1 - (INR m + 1) * x))) by ring.
  apply Rmult_le_compat_l; [lra|]. assert (0 <= INR m * (x * x)) by (apply Rmult_le_pos; [lra|apply Rmult_le_pos; lra]).
  assert (0 <= x * x) by (apply Rmult_le_pos; lra). lra.
Qed.
Definition pw (k : nat) : R := (1 + u) ^ k.
Lemma u_pos : 0 < u <= / 1000000000000000.
Proof. rewrite u_val. lra. Qed.
Lemma pw_pos k : 1 <= pw k.
Proof. apply pow_R1_Rle. pose proof u_pos. lra. Qed.
Lemma pw_mono k l : (k <= l)%nat -> pw k <= pw l.
Proof. intros H. apply Rle_pow; auto. pose proof u_pos. lra. Qed.
Lemma pw_le k : INR k <= 4294967296 -> pw k <= 1 + / 1000000.
Proof.
  intros H. pose proof (pow_lin u k ltac:(pose proof u_pos; lra)) as P. fold (pw k) in P. pose proof (pw_pos k) as Q.
  assert (G : INR k * u <= / 1048576) by (rewrite u_val; lra).
  assert (pw k * (1 - / 1048576) <= 1).
  { eapply Rle_trans; [|exact P]. apply Rmult_le_compat_l; lra. }
  lra.
Qed.

(** ** Vectors of floating-point numbers below vectors of reals *)
Section V.
Context (md : mode).
Definition bel (k : nat -> nat) (pr : list double) (e : list R) : Prop :=
  length pr = length e /\ forall j x r, nth_error pr j = Some x -> nth_error e j = Some r -> le x (r * pw (k j)).
Definition T30 : R := 1000000000000000000000000000000.

Lemma in_rsum l i r : nonneg l -> nth_error l i = Some r -> 0 <= r <= rsum l.
Proof.
  intros H. revert i. induction H as [|x l Hx Hl IH]; intros [|i] E; cbn in E; try discriminate.
  - injection E as ->. rewrite rsum_cons. pose proof (rsum_nonneg l Hl). lra.
  - apply IH in E. rewrite rsum_cons. lra.
Qed.

Lemma bel_bump k pr e i v w : bel k pr e -> nonneg e -> (i < length e)%nat -> le v w -> rsum e + w <= T30 -> INR (k i) <= 4294967296 ->
  exists pr' e', dbump md pr i v = Ok pr' /\ bel (fun j => if Nat.eqb j i then S (k i) else k j) pr' e' /\ nonneg e' /\
    length e' = length e /\ rsum e' = rsum e + (w + eta).
Proof.
  intros [L B] Hn Hi Hv Hs Hk. destruct (bump_ok e i (w + eta) Hi) as (e' & E & Le & S1 & N1). pose proof eta_val as Et. pose proof (le_pos _ _ Hv) as W0.
  unfold bump, get in E. destruct (nth_error e i) as [r|] eqn:Er; [|apply nth_error_None in Er; lia]. cbn [obind] in E.
  rewrite set_Ok in E by lia. injection E as <-.
  destruct (nth_error pr i) as [x|] eqn:Ex; [|apply nth_error_None in Ex; lia].
  exists (upd pr i (dadd md x v)), (upd e i (r + (w + eta))). split.
  - unfold dbump, get. rewrite Ex. cbn [obind]. rewrite set_Ok by lia. reflexivity.
  - split; [|split; [apply N1; auto; lra|auto]]. split; [rewrite !length_upd; exact L|].
    intros j y s Hy Hr. destruct (Nat.eqb_spec j i) as [->|Hj].
    + rewrite nth_error_upd_eq in Hy by lia. rewrite nth_error_upd_eq in Hr by lia. injection Hy as <-. injection Hr as <-.
      pose proof (B i x r Ex Er) as Bx. pose proof (in_rsum e i r Hn Er) as Rr. pose proof (pw_le (k i) Hk) as P. pose proof (pw_pos (k i)) as P1.
      assert (Q : r * pw (k i) <= r * (1 + / 1000000)) by (apply Rmult_le_compat_l; lra).
      eapply le_weaken; [apply le_add; [exact Bx|exact Hv|]|].
      * pose proof big_val. unfold T30 in Hs. lra.
      * change (pw (S (k i))) with ((1 + u) * pw (k i)).
        replace ((r + (w + eta)) * ((1 + u) * pw (k i))) with ((r * pw (k i) + (w + eta) * pw (k i)) * (1 + u)) by ring.
        pose proof u_pos as U. assert (w + eta <= (w + eta) * pw (k i)) by (rewrite <- (Rmult_1_r (w + eta)) at 1; apply Rmult_le_compat_l; lra).
        apply Rle_trans with ((r * pw (k i) + (w + eta)) * (1 + u)); [|apply Rmult_le_compat_r; lra].
        assert (0 <= eta * u) by (apply Rmult_le_pos; lra). lra.
    + rewrite nth_error_upd_neq in Hy by lia. rewrite nth_error_upd_neq in Hr by lia. eauto.
Qed.

Lemma bel_spread ys v w : le v w -> forall k Km pr e, NoDup ys -> Forall (fun y => (N.to_nat y < length e)%nat) ys -> bel k pr e -> nonneg e ->
  rsum e + INR (length ys) * (w + eta) <= T30 -> (forall y, In y ys -> (k (N.to_nat y) <= Km)%nat) -> (forall j, (k j <= S Km)%nat) -> INR (S Km) <= 4294967296 ->
  exists pr' e' k', dspread md pr ys v = Ok pr' /\ bel k' pr' e' /\ nonneg e' /\ length e' = length e /\
    rsum e' = rsum e + INR (length ys) * (w + eta) /\ (forall j, (k' j <= S Km)%nat).
Proof.
  intros Hv. pose proof (le_pos _ _ Hv) as W0. pose proof eta_val as Et.
  induction ys as [|y ys IH]; intros k Km pr e ND HF Hb Hn Hs Hk1 Hk2 Hm; cbn [dspread].
  - exists pr, e, k. cbn [length]. change (INR 0) with 0. do 4 (split; [auto|]). split; [ring|auto].
  - inversion HF as [|? ? Hy HF']; subst. inversion ND as [|? ? Hni ND']; subst. cbn [length] in Hs. rewrite S_INR in Hs.
    assert (0 <= INR (length ys) * (w + eta)) as Pz by (apply Rmult_le_pos; [apply pos_INR|lra]).
    destruct (bel_bump k pr e (N.to_nat y) v w Hb Hn Hy Hv ltac:(lra)) as (p1 & e1 & E1 & B1 & N1 & L1 & S1).
    { eapply Rle_trans; [apply le_INR, Hk2|exact Hm]. }
    rewrite E1. cbn [obind].
    destruct (IH (fun j => if Nat.eqb j (N.to_nat y) then S (k (N.to_nat y)) else k j) Km p1 e1) as (p2 & e2 & k2 & E2 & B2 & N2 & L2 & S2 & K2); auto.
    + eapply Forall_impl; [|exact HF']. intros z Hz. cbn in *. rewrite L1. exact Hz.
    + rewrite S1. lra.
    + intros z Hz. destruct (Nat.eqb_spec (N.to_nat z) (N.to_nat y)) as [G|G]; [|apply Hk1; right; auto]. apply N2Nat.inj in G. subst. tauto.
    + intros j. destruct (Nat.eqb_spec j (N.to_nat y)); [|auto]. specialize (Hk1 y (or_introl eq_refl)). lia.
    + exists p2, e2, k2. split; auto. split; auto. split; auto. split; [lia|]. split; auto.
      rewrite S2, S1. cbn [length]. rewrite S_INR. lra.
Qed.
End V.

(** ** One pass *)
Section Pass.
Context (md : mode) (nn : nat) (alpha conv : double) (outs : list (list N)).
Local Notation a := (B2R alpha).
Local Notation NR := (INR nn).
Context (Hn : (1 <= nn)%nat) (HN : NR <= 2147483648) (Fa : is_finite alpha = true) (Ha : 0 <= a <= 1).
Definition T20 : R := 100000000000000000000.

Definition fine (old : list double) : Prop := Forall (fun x => is_finite x = true /\ 0 <= B2R x) old.
Definition reals (old : list double) : list R := @map double R B2R old.
Lemma fine_nonneg old : fine old -> nonneg (reals old).
Proof. intros H. unfold nonneg, reals. rewrite Forall_map. eapply Forall_impl; [|exact H]. cbn. tauto. Qed.

Lemma bel_mono k k' pr e : (forall j, (k j <= k' j)%nat) -> nonneg e -> bel k pr e -> bel k' pr e.
Proof.
  intros H Hn' [L B]. split; auto. intros j x r Hx Hr. eapply le_weaken; [eauto|]. apply Rmult_le_compat_l; [|apply pw_mono; auto].
  apply (in_rsum e j r Hn' Hr).
Qed.

(** What vertex i adds to each of its s neighbours. *)
Definition W (s o : R) : R := a * o * (1 / s) * (1 + / 1000000) + 3 * eta.
Lemma v_ok x k : is_finite x = true -> 0 <= B2R x <= T20 -> (1 <= k)%nat -> INR k <= 4294967296 ->
  le (dmul md (dmul md alpha x) (share md k)) (W (INR k) (B2R x)).
Proof using Hn HN Fa Ha.
  intros Fx Hx H1 Hk. pose proof big_val as Bv. pose proof eta_val as Et. unfold T20 in Hx.
  assert (Pt : 0 <= a * B2R x <= 1 * 100000000000000000000) by (split; [apply Rmult_le_pos; lra|apply Rmult_le_compat; lra]).
  assert (K1 : 1 <= INR k) by (apply (le_INR 1); lia).
  assert (I1 : 0 < 1 / INR k <= 1).
  { split; [apply Rdiv_lt_0_compat; lra|]. apply Rmult_le_reg_r with (INR k); [lra|]. unfold Rdiv. rewrite Rmult_assoc, Rinv_l by lra. lra. }
  assert (L1 : le (dmul md alpha x) (a * B2R x * (1 + u) + eta)).
  { apply le_mul; [split; [auto|lra]|split; [auto|lra]|lra]. }
  pose proof (share_ok md k H1 Hk) as L2.
  assert (Pi : 0 <= (a * B2R x) * (1 / INR k) <= a * B2R x * 1) by (split; [apply Rmult_le_pos; lra|apply Rmult_le_compat_l; lra]).
  assert (Qi : 0 <= eta * (1 / INR k) <= eta * 1) by (split; [apply Rmult_le_pos; lra|apply Rmult_le_compat_l; lra]).
  unfold W. set (t := a * B2R x) in *. set (i := 1 / INR k) in *. rewrite u_val in *.
  eapply le_weaken; [apply le_mul; [exact L1|exact L2|]|].
  - clear - Pi Qi Pt I1 Et Bv. lra.
  - rewrite u_val. clear - Pi Qi Pt I1 Et. lra.
Qed.

Definition spent (ys : list N) (o : R) : R := match ys with [] => 0 | _ => INR (length ys) * (W (INR (length ys)) o + eta) end.
Fixpoint cost (b : R) (os : list (list N)) (olds : list R) : R :=
  match os, olds with ys :: os, o :: olds => spent ys o + (b + eta) + cost b os olds | _, _ => 0 end.
Lemma spent_pos ys o : 0 <= o -> 0 <= spent ys o.
Proof using Hn HN Fa Ha.
  intros Ho. pose proof eta_val as Et. unfold spent. destruct ys as [|y ys]; [lra|]. apply Rmult_le_pos; [apply pos_INR|]. unfold W.
  assert (0 <= a * o * (1 / INR (length (y :: ys))) * (1 + / 1000000)); [|lra].
  apply Rmult_le_pos; [|lra]. apply Rmult_le_pos; [apply Rmult_le_pos; lra|]. apply Rlt_le, Rdiv_lt_0_compat; [lra|]. apply lt_0_INR. cbn. lia.
Qed.
Lemma cost_pos b os : forall olds, 0 <= b -> nonneg olds -> 0 <= cost b os olds.
Proof using Hn HN Fa Ha.
  pose proof eta_val as Et. induction os as [|ys os IH]; intros [|o olds] Hb H; cbn [cost]; try lra. inversion H; subst.
  pose proof (spent_pos ys o ltac:(assumption)). specialize (IH olds Hb ltac:(assumption)). lra.
Qed.
Lemma cost_le b os : forall olds, nonneg olds -> Forall (fun ys => INR (length ys) <= NR) os -> 0 <= b ->
  cost b os olds <= a * (1 + / 1000000) * live os olds + INR (length os) * (4 * NR * eta + b + eta).
Proof using Hn HN Fa Ha.
  pose proof eta_val as Et. assert (Z : 0 <= 4 * NR * eta) by (apply Rmult_le_pos; [apply Rmult_le_pos; [lra|apply pos_INR]|lra]).

  induction os as [|ys os IH]; intros [|o olds] H HF Hb; cbn [cost length live].
  - change (INR 0) with 0. lra.
  - change (INR 0) with 0. lra.
  - destruct ys; rewrite Rmult_0_r, Rplus_0_l; apply Rmult_le_pos; try apply pos_INR; lra.
  - inversion H as [|? ? Ho Hl]; subst. inversion HF as [|? ? Hy HF']; subst. specialize (IH olds Hl HF' Hb). rewrite S_INR.
    assert (S1 : spent ys o <= match ys with [] => 0 | _ => a * o * (1 + / 1000000) end + 4 * NR * eta).
    { destruct ys as [|y ys]; unfold spent; [lra|]. set (s := INR (length (y :: ys))) in *. assert (0 < s) by (apply lt_0_INR; cbn; lia). unfold W.
      replace (s * (a * o * (1 / s) * (1 + / 1000000) + 3 * eta + eta)) with (a * o * (1 + / 1000000) + 4 * (s * eta)) by (field; lra).
      assert (s * eta <= NR * eta) by (apply Rmult_le_compat_r; lra). lra. }
    destruct ys; lra.
Qed.

Lemma bel_sweep old dsum b : le (base md nn alpha dsum) b -> fine old -> rsum (reals old) <= T20 -> length old = nn ->
  forall os i olds pr e k, (forall j, nth_error old (i + j) = nth_error olds j) -> length os = length olds -> (i + length os = nn)%nat ->
  Forall (fun ys => NoDup ys /\ (length ys <= nn)%nat /\ Forall (fun y => (N.to_nat y < nn)%nat) ys) os -> length e = nn ->
  bel k pr e -> (forall j, (k j <= 2 * i)%nat) -> nonneg e -> rsum e + cost b os (reals olds) <= T30 ->
  exists stop pr' e', dsweep md nn alpha conv old dsum os i pr = Ok (stop, pr') /\ bel (fun _ => (2 * nn)%nat) pr' e' /\ nonneg e' /\ length e' = nn /\
    rsum e' <= rsum e + cost b os (reals olds).
Proof using Hn HN Fa Ha.
  intros Hb Hf Hs20 Hl. pose proof (le_pos _ _ Hb) as B0. pose proof eta_val as Et. pose proof (fine_nonneg _ Hf) as NO.
  induction os as [|ys os IH]; intros i olds pr e k Ho Hlo Hi HF Le Be Hk Ne Hs; cbn [dsweep].
  - destruct olds; [|discriminate]. cbn [length] in Hi. exists false, pr, e. split; auto. split; [|split; [auto|split; [auto|cbn [cost reals map]; lra]]].
    apply (bel_mono k); auto. intros j. specialize (Hk j). lia.
  - destruct olds as [|x olds]; [discriminate|]. cbn [length] in *. pose proof (Forall_inv HF) as (ND & Ly & Ry). pose proof (Forall_inv_tail HF) as HF'.
    pose proof (Ho 0%nat) as Hx. rewrite Nat.add_0_r in Hx. cbn in Hx.
    assert (Fx : is_finite x = true /\ 0 <= B2R x) by (unfold fine in Hf; rewrite Forall_forall in Hf; apply Hf; eapply nth_error_In; eauto).
    assert (Rx : 0 <= B2R x <= rsum (reals old)) by (apply (in_rsum (reals old) i); auto; unfold reals; apply map_nth_error; auto).
    unfold get. rewrite Hx. cbn [obind]. cbn [reals map cost] in Hs |- *. fold (reals olds) in Hs |- *.
    assert (Nol : nonneg (reals olds)).
    { apply fine_nonneg. unfold fine. apply Forall_forall. intros z Hz. apply In_nth_error in Hz. destruct Hz as [j Hj].
      assert (Ho2 : nth_error old (i + S j) = Some z) by (rewrite (Ho (S j)); exact Hj). unfold fine in Hf. rewrite Forall_forall in Hf. apply Hf. eapply nth_error_In; exact Ho2. }
    pose proof (cost_pos b os (reals olds) B0 Nol) as C0. pose proof (spent_pos ys (B2R x) (proj1 Rx)) as P0.
    assert (Kb : INR (2 * i + 2) <= 4294967296).
    { apply Rle_trans with (INR (2 * nn)); [apply le_INR; lia|]. rewrite mult_INR. change (INR 2) with 2. lra. }
    assert (SP : exists p1 e1 k1, dspread md pr ys (dmul md (dmul md alpha x) (share md (length ys))) = Ok p1 /\ bel k1 p1 e1 /\ nonneg e1 /\
      length e1 = length e /\ rsum e1 = rsum e + spent ys (B2R x) /\ (forall j, (k1 j <= S (2 * i))%nat)).
    { destruct ys as [|y ys].
      - exists pr, e, k. cbn [dspread spent]. do 4 (split; [auto|]). split; [lra|]. intros j. specialize (Hk j). lia.
      - unfold spent. unfold spent in Hs. assert (Ik : INR (length (y :: ys)) <= NR) by (apply le_INR; exact Ly).
        apply (bel_spread md (y :: ys) _ _ (v_ok x (length (y :: ys)) (proj1 Fx) ltac:(lra) ltac:(cbn; lia) ltac:(lra)) k (2 * i)); auto.
        + eapply Forall_impl; [|exact Ry]. intros z Hz. cbn in *. rewrite Le. exact Hz.
        + lra.
        + eapply Rle_trans; [|exact Kb]. apply le_INR. lia. }
    destruct SP as (p1 & e1 & k1 & E1 & B1 & N1 & L1 & S1 & K1). rewrite E1. cbn [obind].
    destruct (bel_bump md k1 p1 e1 i (base md nn alpha dsum) b B1 N1 ltac:(lia) Hb ltac:(lra)) as (p2 & e2 & E2 & B2 & N2 & L2 & S2).
    { eapply Rle_trans; [apply le_INR, K1|]. eapply Rle_trans; [|exact Kb]. apply le_INR. lia. }
    rewrite E2. cbn [obind].
    assert (K2 : forall j, ((if Nat.eqb j i then S (k1 i) else k1 j) <= 2 * S i)%nat).
    { intros j. pose proof (K1 i). pose proof (K1 j). destruct (Nat.eqb j i); lia. }
    destruct (Bltb _ _).
    + exists true, p2, e2. split; auto. split; [|split; [auto|split; [lia|lra]]]. eapply bel_mono; [|exact N2|exact B2]. intros j. cbn beta.
      specialize (K2 j). lia.
    + destruct (IH (S i) olds p2 e2 _ ltac:(intros j; rewrite Nat.add_succ_comm; exact (Ho (S j))) ltac:(lia) ltac:(lia) HF' ltac:(lia) B2 K2 N2 ltac:(lra))
        as (st & p3 & e3 & E3 & B3 & N3 & L3 & S3).
      exists st, p3, e3. split; auto. split; auto. split; auto. split; auto. lra.
Qed.

Lemma bel_dangling os : forall olds acc A k, le acc (A * pw k) -> 0 <= A -> fine olds -> length os = length olds ->
  A + dangling os (reals olds) + INR (length os) * eta <= T30 -> INR (k + length os) <= 4294967296 ->
  le (ddangling md os olds acc) ((A + dangling os (reals olds) + INR (length os) * eta) * pw (k + length os)).
Proof using Hn HN Fa Ha.
  pose proof eta_val as Et. pose proof big_val as Bv. pose proof u_pos as Up.
  assert (Dp : forall os olds, fine olds -> 0 <= dangling os (reals olds)).
  { induction os0 as [|[|y ys] os0 IH]; intros [|x l] F; cbn; try lra; inversion F as [|? ? [_ F1] F2]; subst; specialize (IH l F2); fold (reals l); lra. }
  induction os as [|ys os IH]; intros olds acc A k HL HA HF Hl Hs Hk; cbn [ddangling].
  - destruct olds; [|discriminate]. cbn [reals map dangling length]. change (INR 0) with 0. rewrite Nat.add_0_r.
    replace (A + 0 + 0 * eta) with A by ring. exact HL.
  - destruct olds as [|x olds]; [discriminate|]. cbn [length] in *. inversion HF as [|? ? [Fx Px] HF']; subst. cbn [reals map]. fold (reals olds).
    rewrite S_INR in Hs |- *. cbn [reals map] in Hs. fold (reals olds) in Hs. replace (k + S (length os))%nat with (S k + length os)%nat in * by lia.
    pose proof (pos_INR (length os)) as Pl. assert (0 <= INR (length os) * eta) as Pe by (apply Rmult_le_pos; lra).
    pose proof (Dp os olds HF') as Dd. pose proof (pw_pos k) as P1.
    assert (P2 : pw k <= 1 + / 1000000) by (apply pw_le; eapply Rle_trans; [apply le_INR|exact Hk]; lia).
    destruct ys as [|y ys]; cbn [dangling] in Hs |- *.
    + assert (AP : A * pw k <= A * (1 + / 1000000)) by (apply Rmult_le_compat_l; lra). unfold T30 in Hs.
      assert (L1 : le (dadd md acc x) ((A + B2R x + eta) * pw (S k))).
      { eapply le_weaken; [apply le_add; [exact HL|split; [exact Fx|split; [exact Px|apply Rle_refl]]|lra]|].
        change (pw (S k)) with ((1 + u) * pw k).
        assert (B2R x + eta <= (B2R x + eta) * pw k) by (rewrite <- (Rmult_1_r (B2R x + eta)) at 1; apply Rmult_le_compat_l; lra).
        replace ((A + B2R x + eta) * ((1 + u) * pw k)) with ((A * pw k + (B2R x + eta) * pw k) * (1 + u)) by ring.
        apply Rle_trans with ((A * pw k + (B2R x + eta)) * (1 + u)); [|apply Rmult_le_compat_r; lra].
        assert (0 <= eta * u) by (apply Rmult_le_pos; lra). lra. }
      eapply le_weaken; [apply (IH olds (dadd md acc x) _ (S k) L1); auto; unfold T30; lra|].
      apply Rmult_le_compat_r; [pose proof (pw_pos (S k + length os)); lra|lra].
    + eapply le_weaken; [apply (IH olds acc A k HL); auto; [unfold T30 in *; lra|eapply Rle_trans; [apply le_INR|exact Hk]; lia]|].
      pose proof (pw_pos (k + length os)) as Q. pose proof (pw_mono (k + length os) (S k + length os) ltac:(lia)) as Q2.
      apply Rle_trans with ((A + dangling os (reals olds) + INR (length os) * eta) * pw (S k + length os)).
      * apply Rmult_le_compat_l; lra.
      * apply Rmult_le_compat_r; lra.
Qed.

(** What every vertex receives. *)
Definition share_all (D : R) : R := 1 / NR * ((a * D + (1 - a)) * (1 + / 250000) + / 1000000000000000).
Lemma inv_n : le (ddiv md one (d_of md nn)) (1 / NR * (1 + / 1000000000)) /\ 0 < 1 / NR <= 1 /\ eta <= 1 / NR * / 100000000000000000000.
Proof using Hn HN Fa Ha.
  pose proof eta_val as Et. pose proof big_val as Bv. assert (K1 : 1 <= NR) by (apply (le_INR 1); lia).
  assert (I1 : 0 < 1 / NR <= 1).
  { split; [apply Rdiv_lt_0_compat; lra|]. apply Rmult_le_reg_r with NR; [lra|]. unfold Rdiv. rewrite Rmult_assoc, Rinv_l by lra. lra. }
  assert (G2 : 1 / NR >= / 4294967296).
  { unfold Rdiv. rewrite Rmult_1_l. apply Rle_ge, Rinv_le_contravar; lra. }
  split; [|split; [exact I1|lra]].
  destruct (d_of_ok md nn ltac:(lra)) as [F [B _]]. set (y := B2R (d_of md nn)) in *. rewrite u_val in B.
  assert (Y : NR * (1 - / 100000000000) <= y) by (clear - B Et K1; lra).
  assert (G : 1 / y <= 1 / NR * (1 + / 10000000000)).
  { apply Rmult_le_reg_r with y; [clear - Y K1; lra|]. unfold Rdiv. rewrite Rmult_1_l, Rinv_l by (clear - Y K1; lra).
    apply Rle_trans with (1 * / NR * (1 + / 10000000000) * (NR * (1 - / 100000000000))).
    - replace (1 * / NR * (1 + / 10000000000) * (NR * (1 - / 100000000000))) with ((1 + / 10000000000) * (1 - / 100000000000)) by (field; lra). lra.
    - apply Rmult_le_compat_l; auto. apply Rmult_le_pos; [|lra]. rewrite Rmult_1_l. apply Rlt_le, Rinv_0_lt_compat. lra. }
  eapply le_weaken; [apply (le_div md one (d_of md nn) 1 y le_one)|].
  - fold y. clear - Y K1. lra.
  - clear - G I1 Bv. lra.
  - rewrite u_val. clear - G G2 I1 Et. lra.
Qed.
Lemma base_ok old : fine old -> length old = nn -> length outs = nn -> rsum (reals old) <= T20 ->
  le (base md nn alpha (dmul md (ddangling md outs old zero) alpha)) (share_all (dangling outs (reals old))).
Proof using Hn HN Fa Ha.
  intros HF Hl Ho Hs. pose proof eta_val as Et. pose proof big_val as Bv. unfold T20 in Hs.
  pose proof (live_dangling outs (reals old) ltac:(unfold reals; rewrite (@map_length double R); lia)) as LD.
  pose proof (live_nonneg outs (reals old) (fine_nonneg _ HF)) as LP.
  assert (D0 : 0 <= dangling outs (reals old)).
  { clear - HF. revert outs. induction HF as [|x l [_ F1] F2 IH]; intros [|[|y ys] os]; cbn; try lra; specialize (IH os); fold (reals l); lra. }
  set (D := dangling outs (reals old)) in *. destruct inv_n as [LI [I1 G2]]. set (i := 1 / NR) in *.
  assert (NE : INR (length outs) * eta <= / 1000000000000000000000000000) by (rewrite Ho; apply Rle_trans with (2147483648 * eta); [apply Rmult_le_compat_r; lra|lra]).
  assert (NE0 : 0 <= INR (length outs) * eta) by (apply Rmult_le_pos; [apply pos_INR|lra]).
  assert (L0 : le (ddangling md outs old zero) ((0 + D + INR (length outs) * eta) * pw (0 + length outs))).
  { apply bel_dangling; auto; try lia; try lra.
    - rewrite Rmult_0_l. apply le_zero.
    - fold D. unfold T30. lra.
    - cbn [Nat.add]. rewrite Ho. lra. }
  assert (PW : pw (0 + length outs) <= 1 + / 1000000) by (apply pw_le; cbn [Nat.add]; rewrite Ho; lra).
  pose proof (pw_pos (0 + length outs)) as PP.
  assert (L1 : le (ddangling md outs old zero) (D * (1 + / 1000000) + / 100000000000000000000000000)).
  { eapply le_weaken; [exact L0|]. apply Rle_trans with ((0 + D + INR (length outs) * eta) * (1 + / 1000000)); [apply Rmult_le_compat_l; lra|lra]. }
  assert (aD : 0 <= a * D <= 1 * D) by (split; [apply Rmult_le_pos; lra|apply Rmult_le_compat_r; lra]).
  assert (L2 : le (dmul md (ddangling md outs old zero) alpha) (a * D * (1 + / 500000) + / 10000000000000000000000000)).
  { eapply le_weaken; [apply le_mul; [exact L1|split; [exact Fa|split; [apply Ha|apply Rle_refl]]|]|].
    - clear - aD Bv Ha D0 LD LP Hs. lra.
    - rewrite u_val. clear - aD Et Ha D0. lra. }
  set (t := a * D) in *.
  assert (ti : 0 <= t * i <= t * 1) by (split; [apply Rmult_le_pos; lra|apply Rmult_le_compat_l; lra]).
  assert (ai : 0 <= a * i <= 1 * i) by (split; [apply Rmult_le_pos; lra|apply Rmult_le_compat_r; lra]).
  assert (L3 : le (dmul md (dmul md (ddangling md outs old zero) alpha) (ddiv md one (d_of md nn))) (t * i * (1 + / 400000) + i * / 1000000000000000000)).
  { eapply le_weaken; [apply le_mul; [exact L2|exact LI|]|].
    - clear - ti aD Bv LD LP Hs I1. lra.
    - rewrite u_val. clear - ti I1 G2. lra. }
  assert (L4 : le (dsub md one alpha) ((1 - a) * (1 + / 1000000000) + eta)).
  { eapply le_weaken; [apply le_sub1; auto|]. rewrite u_val. clear - Ha. lra. }
  assert (L5 : le (dmul md (dsub md one alpha) (ddiv md one (d_of md nn))) ((i - a * i) * (1 + / 100000000) + i * / 1000000000000000000)).
  { eapply le_weaken; [apply le_mul; [exact L4|exact LI|]|].
    - clear - ai I1 Et Bv Ha. assert (0 <= eta * i <= eta * 1) by (split; [apply Rmult_le_pos; lra|apply Rmult_le_compat_l; lra]). lra.
    - assert (0 <= eta * i <= / 10000000000000000000000000000000000000000 * i) by (split; [apply Rmult_le_pos; lra|apply Rmult_le_compat_r; lra]).
      rewrite u_val. clear - ai I1 G2 H. lra. }
  unfold base, share_all. fold i. fold t. eapply le_weaken; [apply le_add; [exact L3|exact L5|]|].
  - clear - ti ai I1 aD Bv LD LP Hs. lra.
  - rewrite u_val. clear - ti ai I1 G2. lra.
Qed.

(** A pass, completed or not: all numbers are finite and not negative, and their sum is, up to rounding, at most the sum a complete pass in
    exact arithmetic gives. *)
Definition grow (M : R) : R := (a * M + (1 - a)) * (1 + / 100000) + / 100000000000000.
Lemma bel_sum pr : forall e k, bel k pr e -> nonneg e -> (forall j, INR (k j) <= 4294967296) -> fine pr /\ rsum (reals pr) <= rsum e * (1 + / 1000000).
Proof using Hn HN Fa Ha.
  induction pr as [|x pr IH]; intros [|r e] k [L B] Ne Hk; try discriminate L.
  - split; [constructor|]. cbn [reals map]. rewrite rsum_nil. lra.
  - inversion Ne as [|? ? Hr Ne']; subst. pose proof (B 0%nat x r eq_refl eq_refl) as B0.
    destruct (IH e (fun j => k (S j))) as [F S1]; auto.
    { split; [cbn in L; lia|]. intros j y s Hy Hs. apply (B (S j)); auto. }
    destruct B0 as [F0 R0]. split; [constructor; [split; [exact F0|lra]|exact F]|]. cbn [reals map]. fold (reals pr). rewrite !rsum_cons.
    pose proof (pw_le (k 0%nat) (Hk 0%nat)). assert (r * pw (k 0%nat) <= r * (1 + / 1000000)) by (apply Rmult_le_compat_l; lra). lra.
Qed.
Definition outs_ok : Prop := length outs = nn /\ Forall (fun ys => NoDup ys /\ (length ys <= nn)%nat /\ Forall (fun y => (N.to_nat y < nn)%nat) ys) outs.
Lemma pass_ok old M : outs_ok -> fine old -> length old = nn -> rsum (reals old) <= M -> M <= T20 ->
  exists stop pr', dpass md nn alpha conv outs old = Ok (stop, pr') /\ fine pr' /\ length pr' = nn /\ rsum (reals pr') <= grow M.
Proof using Hn HN Fa Ha.
  intros [Lo HO] HF Hl HM HT. pose proof eta_val as Et. pose proof (base_ok old HF Hl Lo ltac:(unfold T20 in *; lra)) as HB.
  pose proof (live_dangling outs (reals old) ltac:(unfold reals; rewrite (@map_length double R); lia)) as LD.
  pose proof (live_nonneg outs (reals old) (fine_nonneg _ HF)) as LP. set (D := dangling outs (reals old)) in *. set (Lv := live outs (reals old)) in *.
  assert (D0 : 0 <= D).
  { unfold D. clear - HF. revert outs. induction HF as [|x l [_ F1] F2 IH]; intros [|[|y ys] os]; cbn; try lra; specialize (IH os); fold (reals l); lra. }
  pose proof (le_pos _ _ HB) as B0. set (b := share_all D) in *.
  assert (K1 : 1 <= NR) by (apply (le_INR 1); lia).
  assert (NB : NR * b = (a * D + (1 - a)) * (1 + / 250000) + / 1000000000000000) by (unfold b, share_all; field; lra).
  pose proof (cost_le b outs (reals old) (fine_nonneg _ HF)) as CL.
  assert (C1 : cost b outs (reals old) <= a * (1 + / 1000000) * Lv + NR * (4 * NR * eta + b + eta)).
  { fold Lv in CL. rewrite Lo in CL. apply CL; auto. eapply Forall_impl; [|exact HO]. intros ys (_ & Q & _). apply le_INR. exact Q. }
  assert (NN : 0 <= NR * NR <= 2147483648 * 2147483648) by (split; [apply Rmult_le_pos; lra|apply Rmult_le_compat; lra]).
  assert (E1 : 0 <= NR * NR * eta <= 2147483648 * 2147483648 * eta) by (split; [apply Rmult_le_pos; lra|apply Rmult_le_compat_r; lra]).
  assert (E2 : 0 <= NR * eta <= 2147483648 * eta) by (split; [apply Rmult_le_pos; lra|apply Rmult_le_compat_r; lra]).
  assert (aL : 0 <= a * Lv <= 1 * Lv) by (split; [apply Rmult_le_pos; lra|apply Rmult_le_compat_r; lra]).
  assert (aD : 0 <= a * D <= 1 * D) by (split; [apply Rmult_le_pos; lra|apply Rmult_le_compat_r; lra]).
  assert (C2 : cost b outs (reals old) <= (a * Lv + a * D + (1 - a)) * (1 + / 250000) + / 500000000000000).
  { eapply Rle_trans; [exact C1|]. replace (NR * (4 * NR * eta + b + eta)) with (4 * (NR * NR * eta) + NR * b + NR * eta) by ring. rewrite NB.
    clear - E1 E2 aL aD Et Ha. lra. }
  unfold T20 in HT. set (e0 := repeat 0 nn).
  assert (R0 : rsum e0 = 0) by (unfold e0; rewrite rsum_repeat; ring).
  assert (Nz : nonneg e0) by (unfold e0, nonneg; apply Forall_forall; intros z Hz; apply repeat_spec in Hz; lra).
  destruct (bel_sweep old (dmul md (ddangling md outs old zero) alpha) b HB HF ltac:(unfold T20; lra) Hl outs 0 old (repeat zero nn) e0 (fun _ => 0%nat))
    as (st & p1 & e1 & E & B1 & N1 & L1 & S1); auto.
  - lia.
  - unfold e0. apply repeat_length.
  - split; [unfold e0; rewrite !repeat_length; reflexivity|]. intros j x r Hx Hr. apply nth_error_In in Hx, Hr. apply repeat_spec in Hx. apply repeat_spec in Hr.
    subst. rewrite Rmult_0_l. apply le_zero.
  - rewrite R0. unfold T30. clear - C2 aL aD LD HM HT Ha. lra.
  - assert (K2 : INR (2 * nn) <= 4294967296) by (rewrite mult_INR; change (INR 2) with 2; lra).
    destruct (bel_sum p1 e1 _ B1 N1 ltac:(intros; exact K2)) as [F1 S2]. exists st, p1. unfold dpass. split; [exact E|]. split; [auto|]. split; [destruct B1; congruence|].
    unfold grow. assert (aM : a * rsum (reals old) <= a * M) by (apply Rmult_le_compat_l; lra).
    assert (aLD : a * Lv + a * D = a * rsum (reals old)) by (rewrite <- LD; ring).
    clear - S1 S2 C2 R0 aM aLD Ha aL aD. lra.
Qed.
End Pass.
