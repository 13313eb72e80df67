(** * PRFloatLow2: the sum of the ranks after complete passes, from below. *)
From Coq Require Import Reals Lra.
From Flocq Require Import Core.Core IEEE754.BinarySingleNaN.
From Verif Require Import Base Spec Thresholds K2 C0 DK PageRank PRProof PRFloat PRFloatProof PRFloatLoop PRFloatLow.
Open Scope R_scope.
Local Existing Instances p53 p24 l53 l24.

Section Pass.
Context (md : mode) (nn : nat) (alpha conv : double) (outs : list (list N)).
Local Notation a := (B2R alpha).
Local Notation NR := (INR nn).
Context (Hn : (1 <= nn)%nat) (HN : NR <= 2147483648) (Fa : is_finite alpha = true) (Ha : 0 <= a <= 1).
Local Notation W := (W alpha).
Local Notation spent := (spent alpha).
Local Notation cost := (cost alpha).
Local Notation fine_nonneg := (fine_nonneg alpha Ha).
Local Notation v_ok := (v_ok md nn alpha Hn HN Fa Ha).

Lemma v_low x k : is_finite x = true -> 0 <= B2R x <= T20 -> (1 <= k)%nat -> INR k <= 4294967296 ->
  a * B2R x * (1 / INR k) * (1 - / 1000000) - 3 * eta <= B2R (dmul md (dmul md alpha x) (share md k)).
Proof using Hn HN Fa Ha.
  intros Fx Hx H1 Hk. pose proof big_val as Bv. pose proof eta_val as Et. unfold T20 in Hx.
  assert (Pt : 0 <= a * B2R x <= 1 * 100000000000000000000) by (split; [apply Rmult_le_pos; lra|apply Rmult_le_compat; lra]).
  assert (K1 : 1 <= INR k) by (apply (le_INR 1); lia).
  assert (I1 : 0 < 1 / INR k <= 1).
  { split; [apply Rdiv_lt_0_compat; lra|]. apply Rmult_le_reg_r with (INR k); [lra|]. unfold Rdiv. rewrite Rmult_assoc, Rinv_l by lra. lra. }
  assert (A0 : le alpha a) by (split; [auto|lra]). assert (X0 : le x (B2R x)) by (split; [auto|lra]).
  assert (L1 : le (dmul md alpha x) (a * B2R x * (1 + u) + eta)) by (apply le_mul; [exact A0|exact X0|lra]).
  pose proof (share_ok md k H1 Hk) as L2. pose proof (share_low md k H1 Hk) as G2.
  pose proof (ge_mul md alpha x _ _ a (B2R x) A0 X0 ltac:(lra) ltac:(lra) ltac:(lra)) as G1.
  assert (Pi : 0 <= (a * B2R x) * (1 / INR k) <= a * B2R x * 1) by (split; [apply Rmult_le_pos; lra|apply Rmult_le_compat_l; lra]).
  assert (Qi : 0 <= eta * (1 / INR k) <= eta * 1) by (split; [apply Rmult_le_pos; lra|apply Rmult_le_compat_l; lra]).
  assert (Bd : (a * B2R x * (1 + u) + eta) * (1 / INR k * (1 + / 2000000)) <= big).
  { set (t := a * B2R x) in *. set (i := 1 / INR k) in *. rewrite u_val. clear - Pi Qi Pt I1 Et Bv. lra. }
  destruct L1 as [F1 B1].
  pose proof (proj1 (proj2 (le_mul md _ _ _ _ (conj F1 B1) L2 Bd))) as Pos.
  destruct (Rle_or_lt 0 (a * B2R x * (1 - u) - eta)) as [Z|Z].
  - pose proof (ge_mul md (dmul md alpha x) (share md k) _ _ (a * B2R x * (1 - u) - eta) (1 / INR k * (1 - / 2000000)) (conj F1 B1) L2 Bd) as G3.
    specialize (G3 (conj Z G1) ltac:(split; [apply Rmult_le_pos; lra|exact G2])). set (t := a * B2R x) in *. set (i := 1 / INR k) in *. rewrite u_val in G3.
    eapply Rle_trans; [|exact G3]. clear - Pi Qi Pt I1 Et. lra.
  - eapply Rle_trans; [|exact Pos]. rewrite u_val in Z. set (t := a * B2R x) in *. set (i := 1 / INR k) in *. clear - Z Pi Et Pt. lra.
Qed.

Fixpoint paid (b : R) (os : list (list N)) (olds : list double) : R :=
  match os, olds with
  | ys :: os, x :: olds => match ys with [] => 0 | _ => INR (length ys) * B2R (dmul md (dmul md alpha x) (share md (length ys))) end + b + paid b os olds
  | _, _ => 0
  end.
Lemma paid_ge b os : forall olds, fine olds -> rsum (reals olds) <= T20 -> Forall (fun ys => (length ys <= nn)%nat) os -> length os = length olds ->
  a * (1 - / 1000000) * live os (reals olds) + INR (length os) * (b - 3 * NR * eta) <= paid b os olds.
Proof using Hn HN Fa Ha.
  pose proof eta_val as Et. induction os as [|ys os IH]; intros [|x olds] HF Hs HL Hl; try discriminate; cbn [paid length live reals map].
  - change (INR 0) with 0. lra.
  - fold (reals olds). cbn [reals map] in Hs. fold (reals olds) in Hs. rewrite rsum_cons in Hs. inversion HF as [|? ? [Fx Px] HF']; subst. inversion HL as [|? ? Hy HL']; subst.
    pose proof (rsum_nonneg _ (fine_nonneg _ HF')) as Rp. specialize (IH olds HF' ltac:(lra) HL' ltac:(cbn in Hl; lia)). rewrite S_INR.
    assert (N0 : 0 <= 3 * NR * eta) by (apply Rmult_le_pos; [apply Rmult_le_pos; [lra|apply pos_INR]|lra]).
    destruct ys as [|y ys]; [lra|]. set (s := INR (length (y :: ys))) in *.
    assert (S0 : 1 <= s <= NR) by (split; [apply (le_INR 1); cbn; lia|apply le_INR; exact Hy]).
    pose proof (v_low x (length (y :: ys)) Fx ltac:(lra) ltac:(cbn; lia) ltac:(fold s; lra)) as G. fold s in G. set (v := B2R (dmul md (dmul md alpha x) _)) in *.
    assert (G2 : s * (a * B2R x * (1 / s) * (1 - / 1000000) - 3 * eta) <= s * v) by (apply Rmult_le_compat_l; lra).
    replace (s * (a * B2R x * (1 / s) * (1 - / 1000000) - 3 * eta)) with (a * B2R x * (1 - / 1000000) - 3 * (s * eta)) in G2 by (field; lra).
    assert (s * eta <= NR * eta) by (apply Rmult_le_compat_r; lra). lra.
Qed.

Lemma both_mono k k' pr e f : (forall j, (k j <= k' j)%nat) -> both k pr e f -> both k' pr e f.
Proof using.
  intros H (B1 & N1 & [L2 B2] & N2). pose proof eta_val as Et. split; [eapply bel_mono; eauto|]. split; [auto|]. split; [|auto]. split; [auto|]. intros j x r Hx Hr.
  eapply Rle_trans; [|apply (B2 j x r Hx Hr)]. pose proof (pd_mono _ _ (H j)) as P. pose proof (in_rsum f j r N2 Hr) as R0.
  assert (r * pd (k' j) <= r * pd (k j)) by (apply Rmult_le_compat_l; lra).
  assert (eta * INR (k j) <= eta * INR (k' j)) by (apply Rmult_le_compat_l; [lra|apply le_INR; auto]). lra.
Qed.

Lemma both_sweep old dsum b : le (base md nn alpha dsum) b -> fine old -> rsum (reals old) <= T20 -> length old = nn ->
  forall os i olds pr e f k, (forall j, nth_error old (i + j) = nth_error olds j) -> length os = length olds -> (i + length os = nn)%nat ->
  Forall (fun ys => NoDup ys /\ (length ys <= nn)%nat /\ Forall (fun y => (N.to_nat y < nn)%nat) ys) os -> length e = nn ->
  both k pr e f -> (forall j, (k j <= 2 * i)%nat) -> rsum e + cost b os (reals olds) <= T30 ->
  exists stop pr' e' f', dsweep md nn alpha conv old dsum os i pr = Ok (stop, pr') /\ both (fun _ => (2 * nn)%nat) pr' e' f' /\ length e' = nn /\
    (stop = false -> rsum f' = rsum f + paid (B2R (base md nn alpha dsum)) os olds).
Proof using Hn HN Fa Ha.
  intros Hb Hf Hs20 Hl. pose proof (le_pos _ _ Hb) as B0. pose proof eta_val as Et. pose proof (fine_nonneg _ Hf) as NO.
  induction os as [|ys os IH]; intros i olds pr e f k Ho Hlo Hi HF Le Be Hk Hs; cbn [dsweep].
  - destruct olds; [|discriminate]. cbn [length] in Hi. exists false, pr, e, f. split; auto. split; [|split; [auto|intros _; cbn [paid]; lra]].
    apply (both_mono k); auto. intros j. specialize (Hk j). lia.
  - destruct olds as [|x olds]; [discriminate|]. cbn [length] in *. pose proof (Forall_inv HF) as (ND & Ly & Ry). pose proof (Forall_inv_tail HF) as HF'.
    pose proof (Ho 0%nat) as Hx. rewrite Nat.add_0_r in Hx. cbn in Hx.
    assert (Fx : is_finite x = true /\ 0 <= B2R x) by (unfold fine in Hf; rewrite Forall_forall in Hf; apply Hf; eapply nth_error_In; eauto).
    assert (Rx : 0 <= B2R x <= rsum (reals old)) by (apply (in_rsum (reals old) i); auto; unfold reals; apply map_nth_error; auto).
    unfold get. rewrite Hx. cbn [obind]. cbn [reals map PRFloatProof.cost] in Hs |- *. fold (reals olds) in Hs |- *.
    assert (Nol : nonneg (reals olds)).
    { apply fine_nonneg. unfold fine. apply Forall_forall. intros z Hz. apply In_nth_error in Hz. destruct Hz as [j Hj].
      assert (Ho2 : nth_error old (i + S j) = Some z) by (rewrite (Ho (S j)); exact Hj). unfold fine in Hf. rewrite Forall_forall in Hf. apply Hf. eapply nth_error_In; exact Ho2. }
    pose proof (cost_pos nn alpha Hn HN Fa Ha b os (reals olds) B0 Nol) as C0. pose proof (spent_pos nn alpha Hn HN Fa Ha ys (B2R x) (proj1 Rx)) as P0.
    assert (Kb : INR (2 * i + 2) <= 4294967296).
    { apply Rle_trans with (INR (2 * nn)); [apply le_INR; lia|]. rewrite mult_INR. change (INR 2) with 2. lra. }
    assert (SP : exists p1 e1 f1 k1, dspread md pr ys (dmul md (dmul md alpha x) (share md (length ys))) = Ok p1 /\ both k1 p1 e1 f1 /\
      length e1 = length e /\ rsum e1 = rsum e + spent ys (B2R x) /\
      rsum f1 = rsum f + match ys with [] => 0 | _ => INR (length ys) * B2R (dmul md (dmul md alpha x) (share md (length ys))) end /\ (forall j, (k1 j <= S (2 * i))%nat)).
    { destruct ys as [|y ys].
      - exists pr, e, f, k. cbn [dspread PRFloatProof.spent]. do 3 (split; [auto|]). split; [lra|]. split; [lra|]. intros j. specialize (Hk j). lia.
      - unfold PRFloatProof.spent. unfold PRFloatProof.spent in Hs. assert (Ik : INR (length (y :: ys)) <= NR) by (apply le_INR; exact Ly).
        apply (both_spread md (y :: ys) _ _ (v_ok x (length (y :: ys)) (proj1 Fx) ltac:(lra) ltac:(cbn; lia) ltac:(lra)) k (2 * i)); auto.
        + eapply Forall_impl; [|exact Ry]. intros z Hz. cbn in *. rewrite Le. exact Hz.
        + lra.
        + eapply Rle_trans; [|exact Kb]. apply le_INR. lia. }
    destruct SP as (p1 & e1 & f1 & k1 & E1 & B1 & L1 & S1 & S1' & K1). rewrite E1. cbn [obind].
    destruct (both_bump md k1 p1 e1 f1 i (base md nn alpha dsum) b B1 ltac:(lia) Hb ltac:(lra)) as (p2 & e2 & f2 & E2 & B2 & L2 & S2 & S2').
    { eapply Rle_trans; [apply le_INR, K1|]. eapply Rle_trans; [|exact Kb]. apply le_INR. lia. }
    rewrite E2. cbn [obind].
    assert (K2 : forall j, ((if Nat.eqb j i then S (k1 i) else k1 j) <= 2 * S i)%nat).
    { intros j. pose proof (K1 i). pose proof (K1 j). destruct (Nat.eqb j i); lia. }
    destruct (Bltb _ _).
    + exists true, p2, e2, f2. split; auto. split; [|split; [lia|discriminate]]. eapply both_mono; [|exact B2]. intros j. cbn beta.
      specialize (K2 j). lia.
    + destruct (IH (S i) olds p2 e2 f2 _ ltac:(intros j; rewrite Nat.add_succ_comm; exact (Ho (S j))) ltac:(lia) ltac:(lia) HF' ltac:(lia) B2 K2 ltac:(lra))
        as (st & p3 & e3 & f3 & E3 & B3 & L3 & S3).
      exists st, p3, e3, f3. split; auto. split; auto. split; auto. intros Hst. rewrite (S3 Hst). cbn [paid]. lra.
Qed.

Lemma low_dangling os : forall olds acc A k L l, le acc (A * pw k) -> 0 <= A -> fine olds -> length os = length olds ->
  A + dangling os (reals olds) + INR (length os) * eta <= T30 -> INR (k + length os) <= 4294967296 ->
  0 <= L -> L * pd l - eta * INR l <= B2R acc ->
  (L + dangling os (reals olds)) * pd (l + length os) - eta * INR (l + length os) <= B2R (ddangling md os olds acc).
Proof using Hn HN Fa Ha.
  pose proof eta_val as Et. pose proof big_val as Bv. pose proof u_pos as Up.
  assert (Dp : forall os olds, fine olds -> 0 <= dangling os (reals olds)).
  { induction os0 as [|[|y ys] os0 IH]; intros [|x l] F; cbn; try lra; inversion F as [|? ? [_ F1] F2]; subst; specialize (IH l F2); fold (reals l); lra. }
  induction os as [|ys os IH]; intros olds acc A k L l HL HA HF Hl Hs Hk L0 Lo; cbn [ddangling].
  - destruct olds; [|discriminate]. cbn [reals map dangling length]. rewrite Nat.add_0_r, Rplus_0_r. exact Lo.
  - destruct olds as [|x olds]; [discriminate|]. cbn [length] in *. inversion HF as [|? ? [Fx Px] HF']; subst. cbn [reals map]. fold (reals olds).
    rewrite S_INR in Hs. cbn [reals map] in Hs. fold (reals olds) in Hs. replace (k + S (length os))%nat with (S k + length os)%nat in * by lia.
    replace (l + S (length os))%nat with (S l + length os)%nat in * by lia.
    pose proof (pos_INR (length os)) as Pl. assert (0 <= INR (length os) * eta) as Pe by (apply Rmult_le_pos; lra).
    pose proof (Dp os olds HF') as Dd. pose proof (pw_pos k) as P1. pose proof (pd_pos l) as P3.
    assert (P2 : pw k <= 1 + / 1000000) by (apply pw_le; eapply Rle_trans; [apply le_INR|exact Hk]; lia).
    destruct ys as [|y ys]; cbn [dangling] in Hs |- *.
    + assert (AP : A * pw k <= A * (1 + / 1000000)) by (apply Rmult_le_compat_l; lra). unfold T30 in Hs.
      assert (Lx : le x (B2R x)) by (split; [exact Fx|lra]).
      assert (L1 : le (dadd md acc x) ((A + B2R x + eta) * pw (S k))).
      { eapply le_weaken; [apply le_add; [exact HL|exact Lx|lra]|].
        change (pw (S k)) with ((1 + u) * pw k).
        assert (B2R x + eta <= (B2R x + eta) * pw k) by (rewrite <- (Rmult_1_r (B2R x + eta)) at 1; apply Rmult_le_compat_l; lra).
        replace ((A + B2R x + eta) * ((1 + u) * pw k)) with ((A * pw k + (B2R x + eta) * pw k) * (1 + u)) by ring.
        apply Rle_trans with ((A * pw k + (B2R x + eta)) * (1 + u)); [|apply Rmult_le_compat_r; lra].
        assert (0 <= eta * u) by (apply Rmult_le_pos; lra). lra. }
      pose proof (ge_add md acc x _ _ HL Lx ltac:(lra)) as G.
      replace (L + (B2R x + dangling os (reals olds))) with ((L + B2R x) + dangling os (reals olds)) by ring.
      apply (IH olds (dadd md acc x) _ (S k) (L + B2R x) (S l) L1); auto; [lra|unfold T30; lra|lra|].
      eapply Rle_trans; [|exact G]. change (pd (S l)) with ((1 - u) * pd l). rewrite S_INR.
      assert (E1 : (L * pd l - eta * INR l) * (1 - u) <= B2R acc * (1 - u)) by (apply Rmult_le_compat_r; lra).
      assert (E2 : B2R x * pd l * (1 - u) <= B2R x * 1 * (1 - u)) by (apply Rmult_le_compat_r; [lra|]; apply Rmult_le_compat_l; lra).
      assert (E3 : 0 <= eta * INR l * u) by (apply Rmult_le_pos; [apply Rmult_le_pos; [lra|apply pos_INR]|lra]). lra.
    + pose proof (IH olds acc A k L l HL HA HF' ltac:(lia) ltac:(unfold T30 in *; lra) ltac:(eapply Rle_trans; [apply le_INR|exact Hk]; lia) L0 Lo) as G.
      eapply Rle_trans; [|exact G]. pose proof (pd_mono (l + length os) (S l + length os) ltac:(lia)) as Q.
      assert ((L + dangling os (reals olds)) * pd (S l + length os) <= (L + dangling os (reals olds)) * pd (l + length os)) by (apply Rmult_le_compat_l; lra).
      assert (eta * INR (l + length os) <= eta * INR (S l + length os)) by (apply Rmult_le_compat_l; [lra|apply le_INR; lia]). lra.
Qed.
End Pass.
