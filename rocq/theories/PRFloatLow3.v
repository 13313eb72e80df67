(** * PRFloatLow3: the sum of the ranks from below, pass by pass, when the convergence test never ends the loop. *)
From Coq Require Import Reals Lra.
From Flocq Require Import Core.Core IEEE754.BinarySingleNaN.
From Verif Require Import Base Spec Thresholds K2 C0 DK PageRank PRProof PRFloat PRFloatProof PRFloatLoop PRFloatLow PRFloatLow2.
Open Scope R_scope.
Local Existing Instances p53 p24 l53 l24.

Section Md.
Context (md : mode).
(** as ge_mul, for any l *)
Lemma ge_mul2 x y a b l m : le x a -> le y b -> a * b <= big -> l <= B2R x -> 0 <= m <= B2R y -> l * m * (1 - u) - eta <= B2R (dmul md x y).
Proof.
  intros Lx Ly H Hl Hm. pose proof u_pos as U. pose proof eta_val as Et. destruct (Rle_or_lt 0 l) as [Z|Z].
  - eapply ge_mul; eauto.
  - pose proof (proj1 (proj2 (le_mul md x y a b Lx Ly H))) as Pos. eapply Rle_trans; [|exact Pos].
    assert (0 <= (- l) * m * (1 - u)) by (apply Rmult_le_pos; [apply Rmult_le_pos; lra|lra]). lra.
Qed.

(** ** A convergence bound of 0 never ends the loop *)
Lemma sign_add acc y : Bsign acc = false -> Bsign (dadd md acc (dabs y)) = false.
Proof.
  intros H. destruct acc as [s|s| |s m e p]; cbn in H; try subst s.
  - destruct y as [t|t| |t m' e' p']; reflexivity.
  - destruct y as [t|t| |t m' e' p']; reflexivity.
  - destruct y as [t|t| |t m' e' p']; reflexivity.
  - destruct y as [t|t| |t m' e' p']; try reflexivity. 
    pose proof (Bplus_correct 53 1024 p53 l53 md (B754_finite false m e p) (B754_finite false m' e' p') eq_refl eq_refl) as C.
    change (dabs (B754_finite t m' e' p')) with (B754_finite false m' e' p' : double). unfold dadd.
    assert (P1 : 0 < B2R (B754_finite false m e p : double)) by (apply F2R_gt_0; cbn; lia).
    assert (P2 : 0 < B2R (B754_finite false m' e' p' : double)) by (apply F2R_gt_0; cbn; lia).
    destruct (Rlt_bool _ _).
    + destruct C as [_ [_ C]]. rewrite C. rewrite Rcompare_Gt by lra. reflexivity.
    + destruct C as [C _]. set (s := Bplus md (B754_finite false m e p : double) (B754_finite false m' e' p')) in *.
      cbn [Bsign] in C. destruct s as [s|s| |s m2 e2 p2]; auto; unfold binary_overflow in C; destruct (overflow_to_inf md false); cbn in C; try discriminate; injection C; intros; subst; reflexivity.
Qed.
Lemma err_sign pr : forall old acc, Bsign acc = false -> Bsign (derr md pr old acc) = false.
Proof. induction pr as [|x pr IH]; intros [|y old] acc H; cbn [derr]; auto. apply IH. apply sign_add. exact H. Qed.
Lemma not_below x : Bsign x = false -> Bltb x zero = false.
Proof. destruct x as [s|s| |s m e p]; cbn; intros H; subst; reflexivity. Qed.
Lemma times_zero n : (1 <= n)%nat -> INR n <= 2147483648 -> dmul md (d_of md n) zero = zero.
Proof.
  intros H1 HN. assert (K1 : 1 <= INR n) by (apply (le_INR 1); lia). pose proof eta_val as Et. pose proof u_val as U.
  destruct (d_of_ok md n ltac:(lra)) as [Fd Bd]. rewrite U in Bd. destruct (d_of md n) as [s|s| |s m e p]; try discriminate; [cbn in Bd; lra|].
  destruct s; [|reflexivity]. exfalso. pose proof (F2R_lt_0 radix2 (Float radix2 (Zneg m) e) ltac:(cbn; lia)) as Q. pose proof (proj1 Bd : _ <= F2R (Float radix2 (Zneg m) e)) as Q2. lra.
Qed.
Lemma sweep_runs nn alpha old dsum os : (1 <= nn)%nat -> INR nn <= 2147483648 -> forall i pr st pr',
  dsweep md nn alpha zero old dsum os i pr = Ok (st, pr') -> st = false.
Proof.
  intros H1 HN. induction os as [|ys os IH]; intros i pr st pr' E; cbn [dsweep] in E; [congruence|].
  destruct (get old i) as [oi|]; [|discriminate]. cbn [obind] in E. destruct (dspread _ _ _ _) as [p1|]; [|discriminate]. cbn [obind] in E.
  destruct (dbump _ _ _ _) as [p2|]; [|discriminate]. cbn [obind] in E. rewrite times_zero in E by auto.
  rewrite not_below in E by (apply err_sign; reflexivity). eauto.
Qed.
End Md.

Section Pass.
Context (md : mode) (nn : nat) (alpha : double) (outs : list (list N)).
Local Notation a := (B2R alpha).
Local Notation NR := (INR nn).
Context (Hn : (1 <= nn)%nat) (HN : NR <= 2147483648) (Fa : is_finite alpha = true) (Ha : 0 <= a <= 1).
Local Notation fine_nonneg := (fine_nonneg alpha Ha).

Lemma base_low old : fine old -> length old = nn -> length outs = nn -> rsum (reals old) <= T20 ->
  1 / NR * ((a * dangling outs (reals old) + (1 - a)) * (1 - / 250000) - / 1000000000000000) <=
  B2R (base md nn alpha (dmul md (ddangling md outs old zero) alpha)).
Proof using Hn HN Fa Ha.
  intros HF Hl Ho Hs. pose proof eta_val as Et. pose proof big_val as Bv. unfold T20 in Hs.
  pose proof (live_dangling outs (reals old) ltac:(unfold reals; rewrite (@map_length double R); lia)) as LD.
  pose proof (live_nonneg outs (reals old) (fine_nonneg _ HF)) as LP.
  assert (D0 : 0 <= dangling outs (reals old)).
  { clear - HF. revert outs. induction HF as [|x l [_ F1] F2 IH]; intros [|[|y ys] os]; cbn; try lra; specialize (IH os); fold (reals l); lra. }
  destruct (inv_n md nn alpha Hn HN Fa Ha) as [LI [I1 G2]]. pose proof (inv_low md nn Hn ltac:(lra)) as GI.
  assert (NE : INR (length outs) * eta <= / 1000000000000000000000000000) by (rewrite Ho; apply Rle_trans with (2147483648 * eta); [apply Rmult_le_compat_r; lra|lra]).
  assert (NE0 : 0 <= INR (length outs) * eta) by (apply Rmult_le_pos; [apply pos_INR|lra]).
  assert (L0 : le (ddangling md outs old zero) ((0 + dangling outs (reals old) + INR (length outs) * eta) * pw (0 + length outs))).
  { apply (bel_dangling md nn alpha Hn HN Fa Ha); auto; try lia; try lra.
    - rewrite Rmult_0_l. apply le_zero.
    - unfold T30. lra.
    - cbn [Nat.add]. rewrite Ho. lra. }
  assert (B0 : (0 + dangling outs (reals old)) * pd (0 + length outs) - eta * INR (0 + length outs) <= B2R (ddangling md outs old zero)).
  { apply (low_dangling md nn alpha Hn HN Fa Ha outs old zero 0 0 0 0); auto; try lia; try lra.
    - rewrite Rmult_0_l. apply le_zero.
    - unfold T30. lra.
    - cbn [Nat.add]. rewrite Ho. lra.
    - cbn. lra. }
  set (D := dangling outs (reals old)) in *. set (i := 1 / NR) in *. cbn [Nat.add] in B0.
  assert (PW : pw (0 + length outs) <= 1 + / 1000000) by (apply pw_le; cbn [Nat.add]; rewrite Ho; lra).
  pose proof (pw_pos (0 + length outs)) as PP.
  pose proof (pd_ge (length outs) ltac:(rewrite Ho; lra)) as PG.
  assert (B1 : D * (1 - / 1000000) - / 100000000000000000000000000 <= B2R (ddangling md outs old zero)).
  { assert (D * (1 - / 1000000) <= D * pd (length outs)) by (apply Rmult_le_compat_l; lra). lra. }
  assert (L1 : le (ddangling md outs old zero) (D * (1 + / 1000000) + / 100000000000000000000000000)).
  { eapply le_weaken; [exact L0|]. apply Rle_trans with ((0 + D + INR (length outs) * eta) * (1 + / 1000000)); [apply Rmult_le_compat_l; lra|lra]. }
  assert (aD : 0 <= a * D <= 1 * D) by (split; [apply Rmult_le_pos; lra|apply Rmult_le_compat_r; lra]).
  assert (LA : le alpha a) by (split; [exact Fa|split; [apply Ha|apply Rle_refl]]).
  assert (Q2 : (D * (1 + / 1000000) + / 100000000000000000000000000) * a <= big) by (clear - aD Bv Ha D0 LD LP Hs; lra).
  assert (L2 : le (dmul md (ddangling md outs old zero) alpha) (a * D * (1 + / 500000) + / 10000000000000000000000000)).
  { eapply le_weaken; [apply le_mul; [exact L1|exact LA|exact Q2]|]. rewrite u_val. clear - aD Et Ha D0. lra. }
  assert (B2 : a * D * (1 - / 500000) - / 10000000000000000000000000 <= B2R (dmul md (ddangling md outs old zero) alpha)).
  { eapply Rle_trans; [|apply (ge_mul2 md _ _ _ _ _ a L1 LA Q2 B1); lra]. rewrite u_val. clear - aD Et Ha D0. lra. }
  set (t := a * D) in *.
  assert (ti : 0 <= t * i <= t * 1) by (split; [apply Rmult_le_pos; lra|apply Rmult_le_compat_l; lra]).
  assert (ai : 0 <= a * i <= 1 * i) by (split; [apply Rmult_le_pos; lra|apply Rmult_le_compat_r; lra]).
  assert (Q3 : (t * (1 + / 500000) + / 10000000000000000000000000) * (i * (1 + / 1000000000)) <= big) by (clear - ti aD Bv LD LP Hs I1; lra).
  assert (I2 : 0 <= i * (1 - / 1000000000) <= B2R (ddiv md one (d_of md nn))) by (split; [lra|exact GI]).
  assert (L3 : le (dmul md (dmul md (ddangling md outs old zero) alpha) (ddiv md one (d_of md nn))) (t * i * (1 + / 400000) + i * / 1000000000000000000)).
  { eapply le_weaken; [apply le_mul; [exact L2|exact LI|exact Q3]|]. rewrite u_val. clear - ti I1 G2. lra. }
  assert (B3 : t * i * (1 - / 400000) - i * / 1000000000000000000 <= B2R (dmul md (dmul md (ddangling md outs old zero) alpha) (ddiv md one (d_of md nn)))).
  { eapply Rle_trans; [|apply (ge_mul2 md _ _ _ _ _ _ L2 LI Q3 B2 I2)]. rewrite u_val. clear - ti I1 G2. lra. }
  assert (L4 : le (dsub md one alpha) ((1 - a) * (1 + / 1000000000) + eta)).
  { eapply le_weaken; [apply le_sub1; auto|]. rewrite u_val. clear - Ha. lra. }
  assert (B4 : (1 - a) * (1 - / 1000000000) - eta <= B2R (dsub md one alpha)).
  { eapply Rle_trans; [|apply ge_sub1; auto]. rewrite u_val. clear - Ha. lra. }
  assert (ei : 0 <= eta * i <= eta * 1) by (split; [apply Rmult_le_pos; lra|apply Rmult_le_compat_l; lra]).
  assert (ei2 : 0 <= eta * i <= / 10000000000000000000000000000000000000000 * i) by (split; [apply Rmult_le_pos; lra|apply Rmult_le_compat_r; lra]).
  assert (Q5 : ((1 - a) * (1 + / 1000000000) + eta) * (i * (1 + / 1000000000)) <= big) by (clear - ai I1 Et Bv Ha ei; lra).
  assert (L5 : le (dmul md (dsub md one alpha) (ddiv md one (d_of md nn))) ((i - a * i) * (1 + / 100000000) + i * / 1000000000000000000)).
  { eapply le_weaken; [apply le_mul; [exact L4|exact LI|exact Q5]|]. rewrite u_val. clear - ai I1 G2 ei2. lra. }
  assert (B5 : (i - a * i) * (1 - / 100000000) - i * / 1000000000000000000 <= B2R (dmul md (dsub md one alpha) (ddiv md one (d_of md nn)))).
  { eapply Rle_trans; [|apply (ge_mul2 md _ _ _ _ _ _ L4 LI Q5 B4 I2)]. rewrite u_val. clear - ai I1 G2 ei2. lra. }
  unfold base. eapply Rle_trans; [|apply (ge_add md _ _ _ _ L3 L5)].
  - set (p := B2R (dmul md (dmul md _ _) _)) in *. set (q := B2R (dmul md (dsub md one alpha) _)) in *. rewrite u_val.
    assert (S1 : (t * i * (1 - / 400000) - i * / 1000000000000000000 + ((i - a * i) * (1 - / 100000000) - i * / 1000000000000000000)) * (1 - / 4503599627370496) - eta <= (p + q) * (1 - / 4503599627370496) - eta) by lra.
    eapply Rle_trans; [|exact S1]. clear - ti ai I1 G2. lra.
  - clear - ti ai I1 aD Bv LD LP Hs. lra.
Qed.

Definition shrink (M : R) : R := (a * M + (1 - a)) * (1 - / 100000) - / 100000000000000.
Lemma low_sum K pr : forall f, low (fun _ => K) pr f -> nonneg f -> INR K <= 4294967296 -> fine pr ->
  rsum f * (1 - / 1000000) - INR (length pr) * (eta * INR K) <= rsum (reals pr).
Proof using.
  clear Hn HN. induction pr as [|x pr IH]; intros [|r f] [L B] Nf Hk F; try discriminate L.
  - cbn [reals map length]. change (INR 0) with 0. rewrite rsum_nil. lra.
  - inversion Nf as [|? ? Hr Nf']; subst. pose proof (B 0%nat x r eq_refl eq_refl) as B0. cbn beta in B0. inversion F as [|? ? [Fx Px] F']; subst.
    assert (S1 : rsum f * (1 - / 1000000) - INR (length pr) * (eta * INR K) <= rsum (reals pr)).
    { apply IH; auto. split; [cbn in L; lia|]. intros j y s Hy Hs. apply (B (S j)); auto. }
    cbn [reals map length]. fold (reals pr). rewrite !rsum_cons, S_INR. pose proof (pd_ge K Hk) as P.
    assert (r * (1 - / 1000000) <= r * pd K) by (apply Rmult_le_compat_l; lra). lra.
Qed.
Lemma pass_low old M : outs_ok nn outs -> fine old -> length old = nn -> rsum (reals old) <= T20 -> M <= rsum (reals old) ->
  exists pr', dpass md nn alpha zero outs old = Ok (false, pr') /\ fine pr' /\ length pr' = nn /\ rsum (reals pr') <= grow alpha (rsum (reals old)) /\
    shrink M <= rsum (reals pr').
Proof using Hn HN Fa Ha.
  intros HO HF Hl HT HM. pose proof eta_val as Et.
  destruct (pass_ok md nn alpha zero outs Hn HN Fa Ha old (rsum (reals old)) HO HF Hl ltac:(lra) HT) as (st & pr' & E & F1 & L1 & S1).
  pose proof (sweep_runs md nn alpha old _ outs Hn HN 0 (repeat zero nn) st pr' E) as Hst. subst st.
  exists pr'. split; [exact E|]. split; [auto|]. split; [auto|]. split; [auto|].
  pose proof HO as [Lo HOs].
  pose proof (base_ok md nn alpha outs Hn HN Fa Ha old HF Hl Lo HT) as HB. pose proof (base_low old HF Hl Lo HT) as GB.
  pose proof (live_dangling outs (reals old) ltac:(unfold reals; rewrite (@map_length double R); lia)) as LD.
  pose proof (live_nonneg outs (reals old) (fine_nonneg _ HF)) as LP. set (D := dangling outs (reals old)) in *. set (Lv := live outs (reals old)) in *.
  assert (D0 : 0 <= D).
  { unfold D. clear - HF. revert outs. induction HF as [|x l [_ F1] F2 IH]; intros [|[|y ys] os]; cbn; try lra; specialize (IH os); fold (reals l); lra. }
  pose proof (le_pos _ _ HB) as B0. set (b := share_all nn alpha D) in *.
  assert (K1 : 1 <= NR) by (apply (le_INR 1); lia).
  assert (NB : NR * b = (a * D + (1 - a)) * (1 + / 250000) + / 1000000000000000) by (unfold b, share_all; field; lra).
  pose proof (cost_le nn alpha Hn HN Fa Ha b outs (reals old) (fine_nonneg _ HF)) as CL.
  assert (C1 : cost alpha b outs (reals old) <= a * (1 + / 1000000) * Lv + NR * (4 * NR * eta + b + eta)).
  { fold Lv in CL. rewrite Lo in CL. apply CL; auto. eapply Forall_impl; [|exact HOs]. intros ys (_ & Q & _). apply le_INR. exact Q. }
  assert (NN : 0 <= NR * NR <= 2147483648 * 2147483648) by (split; [apply Rmult_le_pos; lra|apply Rmult_le_compat; lra]).
  assert (E1 : 0 <= NR * NR * eta <= 2147483648 * 2147483648 * eta) by (split; [apply Rmult_le_pos; lra|apply Rmult_le_compat_r; lra]).
  assert (E2 : 0 <= NR * eta <= 2147483648 * eta) by (split; [apply Rmult_le_pos; lra|apply Rmult_le_compat_r; lra]).
  assert (aL : 0 <= a * Lv <= 1 * Lv) by (split; [apply Rmult_le_pos; lra|apply Rmult_le_compat_r; lra]).
  assert (aD : 0 <= a * D <= 1 * D) by (split; [apply Rmult_le_pos; lra|apply Rmult_le_compat_r; lra]).
  assert (C2 : cost alpha b outs (reals old) <= (a * Lv + a * D + (1 - a)) * (1 + / 250000) + / 500000000000000).
  { eapply Rle_trans; [exact C1|]. replace (NR * (4 * NR * eta + b + eta)) with (4 * (NR * NR * eta) + NR * b + NR * eta) by ring. rewrite NB.
    clear - E1 E2 aL aD Et Ha. lra. }
  pose proof HT as HT'. unfold T20 in HT. set (e0 := repeat 0 nn).
  assert (R0 : rsum e0 = 0) by (unfold e0; rewrite rsum_repeat; ring).
  assert (Nz : nonneg e0) by (unfold e0, nonneg; apply Forall_forall; intros z Hz; apply repeat_spec in Hz; lra).
  assert (BO : both (fun _ => 0%nat) (repeat zero nn) e0 e0).
  { split; [|split; [exact Nz|split; [|exact Nz]]].
    - split; [unfold e0; rewrite !repeat_length; reflexivity|]. intros j x r Hx Hr. apply nth_error_In in Hx, Hr. apply repeat_spec in Hx. apply repeat_spec in Hr.
      subst. rewrite Rmult_0_l. apply le_zero.
    - split; [unfold e0; rewrite !repeat_length; reflexivity|]. intros j x r Hx Hr. apply nth_error_In in Hx, Hr. apply repeat_spec in Hx. apply repeat_spec in Hr.
      subst. cbn. lra. }
  destruct (both_sweep md nn alpha zero Hn HN Fa Ha old (dmul md (ddangling md outs old zero) alpha) b HB HF HT' Hl outs 0 old (repeat zero nn) e0 e0 (fun _ => 0%nat))
    as (st & p1 & e1 & f1 & E' & (_ & _ & LO & NF) & Le1 & SF); auto.
  - lia.
  - unfold e0. apply repeat_length.
  - rewrite R0. unfold T30. clear - C2 aL aD LD HM HT Ha. lra.
  - unfold dpass in E. rewrite E in E'. injection E' as <- <-. specialize (SF eq_refl). rewrite R0, Rplus_0_l in SF.
    assert (Kn : INR (2 * nn) <= 4294967296) by (rewrite mult_INR; change (INR 2) with 2; lra).
    pose proof (low_sum (2 * nn) pr' f1 LO NF Kn F1) as G. rewrite SF, L1, mult_INR in G. change (INR 2) with 2 in G.
    pose proof (paid_ge md nn alpha Hn HN Fa Ha (B2R (base md nn alpha (dmul md (ddangling md outs old zero) alpha))) outs old HF HT'
      ltac:(eapply Forall_impl; [|exact HOs]; intros ys (_ & Q & _); exact Q) ltac:(lia)) as PG.
    fold Lv in PG. rewrite Lo in PG. set (bb := B2R (base md nn alpha _)) in *.
    assert (NBl : (a * D + (1 - a)) * (1 - / 250000) - / 1000000000000000 <= NR * bb).
    { apply Rle_trans with (NR * (1 / NR * ((a * D + (1 - a)) * (1 - / 250000) - / 1000000000000000))); [right; field; lra|]. apply Rmult_le_compat_l; lra. }
    assert (PG2 : a * (1 - / 1000000) * Lv + (a * D + (1 - a)) * (1 - / 250000) - / 1000000000000000 - 3 * (NR * NR * eta) <= paid md alpha bb outs old) by lra.
    unfold shrink. assert (aM : a * M <= a * rsum (reals old)) by (apply Rmult_le_compat_l; lra).
    assert (aLD : a * Lv + a * D = a * rsum (reals old)) by (rewrite <- LD; ring).
    replace (NR * (eta * (2 * NR))) with (2 * (NR * NR * eta)) in G by ring.
    clear - G PG2 aM aLD Ha aL aD E1 Et. lra.
Qed.
End Pass.

(** ** The loop *)
Section Loop.
Context (md : mode) (nn : nat) (alpha : double) (outs : list (list N)) (m : nat).
Local Notation a := (B2R alpha).
Local Notation NR := (INR nn).
Context (Hn : (1 <= nn)%nat) (HN : NR <= 2147483648) (Fa : is_finite alpha = true) (Ha : 0 <= a <= 1).
Context (Hm1 : (1 <= m <= nn)%nat) (HO : outs_ok nn outs) (Hm : total_nodes outs = m).
Local Notation bnd := (bnd nn alpha m).
Local Notation mass := (mass nn alpha m).

(** The sum after t passes is at least [lob t]. *)
Fixpoint lob (t : nat) : R := match t with O => NR / INR m * (1 - / 1000000000) | S t => shrink alpha (lob t) end.
Lemma lob_closed t : (1 - / 100000) ^ (S t) * mass t - INR t * / 100000000000000 <= lob t.
Proof using Hn HN Fa Ha Hm1.
  pose proof (ratio nn m Hn Hm1) as R1. induction t as [|t IH].
  - cbn [lob pow INR]. unfold PRFloatLoop.mass. cbn [pow]. lra.
  - cbn [lob]. unfold shrink. rewrite S_INR. set (d := 1 - / 100000) in *. pose proof (pos_INR t) as Tp.
    assert (Hd : 0 < d <= 1) by (unfold d; lra).
    assert (D1 : 0 <= d ^ S t <= 1).
    { clear - Hd. induction (S t) as [|k IH]; cbn [pow]; [lra|]. split; [apply Rmult_le_pos; lra|].
      assert (d * d ^ k <= 1 * d ^ k) by (apply Rmult_le_compat_r; lra). lra. }
    assert (Z : 0 <= INR t * / 100000000000000) by (apply Rmult_le_pos; lra).
    assert (S1 : a * (d ^ S t * mass t - INR t * / 100000000000000) <= a * lob t) by (apply Rmult_le_compat_l; lra).
    assert (S2 : (1 - a) * d ^ S t <= (1 - a) * 1) by (apply Rmult_le_compat_l; lra).
    assert (S3 : a * (INR t * / 100000000000000) <= 1 * (INR t * / 100000000000000)) by (apply Rmult_le_compat_r; lra).
    assert (Mn : mass (S t) = a * mass t + (1 - a)) by (unfold PRFloatLoop.mass; cbn [pow]; ring).
    rewrite Mn. change (d ^ S (S t)) with (d * d ^ S t). set (q := d ^ S t) in *.
    assert (S4 : q * (a * mass t + (1 - a)) - INR t * / 100000000000000 <= a * lob t + (1 - a)) by lra.
    assert (S5 : (q * (a * mass t + (1 - a)) - INR t * / 100000000000000) * d <= (a * lob t + (1 - a)) * d) by (apply Rmult_le_compat_r; lra).
    assert (S6 : INR t * / 100000000000000 * d <= INR t * / 100000000000000 * 1) by (apply Rmult_le_compat_l; lra). lra.
Qed.
Lemma grow_mono x y : x <= y -> grow alpha x <= grow alpha y.
Proof using Ha. intros H. unfold grow. assert (a * x <= a * y) by (apply Rmult_le_compat_l; lra). lra. Qed.
Lemma loop_low k : forall t pr, (forall s, (s <= t + k)%nat -> bnd s <= T20) -> fine pr -> length pr = nn -> rsum (reals pr) <= bnd t -> lob t <= rsum (reals pr) ->
  exists res, dloop md nn alpha zero outs k pr = Ok res /\ fine res /\ length res = nn /\ lob (t + k) <= rsum (reals res) <= bnd (t + k).
Proof using Hn HN Fa Ha HO Hm Hm1.
  induction k as [|k IH]; intros t pr HB F Lp HS HL.
  - exists pr. rewrite Nat.add_0_r. split; [reflexivity|]. split; [auto|]. split; [auto|]. split; auto.
  - pose proof (HB t ltac:(lia)) as HBt.
    destruct (pass_low md nn alpha outs Hn HN Fa Ha pr (lob t) HO F Lp (Rle_trans _ _ _ HS HBt) HL) as (p1 & E & F1 & L1 & S1 & S2).
    cbn [dloop]. rewrite E. cbn [obind].
    destruct (IH (S t) p1) as (res & G1 & G2 & G3 & G4); auto.
    + intros s Hs. apply HB. lia.
    + cbn [PRFloatLoop.bnd]. eapply Rle_trans; [exact S1|]. apply grow_mono. exact HS.
    + exists res. split; [exact G1|]. split; [auto|]. split; [auto|]. rewrite <- Nat.add_succ_comm. exact G4.
Qed.
Lemma init_low : lob 0 <= rsum (reals (dinit md nn outs)).
Proof using Hn HN Fa Ha HO Hm Hm1.
  assert (K1 : 1 <= INR m) by (apply (le_INR 1); lia). assert (K2 : INR m <= NR) by (apply le_INR; lia).
  pose proof (inv_low md m ltac:(lia) ltac:(lra)) as G. unfold dinit. rewrite Hm, reals_repeat, rsum_repeat. cbn [lob].
  replace (NR / INR m * (1 - / 1000000000)) with (NR * (1 / INR m * (1 - / 1000000000))) by (field; lra).
  apply Rmult_le_compat_l; [apply pos_INR|exact G].
Qed.
Lemma run_low k : a <= 15 / 16 \/ (N.of_nat k <= 1000000)%N ->
  exists res, dloop md nn alpha zero outs k (dinit md nn outs) = Ok res /\ fine res /\ length res = nn /\
    (1 - / 100000) ^ (S k) * mass k - INR k * / 100000000000000 <= rsum (reals res) <= (1 + / 100000) ^ (S k) * (mass k + INR k * / 100000000000000).
Proof using Hn HN Fa Ha HO Hm Hm1.
  intros Hk. destruct (init_ok md nn alpha outs m Hn HN Fa Ha Hm1 HO Hm) as (I1 & I2 & I3).
  destruct (loop_low k 0 (dinit md nn outs)) as (res & G1 & G2 & G3 & G4); auto.
  { intros s Hs. unfold T20. destruct Hk as [Hd|Hk]; [pose proof (bnd_damped nn alpha m Hn HN Ha Hm1 s Hd); lra|pose proof (bnd_short nn alpha m Hn HN Ha Hm1 s ltac:(lia)); lra]. }
  { apply init_low. }
  exists res. split; [exact G1|]. split; [auto|]. split; [auto|]. cbn [Nat.add] in G4.
  pose proof (lob_closed k). pose proof (bnd_closed nn alpha m Hn HN Ha Hm1 k). lra.
Qed.
End Loop.
