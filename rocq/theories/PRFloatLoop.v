(** * PRFloatLoop: the loop of pageRank in floating point; the sum of the ranks after t passes. *)
From Coq Require Import Reals Lra.
From Flocq Require Import Core.Core IEEE754.BinarySingleNaN.
From Verif Require Import Base Spec Thresholds K2 C0 DK PageRank PRProof PRFloat PRFloatProof.
Open Scope R_scope.
Local Existing Instances p53 p24 l53 l24.

(** ** The loop *)
Lemma reals_repeat (v : double) k : reals (repeat v k) = repeat (B2R v) k.
Proof. unfold reals. induction k as [|k IH]; [reflexivity|]. cbn [repeat map]. f_equal. exact IH. Qed.
Section Loop.
Context (md : mode) (nn : nat) (alpha conv : double) (outs : list (list N)) (m : nat).
Local Notation a := (B2R alpha).
Local Notation NR := (INR nn).
Context (Hn : (1 <= nn)%nat) (HN : NR <= 2147483648) (Fa : is_finite alpha = true) (Ha : 0 <= a <= 1).
Context (Hm1 : (1 <= m <= nn)%nat).

(** The sum after t passes is at most [bnd t]. *)
Fixpoint bnd (t : nat) : R := match t with O => NR / INR m * (1 + / 1000000000) | S t => grow alpha (bnd t) end.
Definition mass (t : nat) : R := 1 + a ^ t * (NR / INR m - 1).

Lemma ratio : 1 <= NR / INR m <= NR.
Proof using Hn Hm1.
  assert (1 <= INR m) by (apply (le_INR 1); lia). assert (INR m <= NR) by (apply le_INR; lia).
  assert (I : 0 < / INR m <= 1) by (split; [apply Rinv_0_lt_compat; lra|rewrite <- Rinv_1; apply Rinv_le_contravar; lra]).
  unfold Rdiv. split.
  - replace 1 with (INR m * / INR m) by (field; lra). apply Rmult_le_compat_r; lra.
  - rewrite <- (Rmult_1_r NR) at 2. apply Rmult_le_compat_l; lra.
Qed.
Lemma apow t : 0 <= a ^ t <= 1.
Proof using Ha.
  induction t as [|t IH]; cbn [pow]; [lra|]. split; [apply Rmult_le_pos; lra|]. rewrite <- (Rmult_1_r 1). apply Rmult_le_compat; lra.
Qed.
Lemma mass_bounds t : 1 <= mass t <= NR + 1.
Proof using Hn Hm1 Ha.
  pose proof ratio as R1. pose proof (apow t) as P. unfold mass.
  assert (0 <= a ^ t * (NR / INR m - 1)) by (apply Rmult_le_pos; lra).
  assert (a ^ t * (NR / INR m - 1) <= 1 * (NR / INR m - 1)) by (apply Rmult_le_compat_r; lra). lra.
Qed.
Lemma bnd_closed t : 0 <= bnd t <= (1 + / 100000) ^ (S t) * (mass t + INR t * / 100000000000000).
Proof using Hn HN Hm1 Ha.
  pose proof ratio as R1. induction t as [|t IH].
  - cbn [bnd pow INR]. unfold mass. cbn [pow]. split; lra.
  - cbn [bnd]. unfold grow. set (c := 1 + / 100000) in *. rewrite S_INR.
    assert (C1 : 1 <= c ^ S t) by (apply pow_R1_Rle; unfold c; lra). pose proof (mass_bounds t) as Mb. pose proof (pos_INR t) as Tp.
    assert (aM : 0 <= a * bnd t) by (apply Rmult_le_pos; lra).
    split; [assert (0 <= (a * bnd t + (1 - a)) * c) by (apply Rmult_le_pos; unfold c; lra); lra|].
    assert (S1 : a * bnd t <= a * (c ^ S t * (mass t + INR t * / 100000000000000))) by (apply Rmult_le_compat_l; lra).
    assert (S2 : (1 - a) <= (1 - a) * c ^ S t) by (rewrite <- (Rmult_1_r (1 - a)) at 1; apply Rmult_le_compat_l; lra).
    assert (Z : 0 <= INR t * / 100000000000000) by (apply Rmult_le_pos; lra).
    assert (S3 : a * (INR t * / 100000000000000) <= 1 * (INR t * / 100000000000000)) by (apply Rmult_le_compat_r; lra).
    assert (Mn : mass (S t) = a * mass t + (1 - a)) by (unfold mass; cbn [pow]; ring).
    rewrite Mn. change (c ^ S (S t)) with (c * c ^ S t). set (q := c ^ S t) in *.
    assert (S4 : a * (q * (mass t + INR t * / 100000000000000)) + (1 - a) * q <= q * (a * mass t + (1 - a) + INR t * / 100000000000000)).
    { replace (a * (q * (mass t + INR t * / 100000000000000)) + (1 - a) * q) with (q * (a * mass t + (1 - a) + a * (INR t * / 100000000000000))) by ring.
      apply Rmult_le_compat_l; lra. }
    apply Rle_trans with (q * (a * mass t + (1 - a) + INR t * / 100000000000000) * c + / 100000000000000).
    + apply Rplus_le_compat_r. apply Rmult_le_compat_r; [unfold c; lra|lra].
    + replace (c * q * (a * mass t + (1 - a) + (INR t + 1) * / 100000000000000)) with
        (q * (a * mass t + (1 - a) + INR t * / 100000000000000) * c + (c * q) * / 100000000000000) by ring.
      assert (1 <= c * q); [|lra]. rewrite <- (Rmult_1_r 1) at 1. apply Rmult_le_compat; unfold c in *; lra.
Qed.
Lemma bnd_damped t : a <= 15 / 16 -> bnd t <= 2 * NR + 32.
Proof using Hn HN Hm1 Ha.
  intros Hd. pose proof ratio as R1. induction t as [|t IH]; cbn [bnd]; [lra|]. unfold grow.
  pose proof (bnd_closed t) as [B0 _].
  assert (K1 : 1 <= NR) by (apply (le_INR 1); lia).
  assert (S1 : a * bnd t <= a * (2 * NR + 32)) by (apply Rmult_le_compat_l; lra).
  assert (S2 : a * (2 * NR + 31) <= 15 / 16 * (2 * NR + 31)) by (apply Rmult_le_compat_r; lra). lra.
Qed.
Lemma bnd_short t : (N.of_nat t <= 1000000)%N -> bnd t <= 10000000000000000.
Proof using Hn HN Hm1 Ha.
  intros Ht. pose proof (bnd_closed t) as [_ B]. eapply Rle_trans; [exact B|]. pose proof (mass_bounds t) as Mb.
  set (c := 1 + / 100000) in *. assert (Hc : 1 <= c) by (unfold c; lra).
  assert (T1 : 0 <= INR t <= 1000000).
  { split; [apply pos_INR|]. rewrite INR_IZR_INZ. apply IZR_le. lia. }
  assert (P1 : c ^ N.to_nat 50000 <= 2).
  { pose proof (pow_lin (/ 100000) (N.to_nat 50000) ltac:(lra)) as P. fold c in P. rewrite (INR_IZR_INZ (N.to_nat 50000)), N_nat_Z in P.
    change (IZR (Z.of_N 50000)) with 50000 in P. lra. }
  assert (P0 : 1 <= c ^ N.to_nat 50000) by (apply pow_R1_Rle; auto).
  assert (P2 : c ^ S t <= 2 ^ 21).
  { eapply Rle_trans; [apply (Rle_pow c (S t) (N.to_nat 50000 * 21)); auto; lia|]. rewrite pow_mult. apply pow_incr. lra. }
  assert (P3 : 0 <= c ^ S t) by (apply pow_le; lra).
  apply Rle_trans with (2 ^ 21 * (NR + 2)); [apply Rmult_le_compat; lra|]. lra.
Qed.
Context (HO : outs_ok nn outs) (Hm : total_nodes outs = m).
Lemma loop_ok k : forall t pr, (forall s, (s <= t + k)%nat -> bnd s <= T20) -> fine pr -> length pr = nn -> rsum (reals pr) <= bnd t ->
  exists res t', dloop md nn alpha conv outs k pr = Ok res /\ fine res /\ length res = nn /\ (t' <= t + k)%nat /\ (t + k = 0 \/ t <= t')%nat /\
    rsum (reals res) <= bnd t'.
Proof using Hn HN Fa Ha HO Hm Hm1.
  induction k as [|k IH]; intros t pr HB F Lp HS.
  - exists pr, t. split; [reflexivity|]. split; [auto|]. split; [auto|]. split; [lia|]. split; [lia|auto].
  - destruct (pass_ok md nn alpha conv outs Hn HN Fa Ha pr (bnd t) HO F Lp HS (HB t ltac:(lia))) as (st & p1 & E & F1 & L1 & S1).
    cbn [dloop]. rewrite E. cbn [obind]. destruct st.
    + exists p1, (S t). split; [reflexivity|]. split; [auto|]. split; [auto|]. split; [lia|]. split; [lia|exact S1].
    + destruct (IH (S t) p1) as (res & t' & G1 & G2 & G3 & G4 & G5 & G6); auto; [intros s Hs; apply HB; lia|].
      exists res, t'. split; [exact G1|]. split; [auto|]. split; [auto|]. split; [lia|]. split; [lia|auto].
Qed.
Lemma init_ok : fine (dinit md nn outs) /\ length (dinit md nn outs) = nn /\ rsum (reals (dinit md nn outs)) <= bnd 0.
Proof using Hn HN Fa Ha HO Hm Hm1.
  assert (K1 : 1 <= INR m) by (apply (le_INR 1); lia). assert (K2 : INR m <= NR) by (apply le_INR; lia).
  destruct (inv_n md m alpha ltac:(lia) ltac:(lra) Fa Ha) as [[F B] _]. unfold dinit. rewrite Hm. set (v := ddiv md one (d_of md m)) in *.
  split; [|split].
  - apply Forall_forall. intros x Hx. apply repeat_spec in Hx. subst x. split; [exact F|apply B].
  - apply repeat_length.
  - unfold reals. rewrite reals_repeat.
    rewrite rsum_repeat. cbn [bnd]. replace (NR / INR m * (1 + / 1000000000)) with (NR * (1 / INR m * (1 + / 1000000000))) by (field; lra).
    apply Rmult_le_compat_l; [apply pos_INR|apply B].
Qed.
Lemma run_ok k : a <= 15 / 16 \/ (N.of_nat k <= 1000000)%N ->
  exists res t, dloop md nn alpha conv outs k (dinit md nn outs) = Ok res /\ fine res /\ length res = nn /\ (t <= k)%nat /\
    rsum (reals res) <= (1 + / 100000) ^ (S t) * (mass t + INR t * / 100000000000000).
Proof using Hn HN Fa Ha HO Hm Hm1.
  intros Hk. destruct init_ok as (I1 & I2 & I3).
  destruct (loop_ok k 0 (dinit md nn outs)) as (res & t & G1 & G2 & G3 & G4 & _ & G6); auto.
  { intros s Hs. unfold T20. destruct Hk as [Hd|Hk]; [pose proof (bnd_damped s Hd); lra|pose proof (bnd_short s ltac:(lia)); lra]. }
  exists res, t. split; [exact G1|]. split; [auto|]. split; [auto|]. split; [lia|]. eapply Rle_trans; [exact G6|apply bnd_closed].
Qed.
End Loop.
