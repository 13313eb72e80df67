(** * PRProof: the rank mass through pageRank. *)
From Coq Require Import Reals Lra.
From Verif Require Import Base Spec Thresholds K2 C0 DK PageRank.
Open Scope R_scope.

Definition nonneg (l : list R) : Prop := Forall (fun r => 0 <= r) l.

Lemma rsum_nil : rsum [] = 0.
Proof. reflexivity. Qed.
Lemma rsum_cons x l : rsum (x :: l) = x + rsum l.
Proof. reflexivity. Qed.
Global Opaque rsum.
Lemma rsum_app a b : rsum (a ++ b) = rsum a + rsum b.
Proof. induction a as [|x a IH]; cbn [app]; rewrite ?rsum_nil, ?rsum_cons; [lra|]. rewrite IH. lra. Qed.
Lemma rsum_repeat r n : rsum (repeat r n) = INR n * r.
Proof. induction n as [|n IH]; [cbn; rewrite rsum_nil; lra|]. rewrite S_INR. cbn [repeat]. rewrite rsum_cons, IH. lra. Qed.
Lemma rsum_nonneg l : nonneg l -> 0 <= rsum l.
Proof. induction 1; rewrite ?rsum_nil, ?rsum_cons; lra. Qed.

Lemma rsum_upd l i o v : nth_error l i = Some o -> rsum (upd l i (o + v)) = rsum l + v.
Proof.
  revert i; induction l as [|x l IH]; intros [|i] H; cbn in H; try discriminate.
  - injection H as ->. cbn [upd]. rewrite !rsum_cons. lra.
  - cbn [upd]. rewrite !rsum_cons, (IH i H). lra.
Qed.
Lemma nonneg_upd l i r : nonneg l -> 0 <= r -> nonneg (upd l i r).
Proof. intros H Hr. revert i. induction H as [|x l Hx Hl IH]; intros [|i]; cbn; constructor; auto. apply IH. Qed.

Lemma bump_ok pr i v : (i < length pr)%nat ->
  exists pr', bump pr i v = Ok pr' /\ length pr' = length pr /\ rsum pr' = rsum pr + v /\ (nonneg pr -> 0 <= v -> nonneg pr').
Proof.
  intros Hi. unfold bump, get. destruct (nth_error pr i) as [o|] eqn:E; [|apply nth_error_None in E; lia]. cbn [obind].
  rewrite set_Ok by auto. eexists. split; [reflexivity|]. split; [apply length_upd|]. split; [apply rsum_upd; auto|].
  intros Hn Hv. apply nonneg_upd; auto. unfold nonneg in Hn. rewrite Forall_forall in Hn. apply nth_error_In, Hn in E. lra.
Qed.

Lemma spread_ok ys v : forall pr, Forall (fun y => (N.to_nat y < length pr)%nat) ys ->
  exists pr', spread pr ys v = Ok pr' /\ length pr' = length pr /\ rsum pr' = rsum pr + INR (length ys) * v /\
    (nonneg pr -> 0 <= v -> nonneg pr').
Proof.
  induction ys as [|y ys IH]; intros pr HF; cbn [spread].
  - exists pr. cbn. split; auto. split; auto. split; [lra|auto].
  - inversion HF as [|? ? Hy HF']; subst. destruct (bump_ok pr (N.to_nat y) v Hy) as [p1 [E1 [L1 [S1 N1]]]].
    rewrite E1. cbn [obind]. destruct (IH p1) as [p2 [E2 [L2 [S2 N2]]]]; [rewrite L1; auto|].
    exists p2. split; auto. split; [congruence|]. split; [|auto].
    rewrite S2, S1. change (length (y :: ys)) with (S (length ys)). rewrite S_INR. lra.
Qed.

Lemma err_sum pr : forall old, length pr = length old -> Rabs (rsum pr - rsum old) <= err pr old.
Proof.
  induction pr as [|a pr IH]; intros [|b old] H; cbn [length] in H; try discriminate.
  - cbn [err]. rewrite rsum_nil, Rminus_0_r, Rabs_R0. lra.
  - injection H as H. specialize (IH old H). cbn [err]. rewrite !rsum_cons.
    replace (a + rsum pr - (b + rsum old)) with ((a - b) + (rsum pr - rsum old)) by lra.
    pose proof (Rabs_triang (a - b) (rsum pr - rsum old)). lra.
Qed.
Lemma err_nonneg pr : forall old, 0 <= err pr old.
Proof. induction pr as [|a pr IH]; intros [|b old]; cbn; try lra. pose proof (Rabs_pos (a - b)). specialize (IH old). lra. Qed.
Lemma err_le pr : forall old, length pr = length old -> nonneg pr -> nonneg old -> err pr old <= rsum pr + rsum old.
Proof.
  induction pr as [|a pr IH]; intros [|b old] H Hp Ho; cbn [length] in H; try discriminate; [cbn [err]; rewrite rsum_nil; lra|].
  injection H as H. inversion Hp; subst. inversion Ho; subst. specialize (IH old H). cbn [err]. rewrite !rsum_cons.
  unfold Rabs. destruct (Rcase_abs (a - b)); specialize (IH ltac:(assumption) ltac:(assumption)); lra.
Qed.

(** Sum of old over the vertices with out-edges. *)
Fixpoint live (os : list (list N)) (old : list R) : R :=
  match os, old with
  | [] :: os, _ :: old => live os old
  | _ :: os, r :: old => r + live os old
  | _, _ => 0
  end.
Lemma live_dangling os : forall old, length os = length old -> live os old + dangling os old = rsum old.
Proof.
  induction os as [|[|y ys] os IH]; intros [|r old] H; cbn [length] in H; try discriminate; [cbn [live dangling]; rewrite rsum_nil; lra| |];
    injection H as H; specialize (IH old H); cbn [live dangling]; rewrite rsum_cons; lra.
Qed.
Lemma live_nonneg os : forall old, nonneg old -> 0 <= live os old.
Proof.
  induction os as [|[|y ys] os IH]; intros [|r old] H; cbn; try lra; inversion H; subst; specialize (IH old ltac:(assumption)); lra.
Qed.
Lemma dangling_nonneg os : forall old, nonneg old -> 0 <= dangling os old.
Proof.
  induction os as [|[|y ys] os IH]; intros [|r old] H; cbn; try lra; inversion H; subst; specialize (IH old ltac:(assumption)); lra.
Qed.
Lemma live_snoc a : forall b ys oi, length a = length b -> live (a ++ [ys]) (b ++ [oi]) = live a b + match ys with [] => 0 | _ => oi end.
Proof.
  induction a as [|[|y zs] a IH]; intros [|r b] ys oi H; cbn [length] in H; try discriminate.
  - destruct ys; cbn; lra.
  - injection H as H. cbn [app live]. rewrite IH; auto.
  - injection H as H. cbn [app live]. rewrite IH by auto. lra.
Qed.
Lemma live_le a : forall b c d, length a = length b -> nonneg d -> live a b <= live (a ++ c) (b ++ d).
Proof.
  induction a as [|[|y ys] a IH]; intros [|r b] c d H Hd; cbn [length] in H; try discriminate.
  - cbn [app live]. apply live_nonneg; auto.
  - injection H as H. cbn [app live]. apply IH; auto.
  - injection H as H. cbn [app live]. specialize (IH b c d H Hd). lra.
Qed.

Section Rank.
Context (nn : nat) (alpha conv : R) (outs : list (list N)).
Context (Hlen : length outs = nn) (Hnn : (0 < nn)%nat).
Context (Hrng : Forall (Forall (fun y => (N.to_nat y < nn)%nat)) outs).
Local Notation nR := (INR nn).

Lemma nR_pos : 0 < nR.
Proof using Hnn. apply lt_0_INR. auto. Qed.

(** The mass after j vertices of a pass. *)
Definition part (old : list R) (j : nat) : R :=
  alpha * live (firstn j outs) (firstn j old) + INR j * ((alpha * dangling outs old + (1 - alpha)) / nR).

Lemma firstn_snoc {A} (l : list A) i a : nth_error l i = Some a -> firstn (S i) l = firstn i l ++ [a].
Proof using Type.
  clear. revert i; induction l as [|x l IH]; intros [|i] H; cbn in H; try discriminate.
  - injection H as ->. reflexivity.
  - change (firstn (S (S i)) (x :: l)) with (x :: firstn (S i) l). rewrite (IH i H). reflexivity.
Qed.

Lemma sweep_ok old os : length old = nn -> forall i pr, (i <= nn)%nat -> os = skipn i outs -> length pr = nn ->
  rsum pr = part old i -> (0 <= alpha <= 1 -> nonneg old -> nonneg pr) ->
  exists b pr', sweep nn alpha conv old (dangling outs old * alpha) os i pr = Ok (b, pr') /\ length pr' = nn /\
    (0 <= alpha <= 1 -> nonneg old -> nonneg pr') /\
    (b = false -> rsum pr' = part old nn) /\
    (b = true -> exists j, (i < j <= nn)%nat /\ rsum pr' = part old j /\ err pr' old < nR * conv).
Proof using Hlen Hnn Hrng.
  intros Ho. pose proof nR_pos as HnR. induction os as [|ys os IH]; intros i pr Hi Hos Hpr Hs Hng; cbn [sweep].
  - assert (i = nn).
    { assert (length (skipn i outs) = 0%nat) by (rewrite <- Hos; auto). rewrite skipn_length in H. lia. }
    subst i. exists false, pr. split; auto. split; auto. split; auto. split; auto. discriminate.
  - assert (Hys : nth_error outs i = Some ys).
    { replace (nth_error outs i) with (nth_error (skipn i outs) 0); [rewrite <- Hos; auto|].
      rewrite <- (firstn_skipn i outs) at 2. rewrite nth_error_app2 by (rewrite firstn_length; lia).
      rewrite firstn_length. f_equal. lia. }
    assert (Hin : (i < nn)%nat) by (rewrite <- Hlen; apply nth_error_Some; congruence).
    unfold get at 1. destruct (nth_error old i) as [oi|] eqn:Eo; [|apply nth_error_None in Eo; lia]. cbn [obind].
    assert (HFy : Forall (fun y => (N.to_nat y < length pr)%nat) ys).
    { rewrite Forall_forall in Hrng. rewrite Hpr. apply Hrng. eapply nth_error_In; eauto. }
    destruct (spread_ok ys (alpha * oi * (1 / INR (length ys))) pr HFy) as [p1 [E1 [L1 [S1 N1]]]]. rewrite E1. cbn [obind].
    destruct (bump_ok p1 i (dangling outs old * alpha * (1 / nR) + (1 - alpha) * (1 / nR))) as [p2 [E2 [L2 [S2 N2]]]]; [lia|].
    rewrite E2. cbn [obind].
    assert (Hsum : rsum p2 = part old (S i)).
    { rewrite S2, S1, Hs. unfold part. rewrite (firstn_snoc outs i ys Hys), (firstn_snoc old i oi Eo).
      rewrite live_snoc by (rewrite !firstn_length; lia). rewrite S_INR.
      assert (Hl : INR (length ys) * (alpha * oi * (1 / INR (length ys))) = alpha * match ys with [] => 0 | _ => oi end).
      { destruct ys as [|y ys']; [cbn; lra|]. field. apply not_0_INR. discriminate. }
      rewrite Hl. field. lra. }
    assert (Hng2 : 0 <= alpha <= 1 -> nonneg old -> nonneg p2).
    { intros Ha Hold. assert (Hoi : 0 <= oi) by (unfold nonneg in Hold; rewrite Forall_forall in Hold; apply Hold; eapply nth_error_In; eauto).
      apply N2.
      - apply N1; [apply Hng; auto|].
        assert (0 <= 1 / INR (length ys)).
        { destruct ys as [|y ys']; [cbn; unfold Rdiv; rewrite Rinv_0; lra|].
          apply Rlt_le, Rdiv_lt_0_compat; [lra|]. apply lt_0_INR. cbn; lia. }
        apply Rmult_le_pos; auto. apply Rmult_le_pos; lra.
      - assert (Hi1 : 0 <= 1 / nR) by (apply Rlt_le, Rdiv_lt_0_compat; lra).
        pose proof (dangling_nonneg outs old Hold).
        apply Rplus_le_le_0_compat; apply Rmult_le_pos; auto; [apply Rmult_le_pos; lra|lra]. }
    assert (Lp2 : length p2 = nn) by lia.
    destruct (Rlt_dec (err p2 old) (nR * conv)) as [He|He].
    + exists true, p2. split; auto. split; auto. split; auto. split; [discriminate|]. intros _. exists (S i). split; [lia|]. auto.
    + assert (Hos' : os = skipn (S i) outs).
      { clear - Hos. revert i Hos. induction outs as [|z zs IHo]; intros [|i] H; cbn in *; try discriminate; [congruence|]. apply IHo; auto. }
      destruct (IH (S i) p2) as [b [p' [F1 [F2 [F3 [F4 F5]]]]]]; auto.
      exists b, p'. split; auto. split; auto. split; auto. split; auto. intros Hb. destruct (F5 Hb) as [j [G1 G2]]. exists j. split; auto. lia.
Qed.

Lemma part_full old : length old = nn -> part old nn = alpha * rsum old + (1 - alpha).
Proof using Hlen Hnn.
  intros Ho. pose proof nR_pos. unfold part. rewrite !firstn_all2 by lia. rewrite <- (live_dangling outs old) by lia. field. lra.
Qed.
Lemma part_le old j : (j <= nn)%nat -> length old = nn -> 0 <= alpha <= 1 -> nonneg old -> part old j <= part old nn.
Proof using Hlen Hnn.
  intros Hj Ho Ha Hold. pose proof nR_pos. unfold part. rewrite (firstn_all2 (n := nn) outs), (firstn_all2 (n := nn) old) by lia.
  pose proof (live_le (firstn j outs) (firstn j old) (skipn j outs) (skipn j old)) as G.
  rewrite !firstn_skipn in G. specialize (G ltac:(rewrite !firstn_length; lia)).
  assert (Hsk : nonneg (skipn j old)).
  { unfold nonneg in *. rewrite <- (firstn_skipn j old) in Hold. apply Forall_app in Hold. tauto. }
  specialize (G Hsk). pose proof (dangling_nonneg outs old Hold) as Hd.
  assert (Hjn : INR j <= nR) by (apply le_INR; auto).
  assert (0 <= (alpha * dangling outs old + (1 - alpha)) / nR).
  { apply Rmult_le_pos; [|apply Rlt_le, Rinv_0_lt_compat; auto]. pose proof (Rmult_le_pos alpha (dangling outs old)). lra. }
  apply Rplus_le_compat; [apply Rmult_le_compat_l; lra|apply Rmult_le_compat_r; lra].
Qed.

Lemma pass_ok old : length old = nn ->
  exists b pr', pass nn alpha conv outs old = Ok (b, pr') /\ length pr' = nn /\
    (0 <= alpha <= 1 -> nonneg old -> nonneg pr') /\
    (b = false -> rsum pr' = alpha * rsum old + (1 - alpha)) /\
    (b = true -> exists j, (0 < j <= nn)%nat /\ rsum pr' = part old j /\ err pr' old < nR * conv).
Proof using Hlen Hnn Hrng.
  intros Ho. unfold pass. rewrite <- (part_full old Ho). apply sweep_ok; auto; try lia.
  - apply repeat_length.
  - rewrite rsum_repeat. unfold part. cbn. lra.
  - intros _ _. apply Forall_forall. intros r Hr. apply repeat_spec in Hr. subst. lra.
Qed.

(** The state at the head of the while loop after t complete passes. *)
Inductive at_head (pr0 : list R) : nat -> list R -> Prop :=
| ah_0 : at_head pr0 0 pr0
| ah_S t pr pr' : at_head pr0 t pr -> pass nn alpha conv outs pr = Ok (false, pr') -> at_head pr0 (S t) pr'.

Lemma at_head_facts pr0 t pr : length pr0 = nn -> at_head pr0 t pr -> length pr = nn /\
  rsum pr = 1 + alpha ^ t * (rsum pr0 - 1) /\ (0 <= alpha <= 1 -> nonneg pr0 -> nonneg pr).
Proof using Hlen Hnn Hrng.
  intros H0. induction 1 as [|t pr pr' H [L [S N]] E].
  - split; auto. split; [cbn; lra|auto].
  - destruct (pass_ok pr L) as [b [p2 [E2 [L2 [N2 [S2 _]]]]]]. rewrite E in E2. injection E2 as <- <-.
    split; auto. split; [|auto]. rewrite S2 by auto. rewrite S. cbn [pow]. ring.
Qed.

Lemma loop_ok k pr0 : forall t pr, at_head pr0 t pr -> length pr0 = nn ->
  exists res, pr_loop nn alpha conv outs k pr = Ok res /\
    (at_head pr0 (t + k) res \/
     exists t' old j, (t <= t' < t + k)%nat /\ at_head pr0 t' old /\ pass nn alpha conv outs old = Ok (true, res) /\
       (0 < j <= nn)%nat /\ length res = nn /\ rsum res = part old j /\ err res old < nR * conv).
Proof using Hlen Hnn Hrng.
  induction k as [|k IH]; intros t pr H H0; cbn [pr_loop].
  - exists pr. split; auto. left. rewrite Nat.add_0_r. auto.
  - destruct (at_head_facts pr0 t pr H0 H) as [L _].
    destruct (pass_ok pr L) as [b [p2 [E2 [L2 [N2 [S2 S3]]]]]]. rewrite E2. cbn [obind]. destruct b.
    + exists p2. split; auto. right. destruct (S3 eq_refl) as [j [J1 [J2 J3]]]. exists t, pr, j. split; [lia|]. auto 10.
    + destruct (IH (S t) p2) as [res [E3 G]]; [econstructor; eauto|auto|]. exists res. split; auto.
      destruct G as [G|[t' [old [j [G1 G2]]]]]; [left; replace (t + S k)%nat with (S t + k)%nat by lia; auto|].
      right. exists t', old, j. split; [lia|auto].
Qed.
End Rank.
