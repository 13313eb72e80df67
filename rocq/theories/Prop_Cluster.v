(** * Property theorems about Algorithm::clustering_coefficient, Algorithm.hpp:196-199 (C79). *)
From Coq Require Import Reals Lra.
From Verif Require Import Base Spec AlgoSpec Thresholds Table K2 C0 C0Proof DK DKProof DKHist DKTotal Prop_DK
  Iter IterProof Prop_Iter Algo AlgoProof TriProof Prop_Algo.

(** clustering_coefficient() returns the number c.  The code computes in float; here the quotient is exact.  With a zero divisor
    the code returns NaN, which is not a number: no c is related. *)
Definition clustering (K : k2impl) (g : dk K) (nb : nat) (c : R) : Prop :=
  exists r, triangles_heavy K g nb r /\ let m := INR (N.to_nat (dk_edges K g)) in
    (m * (m - 1) <> 0)%R /\ c = (INR (N.to_nat r) / (m * (m - 1)))%R.

Lemma remove_len (e : edge) l : In e l -> length (remove edge_dec e l) <= length l - 1.
Proof. intros H. pose proof (remove_length_lt edge_dec l e H). lia. Qed.
Lemma pairs_len (es l : list edge) : (forall e, In e l -> In e es) ->
  length (flat_map (fun e => map (pair e) (remove edge_dec e es)) l) <= length l * (length es - 1).
Proof.
  induction l as [|e l IH]; intros H; cbn [flat_map length]; [lia|]. rewrite app_length, map_length.
  pose proof (remove_len e es (H e (or_introl eq_refl))). assert (forall f, In f l -> In f es) by (intros; apply H; right; auto).
  specialize (IH H1). nia.
Qed.
(** Ordered pairs of different elements of a list. *)
Lemma pairs_bound (es : list edge) (ps : list (edge * edge)) : NoDup ps ->
  (forall e f, In (e, f) ps -> In e es /\ In f es /\ e <> f) -> length ps <= length es * (length es - 1).
Proof.
  intros ND H. etransitivity; [|apply (pairs_len es es); auto]. apply NoDup_incl_length; auto.
  intros [e f] I. apply in_flat_map. exists e. destruct (H e f I) as (A & B & C). split; auto. apply in_map_iff. exists f. split; auto.
  apply in_in_remove; auto.
Qed.

Lemma heavy_bound K g n es nb : view K g n (of_list es) -> (2 <= n < 2 ^ 31)%N -> 0 < nb ->
  exists m, m <= length (nodup edge_dec es) * (length (nodup edge_dec es) - 1) /\
    triangles_heavy K g nb (N.of_nat m mod 2 ^ 32)%N /\ forall r, triangles_heavy K g nb r -> r = (N.of_nat m mod 2 ^ 32)%N.
Proof.
  intros V Hn Hnb. destruct (heavy_count K g n _ V ltac:(lia) nb Hnb) as [m [[l [L1 [L2 L3]]] H]]. exists m. split; [|exact H].
  rewrite <- L3. set (f := fun t : N * N * N => let '(v1, v2, u) := t in ((v1, u), (u, v2))).
  rewrite <- (map_length f). apply pairs_bound.
  - apply FinFun.Injective_map_NoDup; auto. intros [[a b] c] [[a' b'] c']. cbn. congruence.
  - assert (Hirr : forall a b, less_deg (of_list es) a b -> a <> b).
    { intros a b [da [db [D1 [D2 D3]]]] ->. pose proof (count_of_unique _ _ _ D1 D2). lia. }
    intros e e' I. apply in_map_iff in I. destruct I as [[[v1 v2] u] [E I]]. cbn in E. injection E as <- <-.
    destruct (proj1 (L2 (v1, v2, u)) I) as [G1 [G2 [G3 [_ [_ [G4 G5]]]]]]. unfold of_list in *.
    rewrite !nodup_In. split; [auto|split; auto]. intros E. injection E as E1 E2. apply (Hirr v1 u); auto.
Qed.

(** C79, part: with at least two edges the coefficient is a number between 0 and 1. *)
Theorem C79_clustering_partial : forall T K (L : k2laws K) n es nb,
  th_top T -> (2 <= n < 2 ^ 31)%N -> Forall (in_range n) es -> ~ In (9999999, 9999999)%N es -> 0 < nb ->
  (exists e f, In e es /\ In f es /\ e <> f) ->
  exists g c, dk_hist T K n (map Add es) = Done g /\ clustering K g nb c /\ (forall c', clustering K g nb c' -> c' = c) /\ (0 <= c <= 1)%R.
Proof.
  intros T K L n es nb HT Hn HF Hmax Hnb [e [f [Ie [If Ne]]]].
  destruct (inserts_view T K L n es HT ltac:(lia) HF Hmax) as [g [E V]].
  destruct (C02_count_after_inserts T K L n es HT ltac:(lia) HF) as [g' [E' Hcnt]]. assert (g' = g) by congruence. subst g'.
  destruct (heavy_bound K g n es nb V Hn Hnb) as [m [B [H1 H2]]]. set (q := length (nodup edge_dec es)) in *.
  assert (Hq : 2 <= q).
  { unfold q. change 2 with (length [e; f]). apply NoDup_incl_length.
    - constructor; [intros [->|[]]; auto|]. constructor; [intros []|constructor].
    - intros x [<-|[<-|[]]]; apply nodup_In; auto. }
  assert (Hm : N.to_nat (dk_edges K g) = q) by (rewrite Hcnt; lia).
  set (r := (N.of_nat m mod 2 ^ 32)%N) in *. assert (Br : N.to_nat r <= q * (q - 1)).
  { pose proof (N.mod_le (N.of_nat m) (2 ^ 32) ltac:(lia)). fold r in H. lia. }
  assert (Hd : (INR q * (INR q - 1))%R = INR (q * (q - 1))).
  { rewrite mult_INR, minus_INR by lia. reflexivity. }
  assert (Hpos : (0 < INR (q * (q - 1)))%R) by (apply lt_0_INR; nia).
  exists g, (INR (N.to_nat r) / INR (q * (q - 1)))%R. split; [exact E|]. split; [|split].
  - exists r. split; [exact H1|]. cbn zeta. rewrite Hm, Hd. split; [lra|reflexivity].
  - intros c' [r' [G1 G]]. cbn zeta in G. rewrite Hm, Hd in G. rewrite (H2 r' G1) in G. apply G.
  - apply le_INR in Br. pose proof (pos_INR (N.to_nat r)). split.
    + unfold Rdiv. apply Rmult_le_pos; [lra|]. left. apply Rinv_0_lt_compat. auto.
    + apply Rmult_le_reg_r with (INR (q * (q - 1))); auto. unfold Rdiv. rewrite Rmult_assoc, Rinv_l by lra. lra.
Qed.
Example C79_example : th_top th_exact /\ Forall (in_range 3) w38 /\ ~ In (9999999, 9999999)%N w38 /\
  exists e f, In e w38 /\ In f w38 /\ e <> f.
Proof.
  split; [apply th_real_top, th_real_inhabited|]. split; [repeat constructor; cbn; lia|].
  split; [cbn; intuition discriminate|]. exists (0, 1)%N, (0, 2)%N. cbn. intuition discriminate.
Qed.

(** C79 refuted: with no edge, or a single one, the divisor is zero. *)
Theorem C79_refuted : forall T K (L : k2laws K) n es,
  th_top T -> (2 <= n)%N -> Forall (in_range n) es -> (forall e f, In e es -> In f es -> e = f) ->
  exists g, dk_hist T K n (map Add es) = Done g /\ forall nb c, ~ clustering K g nb c.
Proof.
  intros T K L n es HT Hn HF H. destruct (C02_count_after_inserts T K L n es HT ltac:(lia) HF) as [g [E Hcnt]].
  exists g. split; [exact E|]. intros nb c [r [_ G]]. cbn zeta in G. destruct G as [G _]. apply G.
  assert (Hq : N.to_nat (dk_edges K g) = 0 \/ N.to_nat (dk_edges K g) = 1).
  { rewrite Hcnt. pose proof (NoDup_nodup edge_dec es) as ND. assert (I : forall e, In e (nodup edge_dec es) -> In e es) by (intros; eapply nodup_In; eauto).
    destruct (nodup edge_dec es) as [|a [|b l]]; [left; reflexivity|right; reflexivity|]. exfalso. inversion ND as [|? ? N1 N2]; subst.
    apply N1. left. apply H; apply I; cbn; auto. }
  destruct Hq as [-> | ->]; cbn; lra.
Qed.

(** C79 refuted in substance: the coefficient of the complete digraph with three vertices is 0. *)
Theorem C79_zero_refuted : forall T K (L : k2laws K), th_top T ->
  exists g, dk_hist T K 3 (map Add w38) = Done g /\ (forall nb, 0 < nb -> clustering K g nb 0) /\
    forall x y, (x < 3)%N -> (y < 3)%N -> x <> y -> In (x, y) w38.
Proof.
  intros T K L HT. destruct (C38_refuted T K L HT) as [g [E [H _]]]. exists g. split; [exact E|]. split.
  - intros nb Hnb. exists 0%N. split; [auto|]. cbn zeta.
    assert (HF : Forall (in_range 3) w38) by (repeat constructor; cbn; lia).
    destruct (C02_count_after_inserts T K L 3 w38 HT ltac:(lia) HF) as [g' [E' Hcnt]]. assert (g' = g) by congruence. subst g'.
    rewrite Hcnt. replace (length (nodup edge_dec w38)) with 6 by reflexivity.
    change (N.to_nat (N.of_nat 6)) with 6. replace (INR 6) with 6%R by (cbn; lra). change (INR (N.to_nat 0)) with 0%R. split; lra.
  - intros x y Hx Hy Hxy. assert (X : x = 0%N \/ x = 1%N \/ x = 2%N) by lia. assert (Y : y = 0%N \/ y = 1%N \/ y = 2%N) by lia.
    destruct X as [-> | [-> | ->]], Y as [-> | [-> | ->]]; cbn; intuition congruence.
Qed.
