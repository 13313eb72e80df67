(** * Thresholds: the floating-point macros of utils.hpp.

    [MAXSZ] and [TAU] (utils.hpp:6-8) are evaluated in double arithmetic.  The
    model takes their values from a record [thresholds]; [th_real] says the record
    holds the exact mathematical value of the formulas, including what IEEE
    arithmetic yields at the singular points.  *)
From Coq Require Import Reals Lra FunctionalExtensionality.
From Verif Require Import Base.

Record thresholds := {
  (** MAXSZ(m,i) (utils.hpp:8) converted to an integer; meaningful for m <> 1 *)
  th_max : N -> nat -> N;
  (** [n_marked > n / TAU(n)] (DKtree.hpp:207), arguments n_marked, n *)
  th_trig : N -> N -> bool
}.

Open Scope R_scope.
Definition RN (n : N) : R := IZR (Z.of_N n).
Definition log2R (x : R) : R := ln x / ln 2.
(** utils.hpp:8, [(m << 1) / pow(log2(m), 2 - i*EPS)] before the floor *)
Definition maxsz_real (m : N) (i : nat) : R :=
  (2 * RN m) / Rpower (log2R (RN m)) (2 - INR i / 4).

(** [T] holds the exact values.
    - m >= 2: floor of the formula;
    - m = 0: 0 << 1 = 0, pow(-inf, p) is inf (p > 0) or 1 (p = 0): the quotient is 0;
    - m = 1: pow(0,p) = 0, 2/0 = inf, not an integer: no clause (the model makes it UB);
    - n = 0: log2(log2 0) = NaN, 0/NaN = NaN, comparison false;
    - n = 1: log2(log2 1) = -inf, 1/-inf = -0.0, comparison is n_marked > 0;
    - n = 2: log2(log2 2) = 0, 2/0 = inf, comparison false;
    - n >= 3: the plain comparison. *)
Definition th_real (T : thresholds) : Prop :=
  (forall m i, (2 <= m)%N -> (i <= 8)%nat ->
     RN (th_max T m i) <= maxsz_real m i < RN (th_max T m i) + 1)
  /\ (forall i, th_max T 0 i = 0%N)
  /\ (forall k, th_trig T k 0 = false)
  /\ (forall k, th_trig T k 1 = (0 <? k)%N)
  /\ (forall k, th_trig T k 2 = false)
  /\ (forall k n, (3 <= n)%N -> (th_trig T k n = true <-> RN k > RN n / log2R (log2R (RN n)))).

(** The one value that matters for insertion, MAXSZ(m,8) = 2m: EPS*8 = 2, pow(x,0) = 1, and (m << 1) is exact, so
    double arithmetic computes it without rounding (m < 2^52).  Theorems that assume only this hold whatever the
    rounding of all other thresholds. *)
Definition th_top (T : thresholds) : Prop := forall m, m <> 1%N -> th_max T m 8 = (2 * m)%N.

(** ** Basic facts *)
Lemma RN_le a b : RN a <= RN b <-> (a <= b)%N.
Proof. unfold RN. split; intros H; [apply le_IZR in H; lia|apply IZR_le; lia]. Qed.
Lemma RN_lt a b : RN a < RN b <-> (a < b)%N.
Proof. unfold RN. split; intros H; [apply lt_IZR in H; lia|apply IZR_lt; lia]. Qed.
Lemma RN_plus a b : RN (a + b) = RN a + RN b.
Proof. unfold RN. rewrite N2Z.inj_add, plus_IZR; auto. Qed.
Lemma RN_mult a b : RN (a * b) = RN a * RN b.
Proof. unfold RN. rewrite N2Z.inj_mul, mult_IZR; auto. Qed.
Lemma RN_pow a k : RN (a ^ N.of_nat k) = RN a ^ k.
Proof.
  induction k as [|k IH].
  - reflexivity.
  - rewrite Nat2N.inj_succ, N.pow_succ_r', RN_mult, IH. reflexivity.
Qed.
Lemma RN_0 : RN 0 = 0. Proof. reflexivity. Qed.
Lemma RN_1 : RN 1 = 1. Proof. reflexivity. Qed.
Lemma RN_2 : RN 2 = 2. Proof. reflexivity. Qed.
Lemma RN_pos a : 0 <= RN a.
Proof. rewrite <- RN_0. apply RN_le; lia. Qed.

Lemma ln2_pos : 0 < ln 2.
Proof. rewrite <- ln_1. apply ln_increasing; lra. Qed.

Lemma log2R_pos m : (2 <= m)%N -> 1 <= log2R (RN m).
Proof.
  intros H. unfold log2R. pose proof ln2_pos.
  apply Rmult_le_reg_r with (ln 2); auto.
  unfold Rdiv. rewrite Rmult_assoc, Rinv_l by lra. rewrite Rmult_1_l, Rmult_1_r.
  apply RN_le in H. rewrite RN_2 in H. destruct H as [H|H].
  - left; apply ln_increasing; lra.
  - rewrite <- H; right; auto.
Qed.

Lemma maxsz_real_8 m : maxsz_real m 8 = 2 * RN m.
Proof.
  unfold maxsz_real. replace (2 - INR 8 / 4) with 0 by (cbn; lra).
  unfold Rpower. rewrite Rmult_0_l, exp_0. lra.
Qed.

Lemma RN_floor_unique a b v : RN a <= v < RN a + 1 -> RN b <= v < RN b + 1 -> a = b.
Proof.
  intros [H1 H2] [H3 H4].
  assert (RN a < RN (b + 1)) as Ha by (rewrite RN_plus, RN_1; lra).
  assert (RN b < RN (a + 1)) as Hb by (rewrite RN_plus, RN_1; lra).
  apply RN_lt in Ha; apply RN_lt in Hb. lia.
Qed.

(** The outermost capacity is exactly 2m, also for m = 0. *)
Lemma th_max_8 T m : th_real T -> m <> 1%N -> th_max T m 8 = (2 * m)%N.
Proof.
  intros [H [H0 _]] Hm. destruct (N.eq_dec m 0) as [->|Hm0]; [rewrite H0; reflexivity|].
  specialize (H m 8%nat). rewrite maxsz_real_8 in H.
  apply RN_floor_unique with (2 * RN m).
  - apply H; lia.
  - rewrite RN_mult, RN_2. lra.
Qed.
Lemma th_real_top T : th_real T -> th_top T.
Proof. intros H m Hm. apply th_max_8; auto. Qed.

(** ** Certificates: integer inequalities that pin down the values *)
Definition cert_log (m p1 p2 q : N) : bool :=
  (0 <? q)%N && (2 ^ p1 <=? m ^ q)%N && (m ^ q <=? 2 ^ p2)%N.

Lemma ln_RNpow a k : (1 <= a)%N -> ln (RN (a ^ k)) = RN k * ln (RN a).
Proof.
  intros H. rewrite <- (N2Nat.id k) at 1. rewrite RN_pow.
  assert (0 < RN a) by (apply RN_le in H; rewrite RN_1 in H; lra).
  rewrite <- Rpower_pow by auto. unfold Rpower. rewrite ln_exp.
  f_equal. rewrite INR_IZR_INZ. unfold RN. f_equal. lia.
Qed.

Lemma cert_log_ok m p1 p2 q : (2 <= m)%N -> cert_log m p1 p2 q = true ->
  0 < RN q /\ RN p1 <= log2R (RN m) * RN q <= RN p2.
Proof.
  intros Hm H. unfold cert_log in H. rewrite !andb_true_iff in H. destruct H as [[H1 H2] H3].
  apply N.ltb_lt in H1. apply N.leb_le in H2. apply N.leb_le in H3.
  assert (Hq : 0 < RN q) by (rewrite <- RN_0; apply RN_lt; auto).
  split; auto.
  pose proof ln2_pos as Hl.
  assert (HP : forall k, 0 < RN (2 ^ k)) by (intros k; rewrite <- RN_0; apply RN_lt, N.neq_0_lt_0, N.pow_nonzero; lia).
  assert (HQ : 0 < RN (m ^ q)) by (rewrite <- RN_0; apply RN_lt, N.neq_0_lt_0, N.pow_nonzero; lia).
  apply RN_le in H2; apply RN_le in H3.
  assert (G : forall x y, 0 < x -> x <= y -> ln x <= ln y).
  { intros x y Hx [Hy| ->]; [left; apply ln_increasing; auto|right; auto]. }
  apply G in H2; auto. apply G in H3; auto.
  rewrite !ln_RNpow in H2 by lia. rewrite !ln_RNpow in H3 by lia. rewrite RN_2 in *.
  assert (E : log2R (RN m) * RN q * ln 2 = RN q * ln (RN m)) by (unfold log2R; field; lra).
  split; apply Rmult_le_reg_r with (ln 2); auto; rewrite E; lra.
Qed.

(** [L^((8-i)/4)] raised to the fourth power is [L^(8-i)]. *)
Lemma Rpower_quarter L i : 0 < L -> (i <= 8)%nat ->
  Rpower L (2 - INR i / 4) ^ 4 = L ^ (8 - i).
Proof.
  intros HL Hi. rewrite <- Rpower_pow by (unfold Rpower; apply exp_pos).
  rewrite Rpower_mult. rewrite <- Rpower_pow by auto. f_equal.
  rewrite minus_INR by auto. cbn [INR]. lra.
Qed.

Lemma pow4_le a b : 0 <= a -> 0 <= b -> a ^ 4 <= b ^ 4 -> a <= b.
Proof.
  intros Ha Hb H. destruct (Rle_or_lt a b) as [|Hlt]; auto. exfalso.
  assert (b ^ 4 < a ^ 4); [|lra].
  assert (b * b < a * a) by nra. replace (a^4) with ((a*a)*(a*a)) by ring.
  replace (b^4) with ((b*b)*(b*b)) by ring. nra.
Qed.
Lemma pow4_lt a b : 0 <= a -> 0 <= b -> a ^ 4 < b ^ 4 -> a < b.
Proof.
  intros Ha Hb H. destruct (Rlt_or_le a b) as [|Hle]; auto. exfalso.
  pose proof (pow_incr b a 4). lra.
Qed.

Definition cert_max (m : N) (i : nat) (v p1 p2 q : N) : bool :=
  let e := N.of_nat (8 - i) in
  (2 <=? m)%N && (i <=? 8)%nat && cert_log m p1 p2 q
  && (v ^ 4 * p2 ^ e <=? (2 * m) ^ 4 * q ^ e)%N
  && ((2 * m) ^ 4 * q ^ e <? (v + 1) ^ 4 * p1 ^ e)%N.

Lemma cert_max_ok T m i v p1 p2 q :
  th_real T -> cert_max m i v p1 p2 q = true -> th_max T m i = v.
Proof.
  intros [HT _] H. unfold cert_max in H. rewrite !andb_true_iff in H.
  destruct H as [[[[H1 H2] H3] H4] H5].
  apply N.leb_le in H1. apply Nat.leb_le in H2. apply N.leb_le in H4. apply N.ltb_lt in H5.
  destruct (cert_log_ok m p1 p2 q H1 H3) as [Hq [Hp1 Hp2]].
  pose proof (log2R_pos m H1) as HL.
  set (L := log2R (RN m)) in *.
  set (e := (8 - i)%nat) in *.
  apply RN_floor_unique with (maxsz_real m i); [apply HT; auto|].
  unfold maxsz_real. fold L.
  assert (HR : 0 < Rpower L (2 - INR i / 4)) by (unfold Rpower; apply exp_pos).
  pose proof (Rpower_quarter L i ltac:(lra) H2) as HE. fold e in HE.
  set (P := Rpower L (2 - INR i / 4)) in *.
  apply RN_le in H4. apply RN_lt in H5.
  change 4%N with (N.of_nat 4) in H4, H5. rewrite !RN_mult, !RN_pow, RN_mult, RN_2 in H4.
  rewrite !RN_mult, !RN_pow, RN_mult, RN_plus, RN_2, RN_1 in H5.
  assert (Hqe : 0 < RN q ^ e) by (apply pow_lt; auto).
  assert (HPe : P ^ 4 * RN q ^ e = (L * RN q) ^ e) by (rewrite HE, Rpow_mult_distr; ring).
  assert (Hlo : RN p1 ^ e <= P ^ 4 * RN q ^ e).
  { rewrite HPe. apply pow_incr. split; [apply RN_pos|auto]. }
  assert (Hhi : P ^ 4 * RN q ^ e <= RN p2 ^ e).
  { rewrite HPe. apply pow_incr. split; [apply Rmult_le_pos; lra|auto]. }
  pose proof (RN_pos v) as Hv. pose proof (RN_pos m) as Hm0.
  assert (Hv4 : 0 <= RN v ^ 4) by (apply pow_le; auto).
  assert (Hv41 : 0 <= (RN v + 1) ^ 4) by (apply pow_le; lra).
  split.
  - apply Rmult_le_reg_r with P; auto. unfold Rdiv. rewrite Rmult_assoc, Rinv_l by lra. rewrite Rmult_1_r.
    apply pow4_le; [apply Rmult_le_pos; lra|lra|]. rewrite (Rpow_mult_distr (RN v) P).
    apply Rmult_le_reg_r with (RN q ^ e); auto.
    apply Rle_trans with (RN v ^ 4 * RN p2 ^ e); [|auto].
    rewrite Rmult_assoc. apply Rmult_le_compat_l; auto.
  - apply Rmult_lt_reg_r with P; auto. unfold Rdiv. rewrite Rmult_assoc, Rinv_l by lra. rewrite Rmult_1_r.
    apply pow4_lt; [lra|apply Rmult_le_pos; lra|]. rewrite (Rpow_mult_distr (RN v + 1) P).
    apply Rmult_lt_reg_r with (RN q ^ e); auto.
    apply Rlt_le_trans with ((RN v + 1) ^ 4 * RN p1 ^ e); [auto|].
    rewrite (Rmult_assoc _ (P ^ 4)). apply Rmult_le_compat_l; auto.
Qed.

(** [k > n / log2 (log2 n)] iff [2^n < (log2 n)^k]. *)
Definition cert_trig (k n : N) (b : bool) (p1 p2 q : N) : bool :=
  (3 <=? n)%N && cert_log n p1 p2 q && (q <? p1)%N
  && (if b then (2 ^ n * q ^ k <? p1 ^ k)%N else (p2 ^ k <=? 2 ^ n * q ^ k)%N).

Lemma trig_as_pow k n : (3 <= n)%N -> 1 < log2R (RN n) ->
  (RN k > RN n / log2R (log2R (RN n)) <-> 2 ^ N.to_nat n < log2R (RN n) ^ N.to_nat k).
Proof.
  intros Hn HL. set (L := log2R (RN n)) in *. pose proof ln2_pos as Hl2.
  assert (Hln : 0 < ln L) by (rewrite <- ln_1; apply ln_increasing; lra).
  assert (E : RN n / log2R L = RN n * ln 2 / ln L) by (unfold log2R; field; lra).
  rewrite E.
  assert (H1 : RN k > RN n * ln 2 / ln L <-> RN n * ln 2 < RN k * ln L).
  { split; intros H.
    - apply Rmult_lt_compat_r with (r := ln L) in H; auto.
      unfold Rdiv in H. rewrite Rmult_assoc, Rinv_l in H by lra. lra.
    - apply Rmult_lt_reg_r with (ln L); auto.
      unfold Rdiv. rewrite Rmult_assoc, Rinv_l by lra. lra. }
  rewrite H1.
  assert (EN : forall j, INR (N.to_nat j) = RN j).
  { intros j. rewrite INR_IZR_INZ. unfold RN. f_equal. lia. }
  rewrite <- !Rpower_pow by lra. unfold Rpower. rewrite !EN.
  split; intros H; [apply exp_increasing; auto|apply exp_lt_inv; auto].
Qed.

Lemma cert_trig_ok T k n b p1 p2 q :
  th_real T -> cert_trig k n b p1 p2 q = true -> th_trig T k n = b.
Proof.
  intros [_ [_ [_ [_ [_ HT]]]]] H. unfold cert_trig in H. rewrite !andb_true_iff in H.
  destruct H as [[[H1 H2] H3] H4].
  apply N.leb_le in H1. apply N.ltb_lt in H3.
  destruct (cert_log_ok n p1 p2 q ltac:(lia) H2) as [Hq [Hp1 Hp2]].
  assert (HL : 1 < log2R (RN n)).
  { apply RN_lt in H3. apply Rmult_lt_reg_r with (RN q); auto. lra. }
  specialize (HT k n H1). rewrite (trig_as_pow k n H1 HL) in HT.
  set (L := log2R (RN n)) in *.
  assert (Hqk : 0 < RN q ^ N.to_nat k) by (apply pow_lt; auto).
  assert (EP : forall a j, RN (a ^ j) = RN a ^ N.to_nat j).
  { intros a j. rewrite <- RN_pow. rewrite N2Nat.id. reflexivity. }
  destruct b.
  - apply HT. apply N.ltb_lt in H4. apply RN_lt in H4.
    rewrite RN_mult, !EP, RN_2 in H4.
    apply Rmult_lt_reg_r with (RN q ^ N.to_nat k); auto.
    rewrite <- Rpow_mult_distr. apply Rlt_le_trans with (1 := H4).
    apply pow_incr. split; [apply RN_pos|auto].
  - apply N.leb_le in H4. apply RN_le in H4. rewrite RN_mult, !EP, RN_2 in H4.
    destruct (th_trig T k n) eqn:E; auto. exfalso.
    pose proof (proj1 HT eq_refl) as Hlt.
    apply Rmult_lt_compat_r with (r := RN q ^ N.to_nat k) in Hlt; auto.
    rewrite <- Rpow_mult_distr in Hlt.
    assert ((L * RN q) ^ N.to_nat k <= RN p2 ^ N.to_nat k).
    { apply pow_incr. split; [apply Rmult_le_pos; lra|auto]. }
    lra.
Qed.

(** ** Running a concrete history under [th_real]: a table of certified entries *)
Record mentry := { me_m : N; me_i : nat; me_v : N; me_p1 : N; me_p2 : N; me_q : N }.
Record tentry := { te_k : N; te_n : N; te_b : bool; te_p1 : N; te_p2 : N; te_q : N }.

Definition mcheck (e : mentry) : bool := cert_max (me_m e) (me_i e) (me_v e) (me_p1 e) (me_p2 e) (me_q e).
Definition tcheck (e : tentry) : bool := cert_trig (te_k e) (te_n e) (te_b e) (te_p1 e) (te_p2 e) (te_q e).

Fixpoint mlookup (l : list mentry) (m : N) (i : nat) : option N :=
  match l with
  | [] => None
  | e :: t => if ((me_m e =? m)%N && (me_i e =? i)%nat)%bool then Some (me_v e) else mlookup t m i
  end.
Fixpoint tlookup (l : list tentry) (k n : N) : option bool :=
  match l with
  | [] => None
  | e :: t => if ((te_k e =? k)%N && (te_n e =? n)%N)%bool then Some (te_b e) else tlookup t k n
  end.

Definition with_table (ml : list mentry) (tl : list tentry) (T : thresholds) : thresholds := {|
  th_max := fun m i => match mlookup ml m i with Some v => v | None => th_max T m i end;
  th_trig := fun k n =>
    if (n =? 0)%N then false else if (n =? 1)%N then (0 <? k)%N else if (n =? 2)%N then false
    else match tlookup tl k n with Some b => b | None => th_trig T k n end |}.

Lemma with_table_eq ml tl T :
  th_real T -> forallb mcheck ml = true -> forallb tcheck tl = true -> with_table ml tl T = T.
Proof.
  intros HT Hm Ht. destruct T as [tm tt]. unfold with_table; cbn. f_equal.
  - extensionality m; extensionality i.
    induction ml as [|e ml IH]; cbn in *; auto.
    apply andb_true_iff in Hm; destruct Hm as [Hm1 Hm2].
    destruct ((me_m e =? m)%N && (me_i e =? i)%nat)%bool eqn:E; auto.
    apply andb_true_iff in E; destruct E as [E1 E2].
    apply N.eqb_eq in E1; apply Nat.eqb_eq in E2; subst.
    symmetry. exact (cert_max_ok _ _ _ _ _ _ _ HT Hm1).
  - extensionality k; extensionality n.
    pose proof HT as HT'. destruct HT' as [HT1 [HT2 [H0 [H1 [H2 H3]]]]].
    destruct (N.eqb_spec n 0) as [->|]; [symmetry; apply H0|].
    destruct (N.eqb_spec n 1) as [->|]; [symmetry; apply H1|].
    destruct (N.eqb_spec n 2) as [->|]; [symmetry; apply H2|].
    induction tl as [|e tl IH]; cbn in *; auto.
    apply andb_true_iff in Ht; destruct Ht as [Ht1 Ht2].
    destruct ((te_k e =? k)%N && (te_n e =? n)%N)%bool eqn:E; auto.
    apply andb_true_iff in E; destruct E as [E1 E2].
    apply N.eqb_eq in E1; apply N.eqb_eq in E2; subst.
    symmetry. exact (cert_trig_ok _ _ _ _ _ _ _ HT Ht1).
Qed.

(** ** [th_real] is satisfiable: there is exactly one such value (up to m = 1) *)
Definition th_exact : thresholds := {|
  th_max := fun m i => if (m =? 0)%N then 0%N else Z.to_N (Int_part (maxsz_real m i));
  th_trig := fun k n =>
    if (n =? 0)%N then false else if (n =? 1)%N then (0 <? k)%N else if (n =? 2)%N then false
    else if Rlt_dec (RN n / log2R (log2R (RN n))) (RN k) then true else false |}.

Theorem th_real_inhabited : th_real th_exact.
Proof.
  unfold th_real, th_exact; cbn -[N.of_nat]. repeat split; auto.
  - destruct (N.eqb_spec m 0); [lia|].
    assert (Hp : 0 <= maxsz_real m i).
    { unfold maxsz_real. apply Rmult_le_pos; [pose proof (RN_pos m); lra|].
      left. apply Rinv_0_lt_compat. unfold Rpower. apply exp_pos. }
    destruct (base_Int_part (maxsz_real m i)) as [H1 H2].
    assert (0 <= Int_part (maxsz_real m i))%Z.
    { assert (-1 < IZR (Int_part (maxsz_real m i))) as G by lra. apply lt_IZR in G. lia. }
    unfold RN. rewrite Z2N.id by auto. auto.
  - destruct (N.eqb_spec m 0); [lia|].
    assert (Hp : 0 <= maxsz_real m i).
    { unfold maxsz_real. apply Rmult_le_pos; [pose proof (RN_pos m); lra|].
      left. apply Rinv_0_lt_compat. unfold Rpower. apply exp_pos. }
    destruct (base_Int_part (maxsz_real m i)) as [H1 H2].
    assert (0 <= Int_part (maxsz_real m i))%Z.
    { assert (-1 < IZR (Int_part (maxsz_real m i))) as G by lra. apply lt_IZR in G. lia. }
    unfold RN. rewrite Z2N.id by auto. lra.
  - intros H1. destruct (N.eqb_spec n 0); [lia|]. destruct (N.eqb_spec n 1); [lia|].
    destruct (N.eqb_spec n 2); [lia|].
    destruct (Rlt_dec _ _); [auto|discriminate].
  - intros H1. destruct (N.eqb_spec n 0); [lia|]. destruct (N.eqb_spec n 1); [lia|].
    destruct (N.eqb_spec n 2); [lia|].
    destruct (Rlt_dec _ _); [auto|exfalso; auto].
Qed.
