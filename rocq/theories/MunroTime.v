(** * MunroTime: when the incremental union is finished before the buffer is full again. *)
From Coq Require Import Reals Lra.
From Verif Require Import Base Spec Thresholds C0 C0Proof Bits Union UnionProof UnionMerge UnionEdges Prop_Union Munro MunroProof.

(** ** MAXSZ(m,0) does not decrease from 9 on *)
Open Scope R_scope.
Lemma ln_ge2 m : (9 <= m)%N -> 2 <= ln (RN m).
Proof.
  intros H. apply RN_le in H. replace (RN 9) with (3 * 3) in H by (unfold RN; cbn; lra).
  assert (L3 : 1 <= ln 3).
  { rewrite <- (ln_exp 1). destruct (Rle_lt_or_eq_dec (exp 1) 3 exp_le_3) as [L|E]; [left; apply ln_increasing; [apply exp_pos|exact L]|rewrite E; lra]. }
  assert (L9 : 2 <= ln (3 * 3)) by (rewrite ln_mult by lra; lra).
  destruct (Rle_lt_or_eq_dec _ _ H) as [L|E]; [|rewrite <- E; exact L9].
  left. eapply Rle_lt_trans; [exact L9|]. apply ln_increasing; lra.
Qed.
Lemma ln_le_sqrt r : 1 <= r -> ln r <= 2 * (sqrt r - 1).
Proof.
  intros Hr. assert (Hs : 0 < sqrt r) by (apply sqrt_lt_R0; lra).
  assert (E : ln r = 2 * ln (sqrt r)) by (rewrite <- (sqrt_sqrt r) at 1 by lra; rewrite ln_mult by auto; lra).
  rewrite E. assert (G : ln (sqrt r) <= sqrt r - 1); [|lra].
  pose proof (exp_ineq1_le (ln (sqrt r))) as X. rewrite exp_ln in X by auto. lra.
Qed.
Lemma maxsz0_mono a b : (9 <= a <= b)%N -> maxsz_real a 0 <= maxsz_real b 0.
Proof.
  intros [Ha Hab]. pose proof (ln_ge2 a Ha) as La. pose proof (ln_ge2 b ltac:(lia)) as Lb. pose proof ln2_pos as L2.
  apply RN_le in Hab. pose proof Ha as Ha'. apply RN_le in Ha'. replace (RN 9) with 9 in Ha' by (unfold RN; cbn; lra).
  assert (Ra : 0 < RN a) by lra. assert (Rb : 0 < RN b) by lra.
  set (r := RN b / RN a). assert (Hr : 1 <= r) by (unfold r; apply Rmult_le_reg_r with (RN a); auto; unfold Rdiv; rewrite Rmult_assoc, Rinv_l; lra).
  assert (Eb : RN b = r * RN a) by (unfold r; field; lra).
  assert (El : ln (RN b) = ln r + ln (RN a)) by (rewrite Eb, ln_mult; lra).
  pose proof (ln_le_sqrt r Hr) as Ls. set (s := sqrt r) in *. assert (Es : s * s = r) by (apply sqrt_sqrt; lra).
  assert (Hs1 : 1 <= s) by (unfold s; rewrite <- sqrt_1; apply sqrt_le_1; lra).
  assert (Hb : ln (RN b) <= s * ln (RN a)) by nra.
  assert (Hsq : ln (RN b) * ln (RN b) <= r * (ln (RN a) * ln (RN a))).
  { rewrite <- Es. replace (s * s * (ln (RN a) * ln (RN a))) with ((s * ln (RN a)) * (s * ln (RN a))) by ring. apply Rmult_le_compat; lra. }
  unfold maxsz_real. replace (2 - INR 0 / 4) with (INR 2) by (cbn; lra).
  assert (P : forall v, 2 <= v -> 0 < v / ln 2) by (intros v Hv; apply Rdiv_lt_0_compat; lra).
  rewrite !Rpower_pow by (unfold log2R; apply P; auto). unfold log2R. cbn [pow]. rewrite !Rmult_1_r.
  set (A := ln (RN a)) in *. set (B := ln (RN b)) in *.
  replace (2 * RN a / (A / ln 2 * (A / ln 2))) with (2 * (ln 2 * ln 2) * (RN a / (A * A))) by (field; lra).
  replace (2 * RN b / (B / ln 2 * (B / ln 2))) with (2 * (ln 2 * ln 2) * (RN b / (B * B))) by (field; lra).
  apply Rmult_le_compat_l; [nra|].
  assert (HA : 0 < A * A) by nra. assert (HB : 0 < B * B) by nra.
  apply Rmult_le_reg_r with (A * A * (B * B)); [nra|].
  replace (RN a / (A * A) * (A * A * (B * B))) with (RN a * (B * B)) by (field; lra).
  replace (RN b / (B * B) * (A * A * (B * B))) with (RN b * (A * A)) by (field; lra).
  rewrite Eb. nra.
Qed.
Lemma th_max0_mono T a b : th_real T -> (9 <= a <= b)%N -> (th_max T a 0 <= th_max T b 0)%N.
Proof.
  intros [HM _] Hab. pose proof (maxsz0_mono a b Hab) as G.
  pose proof (HM a 0%nat ltac:(lia) ltac:(lia)) as [A1 A2]. pose proof (HM b 0%nat ltac:(lia) ltac:(lia)) as [B1 B2].
  apply N.lt_succ_r. apply RN_lt. rewrite <- N.add_1_r, RN_plus, RN_1. lra.
Qed.
Lemma th_max4_le T m : th_real T -> (4 <= m)%N -> (th_max T m 4 <= m)%N.
Proof.
  intros [HM _] Hm. pose proof (HM m 4%nat ltac:(lia) ltac:(lia)) as [A1 _]. apply RN_le. eapply Rle_trans; [exact A1|].
  unfold maxsz_real. replace (2 - INR 4 / 4) with (INR 1) by (cbn; lra). pose proof (log2R_pos m ltac:(lia)) as L1. pose proof ln2_pos as L2.
  rewrite Rpower_pow by lra. cbn [pow]. rewrite Rmult_1_r.
  assert (G : 2 <= log2R (RN m)).
  { unfold log2R. apply Rmult_le_reg_r with (ln 2); auto. unfold Rdiv. rewrite Rmult_assoc, Rinv_l, Rmult_1_r by lra.
    replace (2 * ln 2) with (ln (2 * 2)) by (rewrite ln_mult; lra). apply RN_le in Hm. replace (RN 4) with (2 * 2) in Hm by (unfold RN; cbn; lra).
    destruct (Rle_lt_or_eq_dec _ _ Hm) as [X|X]; [left; apply ln_increasing; lra|rewrite X; lra]. }
  pose proof (RN_pos m). apply Rmult_le_reg_r with (log2R (RN m)); [lra|]. unfold Rdiv. rewrite Rmult_assoc, Rinv_l by lra. nra.
Qed.
Close Scope R_scope.

Section Time.
Context (T : thresholds) (hgt : N -> nat) (n : N).
Hypothesis HT : th_real T.
Hypothesis Hn9 : (9 <= n)%N.
Hypothesis HO : height_ok hgt n.
Let H1 : 1 <= hgt n := proj1 HO.
Let H256 : hgt n <= 256 := proj1 (proj2 HO).
Let Hn : (n <= 2 ^ N.of_nat (hgt n))%N := proj2 (proj2 HO).
Lemma Hn2 : (2 <= n)%N.
Proof using Hn9. clear -Hn9. lia. Qed.

Lemma somes_le {A} (l : list (option A)) : length (somes l) <= length l.
Proof. induction l as [|[a|] l IH]; cbn; lia. Qed.

Lemma somes_app {A} (a b : list (option A)) : somes (a ++ b) = somes a ++ somes b.
Proof using. induction a as [|[x|] a IH]; cbn; congruence. Qed.
Lemma somes_firstn {A} k (l : list (option A)) : length (somes (firstn k l)) <= length (somes l).
Proof using. rewrite <- (firstn_skipn k l) at 2. rewrite somes_app, app_length. apply Nat.le_add_r. Qed.
Lemma firstn_firstn_le {A} i j (l : list A) : i <= j -> firstn i (firstn j l) = firstn i l.
Proof using. intros L. rewrite firstn_firstn, Nat.min_l; auto. Qed.
(** While at most four trees are involved, an unfinished union has had fewer calls than the new tree has edges. *)
Lemma pending_calls hs g Ls P B c : minv hgt n hs g Ls P B c -> fitsn hgt n (m_nt g) -> P <> [] ->
  length (somes (firstn (S (m_maxr g)) Ls)) <= 4 -> c < length P.
Proof using HT HO Hn9.
  intros V Fit Hp M. destruct (mv_phase _ _ _ _ _ _ _ _ V) as [[-> _]|(ks0 & u0 & mi & conv & EP & M1 & M2 & U0 & UC & E2 & E3)]; [congruence|].
  assert (Hb : (N.of_nat (total_bits hgt n P Ls mi) <= CAP)%N).
  { apply (fits_total hgt n H1 P Ls mi B (m_nt g)); auto; [apply (mv_ne _ _ _ _ _ _ _ _ V)|]. rewrite (mv_nt _ _ _ _ _ _ _ _ V). lia. }
  assert (Lm : mi < length Ls) by (rewrite (mv_len _ _ _ _ _ _ _ _ V); exact M1).
  assert (L8 : length Ls <= RSZ) by (rewrite (mv_len _ _ _ _ _ _ _ _ V); apply le_n).
  destruct (C27_union_correct hgt n P Ls mi H1 H256 Hp Lm L8 Hb) as (ks0' & u0' & w & U & _ & G).
  rewrite U0 in U. injection U as <- <-.
  assert (S4 : length (somes (firstn (S mi) Ls)) <= 4).
  { eapply Nat.le_trans; [|exact M]. rewrite <- (firstn_firstn_le (S mi) (S (m_maxr g)) Ls) by lia. apply somes_firstn. }
  destruct (C56_in_time_partial hgt n P Ls mi H1 H256 Hp Lm L8 Hb S4) as (ks1 & u1 & ks2 & u2 & U1 & UC1 & Fn). rewrite U0 in U1. injection U1 as <- <-.
  destruct (G c) as (ks3 & u3 & G1 & G2 & _). rewrite UC in G1. injection G1 as <- <-.
  destruct (G (length P)) as (ks4 & u4 & G3 & G4 & _). rewrite UC1 in G3. injection G3 as <- <-.
  apply G4 in Fn. destruct (Nat.lt_ge_cases c (length P)) as [X|X]; auto. exfalso.
  assert (w <= c * s_isz u0) by nia. apply G2 in H. congruence.
Qed.

Definition tinv (g : mg) (P B : list edge) : Prop :=
  (N.of_nat (length B) <= th_max T (N.max n (m_nt g)) 0)%N /\ (N.of_nat (length P) <= th_max T (N.max n (m_nt g)) 0 + 1)%N.

Lemma th_up k k' : (k <= k')%N -> (th_max T (N.max n k) 0 <= th_max T (N.max n k') 0)%N.
Proof using HT Hn9. intros L. apply th_max0_mono; auto. clear -L Hn9. lia. Qed.

Lemma lev_find_le m Ls : forall i acc j k, nonempty Ls -> in_rng n (tl Ls) -> lev_find T m (lev hgt n Ls) i acc = Some j ->
  i < k -> k <= i + length Ls -> (acc + N.of_nat (length (tl Ls)) + 1 < th_max T m k)%N -> j < k.
Proof using HT Hn9 HO.
  induction Ls as [|o Ls IH]; intros i acc j k Hne R E Hik Hk Hm; [discriminate|]. unfold lev in E. cbn [map lev_find] in E. fold (lev hgt n Ls) in E.
  set (acc' := match option_map (built hgt n) o with Some t => (acc + b_m t)%N | None => acc end) in *.
  assert (Ha : (acc' + N.of_nat (length (tl Ls)) <= acc + N.of_nat (length (tl (o :: Ls))))%N).
  { unfold acc', tl in *. destruct o as [l|]; cbn [option_map somes concat] in *; [|lia]. apply rng_app in R. destruct R as [R1 R2].
    rewrite app_length. pose proof (built_m hgt n H1 Hn l (Hne l (or_introl eq_refl)) R1). lia. }
  assert (Hne' : nonempty Ls) by (intros l Hl; apply Hne; right; exact Hl).
  assert (R' : in_rng n (tl Ls)). { unfold tl in *. destruct o as [l|]; cbn [somes concat] in R; auto. apply rng_app in R. tauto. }
  destruct (N.ltb_spec (acc' + 1) (th_max T m (S i))) as [L|L]; [injection E as <-; lia|].
  cbn [length] in Hk. destruct (Nat.eq_dec k (S i)) as [->|]; [lia|].
  apply (IH (S i) acc' j k Hne' R' E); lia.
Qed.

(** One insertion *)
Lemma add_time hs g Ls P B c x y : minv hgt n hs g Ls P B c -> fitsn hgt n (m_nt g + 1) -> (x < n)%N -> (y < n)%N -> tinv g P B ->
  (mg_add T hgt g x y = Undefined /\ P <> [] /\ 4 < length (somes (firstn (S (m_maxr g)) Ls))) \/
  exists g2 Ls2 P2 B2 c2, mg_add T hgt g x y = Done g2 /\ minv hgt n (hs ++ [(x, y)]) g2 Ls2 P2 B2 c2 /\ tinv g2 P2 B2 /\
    (m_maxr g <= 3 -> (m_nt g + 1 < th_max T (N.max n (m_nt g)) 4)%N -> m_maxr g2 <= 3).
Proof using HT Hn9 HO.
  intros V Fit Hx Hy [I1 I2].
  destruct (add_spec T hgt n H1 H256 Hn Hn2 hs g Ls P B c x y V Fit Hx Hy) as (g1 & Ls1 & P1 & E1 & V1 & N1 & T1 & M1 & D & C).
  set (m := N.max n (m_nt g)) in *.
  assert (J2 : (N.of_nat (length P1) <= th_max T m 0 + 1)%N) by (destruct D as [[_ ->]|[-> _]]; cbn [length]; lia).
  pose proof (th_up (m_nt g) (m_nt g + 1) ltac:(lia)) as Up. fold m in Up.
  destruct C as [(C1 & C2 & C3)|(C1 & [(C2 & g2 & C3 & C4 & C5 & C6 & C7)|[(C2 & C3 & C4)|[(C2 & C3 & C4 & g2 & C5)|(C2 & C3 & i & g2 & Ls2 & P2 & C4 & C5 & C6 & C7 & C8 & C9 & C10)]]])].
  - right. exists g1, Ls1, P1, B, (S c). split; [exact C2|]. split; [exact C3|]. split; [|intros; lia]. unfold tinv. rewrite N1. fold m. auto.
  - right. exists g2, Ls1, P1, (B ++ [(x, y)]), (S c). split; [exact C3|]. split; [exact C4|]. split; [|intros; lia]. unfold tinv. rewrite C5, app_length. cbn [length]. lia.
  - left. split; [exact C4|]. destruct D as [[-> ->]|[-> _]]; [|congruence]. split; [exact C3|].
    destruct (Nat.lt_ge_cases 4 (length (somes (firstn (S (m_maxr g)) Ls)))) as [G|G]; [exact G|]. exfalso.
    assert (Fit0 : fitsn hgt n (m_nt g1)) by (unfold fitsn in *; nia).
    pose proof (pending_calls hs g1 Ls P B (S c) V1 Fit0 C3 ltac:(rewrite M1; exact G)) as X. pose proof (mv_calls _ _ _ _ _ _ _ _ V C3) as Y. lia.
  - exfalso. subst P1. destruct (mv_phase _ _ _ _ _ _ _ _ V1) as [[_ [K1 _]]|(ks0 & u0 & mi & conv & EP & _)]; [|destruct conv; discriminate].
    rewrite K1 in C4. destruct (minv_rng _ _ _ _ _ _ _ _ V1) as (_ & R2 & _).
    apply (lev_find_none T hgt n H1 H256 Hn Hn2) in C4; auto; [|apply (mv_ne _ _ _ _ _ _ _ _ V1)|pose proof (mv_len _ _ _ _ _ _ _ _ V1); destruct Ls1; [discriminate|congruence]].
    rewrite (mv_len _ _ _ _ _ _ _ _ V1) in C4. change (0 + RSZ) with 8 in C4. rewrite th_max_8 in C4 by (auto; unfold m; lia).
    pose proof (mv_nt _ _ _ _ _ _ _ _ V1) as X. rewrite !app_length in X. cbn [length] in X. unfold edge in *. lia.
  - right. exists g2, Ls2, P2, [], 1. split; [exact C5|]. split; [exact C6|]. split.
    + unfold tinv. rewrite C7. cbn [length]. split; [lia|]. destruct C10 as [[_ ->]|[-> _]]; [rewrite app_length|]; cbn [length]; lia.
    + intros M Hlt. rewrite C9. subst P1. destruct (mv_phase _ _ _ _ _ _ _ _ V1) as [[_ [K1 _]]|(ks0 & u0 & mi & conv & EP & _)]; [|destruct conv; discriminate].
      rewrite K1 in C4. destruct (minv_rng _ _ _ _ _ _ _ _ V1) as (_ & R2 & _).
      pose proof (mv_nt _ _ _ _ _ _ _ _ V1) as X. rewrite !app_length in X. cbn [length] in X.
      pose proof (lev_find_le m Ls1 0 _ i 4 (mv_ne _ _ _ _ _ _ _ _ V1) R2 C4 ltac:(lia)) as G.
      rewrite (mv_len _ _ _ _ _ _ _ _ V1) in G. specialize (G ltac:(unfold RSZ; lia)). unfold edge in *. specialize (G ltac:(lia)). lia.
Qed.

Lemma hist_time h : Forall (op_in_range n) h -> small_hist hgt n h -> forall g, mg_hist T hgt n h = Done g ->
  exists Ls P B c, minv hgt n (added h) g Ls P B c /\ tinv g P B.
Proof using HT Hn9 HO.
  induction h as [|o h IH] using rev_ind; intros F Sm g E.
  - unfold mg_hist in E. destruct (mg_new T n) as [g0|] eqn:E0; [|discriminate]. cbn in E. injection E as <-.
    destruct (new_inv T hgt n H1 H256 Hn Hn2 g0 E0) as (V & _ & _ & _). exists (repeat None RSZ), [], [], 0. split; [exact V|]. split; cbn [length]; lia.
  - apply Forall_app in F. destruct F as [F Fo]. inversion Fo as [|? ? Ro _]; subst.
    unfold small_hist in *. rewrite added_app, app_length in Sm.
    specialize (IH F ltac:(nia)). rewrite mg_hist_snoc in E. destruct (mg_hist T hgt n h) as [g0|g0|] eqn:E0; try discriminate.
    destruct (IH g0 eq_refl) as (Ls & P & B & c & V & Ti).
    destruct o as [[x y]|[x y]]; cbn [mg_op] in E; [|injection E as <-; exists Ls, P, B, c; rewrite added_app, app_nil_r; auto].
    destruct Ro as [Hx Hy]. cbn [op_edge fst snd] in Hx, Hy.
    assert (Fit : fitsn hgt n (m_nt g0 + 1)). { unfold fitsn. pose proof (mv_le _ _ _ _ _ _ _ _ V). cbn [added flat_map app length] in Sm. nia. }
    destruct (add_time _ _ _ _ _ _ x y V Fit Hx Hy Ti) as [(X & _)|(g2 & Ls2 & P2 & B2 & c2 & E2 & V2 & T2 & _)]; [congruence|].
    rewrite E2 in E. injection E as <-. rewrite added_app. eauto 10.
Qed.

(** Short histories complete *)
Lemma hist_total h : Forall (op_in_range n) h -> small_hist hgt n h -> (N.of_nat (length (added h)) < th_max T n 4)%N ->
  exists g Ls P B c, mg_hist T hgt n h = Done g /\ minv hgt n (added h) g Ls P B c /\ tinv g P B /\ m_maxr g <= 3.
Proof using HT Hn9 HO.
  induction h as [|o h IH] using rev_ind; intros F Sm Ln.
  - unfold mg_hist, mg_new, c0_new, maxsz. destruct (N.eqb_spec n 1) as [X|_]; [lia|]. cbn [obind rbind mg_ops].
    eexists. destruct (new_inv T hgt n H1 H256 Hn Hn2 _ ltac:(unfold mg_new, c0_new, maxsz; destruct (N.eqb_spec n 1) as [X|_]; [lia|]; reflexivity)) as (V & _ & M & _).
    exists (repeat None RSZ), [], [], 0. split; [reflexivity|]. split; [exact V|]. split; [split; cbn [length]; lia|]. rewrite M. lia.
  - apply Forall_app in F. destruct F as [F Fo]. inversion Fo as [|? ? Ro _]; subst.
    unfold small_hist in *. rewrite added_app, app_length in Sm, Ln.
    destruct (IH F ltac:(nia) ltac:(lia)) as (g0 & Ls & P & B & c & E0 & V & Ti & M). rewrite mg_hist_snoc, E0.
    destruct o as [[x y]|[x y]]; cbn [mg_op]; [|exists g0, Ls, P, B, c; rewrite added_app, app_nil_r; auto].
    destruct Ro as [Hx Hy]. cbn [op_edge fst snd] in Hx, Hy.
    assert (Fit : fitsn hgt n (m_nt g0 + 1)). { unfold fitsn. pose proof (mv_le _ _ _ _ _ _ _ _ V). cbn [added flat_map app length] in Sm. nia. }
    destruct (add_time _ _ _ _ _ _ x y V Fit Hx Hy Ti) as [(_ & _ & X)|(g2 & Ls2 & P2 & B2 & c2 & E2 & V2 & T2 & M2)].
    { exfalso. pose proof (somes_le (firstn (S (m_maxr g0)) Ls)) as Y. rewrite firstn_length in Y. lia. }
    exists g2, Ls2, P2, B2, c2. split; [exact E2|]. rewrite added_app. split; [exact V2|]. split; [exact T2|]. apply M2; [exact M|].
    pose proof (mv_le _ _ _ _ _ _ _ _ V) as X. cbn [added flat_map app length] in Ln.
    pose proof (th_max4_le T n HT ltac:(lia)) as Y. rewrite N.max_l by lia. lia.
Qed.
End Time.
