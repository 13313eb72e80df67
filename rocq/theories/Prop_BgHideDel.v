(** * Prop_BgHideDel: how many edges a merge hides, histories with deletions (C90, DKtree_background_wait). *)
From Verif Require Import Base Spec Thresholds Table K2 C0 C0Proof DK DKProof DKHist Delay BgSpec BgDelSpec Bg BgProof BgDel Prop_DK.

(** [k] edges are at most MAXSZ(m, 0), m being n or the number of edges of the graph after [h1], some earlier point of the history [h];
    if an edge was inserted while it was in the graph, n_total_edges counts more than the edges, and m is at most the number of insertions. *)
Definition within (T : thresholds) (n : N) (h : list event) (k : nat) : Prop :=
  exists h2 h1 m, h = h2 ++ h1 /\ (m <= N.of_nat (length (ins_of h1)))%N /\ (BgDelSpec.fresh h1 -> m <= N.of_nat (length (live h1)))%N /\
    (N.of_nat k <= th_max T (N.max n m) 0)%N.

Lemma within_grow T n h k vs : within T n h k -> within T n (vs ++ h) k.
Proof. intros (h2 & h1 & m & -> & A). exists (vs ++ h2), h1, m. rewrite app_assoc. auto. Qed.
Lemma within_le T n h k k' : within T n h k -> k' <= k -> within T n h k'.
Proof. intros (h2 & h1 & m & A & B & C & D) Le. exists h2, h1, m. repeat split; auto. lia. Qed.
Lemma within_0 T n h : within T n h 0.
Proof. exists [], h, 0%N. repeat split; lia. Qed.

Section Hide.
Context (T : thresholds) (K : k2impl) (L : k2laws K) (n : N) (Hn : (2 <= n)%N).
Local Notation ktree := (kt K).
Local Notation bg := (bg K).
Local Notation J := (J K L n).
Local Notation kse := (ks_edges K).
Local Notation held := (held K).
Local Notation out_of := (out_of).
Local Notation slog := (slog K).

Definition inss (g : bg) : nat := length (ins_of (b_log g)).
Definition shown (g : bg) (e : edge) : Prop := e = b_tmp g \/ In e (kse (firstn (S (b_mrb g)) (b_copy g))).
Definition hides (g : bg) (e : edge) : Prop := 0 < held g e /\ ~ shown g e.

Record X (g : bg) : Prop := {
  x_nt : (b_nt g + N.of_nat (extra (b_m g)) + N.of_nat (length (out_of (b_todo g) (b_m g))) <= N.of_nat (length (ins_of (slog g))))%N;
  x_c0 : within T n (b_log g) (c0_size (b_c0 g));
  x_hd : b_nw g = true -> exists H, within T n (b_log g) (length H) /\ forall e, 0 < held g e -> shown g e \/ In e H;
  x_mrb : copying (b_m g) -> b_mrb g = b_maxr g
}.

(** the parts [X] looks at, except for the count *)
Definition same (g g' : bg) : Prop :=
  b_c0 g' = b_c0 g /\ b_ks g' = b_ks g /\ b_conv g' = b_conv g /\ b_nw g' = b_nw g /\ b_b g' = b_b g /\ b_tmp g' = b_tmp g /\ b_copy g' = b_copy g /\ b_mrb g' = b_mrb g /\
  ~ copying (b_m g') /\ exists vs, b_log g' = vs ++ b_log g.
Lemma X_same g g' : within T n (b_log g) (c0_size (b_c0 g)) ->
  (b_nw g = true -> exists H, within T n (b_log g) (length H) /\ forall e, 0 < held g e -> shown g e \/ In e H) ->
  same g g' -> (b_nt g' + N.of_nat (extra (b_m g')) + N.of_nat (length (out_of (b_todo g') (b_m g'))) <= N.of_nat (length (ins_of (slog g'))))%N -> X g'.
Proof.
  intros C H (E1 & E2 & E3 & E4 & E5 & E6 & E7 & E8 & NC & vs & EL) W. constructor; auto.
  - rewrite E1, EL. apply within_grow, C.
  - rewrite E4. intros Q. destruct (H Q) as (l & A & B). exists l. rewrite EL. split; [apply within_grow, A|].
    intros e. unfold BgDel.held, shown. rewrite E2, E3, E4, E5, E6, E7, E8. apply B.
  - intros Q. destruct (NC Q).
Qed.
Lemma same_trans g1 g2 g3 : same g1 g2 -> same g2 g3 -> same g1 g3.
Proof.
  intros (A1 & A2 & A3 & A4 & A5 & A6 & A7 & A8 & _ & v & AL) (B1 & B2 & B3 & B4 & B5 & B6 & B7 & B8 & BC & w & BL).
  repeat split; try congruence. exists (w ++ v). rewrite BL, AL, app_assoc. reflexivity.
Qed.

(** before an insertion (or its end), the count leaves room for the edges still to be inserted *)
Definition room (g : bg) (k : nat) : Prop :=
  match b_todo g with
  | Some (_, r) => (b_nt g + N.of_nat (k + length r) <= N.of_nat (inss g))%N
  | None => (b_nt g <= N.of_nat (inss g))%N
  end.
Definition counted (g : bg) : Prop :=
  (b_nt g + N.of_nat (extra (b_m g)) + N.of_nat (length (out_of (b_todo g) (b_m g))) <= N.of_nat (length (ins_of (slog g))))%N.

Ltac sm := split; [reflexivity|]; split; [reflexivity|]; split; [reflexivity|]; split; [reflexivity|]; split; [reflexivity|]; split; [reflexivity|];
  split; [reflexivity|]; split; [reflexivity|]; split; [exact (fun x => x)|]; first [exists []; reflexivity | eexists [_]; reflexivity].

Lemma ins_start_X fuel : forall g e g', room g 1 -> ins_start K fuel g e = Ok g' -> same g g' /\ counted g'.
Proof.
  induction fuel as [|fuel IH]; intros g e g' R E; cbn [ins_start] in E; destruct (c0_contains (b_c0 g) e) as [[|]|]; try discriminate; cbn [obind] in E;
  unfold room, inss in R.
  1, 3: unfold ins_done in E; destruct (b_todo g) as [[d [|f r]]|] eqn:Et.
  - injection E as <-. split; [sm|]. unfold counted, BgDel.slog, BgDel.out_of. gcbn. cbn. cbn [length] in R. lia.
  - discriminate.
  - injection E as <-. split; [sm|]. unfold counted, BgDel.slog, BgDel.out_of. gcbn. cbn. lia.
  - injection E as <-. split; [sm|]. unfold counted, BgDel.slog, BgDel.out_of. gcbn. cbn. cbn [length] in R. lia.
  - apply IH in E; [|unfold room, inss; gcbn; cbn [length] in R; lia]. destruct E as [E1 E2]. split; [|exact E2].
    exact E1.
  - injection E as <-. split; [sm|]. unfold counted, BgDel.slog, BgDel.out_of. gcbn. cbn. lia.
  - injection E as <-. split; [sm|]. unfold counted, BgDel.slog, BgDel.out_of. gcbn. destruct (b_todo g) as [[d r]|]; cbn in *; lia.
  - injection E as <-. split; [sm|]. unfold counted, BgDel.slog, BgDel.out_of. gcbn. destruct (b_todo g) as [[d r]|]; cbn in *; lia.
Qed.
Lemma ins_end_X g e h g' : match b_todo g with Some _ => room g 0 | None => (b_nt g <= N.of_nat (S (inss g)))%N end -> ins_end K g e h = Ok g' -> same g g' /\ counted g'.
Proof.
  intros R E. unfold ins_end, ins_done in E. unfold room, inss in R. destruct (b_todo g) as [[d [|f r]]|] eqn:Et.
  - injection E as <-. split; [sm|]. unfold counted, BgDel.slog, BgDel.out_of. gcbn. cbn. cbn [length] in R. lia.
  - unfold start in E. apply ins_start_X in E; [exact E|]. unfold room, inss. gcbn. cbn [length] in R. lia.
  - injection E as <-. split; [sm|]. unfold counted, BgDel.slog, BgDel.out_of. gcbn. cbn. lia.
Qed.
Lemma has_end_X g (k : bool) e b busy g' : plain (b_m g) -> mcur (b_m g) = (if k then Some e else None) -> (k = false -> b_todo g = None) ->
  counted g -> has_end K g k e b busy = Ok g' -> same g g' /\ counted g'.
Proof.
  intros P Ec TN C E. unfold counted in C. destruct (plain_core (b_m g) [] (b_todo g) (b_log g) P) as (_ & E2 & E3 & E4).
  unfold BgDel.slog in C. rewrite E2, E3 in C. unfold BgDel.out_of in C. rewrite E4, Ec in C. unfold has_end in E. destruct k; [destruct b|].
  - apply ins_end_X in E; [exact E|]. unfold room, inss. destruct (b_todo g) as [[d r]|]; cbn in *; lia.
  - injection E as <-. split; [sm|]. unfold counted, BgDel.slog, BgDel.out_of. gcbn. destruct (b_todo g) as [[d r]|]; cbn in *; lia.
  - injection E as <-. rewrite (TN eq_refl) in C. split; [sm|]. unfold counted, BgDel.slog, BgDel.out_of. gcbn. cbn in *. lia.
Qed.

(** the caller's thread moves on inside a call *)
Lemma move_X g B m' : J g B -> X g -> plain (b_m g) -> plain m' -> mcur m' = mcur (b_m g) -> ~ copying m' -> X (set_m g m').
Proof.
  intros V [X1 X2 X3 X4] P P' E NC. destruct (plain_core (b_m g) B (b_todo g) (b_log g) P) as (_ & E2 & E3 & E4).
  destruct (plain_core m' B (b_todo g) (b_log g) P') as (_ & E2' & E3' & E4').
  apply (X_same g); auto.
  - unfold same. gcbn. repeat split; auto. exists []. reflexivity.
  - unfold BgDel.slog, BgDel.out_of in *. gcbn. rewrite E2', E3', E4', E. rewrite E2, E3, E4 in X1. exact X1.
Qed.

(** ** The merging thread *)
Lemma back_X g B g' : J g B -> X g -> back_step T K g = Ok g' -> b_b g' <> BDead -> X g'.
Proof.
  intros V [X1 X2 X3 X4] E ND. pose proof (j_core _ _ _ _ _ V) as C. pose proof (back_frame_d T K g g' E) as (Fm & Ft & Fl).
  pose proof C as [C1 C2 C3 C4 C6 C7 C8 C9 C10 C11]. unfold bfactd in C9.
  assert (Q : b_c0 g' = b_c0 g /\ b_nt g' = b_nt g /\ b_tmp g' = b_tmp g /\ b_copy g' = b_copy g /\ b_mrb g' = b_mrb g /\ (b_nw g' = true -> b_nw g = true) /\
    (copying (b_m g) -> b_maxr g' = b_maxr g) /\ (b_nw g' = true -> forall e, held g' e <= held g e)).
  { assert (NC : b_nw g = true -> ~ copying (b_m g)).
    { intros W Q. pose proof (j_m _ _ _ _ _ V) as M. destruct (b_m g); cbn in Q; try tauto; cbn [mfactd] in M; intuition congruence. }
    unfold back_step in E. destruct (b_nw g) eqn:W.
    2: { rewrite C9 in E. injection E as <-. repeat split; auto; congruence. }
    specialize (NC eq_refl). unfold BgDel.held. destruct (b_b g) eqn:EB; cbn [BgProof.pend].
    - injection E as <-. gcbn. rewrite W. repeat split; auto; intros; tauto.
    - injection E as <-. gcbn. rewrite W. repeat split; auto; try (intros; tauto). intros _ e. cbn [BgProof.pend].
      destruct C9 as [F1 [F3 F2]]. replace (b_n g) with n by (rewrite (j_n _ _ _ _ _ V); auto).
      destruct (law_build L n (b_conv g) Hn F1 F3 F2) as [L1 [_ L3]].
      assert (Z : cnt e (kt_edges K (kt_build K (b_conv g) n)) = cnt e (b_conv g)) by (apply cnt_same; auto; apply (law_edges_nodup L n _ L1)). lia.
    - injection E as <-. gcbn. rewrite W. repeat split; auto; try (intros; tauto).
    - destruct C9 as [F1 F2]. destruct (maxsz T (b_msz g) 0); [|discriminate]. cbn [obind] in E.
      destruct (find_level T K (b_msz g) (b_ks g) 0 a) as [i|] eqn:Ei; injection E as <-; gcbn; rewrite W; repeat split; auto; intros; try tauto.
    - destruct C9 as [F1 [F2 [F3 [F4 F5]]]]. destruct (j <=? i).
      + destruct (nth_error (b_ks g) j) as [o|] eqn:Ej; [|discriminate]. destruct o as [s|].
        * injection E as <-. gcbn. rewrite W. repeat split; auto; try (intros; tauto). intros _ e. cbn [BgProof.pend].
          assert (Os : wf L n s). { unfold ks_wf in C6. rewrite Forall_forall in C6. apply (C6 (Some s)). eapply nth_error_In; eauto. }
          pose proof (kse_split K _ _ _ Ej) as E1. pose proof (kse_upd K (b_ks g) j _ None Ej) as E2.
          destruct (union_cnt K L n Hn tmp s F1 Os) as [U1 [U2 U3]]. specialize (U2 e). rewrite E1, E2, !cnt_app. cbn [count_occ]. lia.
        * injection E as <-. gcbn. rewrite W. repeat split; auto; intros; tauto.
      + injection E as <-. gcbn. rewrite W. repeat split; auto; intros; tauto.
    - destruct C9 as [F1 [F2 [F3 F5]]]. destruct (i <? length (b_ks g)); [|discriminate].
      injection E as <-. gcbn. rewrite W. repeat split; auto; try (intros; tauto). intros _ e. cbn [BgProof.pend].
      rewrite (kse_upd K _ _ _ (Some tmp) F5), (kse_split K _ _ _ F5), !cnt_app. cbn [count_occ]. lia.
    - injection E as <-. gcbn. repeat split; auto; try (intros; tauto); discriminate.
    - destruct C9. }
  destruct Q as (Q1 & Q2 & Q3 & Q4 & Q5 & Q6 & Q7 & Q8). constructor.
  - unfold BgDel.slog in *. rewrite Fm, Ft, Fl, Q2. exact X1.
  - rewrite Fl, Q1. exact X2.
  - intros W. destruct (X3 (Q6 W)) as (l & A & Bd). exists l. rewrite Fl. split; [exact A|]. intros e He. specialize (Q8 W e).
    unfold shown. rewrite Q3, Q4, Q5. apply Bd. lia.
  - rewrite Fm, Q5. intros Q. rewrite (Q7 Q). auto.
Qed.

(** ** The caller's thread *)
Lemma insert_size g B e c' : J g B -> ~ In e B -> c0_insert T (b_c0 g) e (b_nt g) = Ok c' -> c0_size c' = S (c0_size (b_c0 g)).
Proof.
  intros V NI Ei. destruct (co_c0 _ _ _ _ _ _ _ _ _ _ _ _ _ _ _ _ (j_core _ _ _ _ _ V)) as [sl [C0 CB]].
  destruct (insert_inv _ _ _ _ _ _ C0 Ei) as [_ [_ I1]]. rewrite CB in I1. rewrite (proj2 (emem_false e B) NI) in I1.
  rewrite (inv_size _ _ I1), (inv_size _ _ C0), live_edges_app, app_length. cbn. lia.
Qed.
(** what n_total_edges can be when an insertion measures it *)
Lemma count_now g B : J g B -> X g -> plain (b_m g) -> (b_nt g <= N.of_nat (inss g))%N /\ (BgDelSpec.fresh (b_log g) -> b_nt g <= N.of_nat (length (live (b_log g))))%N.
Proof.
  intros V [X1 _ _ _] P. split.
  - destruct (plain_core (b_m g) [] (b_todo g) (b_log g) P) as (_ & E2 & E3 & _). unfold BgDel.slog in X1. rewrite E2, E3 in X1. unfold inss.
    destruct (b_todo g) as [[d r]|]; cbn [fl ins_of] in X1; lia.
  - intros F. pose proof (st_nt (co_st _ _ _ _ _ _ _ _ _ _ _ _ _ _ _ _ (J_core K L n g B V P))) as Q.
    destruct (b_todo g) as [[d r]|]; cbn [fl] in Q.
    + specialize (Q F). cbn [live] in Q. assert (length (filter (fun f => negb (eeqb d f)) (live (b_log g))) <= length (live (b_log g))); [|lia].
      clear. induction (live (b_log g)) as [|a l IH]; cbn; [lia|]. destruct (negb (eeqb d a)); cbn; lia.
    + specialize (Q F). lia.
Qed.

Ltac mv g B Ec k := apply (move_X g B); [assumption|assumption|assumption|exact Logic.I|rewrite Ec; destruct k; reflexivity|intros []].
Ltac mw g B Em := apply (move_X g B); [assumption|assumption|assumption|exact Logic.I|rewrite Em; reflexivity|intros []].
Lemma main_X g B g' : J g B -> X g -> main_step true T K g = Ok g' -> X g'.
Proof.
  intros V XX E. pose proof (j_m _ _ _ _ _ V) as M. pose proof XX as [X1 X2 X3 X4].
  assert (TN : mcur (b_m g) = None -> b_todo g = None) by (apply (J_idle K L n g B V)).
  unfold main_step in E. destruct (b_m g) eqn:Em; cbn [mfactd] in M; try (assert (P : plain (b_m g)) by (rewrite Em; exact Logic.I));
  try (assert (X1' : counted g) by (unfold counted; rewrite Em; exact X1)).
  - injection E as <-. exact XX.
  - assert (Ec : mcur (b_m g) = if k then Some e else None) by (rewrite Em; destruct k; auto).
    assert (TK : k = false -> b_todo g = None) by (intros ->; auto).
    assert (HE : forall b z, has_end K g k e b z = Ok g' -> X g').
    { intros b z Q. apply has_end_X in Q; auto. destruct Q as [Q1 Q2]. apply (X_same g); auto. }
    destruct (b_nw g) eqn:W.
    + destruct (eeqb (b_tmp g) e); [eapply HE, E|]. destruct (b_mrb g <? length (b_copy g)); [eapply HE, E|discriminate].
    + injection E as <-. mv g B Ec k.
  - assert (Ec : mcur (b_m g) = if k then Some e else None) by (rewrite Em; destruct k; auto).
    assert (TK : k = false -> b_todo g = None) by (intros ->; auto).
    assert (HE : forall b z, has_end K g k e b z = Ok g' -> X g').
    { intros b z Q. apply has_end_X in Q; auto. destruct Q as [Q1 Q2]. apply (X_same g); auto. }
    assert (MV : forall i, X (set_m g (MScan k e i))) by (intros j; mv g B Ec k).
    destruct (i <=? b_maxr g); [|eapply HE, E]. destruct (nth_error (b_ks g) i) as [[t|]|]; [|injection E as <-; apply MV|discriminate].
    destruct (kt_adj K t (fst e) (snd e)); [eapply HE, E|injection E as <-; apply MV].
  - destruct M as [_ NI]. unfold maxsz in E. destruct (N.max (b_n g) (b_nt g) =? 1)%N; [discriminate|]. cbn [obind] in E.
    destruct (N.ltb_spec (N.of_nat (c0_size (b_c0 g))) (th_max T (N.max (b_n g) (b_nt g)) 0)) as [Lt|Ge].
    + destruct (c0_insert T (b_c0 g) e (b_nt g)) as [c'|] eqn:Ei; [|discriminate]. cbn [obind] in E.
      pose proof (insert_size g B e c' V NI Ei) as SZ. destruct (count_now g B V XX P) as [N1 N2].
      pose proof X1' as R. unfold counted, BgDel.slog, BgDel.out_of in R. rewrite Em in R.
      apply ins_end_X in E.
      * destruct E as [E1 E2]. eapply X_same; [| |exact E1|exact E2]; gcbn; [|exact X3].
        rewrite SZ. exists [], (b_log g), (b_nt g). split; [reflexivity|]. split; [exact N1|]. split; [exact N2|].
        rewrite (j_n _ _ _ _ _ V) in Lt. lia.
      * unfold room, inss. gcbn. destruct (b_todo g) as [[d r]|]; cbn in R; [lia|]. unfold inss in N1. lia.
    + injection E as <-. mw g B Em.
  - destruct (b_nw g); injection E as <-; [exact XX|]. mw g B Em.
  - destruct M as (_ & _ & W). destruct (c0_converted (b_c0 g)); [|discriminate]. cbn [obind] in E. injection E as <-. constructor; gcbn; auto.
    + unfold BgDel.slog, BgDel.out_of in *. gcbn. rewrite Em in X1. exact X1.
    + congruence.
  - destruct M as (_ & _ & W & _). destruct (nth_error (b_ks g) j); injection E as <-; constructor; gcbn; auto; try congruence;
      unfold BgDel.slog, BgDel.out_of in *; gcbn; rewrite Em in X1; exact X1.
  - destruct M as (_ & _ & W & M3 & M4 & M5). pose proof (j_core _ _ _ _ _ V) as C.
    pose proof (co_b _ _ _ _ _ _ _ _ _ _ _ _ _ _ _ _ C) as C9. pose proof (co_above _ _ _ _ _ _ _ _ _ _ _ _ _ _ _ _ C) as C8.
    rewrite W in C9. cbn [bfactd] in C9.
    destruct (co_c0 _ _ _ _ _ _ _ _ _ _ _ _ _ _ _ _ C) as [sl [C0 CB]].
    injection E as <-. constructor; gcbn; auto.
    + unfold BgDel.slog, BgDel.out_of in *. gcbn. rewrite Em in X1. destruct (b_todo g) as [[d r]|]; cbn in *; lia.
    + intros _. exists B. split; [rewrite <- CB, <- (inv_size _ _ C0); exact X2|]. intros f. unfold BgDel.held, shown. gcbn. rewrite C9. cbn [BgProof.pend].
      rewrite M3, M4, M5. rewrite (X4 Logic.I). rewrite (kse_firstn K n Hn _ (b_maxr g)) by (auto; lia). rewrite cnt_app. intros Hf.
      rewrite !cnt_pos. cbn [count_occ] in Hf. destruct (edge_dec e f) as [->|]; [auto|]. lia.
    + intros [].
  - destruct (co_c0 _ _ _ _ _ _ _ _ _ _ _ _ _ _ _ _ (j_core _ _ _ _ _ V)) as [sl [C0 CB]].
    destruct (inv_clean _ _ C0) as (c' & E1 & IC & _ & Nv). rewrite E1 in E. cbn [obind] in E.
    unfold BgDel.slog, BgDel.out_of in X1. rewrite Em in X1.
    apply ins_end_X in E.
    + destruct E as [E2 E3]. eapply X_same; [| |exact E2|exact E3]; gcbn; [|exact X3]. rewrite (inv_size _ _ IC). apply within_0.
    + unfold room, inss. gcbn. destruct (b_todo g) as [[d r]|]; cbn in X1; lia.
  - destruct (b_nw g); injection E as <-; mw g B Em.
  - destruct (l <=? b_maxr g).
    + destruct (nth_error (if busy then b_copy g else b_ks g) l) as [[t|]|]; [| |discriminate]; injection E as <-; mw g B Em.
    + injection E as <-. specialize (TN eq_refl). rewrite TN in X1. apply (X_same g); auto.
      * unfold same. gcbn. repeat split; auto. eexists [_]. reflexivity.
      * unfold BgDel.slog, BgDel.out_of in *. gcbn. rewrite TN in X1. rewrite Em in X1. cbn in *. lia.
  - destruct (b_nw g); injection E as <-; [exact XX|]. mw g B Em.
  - destruct M as (M1 & M2 & M3).
    assert (Ec : mcur (b_m g) = None) by (rewrite Em; reflexivity). specialize (TN eq_refl).
    pose proof (J_qcore K L n g B V P Ec) as C. destruct C as [[sl [C0 CB]] C2 C3 C4 C6 C7 C8 C9 C10 C11].
    rewrite M3 in *. cbn [BgProof.pend count_occ bfactd length] in *. destruct e as [x y]. cbn [fst snd] in E.
    pose proof (dl_erase_cnt K L n Hn x y M1 (b_ks g) C6) as D. destruct (dl_erase K (b_ks g) x y) as [[eb mk] l].
    destruct D as (D1 & D2 & D3 & D4 & D5). pose proof (dl_erase_len K x y _ _ _ D3) as DL. cbv zeta in E.
    pose proof (st_sz C3) as SZ. pose proof (inv_size _ _ C0) as S2. rewrite CB in S2.
    unfold BgDel.slog, BgDel.out_of in X1. rewrite Em, TN in X1. cbn in X1.
    set (n' := if eb then u64_dec (b_nt g) else b_nt g) in E.
    assert (Nn : (N.of_nat (length B + length (kse l)) <= n')%N /\ (n' <= b_nt g)%N).
    { unfold n'. destruct eb; [unfold u64_dec; destruct (N.eqb_spec (b_nt g) 0)|]; lia. }
    destruct (th_trig T mk n').
    + rewrite kse_flat in E.
      match type of E with context [kse ?l0] => set (es := kse l0) in E end.
      assert (Le : length es <= length (kse l)).
      { unfold es. gcbn. rewrite <- (firstn_skipn (S (b_maxr g)) l) at 2. rewrite ks_edges_app, app_length. lia. }
      clearbody es. destruct es as [|f r].
      * injection E as <-. constructor; gcbn; auto.
        -- cbn. lia.
        -- apply (within_grow _ _ _ _ [EDel (x, y)]). exact X2.
        -- congruence.
        -- intros [].
      * unfold start in E. apply ins_start_X in E.
        -- destruct E as [E1 E2]. eapply X_same; [| |exact E1|exact E2]; gcbn; [exact X2|congruence].
        -- unfold room, inss. gcbn. cbn [length] in Le. lia.
    + injection E as <-. constructor; gcbn; auto.
      * cbn. lia.
      * apply (within_grow _ _ _ _ [EDel (x, y)]). exact X2.
      * congruence.
Qed.
Lemma call_X g B c g' : J g B -> X g -> call_step K c g = Ok g' -> X g'.
Proof.
  intros V XX E. pose proof XX as [X1 X2 X3 X4]. unfold call_step in E. destruct (b_m g) eqn:Em; try (injection E as <-; exact XX).
  assert (P : plain (b_m g)) by (rewrite Em; exact Logic.I). assert (Ec : mcur (b_m g) = None) by (rewrite Em; reflexivity).
  pose proof (J_qcore K L n g B V P Ec) as C. pose proof (J_idle K L n g B V Ec) as Et. destruct C as [[sl [C0 CB]] C2 C3 C4 C6 C7 C8 C9 C10 C11].
  unfold BgDel.slog, BgDel.out_of in X1. rewrite Et in X1. rewrite Em in X1. cbn in X1.
  destruct c as [e|e|x|e].
  - apply ins_start_X in E; [|unfold room, inss; rewrite Et; lia]. destruct E. apply (X_same g); auto.
  - destruct (c0_contains (b_c0 g) e) as [[|]|]; [| |discriminate]; cbn [obind] in E; injection E as <-.
    + apply (X_same g); [exact X2|exact X3| |].
      * unfold same. gcbn. repeat split; auto. eexists [_]. reflexivity.
      * unfold BgDel.slog, BgDel.out_of. gcbn. cbn. lia.
    + mw g B Em.
  - destruct (c0_neigh (b_c0 g) x); [|discriminate]. cbn [obind] in E. injection E as <-. mw g B Em.
  - destruct (c0_erase (b_c0 g) e) as [[b c']|] eqn:Ee; [|discriminate]. cbn [obind fst snd] in E.
    destruct (erase_inv _ _ _ _ _ C0 Ee) as (Eb & _ & _ & sl' & I' & _ & LE' & Ef). rewrite CB in Eb, LE'.
    assert (SZ : c0_size c' <= c0_size (b_c0 g)).
    { rewrite (inv_size _ _ I'), (inv_size _ _ C0), LE', CB. clear. induction B as [|a l IH]; cbn; [lia|]. destruct (negb (eeqb e a)); cbn; lia. }
    pose proof (st_sz C3) as S2. destruct b; injection E as <-.
    + symmetry in Eb. apply emem_In in Eb. assert (1 <= length B) by (destruct B; [destruct Eb|cbn; lia]). constructor; gcbn; auto.
      * cbn. unfold u64_dec. destruct (N.eqb_spec (b_nt g) 0); lia.
      * apply (within_grow _ _ _ _ [EDel e]). eapply within_le; eauto.
      * intros W. destruct (X3 W) as (l & A & Bd). exists l. split; [apply (within_grow _ _ _ _ [EDel e]), A|exact Bd].
    + constructor; gcbn; auto.
      * unfold BgDel.slog, BgDel.out_of. gcbn. rewrite Et. cbn. lia.
      * eapply within_le; eauto.
Qed.

(** ** Every execution *)
Lemma alive_before a (g g' : bg) : step true T K a g = Ok g' -> b_b g' <> BDead -> b_b g <> BDead.
Proof.
  intros E ND. destruct a as [c| |].
  - destruct (grows_step true T K (ACall c) g g') as [Q _]; [discriminate|auto|]. congruence.
  - destruct (grows_step true T K AMain g g') as [Q _]; [discriminate|auto|]. congruence.
  - intros Q. cbn [step] in E. unfold back_step in E. rewrite Q in E. injection E as <-. auto.
Qed.
Definition Xinv (g : bg) : Prop := b_b g <> BDead -> X g.
Lemma step_X a g g' : Jinv K L n g -> Xinv g -> step true T K a g = Ok g' -> Xinv g'.
Proof.
  intros V XX E ND. pose proof (alive_before a g g' E ND) as NB. destruct (V NB) as [An [B JB]]. specialize (XX NB).
  destruct a as [c| |]; cbn [step] in E.
  - eapply call_X; eauto.
  - eapply main_X; eauto.
  - eapply back_X; eauto.
Qed.
Lemma run_X s : forall g g', Jinv K L n g -> Xinv g -> Forall (act_rng n) s -> run true T K s g = Ok g' -> Jinv K L n g' /\ Xinv g'.
Proof using Hn.
  induction s as [|a s IH]; intros g g' V XX F E; cbn [run] in E; [injection E as <-; auto|]. inversion F; subst.
  destruct (step true T K a g) as [g1|] eqn:E1; [|discriminate]. cbn [obind] in E. eapply (IH g1); eauto.
  - eapply step_J; eauto.
  - eapply step_X; eauto.
Qed.
Lemma exec_X s g : Forall (act_rng n) s -> exec true T K n s = Ok g -> Jinv K L n g /\ Xinv g.
Proof using Hn.
  intros F E. unfold exec in E. destruct (bg_new true T K n) as [g0|] eqn:E0; [|discriminate]. cbn [obind] in E.
  eapply run_X; eauto; [eapply new_J; eauto|].
  intros _. unfold bg_new in E0. destruct (c0_new T n) as [c|] eqn:Ec; [|discriminate]. cbn [obind] in E0. injection E0 as <-. constructor; gcbn.
  - cbn. lia.
  - eapply within_le; [apply within_0|]. unfold c0_new in Ec. destruct (maxsz T n 0); [|discriminate]. cbn [obind] in Ec. injection Ec as <-. unfold c0_size. cbn. lia.
  - discriminate.
  - intros [].
Qed.

(** ** A contains asked now *)
Definition missed (g : bg) (e : edge) : Prop :=
  b_nw g = true /\ eeqb (b_tmp g) e = false /\ ks_adj K (firstn (S (b_mrb g)) (b_copy g)) (fst e) (snd e) = false.
Definition asked (g : bg) (e : edge) (g1 : bg) : Prop :=
  (b_log g1 = b_log g /\
    (b_m g1 = MHas false e /\ (b_nw g1 = true -> b_nw g = true /\ b_tmp g1 = b_tmp g /\ b_copy g1 = b_copy g /\ b_mrb g1 = b_mrb g) \/
     exists i, b_m g1 = MScan false e i)) \/
  exists vs b busy, b_log g1 = vs ++ EHas e b busy :: b_log g /\ (b = false -> missed g e \/ ~ In e (live (b_log g))).
Lemma asked_step g e g1 g2 a : Jinv K L n g1 -> act_rng n a -> asked g e g1 -> step true T K a g1 = Ok g2 -> b_b g2 <> BDead -> asked g e g2.
Proof using Hn.
  intros V R A E ND. pose proof (step_J true T K L n Hn a g1 g2 V R E) as V2. destruct (V2 ND) as [An2 _]. clear V V2 R.
  destruct A as [[EL A]|(vs & b & busy & EL & A)].
  2:{ right. destruct a as [c| |].
      - destruct (grows_step true T K (ACall c) g1 g2) as [_ [w Q]]; [discriminate|auto|]. exists (w ++ vs), b, busy. rewrite Q, EL, app_assoc. auto.
      - destruct (grows_step true T K AMain g1 g2) as [_ [w Q]]; [discriminate|auto|]. exists (w ++ vs), b, busy. rewrite Q, EL, app_assoc. auto.
      - destruct (back_frame_d T K g1 g2 E) as (_ & _ & Q). exists vs, b, busy. rewrite Q. auto. }
  destruct a as [c| |]; cbn [step] in E.
  - left. assert (g2 = g1) as ->; [|auto]. unfold call_step in E. destruct A as [[Em _]|[i Em]]; rewrite Em in E; injection E as <-; reflexivity.
  - unfold main_step in E. destruct A as [[Em A]|[i Em]]; rewrite Em in E.
    + destruct (b_nw g1) eqn:W.
      * destruct (A eq_refl) as (A1 & A2 & A3 & A4). rewrite A2, A3, A4 in E. right.
        destruct (eeqb (b_tmp g) e) eqn:Et.
        { injection E as <-. gcbn. exists [], true, true. rewrite EL. split; [reflexivity|discriminate]. }
        destruct (b_mrb g <? length (b_copy g)); [|discriminate]. injection E as <-. gcbn.
        exists [], (ks_adj K (firstn (S (b_mrb g)) (b_copy g)) (fst e) (snd e)), true. rewrite EL. split; [reflexivity|]. intros Z. left. repeat split; auto.
      * injection E as <-. left. gcbn. eauto.
    + assert (HE : forall b, Ok (done g1 (EHas e b false)) = Ok g2 -> asked g e g2).
      { intros b Q. injection Q as <-. gcbn. destruct An2 as [[Q _] _]. right. exists [], b, false. rewrite EL in Q. split; [gcbn; rewrite EL; reflexivity|].
        intros -> . right. intros I. specialize (Q eq_refl I). discriminate. }
      destruct (i <=? b_maxr g1); [|apply (HE false), E]. destruct (nth_error (b_ks g1) i) as [[t|]|]; [| |discriminate].
      * destruct (kt_adj K t (fst e) (snd e)); [apply (HE true), E|]. injection E as <-. left. gcbn. eauto.
      * injection E as <-. left. gcbn. eauto.
  - destruct (back_frame_d T K g1 g2 E) as (Qm & _ & Ql). left. rewrite Qm, Ql. split; [exact EL|]. destruct A as [[Em A]|A]; [left|right; exact A].
    split; [exact Em|]. assert (Fr : b_tmp g2 = b_tmp g1 /\ b_copy g2 = b_copy g1 /\ b_mrb g2 = b_mrb g1 /\ (b_nw g2 = true -> b_nw g1 = true)).
    { unfold back_step in E. destruct (b_b g1).
      - destruct (b_nw g1) eqn:W; injection E as <-; gcbn; rewrite ?W; auto.
      - injection E as <-; auto.
      - injection E as <-; auto.
      - destruct (maxsz T (b_msz g1) 0); [|discriminate]. cbn [obind] in E. destruct (find_level T K (b_msz g1) (b_ks g1) 0 a); injection E as <-; auto.
      - destruct (j <=? i); [|injection E as <-; auto]. destruct (nth_error (b_ks g1) j) as [[t|]|]; try discriminate; injection E as <-; auto.
      - destruct (i <? length (b_ks g1)); [|discriminate]. injection E as <-; auto.
      - injection E as <-. gcbn. repeat split; auto. discriminate.
      - injection E as <-; auto. }
    destruct Fr as (F1 & F2 & F3 & F4). intros W. rewrite F1, F2, F3. apply A, F4, W.
Qed.
Lemma asked_run s g e : forall g1 g2, Jinv K L n g1 -> Forall (act_rng n) s -> asked g e g1 -> run true T K s g1 = Ok g2 -> b_b g2 <> BDead -> asked g e g2.
Proof using Hn.
  induction s as [|a s IH]; intros g1 g2 V F A E ND; cbn [run] in E; [injection E as <-; auto|]. inversion F; subst.
  destruct (step true T K a g1) as [g3|] eqn:E1; [|discriminate]. cbn [obind] in E.
  assert (ND3 : b_b g3 <> BDead).
  { clear - E ND. revert g3 E. induction s as [|b s IH]; intros g3 E; cbn [run] in E; [injection E as <-; auto|].
    destruct (step true T K b g3) as [g4|] eqn:E4; [|discriminate]. cbn [obind] in E. apply (alive_before b g3 g4 E4), IH, E. }
  apply (IH g3 g2); auto; [eapply step_J; eauto|]. apply (asked_step g e g1 g3 a); auto.
Qed.
End Hide.

(** C90, DKtree_background_wait (the only graph of its process), every list of insertions, queries and deletions, every schedule, while the merging
    thread lives: if all the edges of D are in the graph and a contains asked now about any of them can answer false, D has at most MAXSZ(m, 0)
    elements, m being the number of vertices, or of edges at some earlier moment if that is larger. *)
Theorem C90_wait_deletions_partial : forall T K (L : k2laws K) n s g D, (2 <= n)%N -> Forall (act_rng n) s -> exec true T K n s = Ok g -> b_m g = MIdle ->
  NoDup D -> incl D (live (b_log g)) ->
  (forall e, In e D -> exists s' g' busy, Forall (act_rng n) s' /\ run true T K (ACall (CHas e) :: s') g = Ok g' /\ b_b g' <> BDead /\
     b_log g' = EHas e false busy :: b_log g) ->
  exists h2 h1 m, b_log g = h2 ++ h1 /\ (m <= N.of_nat (length (ins_of h1)))%N /\ (BgDelSpec.fresh h1 -> m <= N.of_nat (length (live h1)))%N /\
    (N.of_nat (length D) <= th_max T (N.max n m) 0)%N.
Proof.
  intros T K L n s g D Hn F E Em ND IN HD. change (within T n (b_log g) (length D)).
  destruct D as [|d D0] eqn:ED; [apply within_0|]. rewrite <- ED in *.
  assert (P : plain (b_m g)) by (rewrite Em; exact Logic.I). assert (Ec : mcur (b_m g) = None) by (rewrite Em; reflexivity).
  destruct (exec_X T K L n Hn s g F E) as [JJ XX].
  assert (AL : forall e, In e D -> b_b g <> BDead /\ (exists B, J K L n g B) /\ ~ (exists B, J K L n g B /\ In e B) /\ missed K g e).
  { intros e I. destruct (HD e I) as (s' & g' & busy & F' & R & NB & EL). pose proof R as R0. cbn [run step] in R.
    destruct (call_step K (CHas e) g) as [g1|] eqn:E1; [|discriminate]. cbn [obind] in R.
    assert (NBg : b_b g <> BDead).
    { clear - R0 NB. revert g R0. generalize (ACall (CHas e) :: s'). induction l as [|b l IH]; intros g E; cbn [run] in E; [injection E as <-; auto|].
      destruct (step true T K b g) as [g4|] eqn:E4; [|discriminate]. cbn [obind] in E. apply (alive_before T K b g g4 E4), IH, E. }
    destruct (JJ NBg) as [An [B V]]. split; [auto|]. split; [eauto|].
    assert (IR : in_range n e).
    { pose proof (co_rng _ _ _ _ _ _ _ _ _ _ _ _ _ _ _ _ (J_qcore K L n g B V P Ec)) as RG. rewrite Forall_forall in RG. apply RG, live_ins, IN, I. }
    assert (V1 : Jinv K L n g1) by (eapply (step_J true T K L n Hn (ACall (CHas e)) g g1); eauto).
    assert (Q : asked K g e g1 /\ (c0_contains (b_c0 g) e = Ok true -> b_log g1 = EHas e true false :: b_log g)).
    { unfold call_step in E1. rewrite Em in E1. destruct (c0_contains (b_c0 g) e) as [[|]|]; [| |discriminate]; cbn [obind] in E1; injection E1 as <-; gcbn.
      - split; [|auto]. right. exists [], true, false. split; [reflexivity|discriminate].
      - split; [|discriminate]. left. split; [reflexivity|]. left. auto. }
    destruct Q as [Q1 Q2]. pose proof (asked_run T K L n Hn s' g e g1 g' V1 F' Q1 R NB) as Q3.
    assert (LE : forall (vs h : list event) v w, vs ++ v :: h = w :: h -> v = w).
    { intros vs h v w X0. destruct vs as [|u vs]; [injection X0; auto|]. exfalso. apply (f_equal (@length _)) in X0. cbn in X0. rewrite app_length in X0. cbn in X0. lia. }
    split.
    - intros (B' & V' & IB). destruct (co_c0 _ _ _ _ _ _ _ _ _ _ _ _ _ _ _ _ (j_core _ _ _ _ _ V')) as [sl [C0 CB]].
      rewrite (inv_contains _ _ e C0), CB in Q2. specialize (Q2 (f_equal Ok (proj2 (emem_In e B') IB))).
      assert (Y : exists vs, b_log g' = vs ++ b_log g1).
      { clear - R. revert g1 R. induction s' as [|a s IH]; intros g1 E; cbn [run] in E; [injection E as <-; exists []; auto|].
        destruct (step true T K a g1) as [g3|] eqn:E1; [|discriminate]. cbn [obind] in E. destruct (IH _ E) as [v Ev].
        destruct a as [c| |].
        - destruct (grows_step true T K (ACall c) g1 g3) as [_ [w Q]]; [discriminate|auto|]. exists (v ++ w). rewrite Ev, Q, app_assoc. auto.
        - destruct (grows_step true T K AMain g1 g3) as [_ [w Q]]; [discriminate|auto|]. exists (v ++ w). rewrite Ev, Q, app_assoc. auto.
        - destruct (back_frame_d T K g1 g3 E1) as (_ & _ & Q). exists v. rewrite Ev, Q. auto. }
      destruct Y as [vs Y]. rewrite EL, Q2 in Y. symmetry in Y. apply LE in Y. discriminate.
    - destruct Q3 as [[Q3 _]|(vs & b & z & Q3 & Q4)].
      + rewrite EL in Q3. apply (f_equal (@length _)) in Q3. cbn in Q3. lia.
      + rewrite EL in Q3. symmetry in Q3. apply LE in Q3. injection Q3 as -> ->. destruct (Q4 eq_refl) as [Q5|Q5]; [exact Q5|].
        destruct (Q5 (IN e I)). }
  destruct (AL d) as (NBg & [B V] & _ & (W & _)); [rewrite ED; left; auto|]. specialize (XX NBg).
  destruct (x_hd _ _ _ _ XX W) as (H & WH & HH). eapply within_le; [exact WH|]. apply NoDup_incl_length; [exact ND|].
  intros e I. destruct (AL e I) as (_ & _ & NI & (_ & Nt & Na)).
  destruct (q_cov K L n Hn g B e V P Ec (IN e I)) as [Y|Y]; [destruct NI; eauto|]. destruct (HH e Y) as [[Y2|Y2]|Y2]; [| |exact Y2].
  - rewrite <- Y2, eeqb_refl in Nt. discriminate.
  - exfalso. pose proof (J_qcore K L n g B V P Ec) as C.
    assert (IR : in_range n e).
    { pose proof (co_rng _ _ _ _ _ _ _ _ _ _ _ _ _ _ _ _ C) as RG. rewrite Forall_forall in RG. apply RG, live_ins, IN, I. }
    destruct e as [x y]. destruct IR as [R1 R2]. cbn [fst snd] in *.
    pose proof (co_cpwf _ _ _ _ _ _ _ _ _ _ _ _ _ _ _ _ C) as Wc.
    assert (ks_adj K (firstn (S (b_mrb g)) (b_copy g)) x y = true); [|congruence].
    apply (ks_adj_spec K L n); auto; [apply ks_wf_firstn; auto|split; auto].
Qed.

(** The hypotheses are met after a deletion, and the bound is attained: 8 vertices, (0,0) and (1,1) inserted and merged, (0,0) deleted from the trees,
    which makes the rebuild put (1,1) back into the buffer; then inserting (0,1) begins a merge, which hides (1,1): it is in the graph, and contains
    answers false.  MAXSZ(8, 0) = 1, and D = [(1,1)]. *)
Definition w90 : list act :=
  let ins e := ACall (CIns e) :: repeat AMain 24 in
  ins (0, 0)%N ++ ins (1, 1)%N ++ repeat ABack 15 ++ ACall (CDel (0, 0)%N) :: repeat AMain 24 ++ ins (0, 1)%N.
Example C90_deletions_example : Forall (act_rng 8) w90 /\ th_max th_exact 8 0 = 1%N /\
  match exec true th_exact K2Ref 8 w90 with
  | Ok g => b_m g = MIdle /\ In (EDel (0, 0)%N) (b_log g) /\ live (b_log g) = [(0, 1); (1, 1)]%N /\
      match run true th_exact K2Ref (ACall (CHas (1, 1)%N) :: repeat AMain 24) g with Ok g' => b_b g' <> BDead /\ b_log g' = EHas (1, 1)%N false true :: b_log g | UB => False end
  | UB => False
  end.
Proof.
  split; [repeat constructor|]. rewrite <- (tabled_eq th_exact th_real_inhabited). split; [vm_compute; reflexivity|]. vm_compute.
  repeat split; auto; discriminate.
Qed.

(** ** When a merge begins, with deletions: both graphs, every tree, every schedule. *)
Section Begin.
Context (wt : bool) (T : thresholds) (K : k2impl).
Definition ready (g : bg K) : Prop :=
  match b_m g with MBusy _ | MPush _ | MCopy _ _ | MFlag _ => (th_max T (N.max (b_n g) (b_nt g)) 0 <= N.of_nat (c0_size (b_c0 g)))%N | _ => True end.
(** where a call leaves the caller's thread *)
Definition quiet (g g' : bg K) : Prop := b_n g' = b_n g /\ b_nw g' = b_nw g /\ match b_m g' with MIdle | MHas _ _ => True | _ => False end.
Lemma quiet_start fuel : forall g e g', ins_start K fuel g e = Ok g' -> quiet g g'.
Proof.
  induction fuel as [|fuel IH]; intros g e g' E; cbn [ins_start] in E; destruct (c0_contains (b_c0 g) e) as [[|]|]; try discriminate; cbn [obind] in E;
  try (injection E as <-; repeat split; fail); unfold ins_done in E; destruct (b_todo g) as [[d [|f r]]|]; try discriminate; try (injection E as <-; repeat split; fail).
  apply IH in E. exact E.
Qed.
Lemma quiet_end g e h g' : ins_end K g e h = Ok g' -> quiet g g'.
Proof.
  unfold ins_end, ins_done. intros E. destruct (b_todo g) as [[d [|f r]]|]; try (injection E as <-; repeat split; fail). unfold start in E. apply quiet_start in E. exact E.
Qed.
Lemma quiet_has g k e b z g' : has_end K g k e b z = Ok g' -> quiet g g' \/ b_n g' = b_n g /\ b_nw g' = b_nw g /\ b_m g' = MIns e.
Proof.
  unfold has_end. destruct k; [destruct b|]; intros E; [left; eapply quiet_end; eauto|injection E as <-; right; auto|injection E as <-; left; repeat split].
Qed.
Lemma ready_quiet g g' : quiet g g' -> ready g'.
Proof. intros (_ & _ & M). unfold ready. destruct (b_m g'); tauto. Qed.
Lemma main_ready g g' : ready g -> main_step wt T K g = Ok g' ->
  ready g' /\ b_n g' = b_n g /\ (b_nw g = false -> b_nw g' = true -> th_max T (N.max (b_n g) (b_nt g)) 0 <= N.of_nat (c0_size (b_c0 g)))%N.
Proof.
  intros R E. unfold main_step in E. unfold ready in R.
  assert (HQ : forall h, quiet h g' -> b_n h = b_n g -> (b_nw h = true -> b_nw g = false -> False) -> ready g' /\ b_n g' = b_n g /\ (b_nw g = false -> b_nw g' = true -> th_max T (N.max (b_n g) (b_nt g)) 0 <= N.of_nat (c0_size (b_c0 g)))%N).
  { intros h Q En Ew. split; [eapply ready_quiet; eauto|]. destruct Q as (Q1 & Q2 & _). split; [congruence|]. intros W W'. rewrite Q2 in W'. destruct (Ew W' W). }
  assert (HE : forall k e b z, has_end K g k e b z = Ok g' -> ready g' /\ b_n g' = b_n g /\ (b_nw g = false -> b_nw g' = true -> th_max T (N.max (b_n g) (b_nt g)) 0 <= N.of_nat (c0_size (b_c0 g)))%N).
  { intros k e b z Q. apply quiet_has in Q. destruct Q as [Q|(Q1 & Q2 & Q3)]; [apply (HQ g Q); auto; congruence|].
    unfold ready. rewrite Q3. split; [auto|]. split; [auto|]. congruence. }
  destruct (b_m g) eqn:Em.
  - injection E as <-. unfold ready. rewrite Em. split; [auto|]. split; [auto|]. congruence.
  - destruct (b_nw g) eqn:W.
    + destruct (eeqb (b_tmp g) e); [eapply HE, E|]. destruct (b_mrb g <? length (b_copy g)); [eapply HE, E|discriminate].
    + injection E as <-. unfold ready. gcbn. split; [auto|]. split; [auto|]. congruence.
  - destruct (i <=? b_maxr g); [|eapply HE, E]. destruct (nth_error (b_ks g) i) as [[t|]|]; [| |discriminate].
    + destruct (kt_adj K t (fst e) (snd e)); [eapply HE, E|]. injection E as <-. unfold ready. gcbn. split; [auto|]. split; [auto|]. congruence.
    + injection E as <-. unfold ready. gcbn. split; [auto|]. split; [auto|]. congruence.
  - unfold maxsz in E. destruct (N.max (b_n g) (b_nt g) =? 1)%N; [discriminate|]. cbn [obind] in E.
    destruct (N.ltb_spec (N.of_nat (c0_size (b_c0 g))) (th_max T (N.max (b_n g) (b_nt g)) 0)) as [Lt|Ge].
    + destruct (c0_insert T (b_c0 g) e (b_nt g)); [|discriminate]. cbn [obind] in E. apply quiet_end in E. eapply HQ; [exact E|reflexivity|]. gcbn. congruence.
    + injection E as <-. unfold ready. gcbn. split; [exact Ge|]. split; [auto|]. congruence.
  - destruct (b_nw g) eqn:W.
    + destruct wt; [injection E as <-; unfold ready; rewrite Em; split; [exact R|]; split; [auto|]; congruence|]. cbv zeta in E.
      match type of E with obind ?Y _ = _ => destruct Y end; [|discriminate]. cbn [obind] in E. apply quiet_end in E. eapply HQ; [exact E|reflexivity|]. gcbn. congruence.
    + injection E as <-. unfold ready. gcbn. split; [exact R|]. split; [auto|]. congruence.
  - destruct (c0_converted (b_c0 g)); [|discriminate]. cbn [obind] in E. injection E as <-. unfold ready. gcbn. split; [exact R|]. split; [auto|]. congruence.
  - destruct (nth_error (b_ks g) j); injection E as <-; unfold ready; gcbn; (split; [exact R|]); (split; [auto|]); congruence.
  - injection E as <-. unfold ready. gcbn. split; [auto|]. split; [auto|]. intros _ _. exact R.
  - destruct (c0_clean (b_c0 g)); [|discriminate]. cbn [obind] in E. apply quiet_end in E. eapply HQ; [exact E|reflexivity|]. gcbn. congruence.
  - destruct (b_nw g) eqn:W; injection E as <-; unfold ready; gcbn; (split; [auto|]); (split; [auto|]); congruence.
  - destruct (l <=? b_maxr g); [|injection E as <-; unfold ready; gcbn; split; [auto|]; split; [auto|]; congruence].
    destruct (nth_error (if busy then b_copy g else b_ks g) l) as [[t|]|]; [| |discriminate]; injection E as <-; unfold ready; gcbn; (split; [auto|]); (split; [auto|]); congruence.
  - destruct (b_nw g) eqn:W; injection E as <-; unfold ready; gcbn; rewrite ?Em; (split; [auto|]); (split; [auto|]); congruence.
  - destruct (dl_erase K (b_ks g) (fst e) (snd e)) as [[eb mk] l]. cbv zeta in E.
    match type of E with (if ?c then _ else _) = _ => destruct c end.
    + match type of E with match ?l0 with _ => _ end = _ => destruct l0 as [|f r] end.
      * injection E as <-. unfold ready. gcbn. split; [auto|]. split; [auto|]. congruence.
      * unfold start in E. apply quiet_start in E. eapply HQ; [exact E|reflexivity|]. gcbn. congruence.
    + injection E as <-. unfold ready. gcbn. split; [auto|]. split; [auto|]. congruence.
Qed.
Lemma call_ready g c g' : ready g -> call_step K c g = Ok g' -> ready g' /\ b_n g' = b_n g /\ b_nw g' = b_nw g.
Proof.
  intros R E. unfold call_step in E. destruct (b_m g) eqn:Em; try (injection E as <-; auto).
  destruct c as [e|e|x|e].
  - apply quiet_start in E. split; [eapply ready_quiet; eauto|]. destruct E as (Q1 & Q2 & _). auto.
  - destruct (c0_contains (b_c0 g) e) as [[|]|]; [| |discriminate]; cbn [obind] in E; injection E as <-; unfold ready; gcbn; auto.
  - destruct (c0_neigh (b_c0 g) x); [|discriminate]. cbn [obind] in E. injection E as <-. unfold ready; gcbn; auto.
  - destruct (c0_erase (b_c0 g) e) as [[[|] c']|]; [| |discriminate]; cbn [obind fst snd] in E; injection E as <-; unfold ready; gcbn; auto.
Qed.
Lemma back_ready g g' : ready g -> back_step T K g = Ok g' -> ready g' /\ b_n g' = b_n g /\ (b_nw g = false -> b_nw g' = false).
Proof.
  intros R E. assert (Q : b_m g' = b_m g /\ b_n g' = b_n g /\ b_nt g' = b_nt g /\ b_c0 g' = b_c0 g /\ (b_nw g = false -> b_nw g' = false)).
  { unfold back_step in E. destruct (b_b g).
    - destruct (b_nw g) eqn:W; injection E as <-; gcbn; rewrite ?W; auto.
    - injection E as <-; auto.
    - injection E as <-; auto.
    - destruct (maxsz T (b_msz g) 0); [|discriminate]. cbn [obind] in E. destruct (find_level T K (b_msz g) (b_ks g) 0 a); injection E as <-; gcbn; repeat split; auto.
    - destruct (j <=? i); [|injection E as <-; auto]. destruct (nth_error (b_ks g) j) as [[t|]|]; try discriminate; injection E as <-; gcbn; repeat split; auto.
    - destruct (i <? length (b_ks g)); [|discriminate]. injection E as <-; gcbn; repeat split; auto.
    - injection E as <-. gcbn. repeat split; auto.
    - injection E as <-; auto. }
  destruct Q as (Q1 & Q2 & Q3 & Q4 & Q5). unfold ready in *. rewrite Q1, Q2, Q3, Q4. auto.
Qed.
Lemma run_ready s : forall g g', ready g -> run wt T K s g = Ok g' -> ready g' /\ b_n g' = b_n g.
Proof.
  induction s as [|a s IH]; intros g g' R E; cbn [run] in E; [injection E as <-; auto|].
  destruct (step wt T K a g) as [g1|] eqn:E1; [|discriminate]. cbn [obind] in E.
  assert (Q : ready g1 /\ b_n g1 = b_n g).
  { destruct a as [c| |]; cbn [step] in E1; [apply (call_ready g c) in E1|apply (main_ready g) in E1|apply (back_ready g) in E1]; tauto. }
  destruct Q as [Q1 Q2]. destruct (IH g1 g' Q1 E). split; [auto|congruence].
Qed.
End Begin.
(** C90, when a merge begins: a step that raises needs_work, after any calls (deletions included) and any schedule, finds at least MAXSZ(m, 0) edges in the
    buffer, m being the number of vertices, or edge_count() if that is larger. *)
Theorem C90_begins : forall wt T K n s g a g', exec wt T K n s = Ok g -> step wt T K a g = Ok g' -> b_nw g = false -> b_nw g' = true ->
  (th_max T (N.max n (bg_edges K g)) 0 <= N.of_nat (c0_size (b_c0 g)))%N.
Proof.
  intros wt T K n s g a g' E Es W W'. unfold exec in E. destruct (bg_new wt T K n) as [g0|] eqn:E0; [|discriminate]. cbn [obind] in E.
  assert (Q : ready T K g0 /\ b_n g0 = n).
  { unfold bg_new in E0. destruct (c0_new T n); [|discriminate]. cbn [obind] in E0. injection E0 as <-. split; [exact Logic.I|reflexivity]. }
  destruct Q as [R N0]. destruct (run_ready wt T K s g0 g R E) as [R1 N1]. unfold bg_edges. replace n with (b_n g) by congruence.
  destruct a as [c| |]; cbn [step] in Es.
  - apply (call_ready T K g c) in Es; [|exact R1]. destruct Es as (_ & _ & Q). congruence.
  - apply (main_ready wt T K g) in Es; [|exact R1]. destruct Es as (_ & _ & Q). auto.
  - apply (back_ready T K g) in Es; [|exact R1]. destruct Es as (_ & _ & Q). rewrite (Q W) in W'. discriminate.
Qed.
