(** * Prop_BgUB: the only undefined behaviour of the background graphs (C91; exact form of C68). *)
From Verif Require Import Base Spec Thresholds Table K2 C0 C0Proof DK DKProof Delay BgSpec BgDelSpec Bg BgProof BgDel BgDelTime Prop_Bg Prop_DK Prop_BgDel.

(** ** The specification *)
Section Spec.
Context (wt : bool) (T : thresholds) (K : k2impl).
(** the caller's thread is about to put [e] into the buffer: there is room for one more edge by the size test of add_edge (MAXSZ of
    max(vertices, edges)), or there is not, a merge is going on, and the graph is DKtree_background, which buffers all the same *)
Definition buffering (g : bg K) (e : edge) : Prop :=
  (b_m g = MIns e /\ (N.of_nat (c0_size (b_c0 g)) < th_max T (N.max (b_n g) (b_nt g)) 0)%N) \/
  (b_m g = MBusy e /\ b_nw g = true /\ wt = false).
(** ... and no slot is left: all slots have been used since the buffer was last emptied, some of them for edges deleted since, and the
    insertion would not enlarge the buffer *)
Definition worn_out (g : bg K) : Prop :=
  c_n (b_c0 g) = c_max (b_c0 g) /\ c0_size (b_c0 g) < c_n (b_c0 g) /\
  (th_max T (N.max (b_n g) (b_nt g)) 0 <= N.of_nat (c_n (b_c0 g)))%N.
(** no del_edge finds its edge in the buffer *)
Definition spares (n : N) (s : list act) : Prop :=
  forall s1 e s2 g, s = s1 ++ ACall (CDel e) :: s2 -> exec wt T K n s1 = Ok g -> b_m g = MIdle -> c0_contains (b_c0 g) e = Ok false.
End Spec.

Section UB.
Context (wt : bool) (T : thresholds) (K : k2impl) (L : k2laws K) (n : N) (Hn : (2 <= n)%N).
Local Notation ktree := (kt K).
Local Notation bg := (bg K).
Local Notation J := (J K L n).

Record A (g : bg) : Prop := {
  a_maxr : b_maxr g < RS; a_mrb : b_mrb g < RS; a_msz : b_msz g <> 1%N; a_nv : c_nv (b_c0 g) = n
}.
Definition frame (g g' : bg) : Prop :=
  b_maxr g' = b_maxr g /\ b_mrb g' = b_mrb g /\ b_msz g' = b_msz g /\ b_c0 g' = b_c0 g.
Lemma frame_A g g' : frame g g' -> A g -> A g'.
Proof. intros (E1 & E2 & E3 & E4) []. constructor; congruence. Qed.
Lemma frame_trans g g1 g2 : frame g g1 -> frame g1 g2 -> frame g g2.
Proof. unfold frame. intuition congruence. Qed.

Lemma ins_start_frame fuel : forall (g : bg) e g', ins_start K fuel g e = Ok g' -> frame g g'.
Proof.
  induction fuel as [|f IH]; intros g e g' E; cbn [ins_start] in E; (destruct (c0_contains (b_c0 g) e) as [[|]|]; [| |discriminate]); cbn [obind] in E.
  2, 4: injection E as <-; repeat split.
  - unfold ins_done in E. destruct (b_todo g) as [[d [|f1 r]]|]; [|discriminate|]; injection E as <-; repeat split.
  - unfold ins_done in E. destruct (b_todo g) as [[d [|f1 r]]|]; [injection E as <-; repeat split| |injection E as <-; repeat split].
    apply IH in E. exact E.
Qed.
Lemma ins_end_frame (g : bg) e h g' : ins_end K g e h = Ok g' -> frame g g'.
Proof.
  unfold ins_end, ins_done. destruct (b_todo g) as [[d [|f1 r]]|]; intros E; [injection E as <-; repeat split| |injection E as <-; repeat split].
  apply ins_start_frame in E. exact E.
Qed.
Lemma has_end_frame (g : bg) k e b z g' : has_end K g k e b z = Ok g' -> frame g g'.
Proof.
  unfold has_end. destruct k; [destruct b|]; intros E; [apply (ins_end_frame _ _ _ _ E)| |]; injection E as <-; repeat split.
Qed.

Lemma ins_start_ok fuel : forall (g : bg) e sl, c0_inv (b_c0 g) sl -> length (rest (b_todo g)) <= fuel -> exists g', ins_start K fuel g e = Ok g'.
Proof.
  induction fuel as [|f IH]; intros g e sl I Le; cbn [ins_start]; rewrite (inv_contains _ _ e I); cbn [obind]; destruct (emem e (live_edges sl)); [|eauto| |eauto];
  unfold ins_done; destruct (b_todo g) as [[d [|f1 r]]|] eqn:Et; cbn [rest length] in Le; eauto; [lia|].
  eapply (IH _ f1 sl); [exact I|]. cbn [b_todo set_todo rest]. lia.
Qed.
Lemma start_ok (g : bg) e sl : c0_inv (b_c0 g) sl -> exists g', start K g e = Ok g'.
Proof. intros I. unfold start. eapply ins_start_ok; [exact I|]. unfold fuel_of, rest. destruct (b_todo g) as [[? ?]|]; cbn; lia. Qed.
Lemma ins_end_ok (g : bg) e h sl : c0_inv (b_c0 g) sl -> exists g', ins_end K g e h = Ok g'.
Proof. intros I. unfold ins_end, ins_done. destruct (b_todo g) as [[d [|f1 r]]|]; eauto. eapply start_ok. exact I. Qed.
Lemma has_end_ok (g : bg) k e b z sl : c0_inv (b_c0 g) sl -> exists g', has_end K g k e b z = Ok g'.
Proof. intros I. unfold has_end. destruct k; [destruct b|]; eauto. eapply ins_end_ok, I. Qed.

Lemma insert_UB c sl e ne : c0_inv c sl -> ~ In e (live_edges sl) -> c_nv c = n ->
  (c0_insert T c e ne = UB <-> c_n c = c_max c /\ (th_max T (N.max n ne) 0 <= N.of_nat (c_n c))%N).
Proof using Hn.
  intros I N V. pose proof (iv_le _ _ I) as Le. pose proof (iv_n _ _ I) as En. split.
  - intros E. assert (R : ~ room T c ne) by (intros R; destruct (insert_ok T c sl e ne I N R) as (c' & E' & _); congruence).
    unfold room in R. rewrite V in R. assert (X : N.max n ne <> 1%N) by lia. split; [lia|].
    destruct (N.le_gt_cases (th_max T (N.max n ne) 0) (N.of_nat (c_n c))) as [|G]; [auto|]. destruct R. right. split; [auto|lia].
  - intros [E1 E2]. destruct (c0_insert T c e ne) as [c'|] eqn:E; [|auto]. apply (insert_room _ _ _ _ _ _ I N) in E. unfold room in E. rewrite V in E. lia.
Qed.
Lemma maxsz_ok m : m <> 1%N -> maxsz T m 0 = Ok (th_max T m 0).
Proof. intros H. unfold maxsz. destruct (N.eqb_spec m 1); [contradiction|reflexivity]. Qed.
Lemma size_n c sl : c0_inv c sl -> c0_size c <= c_n c.
Proof. intros I. rewrite (inv_size _ _ I), (iv_n _ _ I). pose proof (dead_live sl). lia. Qed.

Lemma call_def g B c : J g B -> exists g', call_step K c g = Ok g'.
Proof.
  intros V. destruct (co_c0 _ _ _ _ _ _ _ _ _ _ _ _ _ _ _ _ (j_core _ _ _ _ _ V)) as (sl & I & EB). unfold call_step. destruct (b_m g); eauto.
  destruct c as [e|e|x|e].
  - apply (start_ok g e sl I).
  - rewrite (inv_contains _ _ e I). cbn [obind]. destruct (emem e (live_edges sl)); eauto.
  - rewrite (inv_neigh _ _ x I). cbn [obind]. eauto.
  - destruct (erase_total _ _ e I) as (b & c' & E). rewrite E. cbn [obind fst snd]. destruct b; eauto.
Qed.
Lemma back_def g B : J g B -> A g -> exists g', back_step T K g = Ok g'.
Proof.
  intros V Ag. pose proof (co_b _ _ _ _ _ _ _ _ _ _ _ _ _ _ _ _ (j_core _ _ _ _ _ V)) as F. pose proof (co_len _ _ _ _ _ _ _ _ _ _ _ _ _ _ _ _ (j_core _ _ _ _ _ V)) as Le.
  unfold back_step, bfactd in *. destruct (b_nw g) eqn:W; [|rewrite F; eauto]. destruct (b_b g); eauto.
  - rewrite (maxsz_ok _ (a_msz _ Ag)). cbn [obind]. destruct (find_level T K (b_msz g) (b_ks g) 0 _); eauto.
  - destruct (Nat.leb_spec j i) as [Lj|Lj]; [|eauto]. destruct (nth_error (b_ks g) j) as [[s|]|] eqn:E; eauto. apply nth_error_None in E. lia.
  - destruct (Nat.ltb_spec i (length (b_ks g))) as [|G]; [eauto|]. lia.
Qed.
Lemma main_exact g B : J g B -> A g -> (main_step wt T K g = UB <-> exists e, buffering wt T K g e /\ worn_out T K g).
Proof using Hn.
  intros V Ag. pose proof (j_core _ _ _ _ _ V) as C. destruct (co_c0 _ _ _ _ _ _ _ _ _ _ _ _ _ _ _ _ C) as (sl & I & EB).
  pose proof (co_len _ _ _ _ _ _ _ _ _ _ _ _ _ _ _ _ C) as Le. pose proof (co_cplen _ _ _ _ _ _ _ _ _ _ _ _ _ _ _ _ C) as Lc.
  pose proof (a_maxr _ Ag) as Am. pose proof (a_mrb _ Ag) as Ar. pose proof (a_nv _ Ag) as Av. pose proof (j_n _ _ _ _ _ V) as En. pose proof (j_m _ _ _ _ _ V) as Fm.
  pose proof (size_n _ _ I) as Sn.
  assert (Q : (exists g', main_step wt T K g = Ok g') -> (forall e, ~ buffering wt T K g e) -> (main_step wt T K g = UB <-> exists e, buffering wt T K g e /\ worn_out T K g)).
  { intros [g' E] N. rewrite E. split; [discriminate|]. intros (e & X & _). destruct (N e X). }
  unfold main_step. destruct (b_m g) as [|k e|k e i|e|e|e|e j|e|e|x acc|x acc busy l|e|e] eqn:M; cbn [mfactd] in Fm.
  4: { (* MIns *)
    rewrite En, maxsz_ok by lia. cbn [obind]. destruct (N.ltb_spec (N.of_nat (c0_size (b_c0 g))) (th_max T (N.max n (b_nt g)) 0)) as [Lt|Ge].
    - destruct Fm as [_ Ni]. rewrite <- EB in Ni. pose proof (insert_UB _ _ e (b_nt g) I Ni Av) as X. split.
      + intros E. exists e. unfold buffering, worn_out. rewrite M, En. assert (Y : c0_insert T (b_c0 g) e (b_nt g) = UB).
        { destruct (c0_insert T (b_c0 g) e (b_nt g)) as [c'|] eqn:Ei; [|auto]. cbn [obind] in E.
          destruct (insert_inv _ _ _ _ _ _ I Ei) as (_ & _ & X'). apply emem_false in Ni. rewrite Ni in X'.
          destruct (ins_end_ok (set_store g c' (b_nt g + 1)) e Buffered _ X') as [g' E']. congruence. }
        apply X in Y. split; [left; split; auto|]. split; [apply Y|]. split; [lia|apply Y].
      + intros (e' & _ & W). unfold worn_out in W. rewrite En in W. rewrite (proj2 X) by tauto. reflexivity.
    - split; [discriminate|]. intros (e' & [[_ Bf]|[Bf _]] & _); [rewrite En in Bf; lia|rewrite M in Bf; discriminate]. }
  4: { (* MBusy *)
    destruct (b_nw g) eqn:W.
    2: { split; [discriminate|]. intros (e' & [[Bf _]|[_ [Bf _]]] & _); congruence. }
    destruct (Bool.bool_dec wt true) as [Hw|Hw].
    { rewrite Hw. split; [discriminate|]. intros (e' & [[Bf _]|[_ [_ Bf]]] & _); congruence. }
    apply Bool.not_true_is_false in Hw. rewrite Hw. destruct Fm as [_ Ni]. rewrite <- EB in Ni. pose proof Ni as Nm. apply emem_false in Nm. cbv zeta.
    destruct (Nat.eqb_spec (c0_size (b_c0 g)) (c_max (b_c0 g))) as [Es|Es].
    - destruct (inv_resize _ _ (c_max (b_c0 g) + 10) I) as (I' & E1 & E2 & E3 & E4). pose proof (iv_le _ _ I) as Lm. pose proof (iv_n _ _ I) as Lk.
      assert (R : room T (c0_resize (b_c0 g) (c_max (b_c0 g) + 10)) (b_nt g)) by (left; lia).
      destruct (insert_ok T _ _ e (b_nt g) I' Ni R) as (c' & Ei & X' & _). rewrite Ei. cbn [obind].
      destruct (ins_end_ok (set_store g c' (b_nt g + 1)) e Buffered _ X') as [g' E']. rewrite E'. split; [discriminate|].
      intros (e' & _ & Wo). unfold worn_out in Wo. lia.
    - pose proof (insert_UB _ _ e (b_nt g) I Ni Av) as X. split.
      + intros E. exists e. unfold buffering, worn_out. rewrite M, En, W. assert (Y : c0_insert T (b_c0 g) e (b_nt g) = UB).
        { destruct (c0_insert T (b_c0 g) e (b_nt g)) as [c'|] eqn:Ei; [|auto]. cbn [obind] in E.
          destruct (insert_inv _ _ _ _ _ _ I Ei) as (_ & _ & X'). rewrite Nm in X'.
          destruct (ins_end_ok (set_store g c' (b_nt g + 1)) e Buffered _ X') as [g' E']. congruence. }
        apply X in Y. split; [right; auto|]. split; [apply Y|]. split; [lia|apply Y].
      + intros (e' & _ & Wo). unfold worn_out in Wo. rewrite En in Wo. rewrite (proj2 X) by tauto. reflexivity. }
  all: unfold main_step in Q; rewrite M in Q; apply Q; [|intros e' [[X _]|[X _]]; congruence].
  - eauto.
  - destruct (b_nw g); [|eauto]. destruct (eeqb (b_tmp g) e); [apply (has_end_ok _ _ _ _ _ sl I)|].
    destruct (Nat.ltb_spec (b_mrb g) (length (b_copy g))); [apply (has_end_ok _ _ _ _ _ sl I)|lia].
  - destruct (Nat.leb_spec i (b_maxr g)); [|apply (has_end_ok _ _ _ _ _ sl I)]. destruct (nth_error (b_ks g) i) as [[t|]|] eqn:E; [|eauto|apply nth_error_None in E; lia].
    destruct (kt_adj K t (fst e) (snd e)); [apply (has_end_ok _ _ _ _ _ sl I)|eauto].
  - rewrite (inv_converted _ _ I). cbn [obind]. eauto.
  - destruct (nth_error (b_ks g) j); eauto.
  - eauto.
  - destruct (inv_clean _ _ I) as (c' & E & I' & _). rewrite E. cbn [obind]. eapply ins_end_ok. exact I'.
  - destruct (b_nw g); eauto.
  - destruct (Nat.leb_spec l (b_maxr g)); [|eauto]. destruct (nth_error (if busy then b_copy g else b_ks g) l) as [[t|]|] eqn:E; eauto.
    apply nth_error_None in E. destruct busy; lia.
  - destruct (b_nw g); eauto.
  - destruct (dl_erase K (b_ks g) (fst e) (snd e)) as [[eb marked] l]. cbv zeta. destruct (th_trig T marked _); [|eauto].
    destruct (flat_map _ _) as [|f r]; [eauto|]. eapply start_ok. exact I.
Qed.
Lemma step_exact g B a : J g B -> A g -> (step wt T K a g = UB <-> a = AMain /\ exists e, buffering wt T K g e /\ worn_out T K g).
Proof using Hn.
  intros V Ag. destruct a as [c| |]; cbn [step].
  - destruct (call_def g B c V) as [g' E]. rewrite E. split; [discriminate|]. intros [X _]. discriminate.
  - rewrite (main_exact g B V Ag). tauto.
  - destruct (back_def g B V Ag) as [g' E]. rewrite E. split; [discriminate|]. intros [X _]. discriminate.
Qed.

(** ** [A] is an invariant *)
Lemma A_store g c nt : A g -> c_nv c = n -> A (set_store g c nt).
Proof. intros [] E. constructor; auto. Qed.
Lemma step_A g B a g' : J g B -> A g -> step wt T K a g = Ok g' -> A g'.
Proof using Hn.
  intros V Ag E. pose proof (j_core _ _ _ _ _ V) as C. destruct (co_c0 _ _ _ _ _ _ _ _ _ _ _ _ _ _ _ _ C) as (sl & I & EB).
  pose proof (co_len _ _ _ _ _ _ _ _ _ _ _ _ _ _ _ _ C) as Le. pose proof (a_nv _ Ag) as Av. pose proof (j_n _ _ _ _ _ V) as En.
  assert (Z : forall h, frame g h -> A h) by (intros h X; apply (frame_A g h X Ag)).
  destruct a as [c| |]; cbn [step] in E.
  - unfold call_step in E. destruct (b_m g); try (injection E as <-; exact Ag). destruct c as [e|e|x|e].
    + apply Z, (ins_start_frame _ _ _ _ E).
    + rewrite (inv_contains _ _ e I) in E. cbn [obind] in E. destruct (emem e (live_edges sl)); injection E as <-; apply Z; repeat split.
    + rewrite (inv_neigh _ _ x I) in E. cbn [obind] in E. injection E as <-. apply Z. repeat split.
    + destruct (c0_erase (b_c0 g) e) as [[b c']|] eqn:Ee; [|discriminate]. cbn [obind fst snd] in E.
      destruct (erase_inv _ _ _ _ _ I Ee) as (_ & _ & Ev & _).
      destruct b; injection E as <-; (eapply frame_A; [|apply (A_store g c' 0%N); [exact Ag|congruence]]); repeat split.
  - unfold main_step in E. destruct (b_m g) as [|k e|k e i|e|e|e|e j|e|e|x acc|x acc busy l|e|e] eqn:M.
    + injection E as <-. exact Ag.
    + destruct (b_nw g); [|injection E as <-; apply Z; repeat split]. destruct (eeqb (b_tmp g) e); [apply Z, (has_end_frame _ _ _ _ _ _ E)|].
      destruct (b_mrb g <? length (b_copy g)); [apply Z, (has_end_frame _ _ _ _ _ _ E)|discriminate].
    + destruct (i <=? b_maxr g); [|apply Z, (has_end_frame _ _ _ _ _ _ E)]. destruct (nth_error (b_ks g) i) as [[t|]|]; [|injection E as <-; apply Z; repeat split|discriminate].
      destruct (kt_adj K t (fst e) (snd e)); [apply Z, (has_end_frame _ _ _ _ _ _ E)|injection E as <-; apply Z; repeat split].
    + destruct (maxsz T (N.max (b_n g) (b_nt g)) 0) as [m|]; [|discriminate]. cbn [obind] in E. destruct (_ <? m)%N; [|injection E as <-; apply Z; repeat split].
      destruct (c0_insert T (b_c0 g) e (b_nt g)) as [c'|] eqn:Ei; [|discriminate]. cbn [obind] in E. destruct (insert_inv _ _ _ _ _ _ I Ei) as (Ev & _).
      eapply frame_A; [apply (ins_end_frame _ _ _ _ E)|]. apply A_store; [exact Ag|congruence].
    + destruct (b_nw g); [|injection E as <-; apply Z; repeat split]. destruct (Bool.bool_dec wt true) as [Hw|Hw].
      { rewrite Hw in E. injection E as <-. exact Ag. }
      apply Bool.not_true_is_false in Hw. rewrite Hw in E. cbv zeta in E.
      destruct (inv_resize _ _ (c_max (b_c0 g) + 10) I) as (I' & _ & E2 & _).
      destruct (c0_insert T _ e (b_nt g)) as [c'|] eqn:Ei; [|discriminate]. cbn [obind] in E. eapply frame_A; [apply (ins_end_frame _ _ _ _ E)|]. apply A_store; [exact Ag|].
      destruct (c0_size (b_c0 g) =? c_max (b_c0 g)); [destruct (insert_inv _ _ _ _ _ _ I' Ei) as (Ev & _)|destruct (insert_inv _ _ _ _ _ _ I Ei) as (Ev & _)]; congruence.
    + rewrite (inv_converted _ _ I) in E. cbn [obind] in E. injection E as <-. destruct Ag. constructor; gcbn; auto. rewrite En. lia.
    + destruct (nth_error (b_ks g) j); injection E as <-; apply Z; repeat split.
    + injection E as <-; apply Z; repeat split.
    + destruct (inv_clean _ _ I) as (c' & Ec & _ & _ & Ev). rewrite Ec in E. cbn [obind] in E.
      eapply frame_A; [apply (ins_end_frame _ _ _ _ E)|]. apply A_store; [exact Ag|congruence].
    + destruct (b_nw g); injection E as <-; apply Z; repeat split.
    + destruct (l <=? b_maxr g); [|injection E as <-; apply Z; repeat split]. destruct (nth_error _ l) as [[t|]|]; [| |discriminate]; injection E as <-; apply Z; repeat split.
    + destruct (b_nw g); injection E as <-; apply Z; repeat split.
    + destruct (dl_erase K (b_ks g) (fst e) (snd e)) as [[eb marked] l] eqn:Ed. cbv zeta in E. destruct (th_trig T marked _).
      * match type of E with match ?x with _ => _ end = _ => destruct x as [|f r] end.
        -- injection E as <-. destruct Ag. constructor; gcbn; auto. unfold RS. lia.
        -- eapply frame_A; [apply (ins_start_frame _ _ _ _ E)|]. destruct Ag. constructor; gcbn; auto. unfold RS. lia.
      * injection E as <-. apply Z. repeat split.
  - unfold back_step in E. destruct (b_b g).
    + destruct (b_nw g); injection E as <-; [apply Z; repeat split|exact Ag].
    + injection E as <-; apply Z; repeat split.
    + injection E as <-; apply Z; repeat split.
    + destruct (maxsz T (b_msz g) 0) as [m|]; [|discriminate]. cbn [obind] in E. destruct (find_level T K (b_msz g) (b_ks g) 0 m) as [i|] eqn:Ei; injection E as <-; [|apply Z; repeat split].
      pose proof (find_level_range T K n Hn _ _ _ _ _ Ei) as Ri. destruct Ag. constructor; gcbn; auto. lia.
    + destruct (j <=? i); [|injection E as <-; apply Z; repeat split]. destruct (nth_error (b_ks g) j) as [[s|]|]; [| |discriminate]; injection E as <-; apply Z; repeat split.
    + destruct (i <? length (b_ks g)); [|discriminate]. injection E as <-; apply Z; repeat split.
    + injection E as <-; apply Z; repeat split.
    + injection E as <-. exact Ag.
Qed.
Definition Ainv (g : bg) : Prop := b_b g <> BDead -> A g.
Lemma alive_step a (g g' : bg) : step wt T K a g = Ok g' -> b_b g' <> BDead -> b_b g <> BDead.
Proof.
  intros E ND. destruct a as [c| |].
  - destruct (grows_step wt T K (ACall c) g g') as [X _]; [discriminate|auto|]. congruence.
  - destruct (grows_step wt T K AMain g g') as [X _]; [discriminate|auto|]. congruence.
  - intros X. cbn [step] in E. unfold back_step in E. rewrite X in E. injection E as <-. auto.
Qed.
Lemma new_A g : bg_new wt T K n = Ok g -> A g.
Proof using Hn.
  intros E. unfold bg_new in E. destruct (c0_new T n) as [c|] eqn:Ec; [|discriminate]. cbn [obind] in E. injection E as <-.
  unfold c0_new in Ec. rewrite maxsz_ok in Ec by lia. cbn [obind] in Ec.
  constructor; gcbn; try (unfold RS; lia). destruct wt; injection Ec as <-; [reflexivity|]. unfold c0_resize. destruct (_ <? _); reflexivity.
Qed.
Lemma run_A s : forall g g', Jinv K L n g -> Ainv g -> Forall (act_rng n) s -> run wt T K s g = Ok g' -> Ainv g'.
Proof using Hn.
  induction s as [|a s IH]; intros g g' V Ag F E; cbn [run] in E; [injection E as <-; auto|]. inversion F; subst.
  destruct (step wt T K a g) as [g1|] eqn:E1; [|discriminate]. cbn [obind] in E. eapply IH; [|  |eauto|eauto].
  - eapply step_J; eauto.
  - intros ND. pose proof (alive_step _ _ _ E1 ND) as ND0. destruct (V ND0) as [_ [B JB]]. eapply step_A; eauto.
Qed.
Lemma exec_A s g : Forall (act_rng n) s -> exec wt T K n s = Ok g -> Ainv g.
Proof using Hn L.
  intros F E. unfold exec in E. destruct (bg_new wt T K n) as [g0|] eqn:E0; [|discriminate]. cbn [obind] in E.
  eapply run_A; eauto; [apply (new_J wt T K L n Hn), E0|]. intros _. apply new_A, E0.
Qed.

(** ** What a step does to the buffer *)
Inductive c0_step (g : bg) (a : act) (c : c0) : Prop :=
| CSame : c = b_c0 g -> c0_step g a c
| CErase e b : a = ACall (CDel e) -> b_m g = MIdle -> c0_erase (b_c0 g) e = Ok (b, c) -> c0_step g a c
| CInsert e r ne : c0_insert T (c0_resize (b_c0 g) r) e ne = Ok c -> c0_step g a c
| CClean : c0_clean (b_c0 g) = Ok c -> c0_step g a c.
Lemma step_c0 g a g' : step wt T K a g = Ok g' -> c0_step g a (b_c0 g').
Proof.
  intros E. assert (Z : forall h, frame g h -> c0_step g a (b_c0 h)) by (intros h X; apply CSame, X).
  destruct a as [c| |]; cbn [step] in E.
  - unfold call_step in E. destruct (b_m g) eqn:M; try (injection E as <-; apply Z; repeat split). destruct c as [e|e|x|e].
    + apply Z, (ins_start_frame _ _ _ _ E).
    + destruct (c0_contains (b_c0 g) e) as [[|]|]; [| |discriminate]; injection E as <-; apply Z; repeat split.
    + destruct (c0_neigh (b_c0 g) x); [|discriminate]. injection E as <-. apply Z. repeat split.
    + destruct (c0_erase (b_c0 g) e) as [[b c']|] eqn:Ee; [|discriminate]. cbn [obind fst snd] in E.
      destruct b; injection E as <-; eapply (CErase _ _ _ e _ eq_refl M); exact Ee.
  - unfold main_step in E. destruct (b_m g) as [|k e|k e i|e|e|e|e j|e|e|x acc|x acc busy l|e|e] eqn:M.
    + injection E as <-. apply Z. repeat split.
    + destruct (b_nw g); [|injection E as <-; apply Z; repeat split]. destruct (eeqb (b_tmp g) e); [apply Z, (has_end_frame _ _ _ _ _ _ E)|].
      destruct (b_mrb g <? length (b_copy g)); [apply Z, (has_end_frame _ _ _ _ _ _ E)|discriminate].
    + destruct (i <=? b_maxr g); [|apply Z, (has_end_frame _ _ _ _ _ _ E)]. destruct (nth_error (b_ks g) i) as [[t|]|]; [|injection E as <-; apply Z; repeat split|discriminate].
      destruct (kt_adj K t (fst e) (snd e)); [apply Z, (has_end_frame _ _ _ _ _ _ E)|injection E as <-; apply Z; repeat split].
    + destruct (maxsz T (N.max (b_n g) (b_nt g)) 0) as [m|]; [|discriminate]. cbn [obind] in E. destruct (_ <? m)%N; [|injection E as <-; apply Z; repeat split].
      destruct (c0_insert T (b_c0 g) e (b_nt g)) as [c'|] eqn:Ei; [|discriminate]. cbn [obind] in E. apply ins_end_frame in E. destruct E as (_ & _ & _ & ->).
      apply (CInsert _ _ _ e 0 (b_nt g)). exact Ei.
    + destruct (b_nw g); [|injection E as <-; apply Z; repeat split]. destruct (Bool.bool_dec wt true) as [Hw|Hw].
      { rewrite Hw in E. injection E as <-. apply Z. repeat split. }
      apply Bool.not_true_is_false in Hw. rewrite Hw in E. cbv zeta in E.
      destruct (c0_insert T _ e (b_nt g)) as [c'|] eqn:Ei; [|discriminate]. cbn [obind] in E. apply ins_end_frame in E. destruct E as (_ & _ & _ & ->).
      destruct (c0_size (b_c0 g) =? c_max (b_c0 g)); [apply (CInsert _ _ _ e (c_max (b_c0 g) + 10) (b_nt g)), Ei|apply (CInsert _ _ _ e 0 (b_nt g)), Ei].
    + destruct (c0_converted (b_c0 g)); [|discriminate]. injection E as <-. apply CSame. reflexivity.
    + destruct (nth_error (b_ks g) j); injection E as <-; apply Z; repeat split.
    + injection E as <-; apply Z; repeat split.
    + destruct (c0_clean (b_c0 g)) as [c'|] eqn:Ec; [|discriminate]. cbn [obind] in E. apply ins_end_frame in E. destruct E as (_ & _ & _ & ->). apply CClean, Ec.
    + destruct (b_nw g); injection E as <-; apply Z; repeat split.
    + destruct (l <=? b_maxr g); [|injection E as <-; apply Z; repeat split]. destruct (nth_error _ l) as [[t|]|]; [| |discriminate]; injection E as <-; apply Z; repeat split.
    + destruct (b_nw g); injection E as <-; apply Z; repeat split.
    + destruct (dl_erase K (b_ks g) (fst e) (snd e)) as [[eb marked] l] eqn:Ed. cbv zeta in E. destruct (th_trig T marked _).
      * match type of E with match ?x with _ => _ end = _ => destruct x as [|f r] end.
        -- injection E as <-. apply CSame. reflexivity.
        -- apply ins_start_frame in E. apply CSame, E.
      * injection E as <-. apply Z. repeat split.
  - unfold back_step in E. destruct (b_b g).
    + destruct (b_nw g); injection E as <-; apply Z; repeat split.
    + injection E as <-; apply Z; repeat split.
    + injection E as <-; apply Z; repeat split.
    + destruct (maxsz T (b_msz g) 0) as [m|]; [|discriminate]. cbn [obind] in E. destruct (find_level T K (b_msz g) (b_ks g) 0 m) as [i|] eqn:Ei; injection E as <-; apply CSame; reflexivity.
    + destruct (j <=? i); [|injection E as <-; apply Z; repeat split]. destruct (nth_error (b_ks g) j) as [[s|]|]; [| |discriminate]; injection E as <-; apply Z; repeat split.
    + destruct (i <? length (b_ks g)); [|discriminate]. injection E as <-; apply Z; repeat split.
    + injection E as <-; apply Z; repeat split.
    + injection E as <-. apply Z; repeat split.
Qed.
(** no slot is wasted *)
Definition thrifty (g : bg) : Prop := c_n (b_c0 g) = c0_size (b_c0 g).
Lemma step_thrifty g B a g' : J g B -> thrifty g -> step wt T K a g = Ok g' ->
  (forall e, a = ACall (CDel e) -> b_m g = MIdle -> c0_contains (b_c0 g) e = Ok false) -> thrifty g'.
Proof.
  intros V D E N. destruct (co_c0 _ _ _ _ _ _ _ _ _ _ _ _ _ _ _ _ (j_core _ _ _ _ _ V)) as (sl & I & EB). unfold thrifty in *.
  destruct (step_c0 _ _ _ E) as [E1|e b E1 E2 E3|e r ne E1|E1].
  - congruence.
  - specialize (N e E1 E2). rewrite (inv_contains _ _ e I) in N. injection N as N. apply emem_false in N. rewrite (erase_absent _ _ e I N) in E3. injection E3 as _ <-. exact D.
  - destruct (inv_resize _ _ r I) as (I' & _ & _ & E3 & E4). destruct (insert_inv _ _ _ _ _ _ I' E1) as (_ & _ & X).
    assert (Y : c0_size (c0_resize (b_c0 g) r) = c0_size (b_c0 g)) by (rewrite (inv_size _ _ I), (inv_size _ _ I'); reflexivity).
    destruct (emem e (live_edges sl)); [rewrite X; congruence|]. rewrite (inv_size _ _ X), (iv_n _ _ X). rewrite live_edges_app, !app_length.
    rewrite (inv_size _ _ I), (iv_n _ _ I) in D. cbn. lia.
  - destruct (inv_clean _ _ I) as (c' & E2 & X & _). rewrite E1 in E2. injection E2 as <-. rewrite (inv_size _ _ X), (iv_n _ _ X). reflexivity.
Qed.
Lemma new_thrifty g : bg_new wt T K n = Ok g -> thrifty g.
Proof.
  intros E. unfold bg_new in E. destruct (c0_new T n) as [c|] eqn:Ec; [|discriminate]. cbn [obind] in E. injection E as <-.
  unfold c0_new in Ec. destruct (maxsz T n 0); [|discriminate]. cbn [obind] in Ec. injection Ec as <-. unfold thrifty. gcbn.
  destruct wt; [reflexivity|]. unfold c0_resize. destruct (_ <? _); reflexivity.
Qed.
End UB.

Section Main.
Context (wt : bool) (T : thresholds) (K : k2impl) (L : k2laws K).

(** ** C91: exactly when a step is undefined.  [g]: any state any calls and any schedule lead to, while the merging thread lives; [a]: any
    step.  The only undefined step is an insertion into the buffer when its slots are worn out by deletions. *)
Theorem C91_only_way : forall n s g a, (2 <= n)%N -> Forall (act_rng n) s -> exec wt T K n s = Ok g -> b_b g <> BDead ->
  (step wt T K a g = UB <-> a = AMain /\ exists e, buffering wt T K g e /\ worn_out T K g).
Proof using L.
  intros n s g a Hn F E D. destruct (exec_J wt T K L n Hn s g F E D) as [_ [B V]]. apply (step_exact wt T K L n Hn g B); [exact V|].
  apply (exec_A wt T K L n Hn s g F E D).
Qed.
Lemma exec_snoc n s a : exec wt T K n (s ++ [a]) = let* g := exec wt T K n s in step wt T K a g.
Proof.
  unfold exec. destruct (bg_new wt T K n) as [g|]; [|reflexivity]. cbn [obind]. rewrite run_app. destruct (run wt T K s g) as [g1|]; [|reflexivity]. cbn [obind run].
  destruct (step wt T K a g1); reflexivity.
Qed.
(** ... so a program that never deletes an edge while it is in the buffer is defined, whatever the schedule, unless the merging thread
    throws (C69). *)
Theorem C91_spared : forall n s, (2 <= n)%N -> Forall (act_rng n) s -> spares wt T K n s ->
  (exists g, exec wt T K n s = Ok g) \/ (exists p q g, s = p ++ q /\ exec wt T K n p = Ok g /\ b_b g = BDead).
Proof using L.
  intros n s Hn F Sp. enough (X : (exists g, exec wt T K n s = Ok g /\ thrifty K g) \/ (exists p q g, s = p ++ q /\ exec wt T K n p = Ok g /\ b_b g = BDead))
    by (destruct X as [(g & E & _)|X]; eauto).
  induction s as [|a s IH] using rev_ind.
  - left. destruct (bg_new_ok wt T K L n Hn) as (g & E & _). exists g. unfold exec. rewrite E. split; [reflexivity|]. apply (new_thrifty wt T K n g E).
  - apply Forall_app in F. destruct F as [F Fa]. inversion Fa as [|? ? Ra _]; subst.
    assert (Sp' : spares wt T K n s). { intros s1 e s2 g E. apply (Sp s1 e (s2 ++ [a]) g). rewrite E, <- app_assoc. reflexivity. }
    destruct (IH F Sp') as [(g & E & Th)|(p & q & g & E1 & E2 & E3)].
    2: { right. exists p, (q ++ [a]), g. split; [rewrite E1, app_assoc; reflexivity|auto]. }
    destruct (b_b g) eqn:EB.
    8: { right. exists s, [a], g. auto. }
    all: left; assert (D : b_b g <> BDead) by congruence; destruct (exec_J wt T K L n Hn s g F E D) as [_ [B V]];
      destruct (step wt T K a g) as [g'|] eqn:Es;
      [exists g'; split; [rewrite exec_snoc, E; exact Es|eapply (step_thrifty wt T K L n Hn g B a g' V Th Es); intros e -> M; apply (Sp s e [] g); auto]
      |apply (C91_only_way n s g a Hn F E D) in Es; destruct Es as (_ & e & _ & W); unfold worn_out, thrifty in *; lia].
Qed.
End Main.

(** ** A single deletion is enough: 8 vertices, 16 edges merged into the trees, then add_edge, del_edge of the same edge, add_edge,
    add_edge *)
Definition many : list edge := flat_map (fun x => [(x, 0); (x, 1)]%N) [0; 1; 2; 3; 4; 5; 6; 7]%N.
Definition w91 : list act := flat_map (fun e => ins e ++ repeat ABack 16) many ++ ins (0, 2)%N ++ del (0, 2)%N ++ ins (0, 3)%N ++ ins (0, 4)%N.
Example C91_one_deletion : forall T, th_real T -> Forall (act_rng 8) w91 /\
  filter (fun a => match a with ACall (CDel _) => true | _ => false end) w91 = [ACall (CDel (0, 2)%N)] /\ exec false T K2Ref 8 w91 = UB.
Proof.
  intros T HT. split; [|split; [vm_compute; reflexivity|rewrite <- (tabled_eq T HT); vm_compute; reflexivity]].
  apply Forall_forall. intros a I. assert (X : forallb (fun a => match a with ACall (CIns e) | ACall (CHas e) | ACall (CDel e) => ((fst e <? 8) && (snd e <? 8))%N | ACall (CNbr x) => (x <? 8)%N | _ => true end) w91 = true) by (vm_compute; reflexivity).
  rewrite forallb_forall in X. specialize (X a I). destruct a as [[e|e|x|e]| |]; cbn [act_rng]; auto; unfold in_range; rewrite ?andb_true_iff, ?N.ltb_lt in X; exact X.
Qed.

(** ** The hypotheses are met *)
(** a reachable state in which the next step is undefined *)
Definition w91u : list act := ins (0, 1)%N ++ del (0, 1)%N ++ ins (0, 2)%N ++ del (0, 2)%N ++ [ACall (CIns (0, 3)%N); AMain; AMain; AMain].
Example C91_example : Forall (act_rng 8) w91u /\ exists g, exec false th_exact K2Ref 8 w91u = Ok g /\ b_b g <> BDead /\
  buffering false th_exact K2Ref g (0, 3)%N /\ worn_out th_exact K2Ref g.
Proof.
  split; [repeat constructor|]. rewrite <- (tabled_eq th_exact th_real_inhabited). eexists. split; [vm_compute; reflexivity|].
  split; [discriminate|]. split; [left; split; [reflexivity|vm_compute; reflexivity]|]. unfold worn_out. split; [vm_compute; reflexivity|]. split; [vm_compute; lia|].
  vm_compute. discriminate.
Qed.
(** a run that deletes an edge of a tree, and spares the buffer *)
Fixpoint sparing (wt : bool) (T : thresholds) (K : k2impl) (s : list act) (g : bg K) : bool :=
  match s with
  | [] => true
  | a :: s =>
    match a, b_m g with
    | ACall (CDel e), MIdle => match c0_contains (b_c0 g) e with Ok false => true | _ => false end
    | _, _ => true
    end && match step wt T K a g with Ok g' => sparing wt T K s g' | UB => true end
  end.
Lemma sparing_run wt T K s : forall g s1 e s2 g', sparing wt T K s g = true -> s = s1 ++ ACall (CDel e) :: s2 -> run wt T K s1 g = Ok g' -> b_m g' = MIdle ->
  c0_contains (b_c0 g') e = Ok false.
Proof.
  induction s as [|a s IH]; intros g s1 e s2 g' H E R M; [destruct s1; discriminate|]. cbn [sparing] in H. apply andb_true_iff in H. destruct H as [H1 H2].
  destruct s1 as [|a1 s1]; cbn [app] in E; injection E as -> E; cbn [run] in R.
  - injection R as <-. rewrite M in H1. destruct (c0_contains (b_c0 g) e) as [[|]|]; try discriminate. reflexivity.
  - destruct (step wt T K a1 g) as [g1|]; [|discriminate]. apply (IH g1 s1 e s2 g'); auto.
Qed.
Example C91_spared_example : Forall (act_rng 8) w62p /\ spares false th_exact K2Ref 8 w62p /\ In (ACall (CDel (0, 2)%N)) w62p /\
  exists g, exec false th_exact K2Ref 8 w62p = Ok g.
Proof.
  split; [repeat constructor|]. assert (E : exists g0, bg_new false th_exact K2Ref 8 = Ok g0 /\ sparing false th_exact K2Ref w62p g0 = true /\ exists g, exec false th_exact K2Ref 8 w62p = Ok g).
  { rewrite <- (tabled_eq th_exact th_real_inhabited). eexists. split; [vm_compute; reflexivity|]. split; [vm_compute; reflexivity|]. eexists. vm_compute. reflexivity. }
  destruct E as (g0 & E1 & E2 & E3). split; [|split; [vm_compute; tauto|exact E3]].
  intros s1 e s2 g E R M. unfold exec in R. rewrite E1 in R. cbn [obind] in R. apply (sparing_run _ _ _ _ _ _ _ _ _ E2 E R M).
Qed.
