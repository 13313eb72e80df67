(** * UnionProof: the incremental union computes the union. *)
From Verif Require Import Base Bits Union.

Section UnionProof.
Variable kk : nat.
Variable hgt : N -> nat.
Notation twf := (twf kk). Notation fwf := (fwf kk).

(** ** Pairs of nodes *)
Notation pr := (option trie * option trie)%type.
Definition live (p : pr) : bool := is_some (fst p) || is_some (snd p).
Definition fl (l : nat) (p : pr) : nat * bool * bool := (l, is_some (fst p), is_some (snd p)).
Definition As (ps : list pr) : list trie := somes (map fst ps).
Definition Bs (ps : list pr) : list trie := somes (map snd ps).
Definition ocs (o : option trie) : list (option trie) := match o with Some t => cs t | None => repeat None kk end.
Definition cells (p : pr) : list pr := combine (ocs (fst p)) (ocs (snd p)).
Definition kp (p : pr) : list pr := filter live (cells p).
Definition up (h : nat) (p : pr) : trie :=
  match p with (Some a, Some b) => tun h a b | (Some a, None) => a | (None, Some b) => b | (None, None) => Nd [] end.
Definition pwf (h : nat) (p : pr) : Prop :=
  live p = true /\ (forall a, fst p = Some a -> twf h a) /\ (forall b, snd p = Some b -> twf h b).
Definition ups h := map (up h).
Lemma ups_app h a b : ups h (a ++ b) = ups h a ++ ups h b.
Proof. apply map_app. Qed.

Lemma As_app a b : As (a ++ b) = As a ++ As b.
Proof. unfold As. rewrite map_app. apply somes_app. Qed.
Lemma Bs_app a b : Bs (a ++ b) = Bs a ++ Bs b.
Proof. unfold Bs. rewrite map_app. apply somes_app. Qed.

Lemma ocs_length h o : (forall a, o = Some a -> twf (S h) a) -> length (ocs o) = kk.
Proof. destruct o as [a|]; cbn; intros H; [apply (H a eq_refl)|apply repeat_length]. Qed.
Lemma cells_length h p : pwf (S h) p -> length (cells p) = kk.
Proof. intros [_ [H1 H2]]. unfold cells. rewrite combine_length, (ocs_length h), (ocs_length h) by auto. lia. Qed.
Lemma map_fst_combine {A B} (a : list A) : forall (b : list B), length a = length b -> map fst (combine a b) = a.
Proof. induction a as [|x a IH]; intros [|y b] H; cbn in *; try lia; auto. f_equal. apply IH. lia. Qed.
Lemma map_snd_combine {A B} (a : list A) : forall (b : list B), length a = length b -> map snd (combine a b) = b.
Proof. induction a as [|x a IH]; intros [|y b] H; cbn in *; try lia; auto. f_equal. apply IH. lia. Qed.
Lemma cells_fst h p : pwf (S h) p -> map fst (cells p) = ocs (fst p).
Proof. intros [_ [H1 H2]]. apply map_fst_combine. rewrite (ocs_length h), (ocs_length h) by auto. reflexivity. Qed.
Lemma cells_snd h p : pwf (S h) p -> map snd (cells p) = ocs (snd p).
Proof. intros [_ [H1 H2]]. apply map_snd_combine. rewrite (ocs_length h), (ocs_length h) by auto. reflexivity. Qed.

Lemma somes_repeat {A} n : somes (repeat (@None A) n) = [].
Proof. induction n; cbn; auto. Qed.
Lemma As_filter l : As (filter live l) = As l.
Proof.
  induction l as [|[a b] l IH]; [reflexivity|]. unfold As in *. cbn [filter]. unfold live at 1. cbn [fst snd].
  destruct a as [a|], b as [b|]; cbn [is_some orb map fst somes]; rewrite ?IH; reflexivity.
Qed.
Lemma Bs_filter l : Bs (filter live l) = Bs l.
Proof.
  induction l as [|[a b] l IH]; [reflexivity|]. unfold Bs in *. cbn [filter]. unfold live at 1. cbn [fst snd].
  destruct a as [a|], b as [b|]; cbn [is_some orb map snd somes]; rewrite ?IH; reflexivity.
Qed.
Lemma As_kp h p : pwf (S h) p -> As (kp p) = kids (As [p]).
Proof.
  intros H. unfold kp. rewrite As_filter. unfold As at 1. rewrite (cells_fst h) by auto. unfold As.
  destruct p as [[a|] b]; cbn [fst map somes ocs kids flat_map]; rewrite ?app_nil_r; auto. apply somes_repeat.
Qed.
Lemma Bs_kp h p : pwf (S h) p -> Bs (kp p) = kids (Bs [p]).
Proof.
  intros H. unfold kp. rewrite Bs_filter. unfold Bs at 1. rewrite (cells_snd h) by auto. unfold Bs.
  destruct p as [a [b|]]; cbn [snd map somes ocs kids flat_map]; rewrite ?app_nil_r; auto. apply somes_repeat.
Qed.

Definition ou h (c : pr) : option trie := if live c then Some (up h c) else None.
Lemma cs_up h p : pwf (S h) p -> cs (up (S h) p) = map (ou h) (cells p).
Proof.
  intros [H0 [H1 H2]]. unfold cells. destruct p as [[a|] [b|]]; cbn [fst snd ocs up] in *; try discriminate.
  - cbn [tun cs]. destruct (H1 a eq_refl) as [La _], (H2 b eq_refl) as [Lb _].
    assert (E : length (cs a) = length (cs b)) by congruence. clear - E. revert E. generalize (cs b) as lb. generalize (cs a) as la.
    induction la as [|x la IH]; intros [|y lb] E; cbn in *; try lia; auto. f_equal; [destruct x, y; reflexivity|apply IH; lia].
  - destruct (H1 a eq_refl) as [La _]. rewrite <- La. clear. induction (cs a) as [|x l IH]; cbn; auto. f_equal; [destruct x; reflexivity|exact IH].
  - destruct (H2 b eq_refl) as [Lb _]. rewrite <- Lb. clear. induction (cs b) as [|x l IH]; cbn; auto. f_equal; [destruct x; reflexivity|exact IH].
Qed.
Lemma rows_up h p : pwf (S h) p -> rows [up (S h) p] = map live (cells p).
Proof.
  intros H. cbn [rows flat_map]. rewrite app_nil_r, (cs_up h) by auto. rewrite map_map. apply map_ext. intros c. unfold ou. destruct (live c); reflexivity.
Qed.
Lemma kids_up h p : pwf (S h) p -> kids [up (S h) p] = ups h (kp p).
Proof.
  intros H. cbn [kids flat_map]. rewrite app_nil_r, (cs_up h) by auto. unfold kp, ups. induction (cells p) as [|c l IH]; [reflexivity|].
  cbn [map somes filter]. unfold ou at 1. destruct (live c); cbn [somes map]; rewrite IH; reflexivity.
Qed.
Lemma kp_wf h p : pwf (S h) p -> Forall (pwf h) (kp p).
Proof.
  intros H. apply Forall_forall. intros c Hc. unfold kp in Hc. apply filter_In in Hc. destruct Hc as [Hc Hl].
  split; auto. pose proof (cells_fst h p H) as E1. pose proof (cells_snd h p H) as E2. destruct H as [_ [H1 H2]].
  split; intros t Ht.
  - assert (G : In (Some t) (ocs (fst p))) by (rewrite <- E1, <- Ht; apply in_map; auto).
    destruct (fst p) as [a|]; cbn in G; [|apply repeat_spec in G; discriminate]. apply (H1 a eq_refl). exact G.
  - assert (G : In (Some t) (ocs (snd p))) by (rewrite <- E2, <- Ht; apply in_map; auto).
    destruct (snd p) as [b|]; cbn in G; [|apply repeat_spec in G; discriminate]. apply (H2 b eq_refl). exact G.
Qed.
Lemma up_wf h p : pwf h p -> twf h (up h p).
Proof.
  intros [H0 [H1 H2]]. destruct p as [[a|] [b|]]; cbn in *; auto; [apply tun_wf; auto|discriminate].
Qed.
Lemma ups_wf h ps : Forall (pwf h) ps -> fwf h (ups h ps).
Proof.
  intros H t Ht. apply in_map_iff in Ht. destruct Ht as [p [<- Hp]]. apply up_wf. rewrite Forall_forall in H. auto.
Qed.
Lemma As_wf h ps : Forall (pwf h) ps -> fwf h (As ps).
Proof.
  intros H t Ht. apply In_somes, in_map_iff in Ht. destruct Ht as [p [E Hp]]. rewrite Forall_forall in H. destruct (H p Hp) as [_ [G1 G2]]. auto.
Qed.
Lemma Bs_wf h ps : Forall (pwf h) ps -> fwf h (Bs ps).
Proof.
  intros H t Ht. apply In_somes, in_map_iff in Ht. destruct Ht as [p [E Hp]]. rewrite Forall_forall in H. destruct (H p Hp) as [_ [G1 G2]]. auto.
Qed.

Definition kps (ps : list pr) := flat_map kp ps.
Lemma As_kps h ps : Forall (pwf (S h)) ps -> As (kps ps) = kids (As ps).
Proof.
  induction 1 as [|p ps H F IH]; [reflexivity|]. cbn [kps flat_map]. rewrite As_app, (As_kp h) by auto.
  change (p :: ps) with ([p] ++ ps). rewrite (As_app [p]), kids_app. f_equal. exact IH.
Qed.
Lemma Bs_kps h ps : Forall (pwf (S h)) ps -> Bs (kps ps) = kids (Bs ps).
Proof.
  induction 1 as [|p ps H F IH]; [reflexivity|]. cbn [kps flat_map]. rewrite Bs_app, (Bs_kp h) by auto.
  change (p :: ps) with ([p] ++ ps). rewrite (Bs_app [p]), kids_app. f_equal. exact IH.
Qed.
Lemma ups_kps h ps : Forall (pwf (S h)) ps -> kids (ups (S h) ps) = ups h (kps ps).
Proof.
  induction 1 as [|p ps H F IH]; [reflexivity|]. change (kps (p :: ps)) with (kp p ++ kps ps). unfold ups in *. rewrite map_app, <- IH. cbn [map].
  change (up (S h) p :: map (up (S h)) ps) with ([up (S h) p] ++ map (up (S h)) ps). rewrite kids_app. f_equal. apply kids_up. auto.
Qed.
Lemma kps_wf h ps : Forall (pwf (S h)) ps -> Forall (pwf h) (kps ps).
Proof. induction 1 as [|p ps H F IH]; cbn; [constructor|]. apply Forall_app. split; auto. apply kp_wf. auto. Qed.
Lemma pairs_count h ps : Forall (pwf h) ps -> length ps <= length (As ps) + length (Bs ps).
Proof.
  induction 1 as [|[a b] ps H F IH]; [cbn; lia|]. unfold As, Bs in *. cbn [map fst snd length].
  destruct H as [H _]. destruct a as [a|], b as [b|]; cbn [somes length] in *; try lia. discriminate.
Qed.

(** ** Sizes *)
Lemma tbits_sub h : forall ps, Forall (pwf h) ps ->
  length (tbits h (ups h ps)) <= length (tbits h (As ps)) + length (tbits h (Bs ps)).
Proof.
  induction h as [|h IH]; intros ps H; [cbn; lia|]. cbn [tbits]. destruct h as [|h]; [cbn; lia|].
  rewrite !app_length, !(length_rows kk (S h)) by (auto using ups_wf, As_wf, Bs_wf).
  rewrite ups_kps, <- (As_kps (S h)), <- (Bs_kps (S h)) by auto. specialize (IH (kps ps) (kps_wf _ _ H)).
  unfold ups at 1. rewrite map_length. pose proof (pairs_count _ _ H). nia.
Qed.
Lemma lbits_sub h : forall ps, Forall (pwf h) ps ->
  length (lbits h (ups h ps)) <= length (lbits h (As ps)) + length (lbits h (Bs ps)).
Proof.
  induction h as [|h IH]; intros ps H; [cbn; lia|]. cbn [lbits]. destruct h as [|h].
  - rewrite !(length_rows kk 0) by (auto using ups_wf, As_wf, Bs_wf). unfold ups. rewrite map_length. pose proof (pairs_count _ _ H). nia.
  - rewrite ups_kps, <- (As_kps (S h)), <- (Bs_kps (S h)) by auto. apply IH, kps_wf. auto.
Qed.

(** number of rows of a forest *)
Fixpoint cnt (h : nat) (ns : list trie) : nat := match h with O => 0 | S h => length ns + cnt h (kids ns) end.
Lemma cnt_stream h : forall ns, fwf h ns -> length (stream h ns) = cnt h ns * kk.
Proof.
  induction h as [|h IH]; intros ns H; [reflexivity|]. cbn [stream cnt]. rewrite app_length, (length_rows kk h), IH by (auto using fwf_kids). lia.
Qed.

(** ** One row *)
Definition view (t : bt) (inner : bool) (p : nat) : list bool :=
  if inner then skipn p (b_t t) else skipn (p - length (b_t t)) (b_l t).
Definition at_ok (t : bt) (inner : bool) (p : nat) : Prop := if inner then p <= length (b_t t) else length (b_t t) <= p.
Lemma skipn_cons {A} (l : list A) : forall p b r, skipn p l = b :: r -> nth_error l p = Some b /\ skipn (S p) l = r /\ S p <= length l.
Proof.
  induction l as [|x l IH]; intros [|p] b r H; cbn in *; try discriminate.
  - injection H as -> ->. sp; auto. lia.
  - apply IH in H. destruct H as [H1 [H2 H3]]. sp; auto. lia.
Qed.
Lemma rd_view t inner p b r : at_ok t inner p -> view t inner p = b :: r ->
  rd t inner p = Ok b /\ view t inner (S p) = r /\ at_ok t inner (S p).
Proof.
  intros Ha Hv. unfold rd, view, at_ok in *. destruct inner.
  - apply skipn_cons in Hv. destruct Hv as [H1 [H2 H3]]. unfold get. rewrite H1. auto.
  - apply skipn_cons in Hv. destruct Hv as [H1 [H2 H3]]. destruct (Nat.ltb_spec p (length (b_t t))); [lia|].
    unfold get. rewrite H1. split; [reflexivity|]. split; [|lia]. rewrite <- H2. f_equal. lia.
Qed.

Lemma set_mid D r b : set (D ++ false :: r) (length D) b = Ok (D ++ b :: r).
Proof.
  unfold set. rewrite app_length. cbn [length]. destruct (Nat.ltb_spec (length D) (length D + S (length r))); [|lia]. f_equal.
  induction D as [|x D IH]; cbn; [reflexivity|]. f_equal. apply IH. lia.
Qed.

(** what the row of one cell side must look like *)
Definition side (t : bt) (inner r : bool) (p : nat) (os : list (option trie)) (rest : list bool) : Prop :=
  if r then at_ok t inner p /\ view t inner p = map is_some os ++ rest else Forall (fun o => o = None) os.

Lemma row_inner A B mh l rA rB : l < mh - 1 -> S l < 256 -> forall cl q D r cll ne pa pb il ra rb,
  side A true rA pa (map fst cl) ra -> side B true rB pb (map snd cl) rb ->
  row_loop A B mh l rA rB (length cl) (mkls q (D ++ repeat false (length cl + r)) cll ne pa pb il (length D)) =
    Ok (mkls (q ++ map (fl (S l)) (filter live cl)) ((D ++ map live cl) ++ repeat false r) cll ne
         (if rA then pa + length cl else pa) (if rB then pb + length cl else pb) il (length (D ++ map live cl))).
Proof.
  intros Hl H256. induction cl as [|[ca cb] cl IH]; intros q D r cll ne pa pb il ra rb HA HB.
  { cbn [length row_loop map filter]. rewrite !app_nil_r, !Nat.add_0_r. cbn. destruct rA, rB; reflexivity. }
  cbn [length row_loop l_pa l_pb l_ct l_cl l_q l_ne l_il l_it]. destruct (Nat.ltb_spec l (mh - 1)) as [_|]; [|lia].
  assert (GA : (if rA then rd A true pa else Ok false) = Ok (is_some ca) /\ side A true rA (if rA then S pa else pa) (map fst cl) ra).
  { unfold side in *. cbn [map fst] in HA. destruct rA.
    - destruct HA as [HA1 HA2]. cbn [map app] in HA2. destruct (rd_view _ _ _ _ _ HA1 HA2) as [R1 [R2 R3]]. auto.
    - inversion HA as [|? ? Hc Hf]; subst. auto. }
  assert (GB : (if rB then rd B true pb else Ok false) = Ok (is_some cb) /\ side B true rB (if rB then S pb else pb) (map snd cl) rb).
  { unfold side in *. cbn [map snd] in HB. destruct rB.
    - destruct HB as [HB1 HB2]. cbn [map app] in HB2. destruct (rd_view _ _ _ _ _ HB1 HB2) as [R1 [R2 R3]]. auto.
    - inversion HB as [|? ? Hc Hf]; subst. auto. }
  destruct GA as [-> GA], GB as [-> GB]. cbn [obind].
  assert (Ep : (if rA then (if rA then S pa else pa) + length cl else (if rA then S pa else pa)) = (if rA then pa + S (length cl) else pa)) by (destruct rA; lia).
  assert (Eq : (if rB then (if rB then S pb else pb) + length cl else (if rB then S pb else pb)) = (if rB then pb + S (length cl) else pb)) by (destruct rB; lia).
  cbn [plus repeat map filter]. change (live (ca, cb)) with (is_some ca || is_some cb).
  destruct (is_some ca || is_some cb) eqn:Eb.
  - rewrite set_mid. cbn [obind]. rewrite Nat.mod_small by lia.
    replace (D ++ true :: repeat false (length cl + r)) with ((D ++ [true]) ++ repeat false (length cl + r)) by (rewrite <- app_assoc; reflexivity).
    replace (S (length D)) with (length (D ++ [true])) by (rewrite app_length; cbn; lia).
    rewrite (IH _ _ _ _ _ _ _ _ ra rb GA GB). rewrite Ep, Eq. cbn [map]. rewrite <- !app_assoc. cbn [app]. reflexivity.
  - replace (D ++ false :: repeat false (length cl + r)) with ((D ++ [false]) ++ repeat false (length cl + r)) by (rewrite <- app_assoc; reflexivity).
    replace (S (length D)) with (length (D ++ [false])) by (rewrite app_length; cbn; lia).
    rewrite (IH _ _ _ _ _ _ _ _ ra rb GA GB). rewrite Ep, Eq. rewrite <- !app_assoc. reflexivity.
Qed.

Lemma row_outer A B mh l rA rB : mh - 1 <= l -> forall cl q D r ct ne pa pb it ra rb,
  side A false rA pa (map fst cl) ra -> side B false rB pb (map snd cl) rb ->
  row_loop A B mh l rA rB (length cl) (mkls q ct (D ++ repeat false (length cl + r)) ne pa pb (length D) it) =
    Ok (mkls q ct ((D ++ map live cl) ++ repeat false r) (ne + N.of_nat (ones (map live cl)))%N
         (if rA then pa + length cl else pa) (if rB then pb + length cl else pb) (length (D ++ map live cl)) it).
Proof.
  intros Hl. induction cl as [|[ca cb] cl IH]; intros q D r ct ne pa pb it ra rb HA HB.
  { cbn [length row_loop map]. rewrite !app_nil_r, !Nat.add_0_r, N.add_0_r. cbn. destruct rA, rB; reflexivity. }
  cbn [length row_loop l_pa l_pb l_ct l_cl l_q l_ne l_il l_it]. destruct (Nat.ltb_spec l (mh - 1)) as [|_]; [lia|].
  assert (GA : (if rA then rd A false pa else Ok false) = Ok (is_some ca) /\ side A false rA (if rA then S pa else pa) (map fst cl) ra).
  { unfold side in *. cbn [map fst] in HA. destruct rA.
    - destruct HA as [HA1 HA2]. cbn [map app] in HA2. destruct (rd_view _ _ _ _ _ HA1 HA2) as [R1 [R2 R3]]. auto.
    - inversion HA as [|? ? Hc Hf]; subst. auto. }
  assert (GB : (if rB then rd B false pb else Ok false) = Ok (is_some cb) /\ side B false rB (if rB then S pb else pb) (map snd cl) rb).
  { unfold side in *. cbn [map snd] in HB. destruct rB.
    - destruct HB as [HB1 HB2]. cbn [map app] in HB2. destruct (rd_view _ _ _ _ _ HB1 HB2) as [R1 [R2 R3]]. auto.
    - inversion HB as [|? ? Hc Hf]; subst. auto. }
  destruct GA as [-> GA], GB as [-> GB]. cbn [obind].
  assert (Ep : (if rA then (if rA then S pa else pa) + length cl else (if rA then S pa else pa)) = (if rA then pa + S (length cl) else pa)) by (destruct rA; lia).
  assert (Eq : (if rB then (if rB then S pb else pb) + length cl else (if rB then S pb else pb)) = (if rB then pb + S (length cl) else pb)) by (destruct rB; lia).
  cbn [plus repeat map filter]. change (live (ca, cb)) with (is_some ca || is_some cb).
  destruct (is_some ca || is_some cb) eqn:Eb.
  - rewrite set_mid. cbn [obind].
    replace (D ++ true :: repeat false (length cl + r)) with ((D ++ [true]) ++ repeat false (length cl + r)) by (rewrite <- app_assoc; reflexivity).
    replace (S (length D)) with (length (D ++ [true])) by (rewrite app_length; cbn; lia).
    rewrite (IH _ _ _ _ _ _ _ _ ra rb GA GB). rewrite Ep, Eq. rewrite <- !app_assoc. cbn [ones filter length app]. unfold ones.
    f_equal. f_equal. cbn [filter length]. lia.
  - replace (D ++ false :: repeat false (length cl + r)) with ((D ++ [false]) ++ repeat false (length cl + r)) by (rewrite <- app_assoc; reflexivity).
    replace (S (length D)) with (length (D ++ [false])) by (rewrite app_length; cbn; lia).
    rewrite (IH _ _ _ _ _ _ _ _ ra rb GA GB). rewrite Ep, Eq. rewrite <- !app_assoc. reflexivity.
Qed.

(** ** The invariant of the loop over the queue *)
(** what is left to read of one operand *)
Definition src (h : nat) (ns ms : list trie) (t : bt) (p : nat) : Prop :=
  match h with
  | S _ => p <= length (b_t t) /\ skipn p (b_t t) = rows ns ++ tbits h (ms ++ kids ns) /\ b_l t = lbits h (ms ++ kids ns)
  | O => length (b_t t) <= p /\ skipn (p - length (b_t t)) (b_l t) = rows ns
  end.
(** what is written and what is left to write *)
Definition dst (h : nat) (ns ms : list trie) (Tf Lf : list bool) (s : ls) : Prop :=
  match h with
  | S _ => exists D r R, l_ct s = D ++ repeat false r /\ l_it s = length D /\ Tf = D ++ rows ns ++ tbits h (ms ++ kids ns) /\
      length Tf <= length D + r /\ l_cl s = repeat false R /\ Lf = lbits h (ms ++ kids ns) /\ length Lf <= R /\ l_il s = 0 /\ l_ne s = 0%N
  | O => exists r D r', l_ct s = Tf ++ repeat false r /\ l_it s = length Tf /\ l_cl s = D ++ repeat false r' /\ l_il s = length D /\
      Lf = D ++ rows ns /\ length Lf <= length D + r' /\ l_ne s = N.of_nat (ones D)
  end.
Record Inv (H : nat) (A B : bt) (Tf Lf : list bool) (l h : nat) (ps qs : list pr) (s : ls) : Prop := {
  iv_h : l + S h = H;
  iv_ps : Forall (pwf (S h)) ps;
  iv_qs : Forall (pwf h) qs;
  iv_0 : h = 0 -> qs = [];
  iv_q : l_q s = map (fl l) ps ++ map (fl (S l)) qs;
  iv_a : src h (As ps) (As qs) A (l_pa s);
  iv_b : src h (Bs ps) (Bs qs) B (l_pb s);
  iv_d : dst h (ups (S h) ps) (ups h qs) Tf Lf s
}.
Definition W (h : nat) (ps qs : list pr) : nat := length ps + cnt h (ups h qs ++ kids (ups (S h) ps)).

Lemma src_shift h ms t p : src (S h) [] ms t p -> src h ms [] t p.
Proof.
  cbn [src kids flat_map rows]. rewrite app_nil_r. cbn [app]. intros [H1 [H2 H3]]. destruct h as [|h].
  - cbn [tbits lbits] in *. assert (E : length (skipn p (b_t t)) = 0) by (rewrite H2; reflexivity). rewrite skipn_length in E.
    split; [lia|]. replace (p - length (b_t t)) with 0 by lia. cbn [skipn]. exact H3.
  - cbn [app] in *. split; [exact H1|]. split; [exact H2|exact H3].
Qed.
Lemma dst_shift h ms Tf Lf s : dst (S h) [] ms Tf Lf s -> dst h ms [] Tf Lf s.
Proof.
  cbn [dst kids flat_map rows]. rewrite app_nil_r. cbn [app]. intros (D & r & R & H1 & H2 & H3 & H4 & H5 & H6 & H7 & H8 & H9). destruct h as [|h].
  - cbn [tbits lbits] in *. rewrite app_nil_r in H3. subst D. exists r, [], R. cbn [app length]. sp; auto.
  - exists D, r, R. cbn [app]. sp; auto.
Qed.
Lemma inv_shift H A B Tf Lf l h qs s : Inv H A B Tf Lf l (S h) [] qs s -> Inv H A B Tf Lf (S l) h qs [] s.
Proof.
  intros [Hh Hps Hqs H0 Hq Ha Hb Hd]. constructor; auto; try lia.
  - rewrite app_nil_r. exact Hq.
  - apply src_shift. exact Ha.
  - apply src_shift. exact Hb.
  - apply dst_shift. exact Hd.
Qed.
Lemma W_shift h qs : W (S h) [] qs = W h qs [].
Proof. unfold W. cbn [length ups map kids flat_map]. rewrite app_nil_r. cbn [cnt app]. unfold ups at 1. rewrite map_length. reflexivity. Qed.

Lemma side_of h (t : bt) inner pos o os (rest : list bool) :
  (forall a, o = Some a -> twf (S h) a) -> os = ocs o -> at_ok t inner pos -> view t inner pos = rows (somes [o]) ++ rest ->
  side t inner (is_some o) pos os rest.
Proof.
  intros Hw -> Ha Hv. unfold side. destruct o as [a|]; cbn [is_some ocs somes rows flat_map] in *.
  - rewrite app_nil_r in Hv. auto.
  - apply Forall_forall. intros x Hx. apply repeat_spec in Hx. exact Hx.
Qed.
Lemma view_adv (t : bt) inner pos (x rest : list bool) : at_ok t inner pos -> view t inner pos = x ++ rest ->
  view t inner (pos + length x) = rest /\ at_ok t inner (pos + length x).
Proof.
  revert pos. induction x as [|b x IH]; intros pos Ha Hv; cbn [length app] in *; [rewrite Nat.add_0_r; auto|].
  destruct (rd_view _ _ _ _ _ Ha Hv) as [_ [H1 H2]]. replace (pos + S (length x)) with (S pos + length x) by lia. apply IH; auto.
Qed.

Lemma src_step h o ns ms t pos : (forall a, o = Some a -> twf (S h) a) -> src h (somes [o] ++ ns) ms t pos ->
  (exists rest, side t (match h with O => false | _ => true end) (is_some o) pos (ocs o) rest) /\
  src h ns (ms ++ match h with O => [] | _ => kids (somes [o]) end) t (if is_some o then pos + kk else pos).
Proof.
  intros Hw H. unfold src in *. destruct h as [|h].
  - destruct H as [H1 H2]. rewrite rows_app, <- ?app_assoc in H2.
    assert (Ha : at_ok t false pos) by exact H1. assert (Hv : view t false pos = rows (somes [o]) ++ rows ns) by exact H2.
    split; [eexists; eapply side_of; eauto|].
    destruct o as [a|]; cbn [is_some somes] in *.
    + destruct (view_adv _ _ _ _ _ Ha Hv) as [V1 V2]. rewrite (length_rows kk 0) in V1, V2 by (intros u [<-|[]]; auto).
      cbn [length] in V1, V2. rewrite Nat.mul_1_l in V1, V2. unfold view, at_ok in *. auto.
    + auto.
  - destruct H as [H1 [H2 H3]]. rewrite rows_app, kids_app in *. rewrite <- ?app_assoc in H2.
    assert (Ha : at_ok t true pos) by exact H1.
    assert (Hv : view t true pos = rows (somes [o]) ++ (rows ns ++ tbits (S h) (ms ++ kids (somes [o]) ++ kids ns))) by exact H2.
    split; [eexists; eapply side_of; eauto|].
    rewrite <- app_assoc.
    destruct o as [a|]; cbn [is_some somes] in *.
    + destruct (view_adv _ _ _ _ _ Ha Hv) as [V1 V2]. rewrite (length_rows kk (S h)) in V1, V2 by (intros u [<-|[]]; auto).
      cbn [length] in V1, V2. rewrite Nat.mul_1_l in V1, V2. unfold view, at_ok in *. auto.
    + auto.
Qed.

Lemma inv_step H A B Tf Lf l h p ps qs s : H <= 256 -> b_h A = H -> b_h B = H -> Inv H A B Tf Lf l h (p :: ps) qs s ->
  exists s', row_loop A B H l (is_some (fst p)) (is_some (snd p)) kk
     (mkls (map (fl l) ps ++ map (fl (S l)) qs) (l_ct s) (l_cl s) (l_ne s) (l_pa s) (l_pb s) (l_il s) (l_it s)) = Ok s' /\
   exists qs', Inv H A B Tf Lf l h ps qs' s' /\ W h (p :: ps) qs = S (W h ps qs').
Proof.
  intros H256 HA HB [Hh Hps Hqs H0 Hq Ha Hb Hd]. inversion Hps as [|? ? Hp Hps']; subst x l0.
  pose proof Hp as [_ [Hp1 Hp2]].
  assert (EA : As (p :: ps) = somes [fst p] ++ As ps) by (unfold As; rewrite <- somes_app; reflexivity).
  assert (EB : Bs (p :: ps) = somes [snd p] ++ Bs ps) by (unfold Bs; rewrite <- somes_app; reflexivity).
  rewrite EA in Ha. rewrite EB in Hb.
  destruct (src_step h _ _ _ _ _ Hp1 Ha) as [[ra SA] Ha']. destruct (src_step h _ _ _ _ _ Hp2 Hb) as [[rb SB] Hb'].
  rewrite <- (cells_fst h p Hp) in SA. rewrite <- (cells_snd h p Hp) in SB.
  pose proof (cells_length h p Hp) as Lc.
  assert (Er : rows (ups (S h) (p :: ps)) = map live (cells p) ++ rows (ups (S h) ps)).
  { change (ups (S h) (p :: ps)) with ([up (S h) p] ++ ups (S h) ps). rewrite rows_app, (rows_up h) by auto. reflexivity. }
  assert (Ek : kids (ups (S h) (p :: ps)) = ups h (kp p) ++ kids (ups (S h) ps)).
  { change (ups (S h) (p :: ps)) with ([up (S h) p] ++ ups (S h) ps). rewrite kids_app, (kids_up h) by auto. reflexivity. }
  destruct h as [|h].
  - (* last level *)
    rewrite (H0 eq_refl) in *. clear H0. cbn [map] in *. rewrite app_nil_r in *.
    destruct Hd as (r & D & r' & D1 & D2 & D3 & D4 & D5 & D6 & D7). rewrite Er in D5.
    assert (Lr : exists r2, r' = length (cells p) + r2).
    { exists (r' - length (cells p)). rewrite D5, !app_length, map_length in D6. lia. }
    destruct Lr as [r2 ->]. rewrite D3, D4.
    eexists. split; [pose proof (row_outer A B H l _ _ ltac:(lia) (cells p) (map (fl l) ps) D r2 (l_ct s) (l_ne s) _ _ (l_it s) ra rb SA SB) as RR; rewrite Lc in RR; rewrite Lc; exact RR|].
    exists []. split; [|unfold W; cbn [length cnt]; lia].
    constructor; cbn [l_q l_ct l_cl l_ne l_pa l_pb l_il l_it]; auto.
    + cbn [map]. rewrite app_nil_r. reflexivity.
    + exists r, (D ++ map live (cells p)), r2. cbn [l_q l_ct l_cl l_ne l_pa l_pb l_il l_it]. rewrite <- !app_assoc. sp; auto.
      * rewrite app_length, map_length in *. lia.
      * rewrite ones_app, D7. lia.
  - destruct Hd as (D & r & R & D1 & D2 & D3 & D4 & D5 & D6 & D7 & D8 & D9). rewrite Er, Ek in D3. rewrite Ek in D6.
    assert (Lr : exists r2, r = length (cells p) + r2).
    { exists (r - length (cells p)). rewrite D3, !app_length, map_length in D4. lia. }
    destruct Lr as [r2 ->]. rewrite D1, D2.
    eexists. split; [pose proof (row_inner A B H l _ _ ltac:(lia) ltac:(lia) (cells p) (map (fl l) ps ++ map (fl (S l)) qs) D r2 (l_cl s) (l_ne s) _ _ (l_il s) ra rb SA SB) as RR; rewrite Lc in RR; rewrite Lc; exact RR|].
    exists (qs ++ kp p). split.
    + constructor; cbn [l_q l_ct l_cl l_ne l_pa l_pb l_il l_it]; auto.
      * apply Forall_app. split; auto. apply kp_wf. auto.
      * discriminate.
      * rewrite map_app, app_assoc. reflexivity.
      * rewrite As_app, (As_kp _ p Hp). exact Ha'.
      * rewrite Bs_app, (Bs_kp _ p Hp). exact Hb'.
      * exists (D ++ map live (cells p)), r2, R. cbn [l_q l_ct l_cl l_ne l_pa l_pb l_il l_it].
        rewrite !ups_app. rewrite <- !app_assoc in *. sp; auto.
        rewrite !app_length, map_length in *. lia.
    + unfold W. rewrite Ek, ups_app, <- app_assoc. cbn [length]. reflexivity.
Qed.

(** ** The loop over the queue *)
Definition Fin (Tf Lf : list bool) (s : ls) : Prop :=
  l_q s = [] /\ l_it s <= length (l_ct s) /\ l_il s <= length (l_cl s) /\ firstn (l_it s) (l_ct s) = Tf /\ firstn (l_il s) (l_cl s) = Lf /\
  l_ne s = N.of_nat (ones Lf).
Lemma firstn_len_app {A} (a b : list A) : firstn (length a) (a ++ b) = a.
Proof. rewrite firstn_app, Nat.sub_diag, firstn_all. cbn. apply app_nil_r. Qed.
Lemma tbits_nil h : tbits h [] = [].
Proof. induction h as [|h IH]; [reflexivity|]. cbn [tbits]. destruct h; [reflexivity|]. cbn. exact IH. Qed.
Lemma lbits_nil h : lbits h [] = [].
Proof. induction h as [|h IH]; [reflexivity|]. cbn [lbits]. destruct h; [reflexivity|]. cbn. exact IH. Qed.
Lemma cnt_nil h : cnt h [] = 0.
Proof. induction h as [|h IH]; auto. Qed.
Lemma inv_fin H A B Tf Lf l h s : Inv H A B Tf Lf l h [] [] s -> Fin Tf Lf s.
Proof.
  intros [Hh Hps Hqs H0 Hq Ha Hb Hd]. unfold Fin. destruct h as [|h]; cbn [dst ups map kids flat_map rows app] in Hd.
  - destruct Hd as (r & D & r' & D1 & D2 & D3 & D4 & D5 & D6 & D7). rewrite app_nil_r in D5. subst D. rewrite D1, D2, D3, D4, !firstn_len_app, !app_length.
    sp; auto; lia.
  - destruct Hd as (D & r & R & D1 & D2 & D3 & D4 & D5 & D6 & D7 & D8 & D9). rewrite tbits_nil, app_nil_r in D3. rewrite lbits_nil in D6. subst D Lf.
    rewrite D1, D2, D5, D8, firstn_len_app, app_length. cbn. sp; auto; lia.
Qed.

Definition started (l : nat) (ps : list pr) : Prop := l = 0 -> ps = [].
Lemma pop_spec H A B Tf Lf : H <= 256 -> b_h A = H -> b_h B = H -> forall budget l h ps qs s, Inv H A B Tf Lf l h ps qs s ->
  exists s', pop_loop kk A B H budget s = Ok (budget - W h ps qs, s') /\
   ((W h ps qs <= budget /\ Fin Tf Lf s') \/
    (budget < W h ps qs /\ exists l' h' ps' qs', Inv H A B Tf Lf l' h' ps' qs' s' /\ W h' ps' qs' = W h ps qs - budget /\
      ((1 <= budget /\ (l = 0 -> length ps <= 1) \/ started l ps) -> started l' ps'))).
Proof.
  intros H256 HA HB. induction budget as [|b IH]; intros l h ps qs s HI.
  { exists s. split; [reflexivity|]. destruct (Nat.eq_dec (W h ps qs) 0) as [E|E].
    - left. split; [lia|]. assert (Ep : ps = []) by (unfold W in E; destruct ps; cbn in E; [reflexivity|lia]). subst ps.
      assert (Eq : qs = []).
      { destruct h as [|h]; [apply (iv_0 _ _ _ _ _ _ _ _ _ _ HI); reflexivity|]. rewrite W_shift in E. unfold W in E. destruct qs; cbn in E; [reflexivity|lia]. }
      subst qs. eapply inv_fin; eauto.
    - right. split; [lia|]. exists l, h, ps, qs. split; [exact HI|]. split; [lia|]. intros [[X _]|X]; [lia|exact X]. }
  assert (G : forall l h ps qs s, Inv H A B Tf Lf l h ps qs s -> (ps = [] -> h = 0) ->
    exists s', pop_loop kk A B H (S b) s = Ok (S b - W h ps qs, s') /\
   ((W h ps qs <= S b /\ Fin Tf Lf s') \/
    (S b < W h ps qs /\ exists l' h' ps' qs', Inv H A B Tf Lf l' h' ps' qs' s' /\ W h' ps' qs' = W h ps qs - S b /\
      ((l = 0 -> length ps <= 1) -> started l' ps')))).
  { clear l h ps qs s HI. intros l h ps qs s HI Hne. destruct ps as [|p ps].
    - specialize (Hne eq_refl). subst h. pose proof (iv_0 _ _ _ _ _ _ _ _ _ _ HI eq_refl) as Eqs. subst qs.
      exists s. pose proof (inv_fin _ _ _ _ _ _ _ _ HI) as F. cbn [pop_loop]. destruct F as [Fq F']. rewrite Fq.
      split; [unfold W; cbn; f_equal; f_equal; lia|]. left. split; [unfold W; cbn; lia|split; auto].
    - cbn [pop_loop]. rewrite (iv_q _ _ _ _ _ _ _ _ _ _ HI). cbn [map app]. unfold fl at 1.
      destruct (inv_step _ _ _ _ _ _ _ _ _ _ _ H256 HA HB HI) as [s1 [E1 [qs1 [HI1 EW]]]]. rewrite E1. cbn [obind].
      destruct (IH _ _ _ _ _ HI1) as [s2 [E2 C]]. exists s2. rewrite E2, EW. split; [f_equal; f_equal; lia|].
      destruct C as [[C1 C2]|[C1 (l' & h' & ps' & qs' & C2 & C3 & C4)]]; [left; split; auto; lia|].
      right. split; [lia|]. exists l', h', ps', qs'. split; [exact C2|]. split; [lia|]. intros X. apply C4. right. intros ->.
      specialize (X eq_refl). cbn in X. destruct ps; [reflexivity|cbn in X; lia]. }
  destruct ps as [|p ps].
  - destruct h as [|h].
    + destruct (G _ _ _ _ _ HI ltac:(auto)) as [s' [E C]]. exists s'. split; auto. destruct C as [C|[C1 (l' & h' & ps' & qs' & C2 & C3 & C4)]]; [left; auto|].
      right. split; auto. exists l', h', ps', qs'. split; [exact C2|]. split; [exact C3|]. intros _. apply C4. cbn. lia.
    + pose proof (inv_shift _ _ _ _ _ _ _ _ _ HI) as HI'. rewrite W_shift. destruct qs as [|q qs].
      * pose proof (inv_fin _ _ _ _ _ _ _ _ HI) as F. exists s. cbn [pop_loop]. pose proof F as [Fq _]. rewrite Fq.
        assert (E : W h [] [] = 0) by (unfold W; cbn; apply cnt_nil). rewrite E. split; [f_equal|]. left. split; auto. lia.
      * destruct (G _ _ _ _ _ HI' ltac:(discriminate)) as [s' [E C]]. exists s'. split; auto. destruct C as [C|[C1 (l' & h' & ps' & qs' & C2 & C3 & C4)]]; [left; auto|].
        right. split; auto. exists l', h', ps', qs'. split; [exact C2|]. split; [exact C3|]. intros _. apply C4. discriminate.
  - destruct (G _ _ _ _ _ HI ltac:(discriminate)) as [s' [E C]]. exists s'. split; auto. destruct C as [C|[C1 (l' & h' & ps' & qs' & C2 & C3 & C4)]]; [left; auto|].
    right. split; auto. exists l', h', ps', qs'. split; [exact C2|]. split; [exact C3|]. intros [[_ X]|X]; apply C4; [exact X|]. intros Y. rewrite (X Y). cbn. lia.
Qed.

End UnionProof.
