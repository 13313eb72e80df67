(** * UnionMerge: unionOperation called repeatedly merges the trees of the levels. *)
From Verif Require Import Base Bits Union UnionProof.

Notation K4 := 4.

(** ** The bitmaps allocated for the result are large enough *)
Fixpoint geo (m : nat) : nat := match m with O => 0 | S m => K4 + K4 * geo m end.
Fixpoint geoN (m : nat) : N := match m with O => 0%N | S m => (4 + 4 * geoN m)%N end.
Lemma geoN_of m : N.of_nat (geo m) = geoN m.
Proof. induction m as [|m IH]; [reflexivity|]. cbn [geo geoN]. lia. Qed.
Lemma geo_le m : geo m <= geo (S m).
Proof. induction m as [|m IH]; [cbn; lia|]. cbn [geo] in *. lia. Qed.
Definition CAP : N := 1431655764.    (* 4 + 4^2 + ... + 4^15 *)
Lemma maxbits_0 m mb : (mb < 2 ^ 32)%N -> maxbits K4 m 0 mb = (0%N, mb).
Proof.
  intros H. induction m as [|m IH]; [reflexivity|]. cbn [maxbits]. rewrite N.mul_0_l, N.mod_0_l, N.add_0_r by lia. rewrite N.mod_small by lia. exact IH.
Qed.
Lemma maxbits_add a : forall b c m, maxbits K4 (a + b) c m = let (c', m') := maxbits K4 a c m in maxbits K4 b c' m'.
Proof. induction a as [|a IH]; intros b c m; [reflexivity|]. cbn [plus maxbits]. apply IH. Qed.
Lemma maxbits_small m : m <= 15 -> snd (maxbits K4 m 1 0) = geoN m.
Proof. intros H. do 16 (destruct m as [|m]; [vm_compute; reflexivity|]). lia. Qed.
Lemma maxbits_big m : 15 < m -> snd (maxbits K4 m 1 0) = CAP.
Proof.
  intros H. replace m with (16 + (m - 16)) by lia. rewrite maxbits_add.
  replace (maxbits K4 16 1 0) with (0%N, CAP) by (vm_compute; reflexivity). rewrite maxbits_0 by (vm_compute; reflexivity). reflexivity.
Qed.
Lemma csize_ok m a b x : x <= a + b -> (N.of_nat (a + b) <= CAP)%N -> x <= geo m -> x <= csize K4 m a b.
Proof.
  intros H1 H2 H3. unfold csize. destruct (le_lt_dec m 15) as [L|L].
  - rewrite maxbits_small by auto. rewrite <- geoN_of. destruct (N.ltb_spec (N.of_nat (geo m)) (N.of_nat (a + b))); lia.
  - rewrite maxbits_big by auto. destruct (N.ltb_spec CAP (N.of_nat (a + b))); lia.
Qed.
Lemma tbits_geo h : forall ns, fwf K4 (S h) ns -> length (tbits (S h) ns) <= length ns * geo h.
Proof.
  induction h as [|h IH]; intros ns H; [cbn; lia|]. change (tbits (S (S h)) ns) with (rows ns ++ tbits (S h) (kids ns)).
  rewrite app_length, (length_rows K4 (S h)) by auto. pose proof (IH _ (fwf_kids _ _ _ H)). pose proof (length_kids _ _ _ H). cbn [geo]. nia.
Qed.
Lemma lbits_geo h : forall ns, fwf K4 (S h) ns -> length (lbits (S h) ns) <= length ns * geo (S h).
Proof.
  induction h as [|h IH]; intros ns H; [cbn [lbits geo]; rewrite (length_rows K4 0) by auto; lia|].
  change (lbits (S (S h)) ns) with (lbits (S h) (kids ns)). pose proof (IH _ (fwf_kids _ _ _ H)). pose proof (length_kids _ _ _ H).
  change (geo (S (S h))) with (4 + 4 * geo (S h)). nia.
Qed.

(** ** Trees and tries *)
Section Merge.
Variable hgt : N -> nat.
Variable n : N.
Notation H := (hgt n).
Notation twf := (twf K4). Notation union_op := (union_op K4 hgt).
Hypothesis H1 : 1 <= H.
Hypothesis H256 : H <= 256.

Definition repr (b : bt) (t : trie) : Prop :=
  b_n b = n /\ b_h b = H /\ b_t b = tbits H [t] /\ b_l b = lbits H [t] /\ b_m b = N.of_nat (ones (b_l b)) /\ twf H t.
Definition tsz (t : trie) : nat := length (tbits H [t]) + length (lbits H [t]).
Fixpoint merge (a : trie) (ts : list trie) : trie := match ts with [] => a | t :: ts => merge (tun H a t) ts end.
Fixpoint workl (a : trie) (ts : list trie) : nat := match ts with [] => 0 | t :: ts => cnt H [tun H a t] + workl (tun H a t) ts end.
Definition fits (a : trie) (ts : list trie) : Prop := (N.of_nat (tsz a + list_sum (map tsz ts)) <= CAP)%N.

Lemma pwf_pair a b : twf H a -> twf H b -> Forall (pwf K4 H) [(Some a, Some b)].
Proof. intros Ha Hb. repeat constructor; cbn; intros ? E; congruence. Qed.
Lemma tsz_tun a b : twf H a -> twf H b -> length (tbits H [tun H a b]) <= length (tbits H [a]) + length (tbits H [b]) /\
  length (lbits H [tun H a b]) <= length (lbits H [a]) + length (lbits H [b]).
Proof.
  intros Ha Hb. pose proof (tbits_sub K4 H _ (pwf_pair a b Ha Hb)) as T. pose proof (lbits_sub K4 H _ (pwf_pair a b Ha Hb)) as L.
  cbn in T, L. auto.
Qed.
Lemma fits_tun a t ts : twf H a -> twf H t -> fits a (t :: ts) -> fits (tun H a t) ts.
Proof. unfold fits, tsz. intros Ha Ht F. pose proof (tsz_tun a t Ha Ht). cbn [map list_sum fold_right] in F. change (fold_right Nat.add 0) with list_sum in F. lia. Qed.
Lemma cnt_pos t : 1 <= cnt H [t].
Proof. clear H256. destruct H; [lia|]. cbn. lia. Qed.

(** ** The state between two calls *)
Definition lsof (u : us) (ct cl : list bool) : ls := mkls (s_q u) ct cl (s_ne u) (s_pa u) (s_pb u) (s_il u) (s_it u).
Definition prog (A B : bt) (ta tb : trie) (u : us) (w : nat) : Prop :=
  (s_q u = q0 /\ s_pa u = 0 /\ s_pb u = 0 /\ s_il u = 0 /\ s_it u = 0 /\ s_ne u = 0%N /\ w = cnt H [tun H ta tb]) \/
  (0 < w /\ exists l h ps qs, Inv K4 H A B (tbits H [tun H ta tb]) (lbits H [tun H ta tb]) l h ps qs (lsof u (s_ct u) (s_cl u)) /\
     started l ps /\ W h ps qs = w).
Definition trees (ks : list (option bt)) (i c : nat) : list bt := somes (firstn c (skipn i ks)).

Record UInv (ks : list (option bt)) (u : us) (ta tb : trie) (ts : list trie) (w : nat) : Prop := {
  ui_fin : s_fin u = false;
  ui_tmp : exists A, s_tmp u = Some A /\ repr A ta /\ exists B, nth_error ks (s_ki u) = Some (Some B) /\ repr B tb /\ prog A B ta tb u w;
  ui_ki : s_ki u <= s_mi u;
  ui_mi : s_mi u < length ks;
  ui_lo : forall i, i < s_ki u -> nth_error ks i = Some None;
  ui_ts : Forall2 repr (trees ks (S (s_ki u)) (s_mi u - s_ki u)) ts;
  ui_sz : fits ta (tb :: ts)
}.

Lemma skipn_nth {A} (l : list A) : forall i x, nth_error l i = Some x -> skipn i l = x :: skipn (S i) l.
Proof. induction l as [|y l IH]; intros [|i] x E; cbn in *; try discriminate; [congruence|]. apply IH. exact E. Qed.
Lemma first_tree_spec ks : forall c i, i + c <= length ks ->
  match first_tree ks i c with
  | None => trees ks i c = [] /\ forall j, i <= j -> j < i + c -> nth_error ks j = Some None
  | Some j => i <= j < i + c /\ (forall m, i <= m -> m < j -> nth_error ks m = Some None) /\
      exists B, nth_error ks j = Some (Some B) /\ trees ks i c = B :: trees ks (S j) (i + c - S j)
  end.
Proof.
  clear H1 H256. induction c as [|c IH]; intros i Hl; cbn [first_tree].
  { split; [reflexivity|]. intros; lia. }
  destruct (nth_error ks i) as [[B|]|] eqn:E.
  - split; [lia|]. split; [intros; lia|]. exists B. split; auto. unfold trees at 1. rewrite (skipn_nth _ _ _ E). cbn [firstn somes].
    unfold trees. replace (i + S c - S i) with c by lia. reflexivity.
  - specialize (IH (S i) ltac:(lia)).
    assert (ET : trees ks i (S c) = trees ks (S i) c) by (unfold trees; rewrite (skipn_nth _ _ _ E); reflexivity).
    destruct (first_tree ks (S i) c) as [j|].
    + destruct IH as [I1 [I2 [B [I3 I4]]]]. split; [lia|]. split.
      * intros m Hm1 Hm2. destruct (Nat.eq_dec m i) as [->|]; auto. apply I2; lia.
      * exists B. split; auto. rewrite ET, I4. f_equal. f_equal. lia.
    + destruct IH as [I1 I2]. split; [congruence|]. intros j Hj1 Hj2. destruct (Nat.eq_dec j i) as [->|]; auto. apply I2; lia.
  - apply nth_error_None in E. lia.
Qed.
Lemma nth_upd {A} (l : list A) : forall i j x, nth_error (upd l i x) j = if (i =? j) && (i <? length l) then Some x else nth_error l j.
Proof.
  induction l as [|y l IH]; intros [|i] [|j] x; cbn; auto.
  - destruct (i =? j); reflexivity.
  - rewrite IH. cbn. reflexivity.
Qed.
Lemma len_upd {A} (l : list A) : forall i x, length (upd l i x) = length l.
Proof. induction l as [|y l IH]; intros [|i] x; cbn; auto. Qed.
Lemma trees_upd ks j i c x : j < i -> trees (upd ks j x) i c = trees ks i c.
Proof.
  intros Hj. unfold trees. f_equal. f_equal. revert j i Hj. induction ks as [|y ks IH]; intros [|j] [|i] Hj; cbn; auto; try lia. apply IH. lia.
Qed.

(** the fresh state satisfies the invariant of the loop *)
Lemma inv_fresh A B ta tb ct cl u : repr A ta -> repr B tb -> fits ta [tb] ->
  s_q u = q0 -> s_pa u = 0 -> s_pb u = 0 -> s_il u = 0 -> s_it u = 0 -> s_ne u = 0%N ->
  ct = repeat false (csize K4 H (length (b_t A)) (length (b_t B))) -> cl = repeat false (csize K4 (S H) (length (b_l A)) (length (b_l B))) ->
  Inv K4 H A B (tbits H [tun H ta tb]) (lbits H [tun H ta tb]) 0 (H - 1) [(Some ta, Some tb)] [] (lsof u ct cl).
Proof.
  intros (A1 & A2 & A3 & A4 & A5 & A6) (B1 & B2 & B3 & B4 & B5 & B6) F Q1 Q2 Q3 Q4 Q5 Q6 -> ->.
  pose proof (tsz_tun ta tb A6 B6) as [S1 S2]. pose proof (pwf_pair ta tb A6 B6) as Pw.
  pose proof (tun_wf K4 H ta tb A6 B6) as Wf.
  assert (G1 : length (tbits H [tun H ta tb]) <= csize K4 H (length (b_t A)) (length (b_t B))).
  { rewrite A3, B3. apply csize_ok; auto. { unfold fits, tsz in F. cbn in F. lia. }
    destruct (hgt n) as [|h] eqn:E; [lia|]. pose proof (tbits_geo h [tun (S h) ta tb]) as T. pose proof (geo_le h).
    etransitivity; [apply T; intros ? [<-|[]]; auto|]. cbn [length]. lia. }
  assert (G2 : length (lbits H [tun H ta tb]) <= csize K4 (S H) (length (b_l A)) (length (b_l B))).
  { rewrite A4, B4. apply csize_ok; auto. { unfold fits, tsz in F. cbn in F. lia. }
    destruct (hgt n) as [|h] eqn:E; [lia|]. pose proof (lbits_geo h [tun (S h) ta tb]) as T. pose proof (geo_le (S h)).
    etransitivity; [apply T; intros ? [<-|[]]; auto|]. cbn [length]. lia. }
  rewrite A3, B3 in G1. rewrite A4, B4 in G2. rewrite A3, B3, A4, B4. clear F A5 B5.
  destruct (hgt n) as [|h] eqn:E; [lia|]. replace (S h - 1) with h by lia.
  constructor; cbn [lsof l_q l_pa l_pb]; auto.
  - rewrite Q2. unfold src. cbn [As map fst somes kids app]. destruct h as [|h].
    + cbn [tbits] in A3. cbn [lbits] in A4. rewrite A3, A4. cbn. split; auto.
    + rewrite A3, A4. cbn [skipn]. split; [lia|]. split; reflexivity.
  - rewrite Q3. unfold src. cbn [Bs map snd somes kids app]. destruct h as [|h].
    + cbn [tbits] in B3. cbn [lbits] in B4. rewrite B3, B4. cbn. split; auto.
    + rewrite B3, B4. cbn [skipn]. split; [lia|]. split; reflexivity.
  - unfold dst. cbn [ups map up app lsof l_ct l_cl l_it l_il l_ne]. rewrite Q4, Q5, Q6. destruct h as [|h].
    + eexists _, [], _. cbn [app length]. sp; try reflexivity; auto.
    + eexists [], _, _. cbn [app length]. sp; try reflexivity; auto.
Qed.
Lemma W_fresh ta tb : W (H - 1) [(Some ta, Some tb)] [] = cnt H [tun H ta tb].
Proof. destruct (hgt n) as [|h] eqn:E; [lia|]. replace (S h - 1) with h by lia. reflexivity. Qed.

Definition done (ks : list (option bt)) (mi : nat) (t : trie) : Prop :=
  (forall i, i < mi -> nth_error ks i = Some None) /\ exists A, nth_error ks mi = Some (Some A) /\ repr A t.
Definition frame (ks ks' : list (option bt)) (u u' : us) : Prop :=
  length ks' = length ks /\ s_isz u' = s_isz u /\ s_mi u' = s_mi u /\ forall i, s_mi u < i -> nth_error ks' i = nth_error ks i.

Lemma set_ok {A} (l : list A) i x : i < length l -> set l i x = Ok (upd l i x).
Proof. clear H1 H256. intros Hi. unfold set. destruct (Nat.ltb_spec i (length l)); [reflexivity|lia]. Qed.

(** One unfolding of unionOperation *)
Definition ubody (rec : list (option bt) -> us -> out (list (option bt) * us)) (ks : list (option bt)) (u : us) : out (list (option bt) * us) :=
  if s_fin u then Ok (ks, u) else
  match nth_error ks (s_ki u), s_tmp u with
  | Some (Some B), Some A =>
    let mh := Nat.max (b_h A) (b_h B) in
    match s_q u with
    | [] => UB
    | (l, rA, rB) :: _ =>
      let first := (l =? 0) && rA && rB in
      let ct := if first then repeat false (csize K4 mh (length (b_t A)) (length (b_t B))) else s_ct u in
      let cl := if first then repeat false (csize K4 (S mh) (length (b_l A)) (length (b_l B))) else s_cl u in
      let* r := pop_loop K4 A B mh (s_isz u - s_times u) (lsof u ct cl) in
      let (left, s) := r in
      match l_q s with
      | [] =>
        let ks := upd ks (s_ki u) None in
        let* A' := us_result hgt A s in
        match first_tree ks (s_ki u) (S (s_mi u) - s_ki u) with
        | None =>
          let* ks := set ks (s_mi u) (Some A') in
          Ok (ks, mkus [] (l_ct s) (l_cl s) 0 (l_pa s) (l_pb s) (l_il s) (l_it s) (Some A') (S (s_mi u)) (s_isz u) (s_isz u - left) true (s_mi u))
        | Some j =>
          let u' tm := mkus q0 (l_ct s) (l_cl s) 0 0 0 0 0 (Some A') j (s_isz u) tm false (s_mi u) in
          if left =? 0 then Ok (ks, u' 0)
          else rec ks (u' (s_isz u - left))
        end
      | _ => Ok (ks, mkus (l_q s) (l_ct s) (l_cl s) (l_ne s) (l_pa s) (l_pb s) (l_il s) (l_it s) (Some A) (s_ki u) (s_isz u) 0 false (s_mi u))
      end
    end
  | _, _ => UB
  end.
Definition urec (fuel : nat) := match fuel with O => fun _ _ => UB | S f => union_op f end.
Lemma union_op_body fuel ks u : union_op fuel ks u = ubody (urec fuel) ks u.
Proof. destruct fuel; reflexivity. Qed.

Lemma queue_head A B ta tb u w : repr A ta -> repr B tb -> fits ta [tb] -> prog A B ta tb u w ->
  exists l rA rB q, s_q u = (l, rA, rB) :: q /\
    let first := (l =? 0) && rA && rB in
    let ct := if first then repeat false (csize K4 H (length (b_t A)) (length (b_t B))) else s_ct u in
    let cl := if first then repeat false (csize K4 (S H) (length (b_l A)) (length (b_l B))) else s_cl u in
    exists l h ps qs, Inv K4 H A B (tbits H [tun H ta tb]) (lbits H [tun H ta tb]) l h ps qs (lsof u ct cl) /\ W h ps qs = w /\ (l = 0 -> length ps <= 1).
Proof.
  intros RA RB F [(Q1 & Q2 & Q3 & Q4 & Q5 & Q6 & ->)|(Hw & l & h & ps & qs & HI & Hs & HW)].
  - exists 0, true, true, []. split; [exact Q1|]. cbn [Nat.eqb andb]. exists 0, (H - 1), [(Some ta, Some tb)], [].
    split; [apply inv_fresh; auto|]. split; [apply W_fresh|]. cbn. lia.
  - pose proof (iv_q _ _ _ _ _ _ _ _ _ _ _ HI) as Eq. cbn [lsof l_q] in Eq. destruct ps as [|p ps].
    + destruct qs as [|q qs].
      { exfalso. unfold W in HW. cbn in HW. rewrite cnt_nil in HW. lia. }
      cbn [map app] in Eq. unfold fl at 1 in Eq. rewrite Eq. eexists _, _, _, _. split; [reflexivity|]. cbn [Nat.eqb andb].
      exists l, h, [], (q :: qs). split; [exact HI|]. split; [exact HW|]. cbn. lia.
    + cbn [map app] in Eq. unfold fl at 1 in Eq. rewrite Eq. eexists _, _, _, _. split; [reflexivity|].
      destruct l as [|l]; [discriminate (Hs eq_refl)|]. cbn [Nat.eqb andb].
      exists (S l), h, (p :: ps), qs. split; [exact HI|]. split; [exact HW|]. lia.
Qed.

Lemma result_repr A ta tb s : repr A ta -> twf H tb -> Fin (tbits H [tun H ta tb]) (lbits H [tun H ta tb]) s ->
  exists A', us_result hgt A s = Ok A' /\ repr A' (tun H ta tb).
Proof.
  intros (A1 & A2 & A3 & A4 & A5 & A6) B6 (F1 & F2 & F3 & F4 & F5 & F6). unfold us_result.
  destruct (Nat.ltb_spec (length (l_ct s)) (l_it s)); [lia|]. destruct (Nat.ltb_spec (length (l_cl s)) (l_il s)); [lia|]. cbn [orb].
  eexists. split; [reflexivity|]. unfold repr. cbn [b_n b_h b_t b_l b_m]. rewrite A1, F4, F5. sp; auto. apply tun_wf; auto.
Qed.

Lemma union_step : forall fuel ks u ta tb ts w, UInv ks u ta tb ts w -> length ts <= fuel -> s_times u < s_isz u ->
  exists ks' u', union_op fuel ks u = Ok (ks', u') /\ frame ks ks' u u' /\
   ((w + workl (tun H ta tb) ts <= s_isz u - s_times u /\ s_fin u' = true /\ done ks' (s_mi u) (merge (tun H ta tb) ts)) \/
    (s_isz u - s_times u < w + workl (tun H ta tb) ts /\ s_times u' = 0 /\ exists ta' tb' ts' w', UInv ks' u' ta' tb' ts' w' /\
      w' + workl (tun H ta' tb') ts' + (s_isz u - s_times u) = w + workl (tun H ta tb) ts /\
      merge (tun H ta' tb') ts' = merge (tun H ta tb) ts /\ length ts' <= length ts)).
Proof.
  induction fuel as [fuel IHf] using lt_wf_ind. intros ks u ta tb ts w [Uf (A & Ut & RA & B & Ub & RB & Up) Uk Um Ul Us Uz] Lt Ht.
  rewrite union_op_body. unfold ubody. rewrite Uf, Ub, Ut.
  assert (EH : Nat.max (b_h A) (b_h B) = H) by (destruct RA as (_ & -> & _), RB as (_ & -> & _); lia).
  rewrite EH.
  assert (F1 : fits ta [tb]) by (unfold fits in *; cbn in *; lia).
  pose proof RA as (_ & HA & _ & _ & _ & Wa). pose proof RB as (_ & HB & _ & _ & _ & Wb).
  destruct (queue_head _ _ _ _ _ _ RA RB F1 Up) as (l & rA & rB & q & Eq & G). rewrite Eq. cbv zeta in G.
  destruct G as (l0 & h & ps & qs & HI & HW & Hl).
  destruct (pop_spec K4 H A B _ _ H256 HA HB (s_isz u - s_times u) _ _ _ _ _ HI) as (s' & Es & C). rewrite Es. cbn [obind].
  rewrite HW in *.
  destruct C as [[C1 C2]|[C1 (l' & h' & ps' & qs' & C2 & C3 & C4)]].
  - (* the union with the current level is complete *)
    pose proof C2 as [Fq _]. rewrite Fq.
    destruct (result_repr A ta tb s' RA Wb C2) as (A' & EA' & RA'). rewrite EA'. cbn [obind].
    set (ks1 := upd ks (s_ki u) None).
    assert (L1 : length ks1 = length ks) by apply len_upd.
    assert (N1 : nth_error ks1 (s_ki u) = Some None).
    { unfold ks1. rewrite nth_upd, Nat.eqb_refl. destruct (Nat.ltb_spec (s_ki u) (length ks)); [reflexivity|lia]. }
    assert (N2 : forall i, i <> s_ki u -> nth_error ks1 i = nth_error ks i).
    { intros i Hi. unfold ks1. rewrite nth_upd. destruct (Nat.eqb_spec (s_ki u) i); [lia|reflexivity]. }
    assert (ET : trees ks1 (s_ki u) (S (s_mi u) - s_ki u) = trees ks (S (s_ki u)) (s_mi u - s_ki u)).
    { replace (S (s_mi u) - s_ki u) with (S (s_mi u - s_ki u)) by lia. rewrite <- (trees_upd ks (s_ki u) (S (s_ki u)) (s_mi u - s_ki u) None) by lia.
      fold ks1. unfold trees. rewrite (skipn_nth _ _ _ N1). reflexivity. }
    pose proof (first_tree_spec ks1 (S (s_mi u) - s_ki u) (s_ki u) ltac:(lia)) as FT. rewrite ET in FT.
    destruct (first_tree ks1 (s_ki u) (S (s_mi u) - s_ki u)) as [j|].
    + destruct FT as (J1 & J2 & B2 & J3 & J4). replace (s_ki u + (S (s_mi u) - s_ki u) - S j) with (s_mi u - j) in J4 by lia. rewrite J4 in Us. inversion Us as [|? tb2 ? ts2 RB2 Us2]; subst. 
      set (u' := fun tm => mkus q0 (l_ct s') (l_cl s') 0 0 0 0 0 (Some A') j (s_isz u) tm false (s_mi u)).
      assert (UI : forall tm, UInv ks1 (u' tm) (tun H ta tb) tb2 ts2 (cnt H [tun H (tun H ta tb) tb2])).
      { intros tm. constructor; unfold u'; cbn [s_fin s_tmp s_ki s_mi]; auto; try lia.
        - exists A'. split; [reflexivity|]. split; [exact RA'|]. exists B2. split; [exact J3|]. split; [exact RB2|]. left. cbn. sp; reflexivity.
        - intros i Hi. destruct (le_lt_dec (s_ki u) i) as [L|L]; [apply J2; lia|]. rewrite N2 by lia. apply Ul. lia.
        - apply fits_tun; auto. }
      assert (FR : forall tm, frame ks ks1 u (u' tm)).
      { intros tm. unfold frame. cbn. sp; auto. intros i Hi. apply N2. lia. }
      cbn [workl merge length] in *.
      destruct (Nat.eqb_spec (s_isz u - s_times u - W h ps qs) 0) as [E0|E0].
      * exists ks1, (u' 0). split; [reflexivity|]. split; [apply FR|]. right. pose proof (cnt_pos (tun H (tun H ta tb) tb2)) as CP.
        split; [lia|]. split; [reflexivity|]. exists (tun H ta tb), tb2, ts2, (cnt H [tun H (tun H ta tb) tb2]).
        split; [apply UI|]. split; [lia|]. split; [reflexivity|]. lia.
      * destruct fuel as [|fuel]; [lia|]. cbn [urec].
        fold (u' (s_isz u - (s_isz u - s_times u - W h ps qs))). set (tm := s_isz u - (s_isz u - s_times u - W h ps qs)).
        assert (Htm : s_isz u - tm = s_isz u - s_times u - W h ps qs) by (unfold tm; lia).
        assert (Htm2 : tm < s_isz u) by (unfold tm; lia).
        destruct (IHf fuel ltac:(lia) ks1 (u' tm) _ _ _ _ (UI tm) ltac:(lia) ltac:(cbn; lia)) as (ks' & u2 & E2 & (R1 & R2 & R3 & R4) & C).
        cbn [u' s_isz s_mi s_times] in *. rewrite Htm in C.
        exists ks', u2. split; [exact E2|]. split.
        { unfold frame. split; [congruence|]. split; auto. split; auto. intros i Hi. rewrite R4 by auto. apply N2. lia. }
        destruct C as [(C3 & C4 & C5)|(C3 & C4 & ta' & tb' & ts' & w' & C5 & C6 & C7 & C8)].
        -- left. split; [lia|]. auto.
        -- right. split; [lia|]. split; auto. exists ta', tb', ts', w'. split; [exact C5|]. split; [lia|]. split; [exact C7|]. lia.
    + destruct FT as [J1 J2]. rewrite J1 in Us. inversion Us; subst. rewrite set_ok by lia. cbn [obind].
      eexists _, _. split; [reflexivity|]. split.
      { unfold frame. cbn [s_isz s_mi]. split; [rewrite len_upd; exact L1|]. split; auto. split; auto.
        intros i Hi. rewrite nth_upd. destruct (Nat.eqb_spec (s_mi u) i); [lia|]. apply N2. lia. }
      left. cbn [workl merge s_fin]. split; [lia|]. split; [reflexivity|]. split.
      * intros i Hi. rewrite nth_upd. destruct (Nat.eqb_spec (s_mi u) i); [lia|]. cbn [andb].
        destruct (le_lt_dec (s_ki u) i) as [L|L]; [apply J2; lia|]. rewrite N2 by lia. apply Ul. lia.
      * exists A'. rewrite nth_upd, Nat.eqb_refl. destruct (Nat.ltb_spec (s_mi u) (length ks1)); [|lia]. auto.
  - (* budget exhausted *)
    destruct (l_q s') as [|e0 q'] eqn:Eq'.
    { exfalso. pose proof (iv_q _ _ _ _ _ _ _ _ _ _ _ C2) as X. rewrite Eq' in X. destruct ps' as [|]; [|discriminate X]. destruct qs' as [|]; [|discriminate X].
      unfold W in C3. cbn in C3. rewrite cnt_nil in C3. lia. }
    eexists _, _. split; [reflexivity|]. split; [unfold frame; cbn; sp; auto|].
    right. split; [lia|]. split; [reflexivity|]. exists ta, tb, ts, (W h' ps' qs').
    split; [|split; [lia|split; [reflexivity|lia]]].
    constructor; cbn [s_fin s_tmp s_ki s_mi]; auto.
    exists A. split; [reflexivity|]. split; [exact RA|]. exists B. split; [exact Ub|]. split; [exact RB|].
    right. split; [lia|]. exists l', h', ps', qs'. split.
    + unfold lsof. cbn. rewrite <- Eq'. destruct s'; exact C2.
    + split; [|reflexivity]. apply C4. left. split; [lia|exact Hl].
Qed.
End Merge.
