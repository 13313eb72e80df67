(** * DelayExact: for which numbers of vertices insertions into a DKtree_delay can fail.

    Insertions are decided by counts alone: the sizes of the trees, the number of buffered edges and the state of the pending
    union.  [ad] is that abstraction; [aud], [awork], [aadd] are union_delay, the first statement and the rest of add_edge on it
    (DKtree_delay.hpp:96-119, :126-128, :131-183), proved below to commute with the model of the code in [Delay].  The reachable
    abstract states are then explored by computation, for a number of vertices and as many edges as are needed for the argument
    for large graphs (MAXSZ >= 6) to take over. *)
From Verif Require Import Base Spec Thresholds K2 C0 C0Proof DK DKProof DKHist Delay DelayProof Table4.
From Coq Require Permutation.

Record ad := mkad { a_c : N; a_nt : N; a_ks : list (option N); a_i : nat; a_prev : nat; a_fin : nat }.
Fixpoint anext (l : list (option N)) (i cnt : nat) : option nat :=
  match cnt with
  | O => None
  | S c => match nth_error l i with Some (Some _) => Some i | _ => anext l (S i) c end
  end.
Definition osz (o : option (option N)) : N := match o with Some (Some s) => s | _ => 0%N end.
Definition aud (l : list (option N)) (i prev fin : nat) (tmp : option N) : list (option N) * nat * nat :=
  match anext l i (S fin - i) with
  | Some j =>
    let t := osz (nth_error l j) in
    if prev <? RS then (upd (upd l j (Some (t + osz (nth_error l prev))%N)) prev None, S j, j)
    else (upd l j (Some (t + osz (Some tmp))%N), S j, j)
  | None =>
    let i := S (Nat.max i (S fin)) in
    if prev <? RS then (upd (upd l fin (match nth_error l prev with Some o => o | None => None end)) prev None, i, prev)
    else (upd l fin tmp, i, prev)
  end.
Definition awork (a : ad) : ad :=
  if a_fin a <? a_i a then a else
  let '(l, i, p) := aud (a_ks a) (a_i a) (a_prev a) (a_fin a) None in mkad (a_c a) (a_nt a) l i p (a_fin a).
Fixpoint afind (T : thresholds) (m : N) (l : list (option N)) (i : nat) (acc : N) : option nat :=
  match l with
  | [] => None
  | o :: l =>
    let acc := match o with Some t => (acc + t)%N | None => acc end in
    if (acc + 1 <? th_max T m (S i))%N then Some i else afind T m l (S i) acc
  end.
(** the insertion of a new edge, after [awork]; None: the assertion fails, or no level is found *)
Definition aadd (T : thresholds) (n : N) (a : ad) : option ad :=
  let m := N.max n (a_nt a) in
  let ms := th_max T m 0 in
  if (a_c a <? ms)%N then Some (mkad (a_c a + 1) (a_nt a + 1) (a_ks a) (a_i a) (a_prev a) (a_fin a))
  else if a_fin a <? a_i a then
    match afind T m (a_ks a) 0 ms with
    | None => None
    | Some i => let '(l, j, p) := aud (a_ks a) 0 RS i (Some (a_c a + 1)%N) in Some (mkad 0 (a_nt a + 1) l j p i)
    end
  else None.

Section E.
Context (T : thresholds) (K : k2impl) (L : k2laws K) (n : N) (Hn : (2 <= n)%N).
Notation ktree := (kt K).
Definition sizes (l : list (option ktree)) : list (option N) := map (option_map (kt_total K)) l.
Definition alpha (d : dl K) : ad :=
  mkad (N.of_nat (c0_size (C0_ (d_g d)))) (nt (d_g d)) (sizes (ks (d_g d))) (u_i d) (u_prev d) (u_final d).

Lemma sizes_nth l i : nth_error (sizes l) i = option_map (option_map (kt_total K)) (nth_error l i).
Proof. apply nth_error_map. Qed.
Lemma sizes_upd l : forall j o, sizes (upd l j o) = upd (sizes l) j (option_map (kt_total K) o).
Proof. induction l as [|a l IH]; intros [|j] o; cbn; auto. f_equal. apply IH. Qed.
Lemma sizes_next l cnt : forall i, anext (sizes l) i cnt = next_tree K l i cnt.
Proof. induction cnt as [|c IH]; intros i; cbn; [auto|]. rewrite sizes_nth. destruct (nth_error l i) as [[t|]|]; cbn; auto. Qed.
Lemma sizes_find m l : forall i acc, afind T m (sizes l) i acc = find_level T K m l i acc.
Proof. induction l as [|[t|] l IH]; intros i acc; cbn; auto; destruct (_ <? _)%N; auto. Qed.

(** the size of a union of disjoint trees without erased edges *)
Lemma total_union t s : wf L n t -> wf L n s -> kt_marked K t = 0%N -> kt_marked K s = 0%N ->
  (forall e, In e (kt_edges K t) -> ~ In e (kt_edges K s)) -> kt_total K (kt_union K t s) = (kt_total K t + kt_total K s)%N.
Proof using Hn.
  intros W1 W2 M1 M2 D. destruct (law_union L n t s W1 W2) as (U1 & U2 & U3).
  rewrite (law_total L n _ U1), (law_total L n _ W1), (law_total L n _ W2), (U3 M1), M1, M2.
  enough (length (kt_edges K (kt_union K t s)) = length (kt_edges K t ++ kt_edges K s)) as -> by (rewrite app_length; lia).
  apply len_same.
  - apply (law_edges_nodup L n); auto.
  - apply NoDup_app. split; [apply (law_edges_nodup L n); auto|]. split; [apply (law_edges_nodup L n); auto|auto].
  - intros e. rewrite U2, in_app_iff. reflexivity.
Qed.

Lemma ud_abs d d' : length (ks (d_g d)) = RS -> u_final d < RS -> u_i d <= u_final d -> (u_prev d < RS -> u_prev d < u_i d) ->
  lwf K L n (ks (d_g d)) -> ldisj K (ks (d_g d)) -> fresh K (ks (d_g d)) ->
  (forall t, d_tmp d = Some t -> wf L n t /\ kt_marked K t = 0%N) -> (forall e, oin K (d_tmp d) e -> ~ inks K (ks (d_g d)) e) ->
  union_delay K d = Ok d' ->
  aud (sizes (ks (d_g d))) (u_i d) (u_prev d) (u_final d) (option_map (kt_total K) (d_tmp d)) = (sizes (ks (d_g d')), u_i d', u_prev d') /\
  u_final d' = u_final d.
Proof using Hn.
  intros Hl Hf Hi Hpi W D F Wt Dt E. unfold union_delay in E. destruct (Nat.ltb_spec (u_final d) (length (ks (d_g d)))) as [_|]; [|lia].
  unfold aud. rewrite sizes_next. destruct (next_tree K (ks (d_g d)) (u_i d) (S (u_final d) - u_i d)) as [j|] eqn:Ej.
  - apply next_tree_some in Ej. destruct Ej as [Hj [[t Et] _]]. rewrite Et in E. rewrite sizes_nth, Et.
    destruct (Nat.ltb_spec (u_prev d) RS) as [Hp|Hp].
    + destruct (nth_error (ks (d_g d)) (u_prev d)) as [[s|]|] eqn:Es; try discriminate. injection E as <-. cbn [d_g ks u_i u_prev u_final].
      rewrite sizes_nth, Es. cbn [option_map osz]. rewrite !sizes_upd. cbn [option_map]. rewrite total_union; eauto.
      intros e G1 G2. specialize (Hpi Hp). refine (D j (u_prev d) (Some t) (Some s) e _ Et Es G1 G2). lia.
    + destruct (d_tmp d) as [s|] eqn:Es; [|discriminate]. injection E as <-. cbn [d_g ks u_i u_prev u_final].
      destruct (Wt s eq_refl) as [W2 M2]. cbn [option_map osz]. rewrite !sizes_upd. cbn [option_map]. rewrite total_union; eauto.
      intros e G1 G2. apply (Dt e G2). exists j, (Some t). auto.
  - destruct (Nat.ltb_spec (u_prev d) RS) as [Hp|Hp].
    + rewrite sizes_nth. destruct (nth_error (ks (d_g d)) (u_prev d)) as [o|] eqn:Es; [|discriminate]. injection E as <-. cbn [d_g ks u_i u_prev u_final].
      rewrite !sizes_upd. cbn [option_map]. split; reflexivity.
    + injection E as <-. cbn [d_g ks u_i u_prev u_final]. rewrite !sizes_upd. split; reflexivity.
Qed.

(** One insertion, on the abstraction. *)
Lemma add_abs d sl S x y : relDI K L n d sl S -> ready K d -> in_range n (x, y) ->
  (In (x, y) S -> exists d', dl_add T K d x y = Done d' /\ ready K d' /\ alpha d' = awork (alpha d)) /\
  (~ In (x, y) S -> forall a', aadd T n (awork (alpha d)) = Some a' ->
     exists d', dl_add T K d x y = Done d' /\ ready K d' /\ alpha d' = a').
Proof using Hn.
  intros R HR Hr. pose proof (rd_inv _ _ _ _ _ _ (ei_rel _ _ _ _ _ _ R)) as H.
  assert (H1 : exists d1, (if work_done K d then Ok d else union_delay K d) = Ok d1 /\ ready K d1 /\ alpha d1 = awork (alpha d)).
  { unfold work_done, awork. cbn [alpha a_fin a_i a_c a_nt a_ks a_prev]. destruct (Nat.ltb_spec (u_final d) (u_i d)) as [G|G].
    - exists d. auto.
    - destruct (ud_total K d) as [d1 [E1 R1]]; auto; try apply H. exists d1. split; [exact E1|]. split; [exact R1|].
      destruct (ud_inv K L n d sl d1 H G E1) as (A1&A2&A3&A4&A5&A6&A7).
      destruct (ud_abs d d1) as [B1 B2]; auto; try apply H; try apply R.
      { rewrite (dn_tmp _ _ _ _ _ H). discriminate. }
      { rewrite (dn_tmp _ _ _ _ _ H). intros e []. }
      rewrite (dn_tmp _ _ _ _ _ H) in B1. cbn [option_map] in B1. rewrite B1. unfold alpha. rewrite A3, A5, B2. reflexivity. }
  destruct H1 as (d1 & E1 & R1 & Al). unfold dl_add. rewrite E1. cbn [rbind]. rewrite <- Al.
  destruct (step_union K L n d sl d1 H E1) as (A1&A2&A3&A4&A5&A6&A7&A8&A9).
  destruct (dl_contains_spec K L n d1 sl x y A1 Hr) as [b [Eb Hb]]. rewrite Eb. cbn [rbind].
  assert (Hs : In (x, y) S <-> b = true).
  { rewrite Hb, <- (rd_set _ _ _ _ _ _ (ei_rel _ _ _ _ _ _ R)). unfold in_dl. rewrite A2. reflexivity. }
  split; intros HI; [apply Hs in HI; subst b; eauto|]. destruct b; [elim HI; apply Hs; reflexivity|]. clear Hs.
  assert (Hni : ~ in_dl K d1 sl (x, y)) by (intros G; apply Hb in G; discriminate).
  assert (Hnl : ~ In (x, y) (live_edges sl)) by (intros G; apply Hni; left; auto).
  assert (Dm : dk_m K (d_g d1) = N.max n (nt (d_g d1))) by (unfold dk_m; rewrite (dn_nv _ _ _ _ _ A1); reflexivity).
  intros a' Ea. unfold aadd in Ea. cbn [alpha a_c a_nt a_ks a_i a_prev a_fin] in Ea. rewrite <- Dm in Ea.
  assert (Hm : (n <= dk_m K (d_g d1))%N) by lia.
  unfold maxsz. destruct (N.eqb_spec (dk_m K (d_g d1)) 1) as [G|_]; [lia|]. cbn [rbind].
  pose proof (inv_size _ _ (dn_c0 _ _ _ _ _ A1)) as Hsz.
  assert (HC : nt (d_g d1) = N.of_nat (length (live_edges sl) + length (ks_edges K (ks (d_g d1))))).
  { apply (relD_count K L n d1 sl S). destruct (ei_rel _ _ _ _ _ _ R) as [Q1 Q2 Q3 Q4]. constructor; auto; [|congruence].
    intros e. rewrite <- Q2. unfold in_dl. rewrite A2. tauto. }
  destruct (N.of_nat (c0_size (C0_ (d_g d1))) <? th_max T (dk_m K (d_g d1)) 0)%N eqn:Elt.
  - injection Ea as <-. apply N.ltb_lt in Elt. rewrite Hsz in Elt.
    destruct (insert_ok T (C0_ (d_g d1)) sl (x, y) (nt (d_g d1)) (dn_c0 _ _ _ _ _ A1) Hnl) as [c [Ec [Hc _]]].
    + unfold room. rewrite (dn_c0nv _ _ _ _ _ A1), (iv_n _ _ (dn_c0 _ _ _ _ _ A1)).
      rewrite Dm in *. rewrite <- (all_live_edges sl (ei_live _ _ _ _ _ _ R)). right. split; lia.
    + rewrite Ec. cbn [rbind]. eexists. split; [reflexivity|]. split; [exact R1|]. unfold alpha. cbn [d_g C0_ nt ks u_i u_prev u_final]. f_equal.
      rewrite (inv_size _ _ Hc), Hsz, live_edges_app, app_length. cbn. lia.
  - change (work_done K d1) with (u_final d1 <? u_i d1). destruct (u_final d1 <? u_i d1) eqn:Hw; [|discriminate].
    rewrite sizes_find in Ea. destruct (find_level T K (dk_m K (d_g d1)) (ks (d_g d1)) 0 (th_max T (dk_m K (d_g d1)) 0)) as [i|] eqn:Ei; [|discriminate].
    apply (find_level_range T K n Hn) in Ei. rewrite (dn_len _ _ _ _ _ A1) in Ei.
    rewrite (inv_converted _ _ (dn_c0 _ _ _ _ _ A1)). cbn [rbind].
    destruct (inv_clean _ _ (dn_c0 _ _ _ _ _ A1)) as [c [Ec [Hc [_ Hcv]]]]. rewrite Ec. cbn [rbind].
    rewrite (dn_nv _ _ _ _ _ A1).
    set (tmp := kt_build K (live_edges sl ++ [(x, y)]) n).
    set (d2 := mkdl (mkdk (Nat.max i (max_r (d_g d1))) n (nt (d_g d1)) c (ks (d_g d1))) 0 RS i (Some tmp)).
    assert (Nd : NoDup (live_edges sl ++ [(x, y)])).
    { apply NoDup_app. sp.
      - apply uniq_nodup, (inv_uniq _ _ (dn_c0 _ _ _ _ _ A1)).
      - repeat constructor; auto.
      - intros e He [<-|[]]. auto. }
    destruct (law_build L n (live_edges sl ++ [(x, y)])) as [B1 [B2 B3]]; auto.
    { destruct (live_edges sl); discriminate. }
    { apply Forall_app. split; [apply (dn_range _ _ _ _ _ A1)|repeat constructor; apply Hr]. }
    fold tmp in B1, B2, B3.
    assert (Bt : kt_total K tmp = N.of_nat (c0_size (C0_ (d_g d1)) + 1)).
    { rewrite (law_total L n _ B1), B2, Hsz. rewrite (len_same (kt_edges K tmp) (live_edges sl ++ [(x, y)])); auto; [|apply (law_edges_nodup L n); auto].
      rewrite app_length. cbn. lia. }
    destruct (ud_total K d2) as [d3 [E3 R3]].
    { apply A1. } { cbn. lia. } { cbn. lia. } { cbn [d2 u_prev]. lia. }
    { intros _. cbn [d2 u_prev d_tmp]. split; [lia|discriminate]. }
    rewrite E3. cbn [rbind]. eexists. split; [reflexivity|]. split; [exact R3|].
    assert (Dd : forall e, In e (kt_edges K tmp) -> ~ inks K (ks (d_g d1)) e).
    { intros e He. apply B3, in_app_iff in He. destruct He as [He|[<-|[]]]; [apply (dn_c0ks _ _ _ _ _ A1); auto|]. intros G. apply Hni. right; auto. }
    destruct (ud_spec K L n d2 d3) as (U1&U2&U3&U4&U5&U6&U7&U8&U9&U10&U11&U12); auto;
      try (cbn [d2 d_g ks u_final u_i u_prev d_tmp]; first [apply A1 | lia]).
    { intros t Ht. cbn [d2 d_tmp] in Ht. injection Ht as <-. auto. }
    { intros e [_ He]. cbn [d2 d_tmp oin] in He. cbn [d2 d_g ks]. auto. }
    destruct (ud_abs d2 d3) as [V1 V2]; auto;
      try (cbn [d2 d_g ks u_final u_i u_prev d_tmp]; first [apply A1 | lia]).
    { apply A9, R. }
    { intros t Ht. cbn [d2 d_tmp] in Ht. injection Ht as <-. auto. }
    cbn [d2 d_g ks u_i u_prev u_final d_tmp option_map] in V1, V2. rewrite Bt in V1.
    replace (N.of_nat (c0_size (C0_ (d_g d1))) + 1)%N with (N.of_nat (c0_size (C0_ (d_g d1)) + 1)) in Ea by lia.
    rewrite V1 in Ea. injection Ea as <-. unfold alpha. cbn [d_g C0_ nt ks u_i u_prev u_final]. rewrite U12, V2, U11. cbn [d2 d_g C0_ nt]. rewrite (inv_size _ _ Hc). reflexivity.
Qed.
Lemma add_abs_none d sl S x y : relDI K L n d sl S -> ready K d -> in_range n (x, y) -> ~ In (x, y) S ->
  aadd T n (awork (alpha d)) = None -> forall d', dl_add T K d x y <> Done d'.
Proof using Hn.
  intros R HR Hr HI Ea d'. pose proof (rd_inv _ _ _ _ _ _ (ei_rel _ _ _ _ _ _ R)) as H.
  assert (H1 : exists d1, (if work_done K d then Ok d else union_delay K d) = Ok d1 /\ ready K d1 /\ alpha d1 = awork (alpha d)).
  { unfold work_done, awork. cbn [alpha a_fin a_i a_c a_nt a_ks a_prev]. destruct (Nat.ltb_spec (u_final d) (u_i d)) as [G|G].
    - exists d. auto.
    - destruct (ud_total K d) as [d1 [E1 R1]]; auto; try apply H. exists d1. split; [exact E1|]. split; [exact R1|].
      destruct (ud_inv K L n d sl d1 H G E1) as (A1&A2&A3&A4&A5&A6&A7).
      destruct (ud_abs d d1) as [B1 B2]; auto; try apply H; try apply R.
      { rewrite (dn_tmp _ _ _ _ _ H). discriminate. }
      { rewrite (dn_tmp _ _ _ _ _ H). intros e []. }
      rewrite (dn_tmp _ _ _ _ _ H) in B1. cbn [option_map] in B1. rewrite B1. unfold alpha. rewrite A3, A5, B2. reflexivity. }
  destruct H1 as (d1 & E1 & R1 & Al). unfold dl_add. rewrite E1. cbn [rbind]. rewrite <- Al in Ea.
  destruct (step_union K L n d sl d1 H E1) as (A1&A2&A3&A4&A5&A6&A7&A8&A9).
  destruct (dl_contains_spec K L n d1 sl x y A1 Hr) as [b [Eb Hb]]. rewrite Eb. cbn [rbind].
  destruct b.
  { elim HI. apply (rd_set _ _ _ _ _ _ (ei_rel _ _ _ _ _ _ R)). unfold in_dl. rewrite <- A2. apply Hb. reflexivity. }
  assert (Dm : dk_m K (d_g d1) = N.max n (nt (d_g d1))) by (unfold dk_m; rewrite (dn_nv _ _ _ _ _ A1); reflexivity).
  unfold aadd in Ea. cbn [alpha a_c a_nt a_ks a_i a_prev a_fin] in Ea. rewrite <- Dm in Ea.
  assert (Hm : (n <= dk_m K (d_g d1))%N) by lia.
  unfold maxsz. destruct (N.eqb_spec (dk_m K (d_g d1)) 1) as [G|_]; [lia|]. cbn [rbind].
  destruct (N.of_nat (c0_size (C0_ (d_g d1))) <? th_max T (dk_m K (d_g d1)) 0)%N; [discriminate|].
  change (work_done K d1) with (u_final d1 <? u_i d1). destruct (u_final d1 <? u_i d1); [|discriminate].
  rewrite sizes_find in Ea. destruct (find_level T K (dk_m K (d_g d1)) (ks (d_g d1)) 0 (th_max T (dk_m K (d_g d1)) 0)) as [i|]; [|discriminate].
  destruct (aud (sizes (ks (d_g d1))) 0 RS i (Some (N.of_nat (c0_size (C0_ (d_g d1))) + 1)%N)) as [[l j] p]. discriminate.
Qed.
End E.

(** ** Exploration *)
Definition on_eqb (x y : option N) : bool := match x, y with Some p, Some q => N.eqb p q | None, None => true | _, _ => false end.
Fixpoint ons_eqb (l l' : list (option N)) : bool :=
  match l, l' with [], [] => true | x :: l, y :: l' => (on_eqb x y && ons_eqb l l')%bool | _, _ => false end.
Lemma on_eqb_eq x y : on_eqb x y = true -> x = y.
Proof. destruct x, y; cbn; try discriminate; auto. intros H. apply N.eqb_eq in H. congruence. Qed.
Lemma ons_eqb_eq l : forall l', ons_eqb l l' = true -> l = l'.
Proof.
  induction l as [|x l IH]; intros [|y l'] H; cbn in H; try discriminate; auto.
  apply andb_true_iff in H. destruct H as [H1 H2]. f_equal; [apply on_eqb_eq|apply IH]; auto.
Qed.
Definition ad_eqb (a b : ad) : bool :=
  (N.eqb (a_c a) (a_c b) && N.eqb (a_nt a) (a_nt b) && Nat.eqb (a_i a) (a_i b) && Nat.eqb (a_prev a) (a_prev b) && Nat.eqb (a_fin a) (a_fin b) &&
   ons_eqb (a_ks a) (a_ks b))%bool.
Lemma ad_eqb_eq a b : ad_eqb a b = true -> a = b.
Proof.
  unfold ad_eqb. rewrite !andb_true_iff. intros (((((H1 & H2) & H3) & H4) & H5) & H6). apply N.eqb_eq in H1, H2. apply Nat.eqb_eq in H3, H4, H5. apply ons_eqb_eq in H6. destruct a, b; cbn in *; congruence.
Qed.
Definition amem (a : ad) (C : list ad) : bool := existsb (ad_eqb a) C.
Lemma amem_In a C : amem a C = true -> In a C.
Proof. unfold amem. rewrite existsb_exists. intros [b [H E]]. apply ad_eqb_eq in E. congruence. Qed.
(** a state and what further steps of the pending union make of it, added to C *)
Fixpoint closure (k : nat) (a : ad) (C : list ad) : list ad :=
  if amem a C then C else match k with O => a :: C | S k => closure k (awork a) (a :: C) end.
Lemma closure_sub k : forall a C b, In b C -> In b (closure k a C).
Proof. induction k as [|k IH]; intros a C b H; cbn [closure]; destruct (amem a C); auto; [right; auto|]. apply IH. right; auto. Qed.
Lemma closure_self k a C : In a (closure k a C).
Proof. destruct k; cbn [closure]; destruct (amem a C) eqn:E; try (apply amem_In; exact E); [left; auto|]. apply closure_sub. left; auto. Qed.
Definition closures (l : list ad) : list ad := fold_left (fun C a => closure 10 a C) l [].
Lemma closures_in l a : In a l -> In a (closures l).
Proof.
  unfold closures. assert (G : forall l C b, In b C -> In b (fold_left (fun C a => closure 10 a C) l C)).
  { clear. induction l as [|x l IH]; intros C b H; cbn [fold_left]; [exact H|]. apply IH, closure_sub, H. }
  generalize (@nil ad). induction l as [|x l IH]; intros C H; [destruct H|]. cbn [fold_left]. destruct H as [->|H]; [|apply IH; auto].
  apply G, closure_self.
Qed.
Fixpoint mapo {A B} (f : A -> option B) (l : list A) : option (list B) :=
  match l with
  | [] => Some []
  | a :: l => match f a, mapo f l with Some b, Some r => Some (b :: r) | _, _ => None end
  end.
Lemma mapo_in {A B} (f : A -> option B) l r a : mapo f l = Some r -> In a l -> exists b, f a = Some b /\ In b r.
Proof.
  revert r. induction l as [|x l IH]; intros r E H; [destruct H|]. cbn in E. destruct (f x) as [b|] eqn:F; [|discriminate].
  destruct (mapo f l) as [q|]; [|discriminate]. injection E as <-. destruct H as [->|H]; [exists b; split; [auto|left; auto]|].
  destruct (IH q eq_refl H) as [c [Hc Ic]]. exists c. split; [auto|right; auto].
Qed.
Definition aslack (a : ad) : bool := ((a_fin a <? a_i a) || (N.to_nat (a_c a) + a_fin a <=? a_i a + 6))%bool.
(** [fuel] more new edges; then the slack is enough if [more], otherwise there is no further edge *)
Fixpoint explore (T : thresholds) (n : N) (more : bool) (fuel : nat) (C : list ad) : bool :=
  (forallb (fun a => amem (awork a) C) C &&
   match fuel with
   | O => if more then forallb aslack C else true
   | S f => match mapo (fun a => aadd T n (awork a)) C with Some l => explore T n more f (closures l) | None => false end
   end)%bool.
Definition astart : ad := mkad 0 0 (repeat None RS) 0 RS 1.
(** every list of insertions into a graph with n vertices succeeds *)
Definition safe (T : thresholds) (n : N) : bool :=
  explore T n (162 <? n * n)%N (N.to_nat (N.min 162 (n * n))) (closures [astart]).

Definition unsafe : list N := [8; 9; 10; 11; 12; 16; 17; 18; 19; 28; 29; 30; 31; 32; 33; 34; 46; 47]%N.
Definition nmem (n : N) (l : list N) : bool := existsb (N.eqb n) l.
Lemma nmem_In n l : nmem n l = true <-> In n l.
Proof. unfold nmem. rewrite existsb_exists. split; [intros [x [H E]]; apply N.eqb_eq in E; congruence|intros H; exists n; split; [auto|apply N.eqb_refl]]. Qed.

(** all the edges there are *)
Definition grid (n : N) : list edge := list_prod (map N.of_nat (seq 0 (N.to_nat n))) (map N.of_nat (seq 0 (N.to_nat n))).
Lemma grid_in n e : in_range n e -> In e (grid n).
Proof.
  destruct e as [x y]. intros [H1 H2]. cbn in H1, H2. apply in_prod; apply in_map_iff; [exists (N.to_nat x)|exists (N.to_nat y)]; rewrite N2Nat.id, in_seq; split; auto; lia.
Qed.
Lemma grid_length n : length (grid n) = (N.to_nat n * N.to_nat n)%nat.
Proof. unfold grid, edge. etransitivity; [apply prod_length|]. rewrite !map_length, !seq_length. reflexivity. Qed.

Lemma grid_range n e : In e (grid n) -> in_range n e.
Proof.
  destruct e as [x y]. intros H. apply in_prod_iff in H. rewrite !in_map_iff in H. destruct H as [[a [<- Ha]] [b [<- Hb]]].
  apply in_seq in Ha, Hb. split; cbn; lia.
Qed.
Lemma grid_nodup n : NoDup (grid n).
Proof.
  unfold grid. assert (G : forall l l' : list N, NoDup l -> NoDup l' -> NoDup (list_prod l l')).
  { induction l as [|x l IH]; intros l' N1 N2; cbn [list_prod]; [constructor|]. inversion N1; subst. apply NoDup_app. split; [|split; [apply IH; auto|]].
    - apply FinFun.Injective_map_NoDup; auto. intros p q E. congruence.
    - intros [p q] H H'. apply in_map_iff in H. destruct H as [z [E _]]. injection E as <- <-. apply in_prod_iff in H'. tauto. }
  apply G; (apply FinFun.Injective_map_NoDup; [intros p q E; lia|apply seq_NoDup]).
Qed.

Section Sound.
Context (T : thresholds) (K : k2impl) (L : k2laws K) (n : N) (Hn : (2 <= n)%N).

Lemma full_set S : NoDup S -> Forall (in_range n) S -> (n * n <= N.of_nat (length S))%N -> forall e, in_range n e -> In e S.
Proof.
  intros N1 F Hl e He. assert (G : incl (grid n) S).
  { apply NoDup_length_incl; auto; [rewrite grid_length; lia|]. intros f Hf. apply grid_in. apply (proj1 (Forall_forall _ _) F). exact Hf. }
  apply G, grid_in, He.
Qed.
Lemma relD_range d sl S : relD K L n d sl S -> Forall (in_range n) S.
Proof.
  intros R. apply Forall_forall. intros e He. apply (rd_set _ _ _ _ _ _ R) in He. pose proof (rd_inv _ _ _ _ _ _ R) as H. destruct He as [He|He].
  - apply (proj1 (Forall_forall _ _) (dn_range _ _ _ _ _ H)). exact He.
  - apply (inks_range K L n _ _ (dn_wf _ _ _ _ _ H) He).
Qed.

Lemma explore_sound (HT : th_top T) (H6 : forall m, (162 <= m)%N -> (6 <= th_max T m 0)%N) es :
  forall fuel C d sl S, explore T n (162 <? n * n)%N fuel C = true -> In (alpha K d) C -> relDI K L n d sl S -> ready K d ->
  N.of_nat (length S + fuel) = N.min 162 (n * n) -> Forall (in_range n) es ->
  exists d', dl_ops T K d (map Add es) = Done d'.
Proof.
  induction es as [|[x y] es IH]; intros fuel C d sl S HE HC R HR HL HF; cbn [map dl_ops dl_op]; [eauto|].
  inversion HF as [|? ? He Hes]; subst.
  destruct (add_abs T K L n Hn d sl S x y R HR He) as [G1 G2]. destruct fuel as [|f]; cbn [explore] in HE; apply andb_true_iff in HE; destruct HE as [E1 E2].
  - destruct (N.ltb_spec 162 (n * n)) as [Hb|Hb].
    + rewrite forallb_forall in E2. specialize (E2 _ HC).
      apply (insert_total_dl T K L n Hn ((x, y) :: es) HT d sl S); auto.
      { intros m M1 M2. apply H6. lia. }
      { intros Q. unfold aslack in E2. cbn [alpha a_fin a_i a_c] in E2. apply orb_true_iff in E2. destruct E2 as [E2|E2]; [apply Nat.ltb_lt in E2; lia|].
        apply Nat.leb_le in E2. lia. }
    + pose proof (ei_rel _ _ _ _ _ _ R) as R0. assert (In (x, y) S) as HI.
      { apply full_set; auto; [apply (rd_nodup _ _ _ _ _ _ R0)|apply (relD_range d sl S R0)|lia]. }
      destruct (G1 HI) as [d' [A1 [A2 A3]]]. rewrite A1. destruct (relDI_add T K L n Hn d sl S (x, y) d' R He A1) as [sl' R'].
      cbn [espec_step] in R'. rewrite (proj2 (emem_In _ _) HI) in R'.
      apply (IH 0 C d' sl' S); auto; [cbn [explore]; rewrite E1; destruct (N.ltb_spec 162 (n * n)); [lia|reflexivity]|].
      rewrite A3. apply amem_In. rewrite forallb_forall in E1. apply (E1 _ HC).
  - destruct (in_dec edge_dec (x, y) S) as [HI|HI].
    + destruct (G1 HI) as [d' [A1 [A2 A3]]]. rewrite A1. destruct (relDI_add T K L n Hn d sl S (x, y) d' R He A1) as [sl' R'].
      cbn [espec_step] in R'. rewrite (proj2 (emem_In _ _) HI) in R'.
      apply (IH (Datatypes.S f) C d' sl' S); auto; [cbn [explore]; rewrite E1; exact E2|].
      rewrite A3. apply amem_In. rewrite forallb_forall in E1. apply (E1 _ HC).
    + destruct (mapo (fun a => aadd T n (awork a)) C) as [l|] eqn:EM; [|discriminate].
      destruct (mapo_in _ _ _ _ EM HC) as [b [Hb1 Hb2]]. destruct (G2 HI b Hb1) as [d' [A1 [A2 A3]]]. rewrite A1.
      destruct (relDI_add T K L n Hn d sl S (x, y) d' R He A1) as [sl' R'].
      cbn [espec_step] in R'. rewrite (proj2 (emem_false _ _) HI) in R'.
      apply (IH f (closures l) d' sl' _) with (4 := A2) (3 := R'); auto; [rewrite A3; apply closures_in, Hb2|].
      rewrite ?app_length. cbn [length]. lia.
Qed.

(** the same insertions, all new *)
Fixpoint arun (k : nat) (a : ad) : option ad :=
  match k with O => Some a | S k => match aadd T n (awork a) with Some a => arun k a | None => None end end.
Lemma arun_fails es : forall k d sl S, arun k (alpha K d) = None -> relDI K L n d sl S -> ready K d -> NoDup (S ++ es) ->
  k <= length es -> Forall (in_range n) es -> forall d', dl_ops T K d (map Add es) <> Done d'.
Proof.
  induction es as [|[x y] es IH]; intros k d sl S HA R HR ND HL HF; (destruct k as [|k]; [discriminate|]); cbn [length] in HL; [lia|].
  inversion HF as [|? ? He Hes]; subst. cbn [map dl_ops dl_op arun] in *.
  assert (HI : ~ In (x, y) S) by (apply NoDup_remove_2 in ND; intros G; apply ND, in_app_iff; auto).
  destruct (aadd T n (awork (alpha K d))) as [a'|] eqn:Ea.
  - destruct (add_abs T K L n Hn d sl S x y R HR He) as [_ G2]. destruct (G2 HI a' Ea) as [d1 [A1 [A2 A3]]]. rewrite A1.
    destruct (relDI_add T K L n Hn d sl S (x, y) d1 R He A1) as [sl' R']. cbn [espec_step] in R'. rewrite (proj2 (emem_false _ _) HI) in R'.
    apply (IH k d1 sl' _) with (2 := R'); auto; [rewrite A3; exact HA| |lia].
    first [rewrite <- app_assoc; exact ND | apply Permutation.Permutation_NoDup with (2 := ND); apply Permutation.Permutation_sym, Permutation.Permutation_middle].
  - pose proof (add_abs_none T K L n Hn d sl S x y R HR He HI Ea) as G. destruct (dl_add T K d x y) as [d1|d1|] eqn:E; intros d'; try discriminate. elim (G d1). reflexivity.
Qed.

Lemma arun_done es : forall d sl S, arun (length es) (alpha K d) <> None -> relDI K L n d sl S -> ready K d -> NoDup (S ++ es) ->
  Forall (in_range n) es -> exists d', dl_ops T K d (map Add es) = Done d'.
Proof.
  induction es as [|[x y] es IH]; intros d sl S HA R HR ND HF; cbn [map dl_ops dl_op length arun] in *; [eauto|].
  inversion HF as [|? ? He Hes]; subst.
  assert (HI : ~ In (x, y) S) by (apply NoDup_remove_2 in ND; intros G; apply ND, in_app_iff; auto).
  destruct (aadd T n (awork (alpha K d))) as [a'|] eqn:Ea; [|congruence].
  destruct (add_abs T K L n Hn d sl S x y R HR He) as [_ G2]. destruct (G2 HI a' Ea) as [d1 [A1 [A2 A3]]]. rewrite A1.
  destruct (relDI_add T K L n Hn d sl S (x, y) d1 R He A1) as [sl' R']. cbn [espec_step] in R'. rewrite (proj2 (emem_false _ _) HI) in R'.
  apply (IH d1 sl' _) with (2 := R'); auto; [rewrite A3; exact HA|].
  first [rewrite <- app_assoc; exact ND | apply Permutation.Permutation_NoDup with (2 := ND); apply Permutation.Permutation_sym, Permutation.Permutation_middle].
Qed.
Lemma arun_le k : forall j a, j <= k -> arun k a <> None -> arun j a <> None.
Proof.
  induction k as [|k IH]; intros [|j] a Hj H; try (cbn; congruence); [lia|]. cbn [arun] in *. destruct (aadd T n (awork a)); [|auto]. apply IH; auto. lia.
Qed.

Lemma start_abs : exists d, dl_new T K n = Ok d /\ relDI K L n d [] [] /\ ready K d /\ alpha K d = astart.
Proof.
  destruct (dk_new_total T K n Hn) as [g E].
  assert (E0 : dl_new T K n = Ok (mkdl g 0 RS 1 None)) by (unfold dl_new; rewrite E; reflexivity).
  destruct (relD_new T K L n Hn _ E0) as [R [B [F [Hk _]]]]. eexists. split; [exact E0|]. split; [constructor; auto; constructor|]. split.
  - intros _. cbn [u_prev d_tmp]. split; [lia|]. intros _ _ j t. rewrite Hk. intros G. apply nth_error_In, repeat_spec in G. discriminate.
  - unfold alpha, astart, sizes. rewrite Hk, (rd_nt _ _ _ _ _ _ R), (inv_size _ _ (dn_c0 _ _ _ _ _ (rd_inv _ _ _ _ _ _ R))). reflexivity.
Qed.
End Sound.
