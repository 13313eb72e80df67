(** * AliasProof: an object alone behaves as in DK.v; what a call does to the trees of other objects. *)
From Verif Require Import Base Spec Thresholds K2 C0 C0Proof DK DKProof Alias.

Definition res_map {A B} (f : A -> B) (r : res A) : res B :=
  match r with Done a => Done (f a) | Thrown a => Thrown (f a) | Undefined => Undefined end.

(** The references of one object: pairwise different, pointing into the heap. *)
Fixpoint refs_ok (len : nat) (l : list (option nat)) : Prop :=
  match l with
  | [] => True
  | None :: l => refs_ok len l
  | Some r :: l => r < len /\ ~ In (Some r) l /\ refs_ok len l
  end.

Section AP.
Context (T : thresholds) (K : k2impl).
Local Notation ktree := (kt K).
Local Notation heap := (heap K).

Lemma refs_le a b l : a <= b -> refs_ok a l -> refs_ok b l.
Proof. intros Le. induction l as [|[r|] l IH]; cbn; auto. intros [A [B C]]. split; [lia|auto]. Qed.
Lemma refs_in len l r : refs_ok len l -> In (Some r) l -> r < len.
Proof. induction l as [|[q|] l IH]; cbn; [tauto| |]. - intros [A [B C]] [E|E]; [injection E as <-; auto|auto]. - intros H [E|E]; [discriminate|auto]. Qed.
Lemma refs_none len k : refs_ok len (repeat None k).
Proof. induction k; cbn; auto. Qed.
Lemma refs_app len a b : refs_ok len (a ++ b) <-> refs_ok len a /\ refs_ok len b /\ forall r, In (Some r) a -> ~ In (Some r) b.
Proof.
  induction a as [|[q|] a IH]; cbn [app refs_ok].
  - split; [intros H; split; [exact I|split; [auto|intros r []]]|intros [_ [H _]]; auto].
  - rewrite IH, in_app_iff. split.
    + intros [A [B [C [D E]]]]. split; [split; [auto|split; [tauto|auto]]|]. split; [auto|]. intros r [X|X]; [injection X as <-; tauto|auto].
    + intros [[A [B C]] [D E]]. split; [auto|]. split; [|split; [auto|split; [auto|intros r X; apply E; right; auto]]].
      intros [X|X]; [tauto|]. apply (E q); [left; auto|auto].
  - rewrite IH. split; intros [A [B C]]; (split; [auto|split; [auto|]]); intros r X; [destruct X as [X|X]; [discriminate|auto]|apply C; right; auto].
Qed.
Lemma refs_skipn len l k : refs_ok len l -> refs_ok len (skipn k l).
Proof. intros H. rewrite <- (firstn_skipn k l) in H. apply refs_app in H. tauto. Qed.
Lemma reset_length l k : length (o_reset l k) = length l.
Proof. unfold o_reset. rewrite app_length, repeat_length, skipn_length. lia. Qed.
Lemma reset_eq l i : i < length l -> o_reset l (S i) = repeat None (S i) ++ skipn (S i) l.
Proof. intros H. unfold o_reset. do 2 f_equal. lia. Qed.
Lemma upd_reset l i r : i < length l -> upd (o_reset l (S i)) i (Some r) = repeat None i ++ Some r :: skipn (S i) l.
Proof.
  intros H. rewrite reset_eq by auto. generalize (skipn (S i) l). clear H. induction i as [|i IH]; intros s; cbn; auto. f_equal. apply IH.
Qed.

Lemma deref_upd_other (hp : heap) r t l : ~ In (Some r) l -> map (deref K (upd hp r t)) l = map (deref K hp) l.
Proof.
  intros N. apply map_ext_in. intros [q|] Hq; cbn; auto. apply nth_error_upd_neq. intros ->; auto.
Qed.
Lemma deref_app (hp hp2 : heap) l : refs_ok (length hp) l -> map (deref K (hp ++ hp2)) l = map (deref K hp) l.
Proof.
  intros N. apply map_ext_in. intros [q|] Hq; cbn; auto. apply nth_error_app1. eapply refs_in; eauto.
Qed.

(** *** adj_forced *)
Lemma o_adjf_len l x y : forall hp : heap, length (snd (o_adjf K hp l x y)) = length hp.
Proof.
  induction l as [|[r|] l IH]; intros hp; cbn; auto.
  destruct (nth_error hp r) as [t|]; auto. destruct (kt_adjf K t x y) as [b t']. destruct b; cbn; [apply length_upd|]. rewrite IH. apply length_upd.
Qed.
Lemma o_adjf_frame l x y q : ~ In (Some q) l -> forall hp : heap, nth_error (snd (o_adjf K hp l x y)) q = nth_error hp q.
Proof.
  induction l as [|[r|] l IH]; intros N hp; cbn; auto.
  - assert (r <> q) by (intros ->; apply N; left; auto). assert (N' : ~ In (Some q) l) by (intros X; apply N; right; auto).
    destruct (nth_error hp r) as [t|]; auto. destruct (kt_adjf K t x y) as [b t']. destruct b; cbn; [apply nth_error_upd_neq; auto|].
    rewrite IH by auto. apply nth_error_upd_neq; auto.
  - apply IH. intros X; apply N; right; auto.
Qed.
Lemma o_adjf_view l x y : forall hp : heap, refs_ok (length hp) l ->
  ks_adjf K (map (deref K hp) l) x y = (fst (o_adjf K hp l x y), map (deref K (snd (o_adjf K hp l x y))) l).
Proof.
  induction l as [|[r|] l IH]; intros hp R; cbn [map deref ks_adjf o_adjf fst snd]; auto.
  - destruct R as [A [B C]]. destruct (nth_error hp r) as [t|] eqn:E; [|apply nth_error_None in E; lia].
    destruct (kt_adjf K t x y) as [b t']. destruct b; cbn [fst snd].
    + rewrite nth_error_upd_eq by auto. f_equal. f_equal. symmetry. apply deref_upd_other; auto.
    + assert (R' : refs_ok (length (upd hp r t')) l) by (rewrite length_upd; auto). specialize (IH _ R').
      rewrite deref_upd_other in IH by auto. rewrite IH. f_equal. f_equal.
      rewrite o_adjf_frame by auto. symmetry. apply nth_error_upd_eq; auto.
  - rewrite (IH hp R). reflexivity.
Qed.

(** *** erase *)
Lemma o_erase_len l x y : forall hp : heap, length (snd (o_erase K hp l x y)) = length hp.
Proof.
  induction l as [|[r|] l IH]; intros hp; cbn; auto.
  destruct (nth_error hp r) as [t|]; auto. destruct (kt_erase K t x y) as [b t']. destruct b; cbn; [apply length_upd|]. rewrite IH. apply length_upd.
Qed.
Lemma o_erase_frame l x y q : ~ In (Some q) l -> forall hp : heap, nth_error (snd (o_erase K hp l x y)) q = nth_error hp q.
Proof.
  induction l as [|[r|] l IH]; intros N hp; cbn; auto.
  - assert (r <> q) by (intros ->; apply N; left; auto). assert (N' : ~ In (Some q) l) by (intros X; apply N; right; auto).
    destruct (nth_error hp r) as [t|]; auto. destruct (kt_erase K t x y) as [b t']. destruct b; cbn; [apply nth_error_upd_neq; auto|].
    rewrite IH by auto. apply nth_error_upd_neq; auto.
  - apply IH. intros X; apply N; right; auto.
Qed.
Lemma o_erase_view l x y : forall hp : heap, refs_ok (length hp) l ->
  ks_erase K (map (deref K hp) l) x y = (fst (o_erase K hp l x y), map (deref K (snd (o_erase K hp l x y))) l).
Proof.
  induction l as [|[r|] l IH]; intros hp R; cbn [map deref ks_erase o_erase fst snd]; auto.
  - destruct R as [A [B C]]. destruct (nth_error hp r) as [t|] eqn:E; [|apply nth_error_None in E; lia].
    destruct (kt_erase K t x y) as [b t']. destruct b; cbn [fst snd].
    + rewrite nth_error_upd_eq by auto. f_equal. f_equal. symmetry. apply deref_upd_other; auto.
    + assert (R' : refs_ok (length (upd hp r t')) l) by (rewrite length_upd; auto). specialize (IH _ R').
      rewrite deref_upd_other in IH by auto. rewrite IH. f_equal. f_equal.
      rewrite o_erase_frame by auto. symmetry. apply nth_error_upd_eq; auto.
  - rewrite (IH hp R). reflexivity.
Qed.

(** *** sweep *)
Lemma o_sweep_view l (hp : heap) :
  ks_sweep K (map (deref K hp) l) = (fst (o_sweep K hp l), map (deref K hp) (snd (o_sweep K hp l))).
Proof.
  induction l as [|o l IH]; cbn [map ks_sweep o_sweep fst snd]; auto.
  destruct (o_sweep K hp l) as [k l']. cbn [fst snd] in IH.
  destruct (deref K hp o) as [t|] eqn:E; rewrite IH; cbn [fst snd map]; auto.
  destruct (kt_marked K t =? kt_total K t)%N; cbn [fst snd map deref]; auto. rewrite E. reflexivity.
Qed.
Lemma o_sweep_refs len l (hp : heap) : refs_ok len l ->
  refs_ok len (snd (o_sweep K hp l)) /\ length (snd (o_sweep K hp l)) = length l /\
  forall r, In (Some r) (snd (o_sweep K hp l)) -> In (Some r) l.
Proof.
  induction l as [|o l IH]; cbn [o_sweep fst snd]; [auto|]. intros R.
  assert (R' : refs_ok len l) by (destruct o; cbn in R; tauto). specialize (IH R').
  destruct (o_sweep K hp l) as [k l']. cbn [fst snd] in IH. destruct IH as [A [B C]].
  assert (NN : refs_ok len (None :: l') /\ length (None :: l') = length (o :: l) /\ forall r, In (Some r) (None :: l') -> In (Some r) (o :: l)).
  { split; [exact A|]. split; [cbn; auto|]. intros r [X|X]; [discriminate|right; auto]. }
  destruct (deref K hp o) as [t|]; [|exact NN]. destruct (kt_marked K t =? kt_total K t)%N; [exact NN|].
  split; [|split; [cbn; auto|intros r [X|X]; [left; auto|right; auto]]].
  destruct o as [q|]; cbn in *; auto. destruct R as [R1 [R2 R3]]. split; [auto|]. split; auto.
Qed.

(** *** merges *)
Lemma merge_snd cnt : forall tmp (l : list (option ktree)), snd (merge_upto K tmp l cnt) = repeat None (Nat.min cnt (length l)) ++ skipn cnt l.
Proof.
  induction cnt as [|c IH]; intros tmp [|o l]; cbn; auto.
  specialize (IH (match o with Some t => kt_union K tmp t | None => tmp end) l).
  destruct (merge_upto K _ l c) as [r l']. cbn in *. f_equal. auto.
Qed.
Lemma map_repeat_none (hp : heap) k : map (deref K hp) (repeat None k) = repeat None k.
Proof. induction k; cbn; f_equal; auto. Qed.
Lemma map_upd (hp : heap) l i r t : nth_error hp r = Some t -> map (deref K hp) (upd l i (Some r)) = upd (map (deref K hp) l) i (Some t).
Proof. intros E. revert i. induction l as [|o l IH]; intros [|i]; cbn; auto; [rewrite E; auto|f_equal; auto]. Qed.
Lemma upd_none k : forall i, upd (repeat (@None ktree) k) i None = repeat None k.
Proof. induction k; intros [|i]; cbn; f_equal; auto. Qed.

(** *** The calls: each behaves on the view as in DK.v, keeps its references in order, and only appends or changes its own cells. *)
Definition st_ok (d : obj) (r : res (heap * obj)) : Prop :=
  match r with Done (hp, d') | Thrown (hp, d') => refs_ok (length hp) (o_ks d') /\ length (o_ks d') = length (o_ks d) | Undefined => True end.

Lemma o_add_view (hp : heap) d x y : refs_ok (length hp) (o_ks d) ->
  res_map (fun s => view K (fst s) (snd s)) (o_add T K hp d x y) = dk_add T K (view K hp d) x y /\ st_ok d (o_add T K hp d x y).
Proof.
  intros R. unfold o_add, dk_add, dk_contains_forced. cbn [view C0_ DK.ks].
  destruct (c0_contains (o_c0 d) (x, y)) as [b|]; cbn [rbind obind]; [|split; [reflexivity|exact I]].
  destruct b; [split; [reflexivity|split; auto]|].
  rewrite (o_adjf_view _ x y hp R). pose proof (o_adjf_len (o_ks d) x y hp) as Len.
  destruct (o_adjf K hp (o_ks d) x y) as [b hp1]. cbn [fst snd] in *.
  assert (R1 : refs_ok (length hp1) (o_ks d)) by (rewrite Len; auto).
  destruct b; [split; [reflexivity|split; auto]|]. unfold dk_m. cbn [view max_r nv nt C0_ DK.ks].
  destruct (maxsz T (N.max (o_nv d) (o_nt d)) 0) as [ms|]; cbn [rbind]; [|split; [reflexivity|exact I]].
  destruct (N.of_nat (c0_size (o_c0 d)) <? ms)%N.
  - destruct (c0_insert T (o_c0 d) (x, y) (o_nt d)) as [c|]; cbn [rbind]; [split; [reflexivity|split; auto]|split; [reflexivity|exact I]].
  - destruct (find_level T K (N.max (o_nv d) (o_nt d)) (map (deref K hp1) (o_ks d)) 0 ms) as [i|] eqn:F; [|split; [reflexivity|split; auto]].
    destruct (c0_converted (o_c0 d)) as [conv|]; cbn [rbind]; [|split; [reflexivity|exact I]].
    destruct (c0_clean (o_c0 d)) as [c|]; cbn [rbind]; [|split; [reflexivity|exact I]].
    assert (Fi : forall m l j acc k, find_level T K m l j acc = Some k -> k < j + length l).
    { clear. intros m. induction l as [|o l IH]; cbn [find_level length]; intros j acc k E; [discriminate|].
      destruct (_ <? _)%N in E; [injection E as <-; lia|]. apply IH in E. lia. }
    apply Fi in F. rewrite map_length in F. cbn in F.
    assert (RU : refs_ok (length hp1 + 1) (upd (o_reset (o_ks d) (S i)) i (Some (length hp1)))).
    { rewrite upd_reset by auto. apply refs_app. split; [apply refs_none|]. split; [|intros r X; apply repeat_spec in X; discriminate].
      cbn [refs_ok]. split; [lia|]. split; [|eapply refs_le; [|apply refs_skipn; eauto]; lia].
      intros X. apply (refs_in (length hp1)) in X; [lia|apply refs_skipn; auto]. }
    pose proof (merge_snd (S i) (kt_build K (conv ++ [(x, y)]) (o_nv d)) (map (deref K hp1) (o_ks d))) as MS.
    destruct (merge_upto K (kt_build K (conv ++ [(x, y)]) (o_nv d)) (map (deref K hp1) (o_ks d)) (S i)) as [tmp l]. cbn [fst snd] in *.
    split; [|split; [rewrite app_length; exact RU|cbn [o_ks]; rewrite length_upd; apply reset_length]].
    cbn [res_map fst snd]. unfold view. cbn [o_r o_nv o_nt o_c0 o_ks]. do 2 f_equal.
    rewrite (map_upd _ _ _ _ tmp) by (rewrite nth_error_app2, Nat.sub_diag by lia; reflexivity). f_equal.
    rewrite MS. unfold o_reset. rewrite map_app, map_repeat_none, map_length. f_equal.
    rewrite deref_app by (apply refs_skipn; auto). symmetry. apply skipn_map.
Qed.

Lemma o_rebuild_view (hp : heap) d : refs_ok (length hp) (o_ks d) -> length (o_ks d) = RS ->
  res_map (fun s => view K (fst s) (snd s)) (o_rebuild T K hp d) = dk_rebuild T K (view K hp d) /\ st_ok d (o_rebuild T K hp d).
Proof.
  intros R Ln. unfold o_rebuild, dk_rebuild, dk_m. cbn [view max_r nv nt C0_ DK.ks]. fold (view K hp d).
  set (i := rebuild_level T (N.max (o_nv d) (o_nt d)) (o_nt d) RS 0).
  destruct (if c0_size (o_c0 d) =? 0 then let* oo := dk_contains K (view K hp d) 1 1 in Ok (oo, true) else Ok (false, false)) as [[oo dummy]|];
    cbn [rbind]; [|split; [reflexivity|exact I]].
  assert (ADD : res_map (fun s => view K (fst s) (snd s)) (if dummy then o_add T K hp d 1 1 else Done (hp, d)) =
                (if dummy then dk_add T K (view K hp d) 1 1 else Done (view K hp d)) /\
                st_ok d (if dummy then o_add T K hp d 1 1 else Done (hp, d))).
  { destruct dummy; [apply o_add_view; auto|split; [reflexivity|split; auto]]. }
  destruct ADD as [E S]. rewrite <- E. clear E.
  destruct (if dummy then o_add T K hp d 1 1 else Done (hp, d)) as [[hp1 d1]|[hp1 d1]|]; cbn [res_map fst snd]; [|split; [reflexivity|exact S]|split; [reflexivity|exact I]].
  destruct S as [S1 S2]. cbn [view C0_ nv nt max_r DK.ks].
  destruct (if 0 <? c0_size (o_c0 d1) then _ else _) as [[tmp c]|]; cbn [rbind]; [|split; [reflexivity|exact I]].
  destruct (merge_all K tmp (map (deref K hp1) (o_ks d1))) as [r|]; cbn [rbind]; [|split; [reflexivity|exact I]].
  destruct (Nat.ltb_spec i RS) as [Hi|Hi]; [|split; [reflexivity|exact I]].
  assert (V : forall t, map (deref K (hp1 ++ [t])) (upd (repeat None RS) i (Some (length hp1))) = upd (repeat None RS) i (Some t)).
  { intros t. rewrite (map_upd _ _ _ _ t) by (rewrite nth_error_app2, Nat.sub_diag by lia; reflexivity). rewrite map_repeat_none. reflexivity. }
  assert (RU : refs_ok (length hp1 + 1) (upd (repeat None RS) i (Some (length hp1)))).
  { assert (G : forall k j, refs_ok (length hp1 + 1) (upd (repeat None k) j (Some (length hp1)))).
    { induction k as [|k IH]; intros [|j]; cbn; auto. split; [lia|]. split; [intros X; apply repeat_spec in X; discriminate|apply refs_none]. }
    apply G. }
  destruct oo.
  - destruct r as [t|]; cbn [res_map fst snd st_ok o_ks]; (split; [unfold view; cbn [o_r o_nv o_nt o_c0 o_ks]; do 2 f_equal|split]).
    + apply V.
    + rewrite app_length; exact RU.
    + rewrite length_upd, repeat_length; auto.
    + rewrite map_repeat_none. symmetry. apply (upd_none RS).
    + apply refs_none.
    + rewrite repeat_length; auto.
  - destruct r as [t|]; [|split; [reflexivity|exact I]]. destruct (kt_erase K t 1 1) as [eb t'].
    cbn [res_map fst snd st_ok o_ks]; (split; [unfold view; cbn [o_r o_nv o_nt o_c0 o_ks]; do 2 f_equal; apply V|split]).
    + rewrite app_length; exact RU.
    + rewrite length_upd, repeat_length; auto.
Qed.

Lemma o_del_view (hp : heap) d x y : refs_ok (length hp) (o_ks d) -> length (o_ks d) = RS ->
  res_map (fun s => view K (fst s) (snd s)) (o_del T K hp d x y) = dk_del T K (view K hp d) x y /\ st_ok d (o_del T K hp d x y).
Proof.
  intros R Ln. unfold o_del, dk_del. cbn [view max_r nv nt C0_ DK.ks].
  destruct (c0_erase (o_c0 d) (x, y)) as [[b c]|]; cbn [rbind]; [|split; [reflexivity|exact I]].
  destruct b; [split; [reflexivity|split; auto]|].
  rewrite (o_erase_view _ x y hp R). pose proof (o_erase_len (o_ks d) x y hp) as Len.
  destruct (o_erase K hp (o_ks d) x y) as [eb hp1]. cbn [fst snd] in *.
  assert (R1 : refs_ok (length hp1) (o_ks d)) by (rewrite Len; auto).
  rewrite o_sweep_view. pose proof (o_sweep_refs (length hp1) (o_ks d) hp1 R1) as [W1 [W2 _]].
  destruct (o_sweep K hp1 (o_ks d)) as [marked l]. cbn [fst snd] in *.
  set (n' := if eb then u64_dec (o_nt d) else o_nt d).
  destruct (th_trig T marked n'); [|split; [reflexivity|split; auto]].
  set (d1 := mkobj (o_r d) (o_nv d) n' c l).
  destruct (o_rebuild_view hp1 d1 W1) as [E S]; [cbn; congruence|]. split; [exact E|].
  destruct (o_rebuild T K hp1 d1) as [[hp2 d2]|[hp2 d2]|]; auto; cbn in S; rewrite W2 in S; exact S.
Qed.

Lemma o_op_view (hp : heap) d o : refs_ok (length hp) (o_ks d) -> length (o_ks d) = RS ->
  res_map (fun s => view K (fst s) (snd s)) (o_op T K hp d o) = dk_op T K (view K hp d) o /\ st_ok d (o_op T K hp d o).
Proof. intros R Ln. destruct o as [[x y]|[x y]]; [apply o_add_view; auto|apply o_del_view; auto]. Qed.
End AP.
