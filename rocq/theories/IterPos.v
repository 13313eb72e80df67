(** * IterPos: the state of an edge iterator after k steps. *)
From Verif Require Import Base Spec Thresholds K2 C0 C0Proof DK DKProof DKHist Iter IterProof.

(** k times ++ *)
Fixpoint nexts (K : k2impl) (k : nat) (it : eit K) : out (eit K) :=
  match k with O => Ok it | S k => let* it := eit_next K it in nexts K k it end.

Lemma firstn_S {A} : forall i (l : list A) o, nth_error l i = Some o -> firstn (S i) l = firstn i l ++ [o].
Proof. induction i as [|i IH]; intros [|a l] o E; cbn in *; try discriminate; [congruence|]. rewrite <- (IH l o E). reflexivity. Qed.

Section P.
Context (K : k2impl).
Local Notation ktree := (kt K).

Lemma scan_none (l : list (option ktree)) : forall i j, scan K l i = Some j -> forall m, m < j - i -> nth_error l m = Some None.
Proof.
  induction l as [|[t|] l IH]; intros i j E m Hm; cbn [scan] in E; [discriminate|injection E as <-; lia|].
  destruct m as [|m]; [reflexivity|]. cbn [nth_error]. apply (IH (S i) j E). lia.
Qed.
Lemma scan_at (l : list (option ktree)) i q : scan K (skipn i l) i = Some q ->
  i <= q /\ (exists t, nth_error l q = Some (Some t)) /\ forall j, i <= j < q -> nth_error l j = Some None.
Proof.
  intros E. pose proof (scan_spec K (skipn i l) i) as S. rewrite E in S. destruct S as (t & B & N & _). rewrite nth_error_skipn' in N.
  replace (i + (q - i)) with q in N by lia. split; [lia|]. split; [eauto|]. intros j Hj. pose proof (scan_none _ _ _ E (j - i) ltac:(lia)) as M.
  rewrite nth_error_skipn' in M. replace (i + (j - i)) with j in M by lia. exact M.
Qed.
Lemma scan_end (l : list (option ktree)) i : scan K (skipn i l) i = None -> forall j t, nth_error l j = Some (Some t) -> j < i.
Proof.
  intros E j t N. destruct (Nat.le_gt_cases i j) as [H|]; auto. exfalso. revert E. replace j with (i + (j - i)) in N by lia. rewrite <- nth_error_skipn' in N.
  generalize i at 2. generalize dependent (skipn i l). induction (j - i) as [|m IH]; intros [|[u|] s] N k; cbn in *; try discriminate. eauto.
Qed.

Definition trees_of (l : list (option ktree)) : list ktree := flat_map (fun o => match o with Some t => [t] | None => [] end) l.
Lemma edges_trees l : ks_edges K l = flat_map (kt_edges K) (trees_of l).
Proof. induction l as [|[t|] l IH]; cbn; [reflexivity| |]; unfold ks_edges in *; cbn; rewrite IH; auto. Qed.

(** In which of the parts, of sizes ss, position p lies. *)
Fixpoint part_of (ss : list nat) (p : nat) : nat :=
  match ss with [] => 0 | s :: ss => if p <? s then 0 else S (part_of ss (p - s)) end.
Lemma part_of_at (l : list (option ktree)) : forall q t d, nth_error l q = Some (Some t) -> d < length (kt_edges K t) ->
  part_of (map (fun t => length (kt_edges K t)) (trees_of l)) (length (ks_edges K (firstn q l)) + d) = length (trees_of (firstn q l)).
Proof.
  induction l as [|o l IH]; intros q t d N Hd; [destruct q; discriminate|]. destruct q as [|q].
  - cbn in N. injection N as ->. cbn [trees_of flat_map app map part_of firstn length]. change (length (ks_edges K []) + d) with d.
    rewrite (proj2 (Nat.ltb_lt _ _) Hd). reflexivity.
  - cbn [nth_error] in N. cbn [firstn]. destruct o as [u|].
    + rewrite ks_edges_cons_some, app_length. cbn [trees_of flat_map app map part_of length]. fold (trees_of l). fold (trees_of (firstn q l)).
      destruct (Nat.ltb_spec (length (kt_edges K u) + length (ks_edges K (firstn q l)) + d) (length (kt_edges K u))); [lia|]. f_equal.
      rewrite <- (IH q t d N Hd). f_equal. lia.
    + rewrite ks_edges_cons_none. cbn [trees_of flat_map app]. apply (IH q t d N Hd).
Qed.
Lemma part_of_all ss : forall p, list_sum ss <= p -> part_of ss p = length ss.
Proof. induction ss as [|s ss IH]; intros p H; [reflexivity|]. cbn [list_sum part_of length fold_right] in *. fold (list_sum ss) in H. destruct (Nat.ltb_spec p s); [lia|]. f_equal. apply IH. lia. Qed.
Lemma trees_lt (l : list (option ktree)) q q' t : q < q' -> nth_error l q = Some (Some t) -> length (trees_of (firstn q l)) < length (trees_of (firstn q' l)).
Proof.
  revert q q'. induction l as [|o l IH]; intros q q' H N; [destruct q; discriminate|]. destruct q' as [|q']; [lia|]. destruct q as [|q]; cbn in N.
  - injection N as ->. cbn. lia.
  - cbn [firstn trees_of flat_map]. rewrite !app_length. fold (trees_of (firstn q l)). fold (trees_of (firstn q' l)). specialize (IH q q' ltac:(lia) N). lia.
Qed.
Lemma trees_all (l : list (option ktree)) q t : nth_error l q = Some (Some t) -> length (trees_of (firstn q l)) < length (trees_of l).
Proof. intros N. pose proof (trees_lt l q (length l) t ltac:(apply nth_error_Some; congruence) N) as H. rewrite firstn_all in H. exact H. Qed.

Section At.
Context (strict : bool) (c : c0) (l : list (option ktree)) (pre : list edge).
Context (Hl : length l = RS) (Hfull : ks_full K l) (Hpre : length pre = c0_size c) (Hnode : forall i e, nth_error pre i = Some e -> node_at c i = Ok e).
Context (NM : ~ In MAXE (pre ++ ks_edges K l)).
Local Notation W := (pre ++ ks_edges K l).

Inductive at_ : nat -> eit K -> Prop :=
| at_buf k e : nth_error pre k = Some e -> at_ k (mkeit c l e (Z.of_nat k) (map (tree_begin K) l) 0)
| at_tree k q i t d e r curr dist : (Z.of_nat (c0_size c) <= dist)%Z -> scan K (skipn i l) i = Some q -> nth_error l q = Some (Some t) ->
    kt_edges K t = d ++ e :: r -> k = length pre + length (ks_edges K (firstn q l)) + length d ->
    nth_error curr q = Some (e :: r) -> length curr = length l ->
    (forall j, q < j -> nth_error curr j = option_map (tree_begin K) (nth_error l j)) ->
    (strict = true -> forall j u, j < q -> nth_error l j = Some (Some u) -> nth_error curr j = Some []) ->
    at_ k (mkeit c l e dist curr i)
| at_end k i curr dist : k = length W -> scan K (skipn i l) i = None -> (Z.of_nat (c0_size c) <= dist)%Z \/ (dist = (-1)%Z /\ c0_size c = 0 /\ ks_edges K l = []) ->
    at_ k (mkeit c l MAXE dist curr i).

Lemma split_at q t : nth_error l q = Some (Some t) -> ks_edges K l = ks_edges K (firstn q l) ++ kt_edges K t ++ ks_edges K (skipn (S q) l).
Proof. clear. intros N. rewrite <- (firstn_skipn q l) at 1. rewrite (skipn_cut _ _ _ N), ks_edges_app, ks_edges_cons_some. reflexivity. Qed.
Lemma gap q q' : q <= q' -> (forall j, q <= j < q' -> nth_error l j = Some None) -> ks_edges K (firstn q' l) = ks_edges K (firstn q l).
Proof.
  clear. intros H N. induction q' as [|q' IH]; [f_equal; f_equal; lia|]. destruct (Nat.eq_dec q (S q')) as [->|Ne]; auto.
  rewrite (firstn_S _ _ None) by (apply N; lia). rewrite ks_edges_app, IH by (try lia; intros; apply N; lia). cbn. apply app_nil_r.
Qed.

(** entering the tree of index q from the beginning *)
Lemma fresh k q t e r i curr dist : (Z.of_nat (c0_size c) <= dist)%Z -> scan K (skipn i l) i = Some q -> nth_error l q = Some (Some t) ->
  kt_edges K t = e :: r -> k = length pre + length (ks_edges K (firstn q l)) ->
  length curr = length l -> (forall j, q <= j -> nth_error curr j = option_map (tree_begin K) (nth_error l j)) ->
  (strict = true -> forall j u, j < q -> nth_error l j = Some (Some u) -> nth_error curr j = Some []) -> at_ k (mkeit c l e dist curr i).
Proof.
  intros D Sc N Et Ek Lc A B. apply (at_tree k q i t [] e r curr dist); auto.
  - cbn. lia.
  - rewrite A, N by lia. cbn. rewrite Et. reflexivity.
  - intros j Hj. apply A. lia.
Qed.

Lemma at_next k it : at_ k it -> k < length W -> exists it', eit_next K it = Ok it' /\ at_ (S k) it'.
Proof.
  intros H Hk. inversion H as [k0 e Ne|k0 q i t d e r curr dist D Sc Nq Et Ek Nc Lc A B|k0 i curr dist Ek Sc D]; subst; [| |lia].
  - unfold eit_next. cbn [ei_c0 ei_ks ei_dist ei_curr ei_i].
    assert (Hkp : k < length pre) by (apply nth_error_Some; congruence).
    destruct (Z.ltb_spec (Z.of_nat k) (Z.of_nat (c0_size c))); [|lia].
    destruct (Z.ltb_spec (Z.of_nat k + 1) (Z.of_nat (c0_size c))) as [X|X].
    + replace (Z.to_nat (Z.of_nat k + 1)) with (S k) by lia. destruct (nth_error pre (S k)) as [e'|] eqn:N1; [|apply nth_error_None in N1; lia].
      rewrite (Hnode _ _ N1). cbn [obind]. eexists. split; [reflexivity|]. replace (Z.of_nat k + 1)%Z with (Z.of_nat (S k)) by lia. apply at_buf. exact N1.
    + destruct (scan K l 0) as [q|] eqn:Sc.
      * pose proof (scan_at l 0 q Sc) as (_ & (t & Nq) & Nn). assert (Hne : kt_edges K t <> []) by (apply Hfull; eapply nth_error_In; eauto).
        destruct (kt_edges K t) as [|e' r] eqn:Et; [congruence|]. unfold tree_deref, get. rewrite curr_nth, Nq. cbn [option_map tree_begin obind]. rewrite Et, Nat.eqb_refl. cbn [obind].
        eexists. split; [reflexivity|]. apply (fresh (S k) q t e' r); auto; try lia.
        -- rewrite (skipn_cut _ _ _ Nq). reflexivity.
        -- rewrite (gap 0 q) by (try lia; intros; apply Nn; lia). cbn. lia.
        -- apply map_length.
        -- intros j _. apply curr_nth.
        -- intros _ j u Hj Nj. rewrite (Nn j) in Nj by lia. discriminate.
      * eexists. split; [reflexivity|]. pose proof (scan_spec K l 0) as Q. rewrite Sc in Q. apply at_end; [rewrite Q, app_nil_r; lia|exact Sc|left; lia].
  - unfold eit_next. cbn [ei_c0 ei_ks ei_dist ei_curr ei_i]. destruct (Z.ltb_spec dist (Z.of_nat (c0_size c))); [lia|]. rewrite Sc. unfold get. rewrite Nc. cbn [obind].
    assert (Hq : q < length curr) by (apply nth_error_Some; congruence).
    destruct r as [|e' r].
    + destruct (scan K (skipn (S q) l) (S q)) as [q'|] eqn:Sc'.
      * pose proof (scan_at l (S q) q' Sc') as (Lq & (t' & Nq') & Nn). assert (Hne : kt_edges K t' <> []) by (apply Hfull; eapply nth_error_In; eauto).
        destruct (kt_edges K t') as [|e' r'] eqn:Et'; [congruence|]. unfold tree_deref, get. rewrite nth_error_upd_neq by lia. rewrite A, Nq' by lia. cbn [option_map tree_begin]. rewrite Et'. cbn [obind].
        eexists. split; [reflexivity|]. apply (fresh _ q' t' e' r'); auto.
        -- rewrite (skipn_cut _ _ _ Nq'). reflexivity.
        -- rewrite (gap (S q) q') by (try lia; intros; apply Nn; lia). rewrite (firstn_S _ _ _ Nq), ks_edges_app, app_length. unfold ks_edges at 3. cbn. rewrite app_nil_r, Et, app_length. cbn. lia.
        -- rewrite length_upd. auto.
        -- intros j Hj. rewrite nth_error_upd_neq by lia. apply A. lia.
        -- intros Hs j u Hj Nj. destruct (Nat.eq_dec j q) as [->|Nj']; [apply nth_error_upd_eq; auto|]. rewrite nth_error_upd_neq by lia. apply (B Hs j u); auto.
           destruct (Nat.lt_ge_cases j q); auto. rewrite (Nn j) in Nj by lia. discriminate.
      * eexists. split; [reflexivity|]. pose proof (scan_spec K (skipn (S q) l) (S q)) as Q. rewrite Sc' in Q. apply at_end; [|rewrite <- Hl, skipn_all; reflexivity|auto].
        rewrite app_length, (split_at q t Nq), Q, Et, !app_length. cbn. lia.
    + eexists. split; [reflexivity|]. apply (at_tree _ q q t (d ++ [e]) e' r); auto.
      * rewrite (skipn_cut _ _ _ Nq). reflexivity.
      * rewrite Et, <- app_assoc. reflexivity.
      * rewrite app_length. cbn. lia.
      * apply nth_error_upd_eq; auto.
      * rewrite length_upd. auto.
      * intros j Hj. rewrite nth_error_upd_neq by lia. apply A. lia.
      * intros Hs j u Hj Nj. rewrite nth_error_upd_neq by lia. eapply B; eauto.
Qed.

Lemma at_val k it : at_ k it -> k < length W -> nth_error W k = Some (ei_ptr it).
Proof.
  intros H Hk. inversion H as [k0 e Ne|k0 q i t d e r curr dist D Sc Nq Et Ek Nc Lc A B|k0 i curr dist Ek Sc D]; subst; cbn [ei_ptr]; [| |lia].
  - rewrite nth_error_app1; auto. apply nth_error_Some. congruence.
  - rewrite nth_error_app2 by lia. rewrite (split_at q t Nq), nth_error_app2 by lia. rewrite nth_error_app1 by (rewrite Et, app_length; cbn; lia).
    rewrite Et, nth_error_app2 by lia. match goal with |- nth_error _ ?x = _ => replace x with 0 by lia end. reflexivity.
Qed.
Lemma at_le k it : at_ k it -> k <= length W.
Proof.
  intros H. inversion H as [k0 e Ne|k0 q i t d e r curr dist D Sc Nq Et Ek Nc Lc A B|k0 i curr dist Ek Sc D]; subst; auto.
  - rewrite app_length. assert (k < length pre) by (apply nth_error_Some; congruence). lia.
  - rewrite app_length, (split_at q t Nq), Et, !app_length. cbn. lia.
Qed.
Lemma at_last it : at_ (length W) it -> ei_ptr it = MAXE.
Proof.
  intros H. inversion H as [k0 e Ne|k0 q i t d e r curr dist D Sc Nq Et Ek Nc Lc A B|k0 i curr dist Ek Sc D]; subst; auto.
  - exfalso. assert (length (pre ++ ks_edges K l) < length pre) by (apply nth_error_Some; congruence). rewrite app_length in *. lia.
  - exfalso. rewrite app_length, (split_at q t Nq), Et, !app_length in Ek. cbn in Ek. lia.
Qed.
Lemma at_loop m : forall k it, length W - k <= m -> at_ k it -> edge_loop K it (skipn k W).
Proof.
  induction m as [|m IH]; intros k it Hm H; pose proof (at_le k it H) as Hle.
  - assert (k = length W) by lia. subst k. rewrite skipn_all. apply edge_end. apply at_last. exact H.
  - destruct (Nat.eq_dec k (length W)) as [->|Nk]; [rewrite skipn_all; apply edge_end, at_last, H|].
    destruct (at_next k it H ltac:(lia)) as (it' & E & H'). pose proof (at_val k it H ltac:(lia)) as Nv. rewrite (skipn_cut _ _ _ Nv).
    apply visits_step with (it' := it'); auto; [|apply IH; auto; lia]. unfold eit_at_end. destruct (eeqb (ei_ptr it) MAXE) eqn:Ee; auto. apply eeqb_eq in Ee. exfalso. apply NM.
    rewrite <- Ee. eapply nth_error_In; eauto.
Qed.
(** ++ at the end stays there *)
Lemma end_next it : at_ (length W) it -> exists it', eit_next K it = Ok it' /\ at_ (length W) it'.
Proof.
  intros H. inversion H as [k0 e Ne|k0 q i t d e r curr dist D Sc Nq Et Ek Nc Lc A B|k0 i curr dist Ek Sc D]; subst.
  - exfalso. assert (length (pre ++ ks_edges K l) < length pre) by (apply nth_error_Some; congruence). rewrite app_length in *. lia.
  - exfalso. rewrite app_length, (split_at q t Nq), Et, !app_length in Ek. cbn in Ek. lia.
  - unfold eit_next. cbn [ei_c0 ei_ks ei_dist ei_curr ei_i]. destruct D as [D|(-> & D & D2)].
    + destruct (Z.ltb_spec dist (Z.of_nat (c0_size c))); [lia|]. rewrite Sc. eexists. split; [reflexivity|]. apply at_end; auto.
      destruct (Nat.max_spec RS i) as [[_ ->]|[X ->]]; auto. rewrite <- Hl, skipn_all. reflexivity.
    + rewrite D. destruct (scan K l 0) as [q|] eqn:Sq.
      * exfalso. pose proof (scan_at l 0 q Sq) as (_ & (t & Nq) & _). apply (Hfull t); [eapply nth_error_In; eauto|].
        rewrite (split_at q t Nq) in D2. apply app_eq_nil in D2. destruct D2 as [_ D2]. apply app_eq_nil in D2. apply D2.
      * eexists. split; [reflexivity|]. apply at_end; auto. left. lia.
Qed.
End At.
End P.
