(** * MunroView: the iterators on the incremental-union graph.

    The member functions edge_begin, node_begin, neighbour_begin, first_container and k_collections of DKtree_delay_munro
    (DKtree_delay_.hpp:189-232) are those of DKtree (DKtree.hpp:266-297) up to the class name: they build the same iterator
    classes over the buffer, k_collection, max_r and n_vertices.  union_support, tmp_edge and k_collection_copy are not looked
    at.  Hence the loops of [Iter] and the searches of [Algo] on [mdk g], with the trees of K2Bits.v. *)
From Verif Require Import Base Spec AlgoSpec Thresholds K2 K2Bits C0 C0Proof DK DKProof DKHist Iter IterProof Algo AlgoProof TriProof Prop_Algo ViewProof
  Bits Union UnionProof UnionMerge UnionEdges Prop_Union Munro MunroProof MunroSerial Prop_Munro.

Definition mtree (t : bt) : bt * N := (t, 0%N).
Definition mdk (hgt : N -> nat) (g : mg) : dk (K2Bits hgt) :=
  @mkdk (K2Bits hgt) (m_maxr g) (m_n g) (m_nt g) (m_c0 g) (map (option_map mtree) (m_ks g)).

Section V.
Context (T : thresholds) (hgt : N -> nat) (HG : forall m, (2 <= m)%N -> 1 <= hgt m /\ (m <= 2 ^ N.of_nat (hgt m))%N).
Notation K := (K2Bits hgt).
Notation L := (K2Bits_laws hgt HG).

(** A call of unionOperation that does not finish only takes trees out of the collection. *)
Definition fewer (ks ks' : list (option bt)) : Prop := length ks' = length ks /\
  forall i, nth_error ks' i = nth_error ks i \/ (i < length ks /\ nth_error ks' i = Some None).
Lemma fewer_refl ks : fewer ks ks. Proof. split; auto. Qed.
Lemma fewer_trans a b c : fewer a b -> fewer b c -> fewer a c.
Proof.
  intros [L1 A] [L2 B]. split; [congruence|]. intros i. destruct (B i) as [E|[E1 E2]]; [rewrite E; auto|]. right. split; [lia|auto].
Qed.
Lemma fewer_upd ks i : fewer ks (upd ks i None).
Proof.
  split; [apply len_upd|]. intros j. rewrite nth_upd. destruct (Nat.eqb_spec i j) as [->|]; cbn [andb]; [|auto].
  destruct (Nat.ltb_spec j (length ks)); auto.
Qed.
Lemma op_fewer : forall fuel ks u ks' u', union_op K4 hgt fuel ks u = Ok (ks', u') -> s_fin u' = false -> fewer ks ks'.
Proof.
  induction fuel as [|f IH]; intros ks u ks' u' E Fn; cbn [union_op] in E;
  (destruct (s_fin u); [injection E as <- <-; apply fewer_refl|]);
  (destruct (nth_error ks (s_ki u)) as [[B|]|]; try discriminate; destruct (s_tmp u) as [A|]; try discriminate);
  (destruct (s_q u) as [|[[l rA] rB] q]; try discriminate);
  (match type of E with obind ?x _ = _ => destruct x as [[lf s]|]; cbn [obind] in E; try discriminate end);
  (destruct (l_q s); [|injection E as <- <-; apply fewer_refl]);
  (destruct (us_result hgt A s) as [A'|]; cbn [obind] in E; try discriminate);
  (destruct (first_tree _ _ _) as [j|]; [|destruct (set _ _ _); cbn [obind] in E; try discriminate; injection E as <- <-; discriminate]);
  (destruct (lf =? 0); [injection E as <- <-; apply fewer_upd|]); try discriminate.
  eapply fewer_trans; [apply fewer_upd|]. eapply IH; eauto.
Qed.
Lemma fin_stays c : forall ks u ks' u', union_calls K4 hgt c ks u = Ok (ks', u') -> s_fin u' = false -> s_fin u = false.
Proof.
  destruct c as [|c]; intros ks u ks' u' E Fn; [cbn in E; congruence|].
  destruct (s_fin u) eqn:X; auto. rewrite fin_calls in E by auto. congruence.
Qed.
Lemma calls_fewer : forall c ks u ks' u', union_calls K4 hgt c ks u = Ok (ks', u') -> s_fin u' = false -> fewer ks ks'.
Proof.
  induction c as [|c IH]; intros ks u ks' u' E Fn; cbn [union_calls] in E; [injection E as <- <-; apply fewer_refl|].
  destruct (union_op K4 hgt RSZ ks u) as [[k1 u1]|] eqn:E1; cbn [obind] in E; [|discriminate].
  pose proof (fin_stays _ _ _ _ _ E Fn) as F1. eapply fewer_trans; [eapply op_fewer; eauto|]. eapply IH; eauto.
Qed.
Lemma new_same t esz ks mi ks' u : us_new t esz ks mi = Ok (ks', u) -> s_fin u = false -> ks' = ks.
Proof.
  unfold us_new. destruct (esz =? 0); [discriminate|]. match goal with |- context [if ?b then UB else _] => destruct b end; [discriminate|].
  destruct (first_tree ks 0 (S mi)); [intros E; injection E as <- <-; auto|].
  destruct (set ks mi (Some t)); cbn [obind]; [|discriminate]. intros E; injection E as <- <-. discriminate.
Qed.

Section N.
Context (n : N) (Hn2 : (2 <= n)%N).

(** the trees of the collection, at any moment *)
Lemma phase_fewer hs g Ls P B c : minv hgt n hs g Ls P B c -> fewer (lev hgt n Ls) (m_ks g).
Proof using.
  intros V. destruct (mv_phase _ _ _ _ _ _ _ _ V) as [[_ [E _]]|(ks0 & u0 & mi & conv & _ & _ & _ & E1 & E2 & E3 & _)].
  - rewrite E. apply fewer_refl.
  - assert (F0 : s_fin u0 = false) by (eapply fin_stays; eauto). rewrite <- (new_same _ _ _ _ _ _ E1 F0). eapply calls_fewer; eauto.
Qed.
Lemma tree_at hs g Ls P B c i t : minv hgt n hs g Ls P B c -> nth_error (m_ks g) i = Some (Some t) ->
  exists l, nth_error Ls i = Some (Some l) /\ t = built hgt n l.
Proof using.
  intros V E. destruct (phase_fewer _ _ _ _ _ _ V) as [_ F]. destruct (F i) as [G|[_ G]]; [|congruence]. rewrite E in G. symmetry in G.
  unfold lev in G. rewrite nth_error_map in G. destruct (nth_error Ls i) as [[l|]|]; try discriminate. injection G as <-. eauto.
Qed.
Lemma lev_rng hs g Ls P B c i l : minv hgt n hs g Ls P B c -> nth_error Ls i = Some (Some l) -> in_rng n l /\ l <> [] /\ forall e, In e l -> In e (tl Ls).
Proof using.
  intros V E. apply nth_error_In in E. assert (S : forall e, In e l -> In e (tl Ls)).
  { intros e Ie. unfold tl. apply in_concat. exists l. split; auto. apply In_somes; auto. }
  split; [|split; [apply (mv_ne _ _ _ _ _ _ _ _ V l E)|exact S]]. eapply rng_incl; [|exact S]. apply (minv_rng _ _ _ _ _ _ _ _ V).
Qed.

Lemma ks_at (l : list (option bt)) i t : nth_error (map (option_map mtree) l) i = Some (Some t) -> exists b, nth_error l i = Some (Some b) /\ t = mtree b.
Proof using. rewrite nth_error_map. destruct (nth_error l i) as [[b|]|]; try discriminate. intros E. injection E as <-. eauto. Qed.

Lemma mdk_holds hs g Ls P B c : minv hgt n hs g Ls P B c -> top_ok g -> holds K L n (mdk hgt g) (lv B).
Proof using Hn2.
  intros V Tp. assert (Tr : forall i t, nth_error (ks (mdk hgt g)) i = Some (Some t) ->
     exists l, nth_error Ls i = Some (Some l) /\ t = mtree (built hgt n l) /\ nth_error (m_ks g) i = Some (Some (built hgt n l))).
  { intros i t G. cbn [mdk ks] in G. apply ks_at in G. destruct G as (b & G & ->). destruct (tree_at _ _ _ _ _ _ _ _ V G) as (l & E & ->). eauto. }
  destruct (minv_rng _ _ _ _ _ _ _ _ V) as (RB & _ & _). destruct (HG n Hn2) as [H1 Hh]. constructor; cbn [mdk nv ks max_r C0_].
  - apply (mv_n _ _ _ _ _ _ _ _ V).
  - rewrite map_length. apply Tp.
  - apply Tp.
  - apply (mv_c0 _ _ _ _ _ _ _ _ V).
  - unfold all_live, lv. apply Forall_forall. intros e I. apply in_map_iff in I. destruct I as [? [<- _]]. reflexivity.
  - rewrite live_lv. exact RB.
  - apply Forall_forall. intros [t|] I; auto. apply In_nth_error in I. destruct I as [i I]. destruct (Tr i t I) as (l & E & -> & _).
    destruct (lev_rng _ _ _ _ _ _ _ _ V E) as (R & _ & _). split; [auto|]. exists l. split; [exact R|reflexivity].
  - intros t I. apply In_nth_error in I. destruct I as [i I]. destruct (Tr i t I) as (l & E & -> & _).
    destruct (lev_rng _ _ _ _ _ _ _ _ V E) as (R & Ne & _). destruct l as [|e l]; [congruence|]. intros G. cbn [kt_edges K2Bits mtree fst] in G.
    assert (X : In e (bedges (built hgt n (e :: l)))) by (apply In_bedges; auto; left; auto). rewrite G in X. destruct X.
  - intros i t G. destruct (Tr i t G) as (l & E & -> & F). exact (to_above _ Tp _ _ F).
Qed.
End N.
End V.
