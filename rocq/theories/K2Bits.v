(** * K2Bits: the contract of K2.v met by bitmaps.

    A tree is the pair of bitmaps T and L of a k^2-tree (k = 2, [Union.bt], the representation union_support.hpp reads and writes)
    and the number of erased edges.  k2_tree(edges, n) is [built]; adj is navigation in the bitmaps ([badj]); neigh and the edge
    iterator are the positions where adj answers true, row by row.  Simplifications: erase and unionOp build new bitmaps (the
    incremental union of the repository, which does it in place, is Union.v); adj_forced is adj. *)
From Verif Require Import Base Spec K2 Thresholds C0 Bits Union UnionProof UnionMerge UnionEdges Prop_Union Munro MunroSerial.

(** the edges of a tree, row by row *)
Definition bedges (t : bt) : list edge :=
  flat_map (fun x => map (pair x) (bneigh t x)) (map N.of_nat (seq 0 (N.to_nat (b_n t)))).

Section K2Bits.
Variable hgt : N -> nat.

Definition K2Bits : k2impl := {|
  kt := bt * N;
  kt_build := fun es n => (built hgt n es, 0%N);
  kt_new := fun n => (built hgt n [], 0%N);
  kt_null := (mkbt 0 0 [] [] 0, 0%N);
  kt_size := fun t => b_n (fst t);
  kt_adj := fun t => badj (fst t);
  kt_adjf := fun t x y => (badj (fst t) x y, t);
  kt_erase := fun t x y => if badj (fst t) x y
    then (true, (built hgt (b_n (fst t)) (filter (fun e => negb (eeqb (x, y) e)) (bedges (fst t))), (snd t + 1)%N))
    else (false, t);
  kt_union := fun a b => (built hgt (b_n (fst a)) (bedges (fst a) ++ bedges (fst b)), 0%N);
  kt_total := fun t => (b_m (fst t) + snd t)%N;
  kt_marked := snd;
  kt_neigh := fun t => bneigh (fst t);
  kt_edges := fun t => bedges (fst t);
  kt_eq := fun a b => bt_eqb (fst a) (fst b) && N.eqb (snd a) (snd b)
|}.

Lemma lbits_nil h : lbits h [] = [].
Proof. induction h as [|h IH]; [reflexivity|]. cbn [lbits]. destruct h; [reflexivity|exact IH]. Qed.
Lemma tofl_kids_nil h : kids [tofl (S h) []] = [].
Proof. reflexivity. Qed.

Section N.
Variable n : N.
Hypothesis H1 : 1 <= hgt n.
Hypothesis Hn : (n <= 2 ^ N.of_nat (hgt n))%N.
Notation rng es := (Forall (fun e => fst e < n /\ snd e < n)%N es).

Lemma built_total_nil : b_m (built hgt n []) = 0%N.
Proof.
  unfold built, etrie, paths. cbn [map b_m]. destruct (hgt n) as [|h]; [lia|]. cbn [lbits]. destruct h as [|h]; [reflexivity|].
  rewrite tofl_kids_nil, lbits_nil. reflexivity.
Qed.
Lemma in_upto x : In x (map N.of_nat (seq 0 (N.to_nat n))) <-> (x < n)%N.
Proof using. clear H1 Hn.
  rewrite in_map_iff. split.
  - intros (i & <- & I). apply in_seq in I. lia.
  - intros G. exists (N.to_nat x). split; [lia|apply in_seq; lia].
Qed.
Lemma nodup_upto : NoDup (map N.of_nat (seq 0 (N.to_nat n))).
Proof using. clear H1 Hn. apply FinFun.Injective_map_NoDup; [intros a b; lia|apply seq_NoDup]. Qed.
Lemma In_bneigh es x y : rng es -> (x < n)%N -> In y (bneigh (built hgt n es) x) <-> In (x, y) es.
Proof.
  intros F Hx. unfold bneigh. cbn [b_n built]. rewrite filter_In, in_upto. split.
  - intros [Hy G]. apply built_adj in G; auto.
  - intros G. assert (Hy : (y < n)%N) by (rewrite Forall_forall in F; apply F in G; apply G). split; auto. apply built_adj; auto.
Qed.
Lemma nodup_bneigh t x : b_n t = n -> NoDup (bneigh t x).
Proof using. clear H1 Hn. intros E. unfold bneigh. rewrite E. apply NoDup_filter, nodup_upto. Qed.
Lemma In_bedges es e : rng es -> In e (bedges (built hgt n es)) <-> In e es.
Proof.
  intros F. unfold bedges. cbn [b_n built]. rewrite in_flat_map. destruct e as [x y]. split.
  - intros (x' & Hx & G). apply in_upto in Hx. apply in_map_iff in G. destruct G as (y' & E & G). injection E as -> ->. apply In_bneigh in G; auto.
  - intros G. assert (Hx : (x < n)%N) by (rewrite Forall_forall in F; apply F in G; apply G). exists x. split; [apply in_upto; auto|].
    apply in_map_iff. exists y. split; auto. apply In_bneigh; auto.
Qed.
Lemma bedges_In es e : rng es -> In e (bedges (built hgt n es)) -> In e es.
Proof. intros F G. apply In_bedges; auto. Qed.
Lemma nodup_bedges t : b_n t = n -> NoDup (bedges t).
Proof using. clear H1 Hn.
  intros E. unfold bedges. rewrite E. pose proof nodup_upto as D. revert D. generalize (map N.of_nat (seq 0 (N.to_nat n))). intros l D.
  induction D as [|x l Hx D IH]; cbn [flat_map]; [constructor|]. apply NoDup_app. split; [|split; [exact IH|]].
  - apply FinFun.Injective_map_NoDup; [intros a b G; congruence|apply nodup_bneigh; auto].
  - intros e A B. apply in_map_iff in A. destruct A as (y & <- & _). apply in_flat_map in B. destruct B as (x' & Hx' & B).
    apply in_map_iff in B. destruct B as (y' & E' & _). injection E' as -> _. auto.
Qed.
Lemma built_count es : rng es -> b_m (built hgt n es) = N.of_nat (length (bedges (built hgt n es))).
Proof.
  intros F. assert (X : built hgt n (bedges (built hgt n es)) = built hgt n es) by (apply built_ext; intros e; apply In_bedges; auto).
  destruct (bedges (built hgt n es)) as [|e l] eqn:E.
  - cbn [length]. rewrite <- X. apply built_total_nil.
  - assert (F' : rng (e :: l)) by (apply Forall_forall; intros f G; rewrite <- E in G; apply bedges_In in G; auto; rewrite Forall_forall in F; apply F; auto).
    assert (D : NoDup (e :: l)) by (rewrite <- E; apply nodup_bedges; reflexivity).
    rewrite <- X. apply built_total; auto. discriminate.
Qed.
End N.

(** a tree over n vertices: the bitmaps of some set of edges *)
Definition bwf (n : N) (t : bt * N) : Prop := (2 <= n)%N /\
  exists es, Forall (fun e => fst e < n /\ snd e < n)%N es /\ fst t = built hgt n es.

Hypothesis HO : forall n, (2 <= n)%N -> 1 <= hgt n /\ (n <= 2 ^ N.of_nat (hgt n))%N.

Definition K2Bits_laws : k2laws K2Bits.
Proof using HO.
  refine {| wf := (bwf : N -> kt K2Bits -> Prop); known := fun (t : kt K2Bits) e => (2 <= b_n (fst t))%N /\ In e (bedges (fst t)) |};
    cbn [kt kt_build kt_new kt_null kt_size kt_adj kt_adjf kt_erase kt_union kt_total kt_marked kt_neigh kt_edges kt_eq K2Bits fst snd].
  - intros n es Hn Hne Hnd Hr. destruct (HO n Hn) as [A B]. split; [split; [auto|exists es; auto]|]. split; [auto|]. intros e. apply In_bedges; auto.
  - intros n Hn. destruct (HO n Hn) as [A B]. split; [split; [auto|exists []; auto]|]. split; [auto|].
    destruct (bedges (built hgt n [])) as [|e l] eqn:E; auto. exfalso. assert (X : In e (bedges (built hgt n []))) by (rewrite E; left; auto). apply bedges_In in X; auto.
  - reflexivity.
  - intros n [t m] [Hn (es & F & E)]. cbn [fst snd] in *. subst. reflexivity.
  - intros n [t m] [Hn (es & F & E)]. cbn [fst snd] in *. subst. apply (nodup_bedges n). reflexivity.
  - intros n [t m] e [Hn (es & F & E)] G. cbn [fst snd] in *. subst. destruct (HO n Hn) as [A B]. apply bedges_In in G; auto. rewrite Forall_forall in F; apply F; auto.
  - intros n [t m] x y [Hn (es & F & E)] Hx Hy. cbn [fst snd] in *. subst. destruct (HO n Hn) as [A B]. rewrite In_bedges by auto. apply built_adj; auto.
  - intros n [t m] x [Hn (es & F & E)] Hx. cbn [fst snd] in *. subst. apply (nodup_bneigh n). reflexivity.
  - intros n [t m] x y [Hn (es & F & E)] Hx. cbn [fst snd] in *. subst. destruct (HO n Hn) as [A B]. rewrite In_bedges by auto. apply In_bneigh; auto.
  - intros n [t m] [Hn (es & F & E)]. cbn [fst snd] in *. subst. destruct (HO n Hn) as [A B]. rewrite built_count by auto. reflexivity.
  - intros n [t m] x y [Hn (es & F & E)] Hx Hy. cbn [fst snd] in *. subst. destruct (HO n Hn) as [A B]. rewrite In_bedges by auto.
    rewrite <- (built_adj hgt n A B es x y) by auto. destruct (badj (built hgt n es) x y); cbn [fst]; tauto.
  - intros n [t m] x y [Hn (es & F & E)] Hx Hy. cbn [fst snd] in *. subst. destruct (HO n Hn) as [A B].
    pose proof (built_adj hgt n A B es x y F Hx Hy) as Ad. destruct (badj (built hgt n es) x y); cbn [fst snd].
    + cbn [b_n built]. assert (F' : Forall (fun e => fst e < n /\ snd e < n)%N (filter (fun e => negb (eeqb (x, y) e)) (bedges (built hgt n es)))).
      { apply Forall_forall. intros e G. apply filter_In in G. destruct G as [G _]. apply bedges_In in G; auto. rewrite Forall_forall in F; apply F; auto. }
      split; [split; [auto|eexists; split; [exact F'|reflexivity]]|]. split; [|reflexivity].
      intros e. fold (built hgt n es). rewrite !In_bedges by auto. rewrite filter_In, In_bedges, negb_true_iff, eeqb_neq by auto. intuition.
    + split; [split; [auto|exists es; auto]|]. split; [|lia]. intros e. rewrite In_bedges by auto. split; [|tauto]. intros G. split; auto.
      intros ->. apply Ad in G. discriminate.
  - intros n [t m] [t' m'] [Hn (es & F & E)] [_ (es' & F' & E')]. cbn [fst snd] in *. subst. destruct (HO n Hn) as [A B]. cbn [b_n built].
    fold (built hgt n es). assert (R : Forall (fun e => fst e < n /\ snd e < n)%N (bedges (built hgt n es) ++ bedges (built hgt n es'))).
    { apply Forall_forall. intros e G. apply in_app_iff in G. rewrite Forall_forall in F, F'. destruct G as [G|G]; apply bedges_In in G; auto; apply Forall_forall; auto. }
    split; [split; [auto|eexists; split; [exact R|reflexivity]]|]. split; [|reflexivity]. intros e. rewrite In_bedges, in_app_iff by auto. reflexivity.
  - intros n [t m] e [Hn (es & F & E)] G. cbn [fst snd] in *. subst. auto.
  - intros n es e Hn Hne Hnd Hr [_ G]. destruct (HO n Hn) as [A B]. apply bedges_In in G; auto.
  - intros n e [Hn G]. cbn [b_n built] in Hn. destruct (HO n Hn) as [A B]. apply bedges_In in G; auto.
  - intros n [t m] x y e [Hn (es & F & E)] Hx Hy. cbn [fst snd] in *. subst. destruct (HO n Hn) as [A B].
    destruct (badj (built hgt n es) x y); cbn [fst snd]; auto. cbn [b_n built]. fold (built hgt n es).
    intros [_ G]. split; auto. apply bedges_In in G; auto; [apply filter_In in G; tauto|].
    apply Forall_forall. intros f Hf. apply filter_In in Hf. destruct Hf as [Hf _]. apply bedges_In in Hf; auto. rewrite Forall_forall in F; apply F; auto.
  - intros n [t m] [t' m'] e [Hn (es & F & E)] [_ (es' & F' & E')]. cbn [fst snd] in *. subst. destruct (HO n Hn) as [A B]. cbn [b_n built].
    fold (built hgt n es). fold (built hgt n es'). intros [_ G]. apply bedges_In in G; auto; [apply in_app_iff in G; tauto|].
    apply Forall_forall. intros f Hf. apply in_app_iff in Hf. rewrite Forall_forall in F, F'. destruct Hf as [Hf|Hf]; apply bedges_In in Hf; auto; apply Forall_forall; auto.
  - intros n [t m] x y [Hn (es & F & E)] Hx Hy. cbn [fst snd] in *. subst. destruct (HO n Hn) as [A B]. rewrite In_bedges by auto.
    pose proof (built_adj hgt n A B es x y F Hx Hy) as Ad. split; [rewrite Ad; cbn [b_n built]; tauto|].
    destruct (badj (built hgt n es) x y); auto. split; [split; [auto|exists es; auto]|]. split; [|auto].
    intros e. rewrite In_bedges by auto. split; [auto|]. intros [G|G]; auto. subst. apply Ad; auto.
  - reflexivity.
  - intros [t m]. cbn [fst snd]. apply andb_true_iff. split; [apply bt_eqb_eq; auto|apply N.eqb_refl].
  - intros n [t m] [t' m'] _ _ G. cbn [fst snd] in *. apply andb_true_iff in G. destruct G as [G _]. apply bt_eqb_eq in G. subst. tauto.
Defined.
End K2Bits.

(** with the height of exact arithmetic *)
Lemma lg_height n : (2 <= n)%N -> 1 <= lg n /\ (n <= 2 ^ N.of_nat (lg n))%N.
Proof.
  intros H. unfold lg. split; [lia|]. pose proof (N.log2_up_spec n ltac:(lia)) as [_ S1]. pose proof (N.log2_up_pos n ltac:(lia)).
  rewrite Nat.max_r by lia. rewrite N2Nat.id. exact S1.
Qed.
Definition K2Bits_lg_laws : k2laws (K2Bits lg) := K2Bits_laws lg lg_height.
