(** * UnionEdges: the k^2-tree of a list of edges, and what the incremental union computes in those terms. *)
From Verif Require Import Base Bits Union UnionProof UnionMerge.

(** ** The path of an edge: one digit per level, most significant first (k = 2) *)
Fixpoint epath (h : nat) (x y : N) : list nat :=
  match h with
  | O => []
  | S h => (if N.testbit x (N.of_nat h) then 2 else 0) + (if N.testbit y (N.of_nat h) then 1 else 0) :: epath h x y
  end.
Lemma epath_length h x y : length (epath h x y) = h.
Proof. induction h as [|h IH]; cbn; auto. Qed.
Lemma epath_range h x y : Forall (fun d => d < K4) (epath h x y).
Proof. induction h as [|h IH]; cbn; constructor; auto. destruct (N.testbit x _), (N.testbit y _); cbn; lia. Qed.
Lemma epath_bits h : forall x y x' y', epath h x y = epath h x' y' -> forall i, (i < N.of_nat h)%N -> N.testbit x i = N.testbit x' i /\ N.testbit y i = N.testbit y' i.
Proof.
  induction h as [|h IH]; intros x y x' y' E i Hi; [lia|]. cbn [epath] in E. injection E as E1 E2.
  destruct (N.eq_dec i (N.of_nat h)) as [->|Ne]; [|apply IH; auto; lia].
  destruct (N.testbit x _), (N.testbit y _), (N.testbit x' _), (N.testbit y' _); cbn in E1; try lia; auto.
Qed.
Lemma testbit_small x h i : (x < 2 ^ h)%N -> (h <= i)%N -> N.testbit x i = false.
Proof.
  intros Hx Hi. destruct (N.eq_dec x 0) as [->|Nz]; [apply N.bits_0|]. apply N.bits_above_log2.
  apply N.log2_lt_pow2 in Hx; lia.
Qed.
Lemma epath_inj h x y x' y' : (x < 2 ^ N.of_nat h)%N -> (y < 2 ^ N.of_nat h)%N -> (x' < 2 ^ N.of_nat h)%N -> (y' < 2 ^ N.of_nat h)%N ->
  epath h x y = epath h x' y' -> (x, y) = (x', y').
Proof.
  intros Hx Hy Hx' Hy' E. pose proof (epath_bits h x y x' y' E) as B. f_equal; apply N.bits_inj; intros i;
    (destruct (N.lt_ge_cases i (N.of_nat h)) as [L|L]; [apply (B i L)|rewrite !(testbit_small _ (N.of_nat h)) by auto; reflexivity]).
Qed.

(** ** The trie of a set of paths *)
Definition sub (d : nat) (ps : list (list nat)) : list (list nat) :=
  flat_map (fun p => match p with x :: q => if x =? d then [q] else [] | [] => [] end) ps.
Fixpoint tofl (h : nat) (ps : list (list nat)) : trie :=
  match h with
  | O => Nd []
  | S h => Nd (map (fun d => match sub d ps with [] => None | l => Some (tofl h l) end) (seq 0 K4))
  end.
Lemma In_sub d ps q : In q (sub d ps) <-> In (d :: q) ps.
Proof.
  unfold sub. rewrite in_flat_map. split.
  - intros [[|x p] [Hp Hq]]; [destruct Hq|]. destruct (Nat.eqb_spec x d) as [->|]; [|destruct Hq]. destruct Hq as [<-|[]]. exact Hp.
  - intros Hp. exists (d :: q). split; auto. rewrite Nat.eqb_refl. left. reflexivity.
Qed.
Lemma sub_app d a b : sub d (a ++ b) = sub d a ++ sub d b.
Proof. apply flat_map_app. Qed.
Lemma tofl_wf h : forall ps, twf K4 h (tofl h ps).
Proof.
  induction h as [|h IH]; intros ps; [exact I|]. cbn [tofl twf cs]. split; [rewrite map_length, seq_length; reflexivity|].
  intros c Hc. apply in_map_iff in Hc. destruct Hc as [d [E _]]. destruct (sub d ps); [discriminate|]. injection E as <-. apply IH.
Qed.
Lemma sub_len h ps d : Forall (fun p => length p = S h) ps -> Forall (fun p => length p = h) (sub d ps).
Proof. rewrite !Forall_forall. intros F q Hq. apply In_sub in Hq. specialize (F _ Hq). cbn in F. lia. Qed.
Lemma tofl_mem h : forall ps p, Forall (fun p => length p = h) ps -> (ps <> [] \/ 1 <= h) -> length p = h -> Forall (fun d => d < K4) p ->
  (tmem h (tofl h ps) p = true <-> In p ps).
Proof.
  induction h as [|h IH]; intros ps p Hf Hn Hl Hr.
  { destruct p; [|discriminate]. cbn. split; auto. intros _. destruct ps as [|q ps]; [destruct Hn; [congruence|lia]|].
    inversion Hf as [|? ? Hq _]; subst. destruct q; [left; reflexivity|discriminate]. }
  destruct p as [|d p]; [discriminate|]. inversion Hr as [|? ? Hd Hr']; subst. cbn [tofl tmem cs].
  rewrite nth_error_map. assert (E : nth_error (seq 0 K4) d = Some d).
  { rewrite (nth_error_nth' _ 0) by (rewrite seq_length; auto). rewrite seq_nth by auto. reflexivity. }
  rewrite E. cbn [option_map]. rewrite <- In_sub. pose proof (sub_len h ps d Hf) as Hs. destruct (sub d ps) as [|q l].
  - cbn. split; [discriminate|tauto].
  - apply IH; auto. left. discriminate.
Qed.
Lemma zipo_map {A} (f : A -> A -> A) (F G : nat -> option A) l : zipo f (map F l) (map G l) =
  map (fun d => match F d, G d with Some u, Some v => Some (f u v) | Some u, None => Some u | None, o => o end) l.
Proof. induction l as [|x l IH]; cbn; [reflexivity|]. rewrite IH. reflexivity. Qed.
Lemma tofl_tun h : forall a b, tun h (tofl h a) (tofl h b) = tofl h (a ++ b).
Proof.
  induction h as [|h IH]; intros a b; [reflexivity|]. cbn [tofl tun cs]. rewrite zipo_map. f_equal. apply map_ext. intros d.
  rewrite sub_app. destruct (sub d a) as [|p1 l1] eqn:E1, (sub d b) as [|p2 l2] eqn:E2; cbn [app]; try reflexivity.
  - rewrite app_nil_r. reflexivity.
  - rewrite IH. reflexivity.
Qed.
Lemma tofl_ext h : forall a b, (forall p, In p a <-> In p b) -> tofl h a = tofl h b.
Proof.
  induction h as [|h IH]; intros a b E; [reflexivity|]. cbn [tofl]. f_equal. apply map_ext. intros d.
  assert (Es : forall q, In q (sub d a) <-> In q (sub d b)) by (intros q; rewrite !In_sub; apply E).
  destruct (sub d a) as [|p1 l1] eqn:E1, (sub d b) as [|p2 l2] eqn:E2; auto.
  - destruct (proj2 (Es p2) (or_introl eq_refl)).
  - destruct (proj1 (Es p1) (or_introl eq_refl)).
  - f_equal. apply IH. exact Es.
Qed.

(** ** Number of leaves *)
Fixpoint leaves (h : nat) (ns : list trie) : nat := match h with O => length ns | S h => leaves h (kids ns) end.
Lemma ones_lbits h : forall ns, ones (lbits (S h) ns) = leaves (S h) ns.
Proof.
  induction h as [|h IH]; intros ns; [cbn [lbits leaves]; apply ones_rows|]. change (lbits (S (S h)) ns) with (lbits (S h) (kids ns)). rewrite IH. reflexivity.
Qed.
Lemma leaves_app h : forall a b, leaves h (a ++ b) = leaves h a + leaves h b.
Proof. induction h as [|h IH]; intros a b; cbn [leaves]; [apply app_length|]. rewrite kids_app. apply IH. Qed.
Lemma sub_count ps : Forall (fun p => exists d q, p = d :: q /\ d < K4) ps -> length ps = length (sub 0 ps) + length (sub 1 ps) + length (sub 2 ps) + length (sub 3 ps).
Proof.
  induction 1 as [|p ps (d & q & -> & Hd) F IH]; [reflexivity|]. cbn [sub flat_map length] in *. unfold sub in IH.
  rewrite !app_length. destruct d as [|[|[|[|d]]]]; [| | | |lia]; cbn [Nat.eqb length app]; lia.
Qed.
Lemma sub_nodup d ps : NoDup ps -> NoDup (sub d ps).
Proof.
  induction 1 as [|p ps Hp Hn IH]; cbn; [constructor|]. destruct p as [|x q]; auto. destruct (Nat.eqb_spec x d) as [->|]; auto.
  cbn. constructor; auto. fold (sub d ps). rewrite In_sub. exact Hp.
Qed.
Definition okp (h : nat) (p : list nat) := length p = h /\ Forall (fun d => d < K4) p.
Lemma okp_sub h ps d : Forall (okp (S h)) ps -> Forall (okp h) (sub d ps).
Proof. rewrite !Forall_forall. intros F q Hq. apply In_sub in Hq. specialize (F _ Hq). destruct F as [F1 F2]. inversion F2; subst. split; auto. Qed.
Lemma leaves_tofl h : forall ps, Forall (okp h) ps -> NoDup ps -> ps <> [] -> leaves h [tofl h ps] = length ps.
Proof.
  induction h as [|h IH]; intros ps Hf Hn Hne.
  { cbn. destruct ps as [|p [|q ps]]; [congruence|reflexivity|]. inversion Hf as [|? ? [Hp _] Hf']; subst. inversion Hf' as [|? ? [Hq _] _]; subst.
    destruct p, q; try discriminate. inversion Hn as [|? ? X _]; subst. destruct X. left. reflexivity. }
  rewrite (sub_count ps).
  2:{ eapply Forall_impl; [|exact Hf]. intros p [Hp1 Hp2]. destruct p as [|d q]; [discriminate|]. inversion Hp2; subst. eauto. }
  cbn [leaves tofl kids flat_map cs]. rewrite app_nil_r.
  assert (G : forall d, leaves h (somes [match sub d ps with [] => None | l => Some (tofl h l) end]) = length (sub d ps)).
  { intros d. pose proof (okp_sub h ps d Hf) as Hs. pose proof (sub_nodup d ps Hn) as Hd. destruct (sub d ps) as [|q l] eqn:E.
    - cbn. clear. induction h as [|h IH]; auto.
    - cbn [somes]. apply IH; auto. discriminate. }
  cbn [seq map].
  change (leaves h (somes ([match sub 0 ps with [] => None | l => Some (tofl h l) end] ++ [match sub 1 ps with [] => None | l => Some (tofl h l) end] ++
     [match sub 2 ps with [] => None | l => Some (tofl h l) end] ++ [match sub 3 ps with [] => None | l => Some (tofl h l) end])) =
     length (sub 0 ps) + length (sub 1 ps) + length (sub 2 ps) + length (sub 3 ps)).
  rewrite !somes_app, !leaves_app, !G. lia.
Qed.

(** ** k2_tree(edges, n), called at union_support.hpp:69: the bitmaps of the trie of the paths of the edges *)
Section Edges.
Variable hgt : N -> nat.
Variable n : N.
Notation H := (hgt n).
Definition paths (es : list edge) : list (list nat) := map (fun e : edge => epath H (fst e) (snd e)) es.
Definition etrie (es : list edge) : trie := tofl H (paths es).
Definition built (es : list edge) : bt :=
  mkbt n H (tbits H [etrie es]) (lbits H [etrie es]) (N.of_nat (ones (lbits H [etrie es]))).
(** adj: textbook navigation of T followed by L *)
Definition badj (b : bt) (x y : N) : bool := nav K4 (b_t b ++ b_l b) (b_h b) 0 (epath (b_h b) x y).

Hypothesis H1 : 1 <= H.
Hypothesis Hn : (n <= 2 ^ N.of_nat H)%N.

Lemma repr_built es : repr hgt n (built es) (etrie es).
Proof. unfold repr, built. cbn. sp; auto. apply tofl_wf. Qed.
Lemma repr_unique A es : repr hgt n A (etrie es) -> A = built es.
Proof. intros (A1 & A2 & A3 & A4 & A5 & A6). destruct A as [an ah at_ al am]. cbn [b_n b_h b_t b_l b_m] in *. unfold built. subst. reflexivity. Qed.
Lemma In_paths es x y : Forall (fun e => fst e < n /\ snd e < n)%N es -> (x < n)%N -> (y < n)%N -> (In (epath H x y) (paths es) <-> In (x, y) es).
Proof.
  clear H1. intros F Hx Hy. unfold paths. rewrite in_map_iff. split.
  - intros [[x' y'] [E He]]. rewrite Forall_forall in F. specialize (F _ He). cbn [fst snd] in *.
    assert (X : (x', y') = (x, y)) by (apply (epath_inj H); auto; lia). rewrite <- X. exact He.
  - intros He. exists (x, y). auto.
Qed.
Lemma paths_ok es : Forall (okp H) (paths es).
Proof. apply Forall_forall. intros p Hp. apply in_map_iff in Hp. destruct Hp as [e [<- _]]. split; [apply epath_length|apply epath_range]. Qed.

(** adj answers membership in the list of edges the tree was built from. *)
Theorem built_adj es x y : Forall (fun e => fst e < n /\ snd e < n)%N es -> (x < n)%N -> (y < n)%N ->
  (badj (built es) x y = true <-> In (x, y) es).
Proof.
  intros F Hx Hy. unfold badj, built. cbn [b_t b_l b_h]. rewrite <- stream_split.
  rewrite nav_trie by (try apply tofl_wf; apply epath_range).
  rewrite <- In_paths by auto. apply tofl_mem; auto using epath_length, epath_range.
  apply Forall_forall. intros p Hp. pose proof (paths_ok es) as P. rewrite Forall_forall in P. apply (P p Hp).
Qed.
(** total_edges counts the distinct edges. *)
Theorem built_total es : Forall (fun e => fst e < n /\ snd e < n)%N es -> es <> [] -> NoDup es -> b_m (built es) = N.of_nat (length es).
Proof.
  intros F Hne Hnd. unfold built. cbn [b_m]. f_equal.
  replace (lbits H [etrie es]) with (lbits (S (H - 1)) [etrie es]) by (f_equal; lia). rewrite ones_lbits. replace (S (H - 1)) with H by lia.
  unfold etrie. rewrite leaves_tofl.
  - unfold paths. apply map_length.
  - apply paths_ok.
  - unfold paths. clear Hne. induction Hnd as [|e es He Hnd IH]; cbn; [constructor|]. inversion F as [|? ? Fe F']; subst. constructor; auto.
    fold (paths es). rewrite In_paths by (auto; apply Fe). destruct e. exact He.
  - unfold paths. destruct es; [congruence|discriminate].
Qed.
Theorem built_ext a b : (forall e, In e a <-> In e b) -> built a = built b.
Proof.
  intros E. assert (X : etrie a = etrie b).
  { apply tofl_ext. intros p. unfold paths. rewrite !in_map_iff. split; intros [e [G1 G2]]; exists e; split; auto; apply E; auto. }
  unfold built. rewrite X. reflexivity.
Qed.
Lemma etrie_tun a b : tun H (etrie a) (etrie b) = etrie (a ++ b).
Proof. unfold etrie, paths. rewrite map_app. apply tofl_tun. Qed.
Lemma merge_etrie a ess : merge hgt n (etrie a) (map etrie ess) = etrie (a ++ concat ess).
Proof. revert a. induction ess as [|es ess IH]; intros a; cbn [map merge concat]; [rewrite app_nil_r; reflexivity|]. rewrite etrie_tun, IH, app_assoc. reflexivity. Qed.
End Edges.
