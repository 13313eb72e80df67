(** * PRExact: pageRank, rank by rank.

    First a specification of the PageRank iteration on an arbitrary weighted graph (nothing of the implementation in it), then
    the proof that Algorithm::pageRank (PageRank.v) computes it, then that the iteration converges. *)
From Coq Require Import Reals Lra.
From Verif Require Import Base Spec Thresholds K2 C0 DK PageRank PRProof.
Open Scope R_scope.

(** ** Specification *)
(** The sum of f over the vertices 0 .. k-1. *)
Fixpoint vsum (k : nat) (f : N -> R) : R :=
  match k with O => 0 | S k => vsum k f + f (N.of_nat k) end.

(** [w u v]: the part of the rank of u that goes to v; [dang u]: u has no out-edge. *)
Section Iteration.
Context (nn : nat) (w : N -> N -> R) (dang : N -> bool) (alpha : R).
(** What every vertex gets besides the shares: the jumps, and the rank of the vertices without out-edges, evenly. *)
Definition even (r : N -> R) : R := (1 - alpha + alpha * vsum nn (fun u => if dang u then r u else 0)) / INR nn.
(** One iteration. *)
Definition next (r : N -> R) (v : N) : R := even r + alpha * vsum nn (fun u => r u * w u v).
(** The same when only the first i vertices have distributed their rank and received their even part. *)
Definition upto (i : nat) (r : N -> R) (v : N) : R :=
  (if (v <? N.of_nat i)%N then even r else 0) + alpha * vsum i (fun u => r u * w u v).
(** The iteration starts with 1/m everywhere, m vertices having an out-edge. *)
Definition sources : R := vsum nn (fun u => if dang u then 0 else 1).
Fixpoint rank (t : nat) : N -> R := match t with O => fun _ => 1 / sources | S t => next (rank t) end.
End Iteration.
(** The distance of two rank vectors. *)
Definition gap (nn : nat) (r s : N -> R) : R := vsum nn (fun v => Rabs (r v - s v)).

(** ** Sums *)
Lemma vsum_ext k f g : (forall i, (i < k)%nat -> f (N.of_nat i) = g (N.of_nat i)) -> vsum k f = vsum k g.
Proof. induction k as [|k IH]; intros H; cbn [vsum]; [reflexivity|]. rewrite IH, H; auto. Qed.
Lemma vsum_le k f g : (forall i, (i < k)%nat -> f (N.of_nat i) <= g (N.of_nat i)) -> vsum k f <= vsum k g.
Proof. induction k as [|k IH]; intros H; cbn [vsum]; [lra|]. apply Rplus_le_compat; auto. Qed.
Lemma vsum_plus k f g : vsum k (fun v => f v + g v) = vsum k f + vsum k g.
Proof. induction k as [|k IH]; cbn [vsum]; [lra|]. rewrite IH. lra. Qed.
Lemma vsum_scal k c f : vsum k (fun v => c * f v) = c * vsum k f.
Proof. induction k as [|k IH]; cbn [vsum]; [lra|]. rewrite IH. lra. Qed.
Lemma vsum_const k c : vsum k (fun _ => c) = INR k * c.
Proof. induction k as [|k IH]; cbn [vsum]; [cbn; lra|]. rewrite IH, S_INR. lra. Qed.
Lemma vsum_0 k : vsum k (fun _ => 0) = 0.
Proof. rewrite vsum_const. lra. Qed.
Lemma vsum_nonneg k f : (forall i, (i < k)%nat -> 0 <= f (N.of_nat i)) -> 0 <= vsum k f.
Proof. intros H. rewrite <- (vsum_0 k). apply vsum_le. auto. Qed.
Lemma vsum_abs k f : Rabs (vsum k f) <= vsum k (fun v => Rabs (f v)).
Proof.
  induction k as [|k IH]; cbn [vsum]; [rewrite Rabs_R0; lra|].
  eapply Rle_trans; [apply Rabs_triang|]. lra.
Qed.
Lemma vsum_swap k j (f : N -> N -> R) : vsum k (fun u => vsum j (fun v => f u v)) = vsum j (fun v => vsum k (fun u => f u v)).
Proof.
  induction k as [|k IH]; cbn [vsum]; [rewrite vsum_0; reflexivity|]. rewrite vsum_plus, IH. reflexivity.
Qed.
Lemma vsum_rsum k f : vsum k f = rsum (map (fun i => f (N.of_nat i)) (seq 0 k)).
Proof.
  induction k as [|k IH]; [cbn [vsum seq map]; rewrite rsum_nil; reflexivity|]. cbn [vsum]. rewrite seq_S, map_app, rsum_app, <- IH. cbn [map plus].
  rewrite rsum_cons, rsum_nil. lra.
Qed.
Lemma vsum_term k f i : (forall j, (j < k)%nat -> 0 <= f (N.of_nat j)) -> (i < k)%nat -> f (N.of_nat i) <= vsum k f.
Proof.
  induction k as [|k IH]; intros H Hi; [lia|]. cbn [vsum]. destruct (Nat.eq_dec i k) as [->|Hn].
  - assert (0 <= vsum k f) by (apply vsum_nonneg; auto). lra.
  - assert (0 <= f (N.of_nat k)) by auto. assert (f (N.of_nat i) <= vsum k f) by (apply IH; auto; lia). lra.
Qed.
Lemma vsum_count k ys : Forall (fun y => (N.to_nat y < k)%nat) ys ->
  vsum k (fun v => INR (count_occ N.eq_dec ys v)) = INR (length ys).
Proof.
  induction ys as [|y ys IH]; intros HF.
  - cbn [count_occ length]. rewrite vsum_const. cbn. lra.
  - inversion HF as [|? ? Hy HF']; subst. cbn [length]. rewrite S_INR, <- (IH HF').
    rewrite (vsum_ext k _ (fun v => INR (count_occ N.eq_dec ys v) + if N.eq_dec y v then 1 else 0)).
    2: { intros i _. cbn [count_occ]. destruct (N.eq_dec y (N.of_nat i)); [rewrite S_INR|]; lra. }
    rewrite vsum_plus. f_equal. clear - Hy. induction k as [|k IH]; [lia|]. cbn [vsum].
    destruct (N.eq_dec y (N.of_nat k)) as [->|Hn].
    + rewrite (vsum_ext k _ (fun _ => 0)); [rewrite vsum_0; lra|]. intros i Hi. destruct (N.eq_dec (N.of_nat k) (N.of_nat i)); [lia|reflexivity].
    + rewrite IH by lia. lra.
Qed.

Lemma rank_ext nn w w' dang dang' alpha t : (forall u v, (N.to_nat u < nn)%nat -> (N.to_nat v < nn)%nat -> w u v = w' u v) ->
  (forall u, (N.to_nat u < nn)%nat -> dang u = dang' u) ->
  forall v, (N.to_nat v < nn)%nat -> rank nn w dang alpha t v = rank nn w' dang' alpha t v.
Proof.
  intros Hw Hd. assert (Hs : sources nn dang = sources nn dang').
  { apply vsum_ext. intros i Hi. rewrite Hd by lia. reflexivity. }
  induction t as [|t IH]; intros v Hv; cbn [rank]; [rewrite Hs; reflexivity|]. unfold next, even. f_equal.
  - do 3 f_equal. apply vsum_ext. intros i Hi. rewrite Hd, IH by lia. reflexivity.
  - f_equal. apply vsum_ext. intros i Hi. rewrite IH, Hw by lia. reflexivity.
Qed.
Lemma upto_ext nn w w' dang dang' alpha i r r' : (i <= nn)%nat ->
  (forall u v, (N.to_nat u < nn)%nat -> (N.to_nat v < nn)%nat -> w u v = w' u v) ->
  (forall u, (N.to_nat u < nn)%nat -> dang u = dang' u) -> (forall u, (N.to_nat u < nn)%nat -> r u = r' u) ->
  forall v, (N.to_nat v < nn)%nat -> upto nn w dang alpha i r v = upto nn w' dang' alpha i r' v.
Proof.
  intros Hi Hw Hd Hr v Hv. unfold upto, even. f_equal.
  - destruct (v <? N.of_nat i)%N; auto. do 3 f_equal. apply vsum_ext. intros j Hj. rewrite Hd, Hr by lia. reflexivity.
  - f_equal. apply vsum_ext. intros j Hj. rewrite Hr, Hw by lia. reflexivity.
Qed.
Lemma gap_ext nn r r' s s' : (forall u, (N.to_nat u < nn)%nat -> r u = r' u) -> (forall u, (N.to_nat u < nn)%nat -> s u = s' u) ->
  gap nn r s = gap nn r' s'.
Proof. intros H1 H2. apply vsum_ext. intros i Hi. rewrite H1, H2 by lia. reflexivity. Qed.

(** ** The code computes the iteration *)
Section Code.
Context (nn : nat) (alpha conv : R) (out : N -> list N).
Definition wl (u v : N) : R := INR (count_occ N.eq_dec (out u) v) / INR (length (out u)).
Definition dl (u : N) : bool := match out u with [] => true | _ => false end.
Definition vec (f : N -> R) : list R := map (fun i => f (N.of_nat i)) (seq 0 nn).
Local Notation outs := (map (fun i => out (N.of_nat i)) (seq 0 nn)).

Lemma vec_ext f g : (forall i, (i < nn)%nat -> f (N.of_nat i) = g (N.of_nat i)) -> vec f = vec g.
Proof using Type. intros H. apply map_ext_in. intros i Hi. apply in_seq in Hi. apply H. lia. Qed.
Lemma vec_nth f i : (i < nn)%nat -> nth_error (vec f) i = Some (f (N.of_nat i)).
Proof using Type.
  intros Hi. unfold vec. erewrite map_nth_error; [reflexivity|]. rewrite nth_error_nth' with (d := 0%nat) by (rewrite seq_length; auto).
  rewrite seq_nth by auto. reflexivity.
Qed.
Lemma vec_len f : length (vec f) = nn.
Proof using Type. unfold vec. rewrite map_length, seq_length. reflexivity. Qed.

Lemma upd_vec f i a : (i < nn)%nat -> upd (vec f) i a = vec (fun v => if N.eqb v (N.of_nat i) then a else f v).
Proof using Type.
  intros Hi. apply list_ext. intros j. destruct (Nat.eq_dec i j) as [<-|Hn].
  - rewrite nth_error_upd_eq by (rewrite vec_len; auto). rewrite vec_nth by auto. rewrite N.eqb_refl. reflexivity.
  - rewrite nth_error_upd_neq by auto. destruct (Nat.lt_ge_cases j nn) as [Hj|Hj].
    + rewrite !vec_nth by auto. destruct (N.eqb_spec (N.of_nat j) (N.of_nat i)); [lia|reflexivity].
    + rewrite !(proj2 (nth_error_None _ _)); auto; rewrite vec_len; auto.
Qed.

Lemma bump_vec f i a : (i < nn)%nat -> bump (vec f) i a = Ok (vec (fun v => f v + if N.eqb v (N.of_nat i) then a else 0)).
Proof using Type.
  intros Hi. unfold bump, get, set. rewrite vec_nth by auto. cbn [obind]. rewrite vec_len. destruct (Nat.ltb_spec i nn); [|lia].
  rewrite upd_vec by auto. f_equal. apply vec_ext. intros j Hj. destruct (N.eqb_spec (N.of_nat j) (N.of_nat i)) as [->|_]; lra.
Qed.
Lemma spread_vec ys a : Forall (fun y => (N.to_nat y < nn)%nat) ys -> forall f,
  spread (vec f) ys a = Ok (vec (fun v => f v + INR (count_occ N.eq_dec ys v) * a)).
Proof using Type.
  induction 1 as [|y ys Hy _ IH]; intros f; cbn [spread].
  - f_equal. apply vec_ext. intros. cbn. lra.
  - rewrite bump_vec by auto. cbn [obind]. rewrite IH. f_equal. apply vec_ext. intros j Hj. rewrite N2Nat.id. cbn [count_occ].
    destruct (N.eqb_spec (N.of_nat j) y) as [->|Hn].
    + destruct (N.eq_dec y y); [|congruence]. rewrite S_INR. lra.
    + destruct (N.eq_dec y (N.of_nat j)); [congruence|]. lra.
Qed.
Lemma err_vec f g : err (vec f) (vec g) = gap nn f g.
Proof using Type.
  unfold gap. rewrite vsum_rsum. unfold vec. induction (seq 0 nn) as [|i l IH]; cbn [map err]; [rewrite rsum_nil; reflexivity|].
  rewrite rsum_cons, IH. reflexivity.
Qed.
Lemma dangling_vec r : dangling outs (vec r) = vsum nn (fun u => if dl u then r u else 0).
Proof using Type.
  rewrite vsum_rsum. unfold vec. induction (seq 0 nn) as [|i l IH]; cbn [map dangling]; [rewrite rsum_nil; reflexivity|].
  rewrite rsum_cons, <- IH. unfold dl. destruct (out (N.of_nat i)); lra.
Qed.
Lemma total_vec : INR (total_nodes outs) = sources nn dl.
Proof using Type.
  unfold sources. rewrite vsum_rsum. unfold total_nodes. induction (seq 0 nn) as [|i l IH]; cbn [map filter]; [rewrite rsum_nil; reflexivity|].
  rewrite rsum_cons, <- IH. unfold dl. destruct (out (N.of_nat i)); cbn [length Nat.eqb negb]; [lra|]. rewrite S_INR. lra.
Qed.

Local Notation next := (next nn wl dl alpha).
Local Notation upto := (upto nn wl dl alpha).
Local Notation rank := (rank nn wl dl alpha).

Lemma init_vec : pr_init nn outs = vec (rank 0).
Proof using Type.
  unfold pr_init. cbn [PRExact.rank]. rewrite total_vec. unfold vec. generalize (1 / sources nn dl). clear. intros c. generalize 0%nat.
  induction nn as [|k IH]; intros a; cbn [repeat seq map]; [reflexivity|]. f_equal. apply IH.
Qed.
Lemma next_upto r i : (i < nn)%nat -> upto nn r (N.of_nat i) = next r (N.of_nat i).
Proof using Type. intros Hi. unfold PRExact.upto, PRExact.next. destruct (N.ltb_spec (N.of_nat i) (N.of_nat nn)); [reflexivity|lia]. Qed.

Context (Hnn : (0 < nn)%nat) (Hrng : forall u, (N.to_nat u < nn)%nat -> Forall (fun y => (N.to_nat y < nn)%nat) (out u)).
Lemma upto_step r i : (i < nn)%nat ->
  (let* p := spread (vec (upto i r)) (out (N.of_nat i)) (alpha * r (N.of_nat i) * (1 / INR (length (out (N.of_nat i))))) in
   bump p i (dangling outs (vec r) * alpha * (1 / INR nn) + (1 - alpha) * (1 / INR nn))) = Ok (vec (upto (S i) r)).
Proof using Hnn Hrng.
  intros Hi. rewrite spread_vec by (apply Hrng; lia). cbn [obind]. rewrite bump_vec by auto. f_equal. apply vec_ext. intros j Hj.
  rewrite dangling_vec. unfold PRExact.upto. cbn [vsum]. unfold wl at 3. unfold Rdiv at 2.
  assert (Hp : INR nn <> 0) by (apply not_0_INR; lia).
  assert (E : (if (N.of_nat j <? N.of_nat i)%N then even nn dl alpha r else 0) +
              (if (N.of_nat j =? N.of_nat i)%N then vsum nn (fun u => if dl u then r u else 0) * alpha * (1 / INR nn) + (1 - alpha) * (1 / INR nn) else 0)
            = if (N.of_nat j <? N.of_nat (S i))%N then even nn dl alpha r else 0).
  { destruct (N.ltb_spec (N.of_nat j) (N.of_nat i)), (N.eqb_spec (N.of_nat j) (N.of_nat i)), (N.ltb_spec (N.of_nat j) (N.of_nat (S i))); try lia; try lra.
    unfold even. field. auto. }
  rewrite <- E. unfold Rdiv. ring.
Qed.

Definition stops (t i : nat) : Prop := gap nn (upto i (rank t)) (rank t) < INR nn * conv.

Lemma sweep_vec t : forall k i, (i + k = nn)%nat ->
  (exists j, (i < j <= nn)%nat /\ stops t j /\ (forall j', (i < j' < j)%nat -> ~ stops t j') /\
     sweep nn alpha conv (vec (rank t)) (dangling outs (vec (rank t)) * alpha) (map (fun i => out (N.of_nat i)) (seq i k)) i (vec (upto i (rank t)))
     = Ok (true, vec (upto j (rank t)))) \/
  ((forall j', (i < j' <= nn)%nat -> ~ stops t j') /\
     sweep nn alpha conv (vec (rank t)) (dangling outs (vec (rank t)) * alpha) (map (fun i => out (N.of_nat i)) (seq i k)) i (vec (upto i (rank t)))
     = Ok (false, vec (rank (S t)))).
Proof using Hnn Hrng.
  induction k as [|k IH]; intros i Hi; cbn [seq map sweep].
  - right. split; [intros; lia|]. f_equal. f_equal. assert (i = nn) by lia. subst i. apply vec_ext. intros j Hj. apply next_upto. auto.
  - unfold get. rewrite vec_nth by lia. cbn [obind].
    pose proof (upto_step (rank t) i ltac:(lia)) as Hst.
    destruct (spread (vec (upto i (rank t))) (out (N.of_nat i)) (alpha * rank t (N.of_nat i) * (1 / INR (length (out (N.of_nat i)))))) as [p|]; cbn [obind] in Hst |- *; [|discriminate].
    rewrite Hst. cbn [obind]. rewrite err_vec. destruct (Rlt_dec _ _) as [Hs|Hs].
    + left. exists (S i). split; [lia|]. split; [exact Hs|]. split; [intros; lia|reflexivity].
    + destruct (IH (S i) ltac:(lia)) as [[j [J1 [J2 [J3 J4]]]]|[J1 J2]].
      * left. exists j. split; [lia|]. split; auto. split; auto. intros j' Hj'. destruct (Nat.eq_dec j' (S i)) as [->|]; auto. apply J3. lia.
      * right. split; auto. intros j' Hj'. destruct (Nat.eq_dec j' (S i)) as [->|]; auto. apply J1. lia.
Qed.

Lemma pass_vec t :
  (exists j, (0 < j <= nn)%nat /\ stops t j /\ (forall j', (0 < j' < j)%nat -> ~ stops t j') /\
     pass nn alpha conv outs (vec (rank t)) = Ok (true, vec (upto j (rank t)))) \/
  ((forall j', (0 < j' <= nn)%nat -> ~ stops t j') /\ pass nn alpha conv outs (vec (rank t)) = Ok (false, vec (rank (S t)))).
Proof using Hnn Hrng.
  unfold pass. replace (repeat 0 nn) with (vec (upto 0 (rank t))); [apply (sweep_vec t nn 0); lia|].
  unfold vec. generalize (rank t). intros r. assert (H : forall k, upto 0 r (N.of_nat k) = 0).
  { intros k. unfold PRExact.upto. cbn [vsum]. destruct (N.ltb_spec (N.of_nat k) (N.of_nat 0)); [lia|]. lra. }
  rewrite (map_ext _ (fun _ => 0) H). clear. generalize 0%nat. induction nn as [|k IH]; intros a; cbn [seq map repeat]; [reflexivity|]. f_equal. apply IH.
Qed.

(** The result is that of the first exit, or of max_iterations iterations if there is none. *)
Lemma loop_vec k : forall t,
  (exists t' j, (t <= t' < t + k)%nat /\ (0 < j <= nn)%nat /\ stops t' j /\
     (forall s i, (t <= s)%nat -> (0 < i <= nn)%nat -> (s < t' \/ s = t' /\ i < j)%nat -> ~ stops s i) /\
     pr_loop nn alpha conv outs k (vec (rank t)) = Ok (vec (upto j (rank t')))) \/
  ((forall s i, (t <= s < t + k)%nat -> (0 < i <= nn)%nat -> ~ stops s i) /\
     pr_loop nn alpha conv outs k (vec (rank t)) = Ok (vec (rank (t + k)))).
Proof using Hnn Hrng.
  induction k as [|k IH]; intros t; cbn [pr_loop].
  - right. split; [intros; lia|]. rewrite Nat.add_0_r. reflexivity.
  - destruct (pass_vec t) as [[j [J1 [J2 [J3 J4]]]]|[J1 J2]].
    + left. exists t, j. rewrite J4. cbn [obind]. repeat split; auto; try lia. intros s i Hs Hi [H|[-> H]]; [lia|]. apply J3. lia.
    + rewrite J2. cbn [obind]. destruct (IH (S t)) as [[t' [j [I1 [I2 [I3 [I4 I5]]]]]]|[I1 I2]].
      * left. exists t', j. rewrite I5. repeat split; auto; try lia. intros s i Hs Hi H.
        destruct (Nat.eq_dec s t) as [->|]; [apply J1; lia|]. apply I4; auto. lia.
      * right. rewrite I2. split; [|replace (t + S k)%nat with (S t + k)%nat by lia; reflexivity]. intros s i Hs Hi. destruct (Nat.eq_dec s t) as [->|]; [apply J1; lia|]. apply I1; auto. lia.
Qed.
End Code.

(** ** The iteration converges *)
Lemma gap_nonneg nn r s : 0 <= gap nn r s.
Proof. apply vsum_nonneg. intros. apply Rabs_pos. Qed.
Lemma gap_sym nn r s : gap nn r s = gap nn s r.
Proof. apply vsum_ext. intros. apply Rabs_minus_sym. Qed.
Lemma gap_tri nn r s q : gap nn r q <= gap nn r s + gap nn s q.
Proof.
  unfold gap. rewrite <- vsum_plus. apply vsum_le. intros i _. set (v := N.of_nat i).
  replace (r v - q v) with ((r v - s v) + (s v - q v)) by lra. apply Rabs_triang.
Qed.
Lemma gap_term nn r s i : (i < nn)%nat -> Rabs (r (N.of_nat i) - s (N.of_nat i)) <= gap nn r s.
Proof. intros Hi. apply (vsum_term nn (fun v => Rabs (r v - s v))); auto. intros. apply Rabs_pos. Qed.

Section Limit.
Context (nn : nat) (w : N -> N -> R) (dang : N -> bool) (alpha : R).
Context (Hnn : (0 < nn)%nat) (Ha : 0 <= alpha < 1) (Hw0 : forall u v, 0 <= w u v).
Context (Hw1 : forall u, (N.to_nat u < nn)%nat -> vsum nn (w u) = if dang u then 0 else 1).
Local Notation next := (next nn w dang alpha).
Local Notation rank := (rank nn w dang alpha).
Local Notation gap := (gap nn).

Lemma nn_pos : 0 < INR nn.
Proof using Hw1 Hnn Ha Hw0. apply lt_0_INR. auto. Qed.

Lemma shares r : vsum nn (fun v => vsum nn (fun u => r u * w u v)) = vsum nn (fun u => if dang u then 0 else r u).
Proof using Hw1 Hnn Ha Hw0.
  rewrite <- vsum_swap. apply vsum_ext. intros i Hi. rewrite vsum_scal. rewrite Hw1 by lia. destruct (dang _); lra.
Qed.
Lemma halves r : vsum nn (fun u => if dang u then 0 else r u) + vsum nn (fun u => if dang u then r u else 0) = vsum nn r.
Proof using Hw1 Hnn Ha Hw0. rewrite <- vsum_plus. apply vsum_ext. intros i _. destruct (dang _); lra. Qed.

Lemma vsum_next r : vsum nn (next r) = 1 - alpha + alpha * vsum nn r.
Proof using Hw1 Hnn Ha Hw0.
  pose proof nn_pos. unfold PRExact.next. rewrite vsum_plus, vsum_const, vsum_scal, shares. unfold even.
  rewrite <- (halves r). field. lra.
Qed.

Lemma contr r s : gap (next r) (next s) <= alpha * gap r s.
Proof using Hw1 Hnn Ha Hw0.
  pose proof nn_pos as Hp. unfold PRExact.gap. set (d := fun u => Rabs (r u - s u)).
  apply Rle_trans with (vsum nn (fun v => alpha * (vsum nn (fun u => if dang u then d u else 0) / INR nn + vsum nn (fun u => d u * w u v)))).
  - apply vsum_le. intros i Hi. set (v := N.of_nat i). unfold PRExact.next, even.
    replace (_ - _) with (alpha * ((vsum nn (fun u => if dang u then r u - s u else 0)) / INR nn + vsum nn (fun u => (r u - s u) * w u v))).
    + rewrite Rabs_mult, (Rabs_right alpha) by lra. apply Rmult_le_compat_l; [lra|].
      eapply Rle_trans; [apply Rabs_triang|]. apply Rplus_le_compat.
      * unfold Rdiv. rewrite Rabs_mult, (Rabs_right (/ INR nn)) by (apply Rle_ge, Rlt_le, Rinv_0_lt_compat; auto).
        apply Rmult_le_compat_r; [apply Rlt_le, Rinv_0_lt_compat; auto|]. eapply Rle_trans; [apply vsum_abs|].
        apply vsum_le. intros j _. unfold d. destruct (dang _); [lra|rewrite Rabs_R0; lra].
      * eapply Rle_trans; [apply vsum_abs|]. apply vsum_le. intros j _. unfold d. rewrite Rabs_mult, (Rabs_right (w _ _)) by (apply Rle_ge; auto). lra.
    + assert (E1 : vsum nn (fun u => if dang u then r u - s u else 0) = vsum nn (fun u => if dang u then r u else 0) + (-1) * vsum nn (fun u => if dang u then s u else 0)).
      { rewrite <- vsum_scal, <- vsum_plus. apply vsum_ext. intros j _. destruct (dang _); lra. }
      assert (E2 : vsum nn (fun u => (r u - s u) * w u v) = vsum nn (fun u => r u * w u v) + (-1) * vsum nn (fun u => s u * w u v)).
      { rewrite <- vsum_scal, <- vsum_plus. apply vsum_ext. intros j _. lra. }
      rewrite E1, E2. field. lra.
  - rewrite vsum_scal, vsum_plus, vsum_const, shares. apply Req_le. f_equal. rewrite <- (halves d). field. lra.
Qed.

Lemma gap_from0 k : gap (rank k) (rank 0) <= gap (rank 1) (rank 0) / (1 - alpha).
Proof using Hw1 Hnn Ha Hw0.
  set (G := gap (rank 1) (rank 0)). assert (HG : 0 <= G) by apply gap_nonneg. assert (Hi : 0 < / (1 - alpha)) by (apply Rinv_0_lt_compat; lra).
  induction k as [|k IH].
  - unfold PRExact.gap. rewrite (vsum_ext nn _ (fun _ => 0)); [rewrite vsum_0; apply Rmult_le_pos; lra|].
    intros i _. rewrite Rminus_diag_eq, Rabs_R0; reflexivity.
  - eapply Rle_trans; [apply (gap_tri nn _ (rank 1))|]. pose proof (contr (rank k) (rank 0)) as HC. cbn [PRExact.rank] in *.
    fold G in IH |- *. replace (G / (1 - alpha)) with (alpha * (G / (1 - alpha)) + G) by (field; lra).
    apply Rplus_le_compat; [|apply Req_le; reflexivity]. eapply Rle_trans; [apply HC|]. apply Rmult_le_compat_l; lra.
Qed.
Lemma gap_tail t k : gap (rank (t + k)) (rank t) <= alpha ^ t * (gap (rank 1) (rank 0) / (1 - alpha)).
Proof using Hw1 Hnn Ha Hw0.
  induction t as [|t IH]; [cbn [plus pow]; rewrite Rmult_1_l; apply gap_from0|].
  cbn [plus PRExact.rank pow]. eapply Rle_trans; [apply contr|]. rewrite Rmult_assoc. apply Rmult_le_compat_l; [lra|auto].
Qed.

Lemma cauchy v : (N.to_nat v < nn)%nat -> Cauchy_crit (fun t => rank t v).
Proof using Hw1 Hnn Ha Hw0.
  intros Hv eps He. set (C := gap (rank 1) (rank 0) / (1 - alpha)).
  assert (HC : 0 <= C) by (apply Rmult_le_pos; [apply gap_nonneg|apply Rlt_le, Rinv_0_lt_compat; lra]).
  destruct (pow_lt_1_zero alpha ltac:(rewrite Rabs_right; lra) (eps / (C + 1)) ltac:(apply Rdiv_lt_0_compat; lra)) as [M HM].
  assert (Hmain : forall t k, (M <= t)%nat -> Rabs (rank (t + k) v - rank t v) < eps).
  { intros t k Ht. specialize (HM t ltac:(lia)). rewrite Rabs_right in HM by (apply Rle_ge, pow_le; lra).
    rewrite <- (N2Nat.id v). eapply Rle_lt_trans; [apply (gap_term nn); auto|]. eapply Rle_lt_trans; [apply gap_tail|]. fold C.
    apply Rle_lt_trans with (alpha ^ t * (C + 1)).
    - apply Rmult_le_compat_l; [apply pow_le; lra|lra].
    - replace eps with (eps / (C + 1) * (C + 1)) by (field; lra). apply Rmult_lt_compat_r; lra. }
  exists M. intros a b H1 H2. unfold R_dist. destruct (Nat.le_ge_cases a b) as [L|L].
  - rewrite Rabs_minus_sym. replace b with (a + (b - a))%nat by lia. apply Hmain. lia.
  - replace a with (b + (a - b))%nat by lia. apply Hmain. lia.
Qed.

Definition limit (v : N) : R :=
  match lt_dec (N.to_nat v) nn with left H => proj1_sig (R_complete _ (cauchy v H)) | right _ => 0 end.
Lemma limit_cv v : (N.to_nat v < nn)%nat -> Un_cv (fun t => rank t v) (limit v).
Proof using Hw1 Hnn Ha Hw0.
  intros Hv. unfold limit. destruct (lt_dec _ _); [|lia]. destruct (R_complete _ _) as [lim Hlim]. exact Hlim.
Qed.
Lemma gap_cv : forall eps, 0 < eps -> exists M, forall t, (M <= t)%nat -> gap (rank t) limit < eps.
Proof using Hw1 Hnn Ha Hw0.
  assert (H : forall k, (k <= nn)%nat -> Un_cv (fun t => vsum k (fun v => Rabs (rank t v - limit v))) 0).
  { induction k as [|k IH]; intros Hk.
    - intros eps He. exists 0%nat. intros. cbn [vsum]. unfold R_dist. rewrite Rminus_0_r, Rabs_R0. lra.
    - cbn [vsum]. replace 0 with (0 + 0) by lra. apply CV_plus; [apply IH; lia|].
      intros eps He. destruct (limit_cv (N.of_nat k) ltac:(lia) eps He) as [M HM]. exists M. intros t Ht. specialize (HM t Ht).
      unfold R_dist in *. rewrite Rminus_0_r, Rabs_Rabsolu. exact HM. }
  intros eps He. destruct (H nn (le_n _) eps He) as [M HM]. exists M. intros t Ht. specialize (HM t ltac:(lia)).
  unfold R_dist in HM. rewrite Rminus_0_r, Rabs_right in HM; [exact HM|]. apply Rle_ge, gap_nonneg.
Qed.

Lemma small a : 0 <= a -> (forall eps, 0 < eps -> a < eps) -> a = 0.
Proof using Type. clear. intros H0 H. destruct (Req_dec a 0) as [|Hn]; auto. specialize (H a ltac:(lra)). lra. Qed.

Lemma limit_fix : gap (next limit) limit = 0.
Proof using Hw1 Hnn Ha Hw0.
  apply small; [apply gap_nonneg|]. intros eps He. destruct (gap_cv (eps / 2) ltac:(lra)) as [M HM].
  eapply Rle_lt_trans; [apply (gap_tri nn _ (rank (S M)))|].
  assert (H1 : gap (next limit) (rank (S M)) <= gap (rank M) limit).
  { cbn [PRExact.rank]. eapply Rle_trans; [apply contr|]. rewrite gap_sym. pose proof (gap_nonneg nn (rank M) limit).
    rewrite <- (Rmult_1_l (gap (rank M) limit)) at 2. apply Rmult_le_compat_r; lra. }
  pose proof (HM M ltac:(lia)). pose proof (HM (S M) ltac:(lia)). lra.
Qed.
Lemma gap_0 r s : gap r s = 0 -> forall v, (N.to_nat v < nn)%nat -> r v = s v.
Proof using Hw1 Hnn Ha Hw0.
  intros H v Hv. pose proof (gap_term nn r s (N.to_nat v) Hv) as G. rewrite N2Nat.id, H in G.
  pose proof (Rabs_pos (r v - s v)). destruct (Req_dec (r v - s v) 0) as [E|E]; [lra|]. apply Rabs_pos_lt in E. lra.
Qed.
Lemma gap_self r s : (forall v, (N.to_nat v < nn)%nat -> r v = s v) -> gap r s = 0.
Proof using Hw1 Hnn Ha Hw0.
  intros H. unfold PRExact.gap. rewrite (vsum_ext nn _ (fun _ => 0)); [apply vsum_0|]. intros i Hi. rewrite H by lia.
  rewrite Rminus_diag_eq, Rabs_R0; reflexivity.
Qed.
Lemma limit_eq v : (N.to_nat v < nn)%nat -> next limit v = limit v.
Proof using Hw1 Hnn Ha Hw0. intros. apply gap_0; auto. apply limit_fix. Qed.

(** A fixed point has mass 1, is unique, and attracts every vector. *)
Lemma fix_mass p : (forall v, (N.to_nat v < nn)%nat -> next p v = p v) -> vsum nn p = 1.
Proof using Hw1 Hnn Ha Hw0.
  intros H. pose proof (vsum_next p) as E. rewrite (vsum_ext nn (next p) p) in E by (intros; apply H; lia).
  assert ((1 - alpha) * (vsum nn p - 1) = 0) by lra. apply Rmult_integral in H0. lra.
Qed.
Lemma fix_near p r : (forall v, (N.to_nat v < nn)%nat -> next p v = p v) -> gap (next r) p <= alpha * gap r p.
Proof using Hw1 Hnn Ha Hw0.
  intros H. rewrite (gap_ext nn (next r) (next r) p (next p)); [apply contr|auto|]. intros. symmetry; auto.
Qed.
Lemma fix_rank p t : (forall v, (N.to_nat v < nn)%nat -> next p v = p v) -> gap (rank t) p <= alpha ^ t * gap (rank 0) p.
Proof using Hw1 Hnn Ha Hw0.
  intros H. induction t as [|t IH]; [cbn [pow]; lra|]. cbn [PRExact.rank pow]. eapply Rle_trans; [apply fix_near; auto|].
  rewrite Rmult_assoc. apply Rmult_le_compat_l; [lra|exact IH].
Qed.
Lemma fix_unique p q : (forall v, (N.to_nat v < nn)%nat -> next p v = p v) -> (forall v, (N.to_nat v < nn)%nat -> next q v = q v) ->
  forall v, (N.to_nat v < nn)%nat -> p v = q v.
Proof using Hw1 Hnn Ha Hw0.
  intros Hp Hq. apply gap_0. pose proof (fix_near q p Hq) as G. rewrite (gap_ext nn (next p) p q q) in G; auto.
  pose proof (gap_nonneg nn p q). destruct (Rlt_le_dec 0 (gap p q)); [|lra].
  assert (alpha * gap p q < 1 * gap p q) by (apply Rmult_lt_compat_r; lra). lra.
Qed.
(** Stopping at the end of an iteration that changed little is safe. *)
Lemma fix_stop p r c : (forall v, (N.to_nat v < nn)%nat -> next p v = p v) -> gap (next r) r < c -> gap (next r) p <= alpha / (1 - alpha) * c.
Proof using Hw1 Hnn Ha Hw0.
  intros H Hc. pose proof (fix_near p r H) as G. pose proof (gap_tri nn r (next r) p) as G2. rewrite (gap_sym nn r (next r)) in G2.
  assert (G3 : alpha * gap r p <= alpha * (c + gap (next r) p)) by (apply Rmult_le_compat_l; lra).
  apply Rmult_le_reg_l with (1 - alpha); [lra|]. replace ((1 - alpha) * (alpha / (1 - alpha) * c)) with (alpha * c) by (field; lra). lra.
Qed.
Lemma rank_nonneg t : (forall v, (N.to_nat v < nn)%nat -> 0 <= rank 0 v) -> forall v, (N.to_nat v < nn)%nat -> 0 <= rank t v.
Proof using Hw1 Hnn Ha Hw0.
  intros H0. pose proof nn_pos. induction t as [|t IH]; auto. intros v Hv. cbn [PRExact.rank]. unfold PRExact.next, even.
  apply Rplus_le_le_0_compat.
  - apply Rmult_le_pos; [|apply Rlt_le, Rinv_0_lt_compat; auto]. apply Rplus_le_le_0_compat; [lra|]. apply Rmult_le_pos; [lra|].
    apply vsum_nonneg. intros i Hi. destruct (dang _); [apply IH; lia|lra].
  - apply Rmult_le_pos; [lra|]. apply vsum_nonneg. intros i Hi. apply Rmult_le_pos; auto. apply IH. lia.
Qed.
Lemma limit_nonneg : (forall v, (N.to_nat v < nn)%nat -> 0 <= rank 0 v) -> forall v, (N.to_nat v < nn)%nat -> 0 <= limit v.
Proof using Hw1 Hnn Ha Hw0.
  intros H0 v Hv. destruct (Rle_lt_dec 0 (limit v)) as [|Hl]; auto. exfalso.
  destruct (limit_cv v Hv (- limit v) ltac:(lra)) as [M HM]. specialize (HM M (le_n _)). unfold R_dist in HM.
  pose proof (rank_nonneg M H0 v Hv). rewrite Rabs_right in HM; lra.
Qed.
End Limit.
