(** * AlgoProof: the searches visit exactly the reachable vertices. *)
From Verif Require Import Base Spec AlgoSpec Thresholds K2 C0 DK Iter Algo.
From Coq Require Import Sorted.

Lemma nmem_In x l : nmem x l = true <-> In x l.
Proof.
  unfold nmem. rewrite existsb_exists. split.
  - intros [y [H1 H2]]. apply N.eqb_eq in H2; subst; auto.
  - intros H. exists x. split; auto. apply N.eqb_refl.
Qed.
Lemma nmem_false x l : nmem x l = false <-> ~ In x l.
Proof. rewrite <- nmem_In. destruct (nmem x l); split; congruence. Qed.

Lemma to_u32_id y : (y < 2 ^ 32)%N -> to_u32 (Z.of_N y) = y.
Proof. intros H. unfold to_u32. rewrite Z.mod_small by lia. lia. Qed.

Lemma search_unique K (g : dk K) push q vis path p1 : search K g push q vis path p1 ->
  forall p2, search K g push q vis path p2 -> p1 = p2.
Proof.
  induction 1 as [vis path|x q vis path zs q' vis' p H1 H2 H3 IH]; intros p2 G.
  - inversion G; auto.
  - inversion G as [|? ? ? ? zs2 q2 vis2 ? G1 G2 G3]; subst. apply IH.
    assert (zs2 = zs).
    { destruct H1 as [it [Ei Hl]], G1 as [it2 [Ei2 Hl2]]. assert (it2 = it) by congruence. subst.
      unfold neigh_loop in *. eapply visits_unique; eauto. }
    subst. rewrite H2 in G2. injection G2 as <- <-. exact G3.
Qed.

Lemma incl_range_length (l : list N) n : NoDup l -> (forall v, In v l -> (v < n)%N) -> length l <= N.to_nat n.
Proof.
  intros Hnd H.
  assert (G : incl l (map N.of_nat (seq 0 (N.to_nat n)))).
  { intros v Hv. apply in_map_iff. exists (N.to_nat v). split; [lia|]. apply in_seq. specialize (H v Hv). lia. }
  apply NoDup_incl_length in G; auto. rewrite map_length, seq_length in G. auto.
Qed.

Section Search.
Context (K : k2impl) (g : dk K) (n : N) (nbs : N -> list N).
Context (Hn : (n <= 2 ^ 32)%N).
Context (Hnw : forall x, (x < n)%N -> nwalk K g x (map Z.of_N (nbs x))).
Context (Hrg : forall x y, (x < n)%N -> In y (nbs x) -> (y < n)%N).
Local Notation E := (fun x y => (x < n)%N /\ In y (nbs x)).

(** What the inner loop appends: the unvisited ones, each once. *)
Fixpoint fresh (ys vis : list N) : list N :=
  match ys with
  | [] => []
  | y :: ys => if nmem y vis then fresh ys vis else y :: fresh ys (y :: vis)
  end.

Lemma fresh_In ys : forall vis y, In y (fresh ys vis) <-> In y ys /\ ~ In y vis.
Proof using Type.
  induction ys as [|a ys IH]; cbn [fresh In]; intros vis y; [tauto|].
  destruct (nmem a vis) eqn:Em.
  - apply nmem_In in Em. rewrite IH. intuition congruence.
  - apply nmem_false in Em. cbn [In]. rewrite IH. cbn [In]. destruct (N.eq_dec a y) as [->|]; intuition.
Qed.
Lemma fresh_NoDup ys : forall vis, NoDup (fresh ys vis).
Proof using Type.
  induction ys as [|a ys IH]; cbn [fresh]; intros vis; [constructor|].
  destruct (nmem a vis); auto. constructor; auto. rewrite fresh_In. cbn [In]. tauto.
Qed.

Lemma fold_fresh push ys : Forall (fun y => (y < n)%N) ys -> forall q vis,
  exists vis', fold_left (visit_body push) (map Z.of_N ys) (q, vis) = (fold_left push (fresh ys vis) q, vis') /\
    forall v, In v vis' <-> In v vis \/ In v (fresh ys vis).
Proof using Hn.
  induction 1 as [|a ys Ha HF IH]; intros q vis; cbn [map fold_left fresh].
  - exists vis. split; auto. cbn. tauto.
  - unfold visit_body at 2. rewrite to_u32_id by lia. cbn [fst snd].
    destruct (nmem a vis) eqn:Em.
    + apply IH.
    + destruct (IH (push q a) (a :: vis)) as [vis' [E1 E2]]. exists vis'. split; [exact E1|].
      intros v. rewrite E2. cbn [In]. tauto.
Qed.

Section Generic.
Context (push : list N -> N -> list N).
Context (Hpush : forall q y, Permutation (push q y) (y :: q)).

Lemma fold_push ys : forall q, Permutation (fold_left push ys q) (ys ++ q).
Proof using Hpush.
  induction ys as [|y ys IH]; intros q; cbn [fold_left app]; auto.
  rewrite IH, Hpush. symmetry. apply Permutation_middle.
Qed.

(** Invariant of the while loop. *)
Record sinv (root : N) (q vis path : list N) : Prop := {
  si_nd : NoDup (path ++ q);
  si_vis : forall v, In v vis <-> In v (path ++ q);
  si_rng : forall v, In v (path ++ q) -> (v < n)%N;
  si_closed : forall x y, In x path -> In y (nbs x) -> In y (path ++ q);
  si_reach : forall v, In v (path ++ q) -> reach E root v;
  si_root : In root (path ++ q)
}.

Lemma sinv_step root x q vis path : sinv root (x :: q) vis path ->
  exists q' vis', fold_left (visit_body push) (map Z.of_N (nbs x)) (q, vis) = (q', vis') /\
    q' = fold_left push (fresh (nbs x) vis) q /\ sinv root q' vis' (path ++ [x]).
Proof using Hn Hpush Hrg.
  intros I. assert (Hx : (x < n)%N) by (apply (si_rng _ _ _ _ I); rewrite in_app_iff; cbn; auto).
  assert (HF : Forall (fun y => (y < n)%N) (nbs x)) by (apply Forall_forall; intros y; apply Hrg; auto).
  destruct (fold_fresh push _ HF q vis) as [vis' [E1 E2]].
  exists (fold_left push (fresh (nbs x) vis) q), vis'. split; [exact E1|]. split; [reflexivity|].
  pose proof (fold_push (fresh (nbs x) vis) q) as P.
  assert (P2 : Permutation ((path ++ [x]) ++ fold_left push (fresh (nbs x) vis) q) (fresh (nbs x) vis ++ path ++ x :: q)).
  { rewrite P, <- app_assoc. cbn [app]. rewrite (Permutation_app_comm (fresh _ _) (path ++ x :: q)), <- app_assoc.
    apply Permutation_app_head. cbn [app]. constructor. apply Permutation_app_comm. }
  assert (HI : forall v, In v ((path ++ [x]) ++ fold_left push (fresh (nbs x) vis) q) <-> In v (fresh (nbs x) vis) \/ In v (path ++ x :: q)).
  { intros v. rewrite <- in_app_iff. split; apply Permutation_in; auto. symmetry; auto. }
  constructor.
  - apply (Permutation_NoDup (Permutation_sym P2)). apply NoDup_app. split; [apply fresh_NoDup|].
    split; [apply (si_nd _ _ _ _ I)|]. intros a Ha. apply fresh_In in Ha. rewrite <- (si_vis _ _ _ _ I). tauto.
  - intros v. rewrite E2, HI, (si_vis _ _ _ _ I). tauto.
  - intros v. rewrite HI. intros [G|G]; [|apply (si_rng _ _ _ _ I); auto]. apply fresh_In in G. apply (Hrg x); tauto.
  - intros a y Ha Hy. rewrite HI. apply in_app_iff in Ha. destruct Ha as [Ha|[<-|[]]].
    + right. apply (si_closed _ _ _ _ I a); auto.
    + rewrite fresh_In, (si_vis _ _ _ _ I).
      destruct (in_dec N.eq_dec y (path ++ x :: q)); tauto.
  - intros v. rewrite HI. intros [G|G]; [|apply (si_reach _ _ _ _ I); auto]. apply fresh_In in G.
    apply reach_step with x; [|tauto]. apply (si_reach _ _ _ _ I). rewrite in_app_iff. cbn. auto.
  - rewrite HI. right. apply (si_root _ _ _ _ I).
Qed.

(** The loop ends; [Q] is any relation between the state and the path preserved by a step. *)
Lemma search_run root (Q : list N -> list N -> list N -> Prop) :
  (forall x q vis path, sinv root (x :: q) vis path -> Q (x :: q) vis path ->
     forall vis', sinv root (fold_left push (fresh (nbs x) vis) q) vis' (path ++ [x]) ->
     Q (fold_left push (fresh (nbs x) vis) q) vis' (path ++ [x])) ->
  forall k q vis path, N.to_nat n - length path < k -> sinv root q vis path -> Q q vis path ->
  exists vis' p, search K g push q vis path p /\ sinv root [] vis' p /\ Q [] vis' p.
Proof using Hn Hpush Hrg Hnw.
  intros HQ. induction k as [|k IH]; intros q vis path Hk I HQ0; [lia|].
  destruct q as [|x q]; [exists vis, path; split; [constructor|auto]|].
  destruct (sinv_step root x q vis path I) as [q' [vis' [Ef [Eq I']]]].
  assert (HQ' : Q q' vis' (path ++ [x])) by (subst q'; apply HQ; auto).
  assert (Hl : length (path ++ [x]) <= N.to_nat n).
  { apply incl_range_length.
    - pose proof (si_nd _ _ _ _ I') as G. apply NoDup_app in G. tauto.
    - intros v Hv. apply (si_rng _ _ _ _ I'). apply in_app_iff. auto. }
  rewrite app_length in Hl. cbn [length] in Hl.
  destruct (IH q' vis' (path ++ [x])) as [vis2 [p [H1 [H2 H3]]]]; auto.
  { rewrite app_length. cbn [length]. lia. }
  exists vis2, p. split; [|auto]. apply search_step with (map Z.of_N (nbs x)) q' vis'; auto.
  apply Hnw. apply (si_rng _ _ _ _ I). apply in_app_iff. cbn; auto.
Qed.

Lemma sinv_init root : (root < n)%N -> sinv root [root] [root] [].
Proof using Type.
  intros Hr. constructor; cbn [app].
  - repeat constructor; auto.
  - tauto.
  - intros v [<-|[]]; auto.
  - intros ? ? [].
  - intros v [<-|[]]. constructor.
  - left; auto.
Qed.

Lemma sinv_final root vis p : sinv root [] vis p -> NoDup p /\ (forall v, In v p <-> reach E root v).
Proof using Type.
  intros I. pose proof (app_nil_r p) as Ep. split; [rewrite <- Ep; apply (si_nd _ _ _ _ I)|].
  intros v. split.
  - intros Hv. apply (si_reach _ _ _ _ I). rewrite Ep. auto.
  - induction 1 as [|x y H IH [Hx He]].
    + rewrite <- Ep. apply (si_root _ _ _ _ I).
    + rewrite <- Ep. apply (si_closed _ _ _ _ I x); auto.
Qed.

(** Head and search order. *)
Definition ord (root : N) (q vis path : list N) : Prop :=
  (path = [] -> q = [root]) /\ (path <> [] -> hd_error path = Some root) /\
  (forall p1 v p2, path = p1 ++ v :: p2 -> p1 <> [] -> exists u, In u p1 /\ In v (nbs u) /\ (u < n)%N) /\
  (path <> [] -> forall v, In v q -> exists u, In u path /\ In v (nbs u) /\ (u < n)%N).

Lemma snoc_split {A} (l : list A) x p1 v p2 : l ++ [x] = p1 ++ v :: p2 ->
  (p2 = [] /\ l = p1 /\ x = v) \/ exists p2', p2 = p2' ++ [x] /\ l = p1 ++ v :: p2'.
Proof using Type.
  intros H. destruct p2 as [|a p2' _] using rev_ind.
  - left. apply app_inj_tail in H. tauto.
  - right. exists p2'. replace (p1 ++ v :: p2' ++ [a]) with ((p1 ++ v :: p2') ++ [a]) in H by (rewrite <- app_assoc; auto).
    apply app_inj_tail in H. destruct H as [-> ->]. auto.
Qed.

Lemma ord_step root x q vis path : sinv root (x :: q) vis path -> ord root (x :: q) vis path ->
  forall vis', sinv root (fold_left push (fresh (nbs x) vis) q) vis' (path ++ [x]) ->
  ord root (fold_left push (fresh (nbs x) vis) q) vis' (path ++ [x]).
Proof using Hpush.
  intros I [O1 [O2 [O3 O4]]] vis' _.
  assert (Hx : (x < n)%N) by (apply (si_rng _ _ _ _ I); rewrite in_app_iff; cbn; auto).
  assert (Hne : path ++ [x] <> []) by (destruct path; discriminate).
  split; [intros G; contradiction|]. split.
  { intros _. destruct path as [|a path]; cbn [app hd_error].
    - specialize (O1 eq_refl). injection O1 as -> _. auto.
    - apply O2. discriminate. }
  split.
  - intros p1 v p2 G Hp. apply snoc_split in G. destruct G as [[_ [-> ->]]|[p2' [_ G]]].
    + apply O4; auto. left; auto.
    + apply O3 with p2'; auto.
  - intros _ v Hv. apply (Permutation_in _ (fold_push _ _)) in Hv. apply in_app_iff in Hv. destruct Hv as [Hv|Hv].
    + exists x. apply fresh_In in Hv. rewrite in_app_iff. cbn. tauto.
    + destruct path as [|a path].
      * specialize (O1 eq_refl). injection O1 as _ ->. destruct Hv.
      * destruct (O4 ltac:(discriminate) v) as [u [H1 H2]]; [right; auto|]. exists u. rewrite in_app_iff. auto.
Qed.

Lemma ord_init root : ord root [root] [root] [].
Proof using Type.
  split; [auto|]. split; [intros G; congruence|]. split; [|intros G; congruence].
  intros p1 v p2 G. destruct p1; discriminate.
Qed.
End Generic.

(** ** Breadth first: distances *)
Definition labelled (root : N) (q vis path : list N) : Prop :=
  exists dp dq, length dp = length path /\ length dq = length q /\
    Forall2 (fun v k => is_dist E root v k) (path ++ q) (dp ++ dq) /\ StronglySorted le (dp ++ dq) /\
    match dq with [] => True | k0 :: _ => Forall (fun k => k <= S k0) dq end.

Lemma fold_push_back ys : forall q, fold_left push_back ys q = q ++ ys.
Proof using Type.
  induction ys as [|y ys IH]; intros q; cbn [fold_left]; [rewrite app_nil_r; auto|].
  rewrite IH. unfold push_back. rewrite <- app_assoc. reflexivity.
Qed.

Lemma is_dist_unique root v a b : is_dist E root v a -> is_dist E root v b -> a = b.
Proof using Type. intros [W1 M1] [W2 M2]. apply M1 in W2. apply M2 in W1. apply Nat.le_antisymm; auto. Qed.

Lemma Forall2_In {A B} (R : A -> B -> Prop) l m a : Forall2 R l m -> In a l -> exists b, In b m /\ R a b.
Proof using Type.
  induction 1 as [|x y l m H HF IH]; intros []; [subst; exists y; cbn; auto|]. destruct IH as [b [H1 H2]]; auto. exists b; cbn; auto.
Qed.

Lemma SS_app (l m : list nat) : StronglySorted le (l ++ m) <->
  StronglySorted le l /\ StronglySorted le m /\ forall a b, In a l -> In b m -> a <= b.
Proof using Type.
  induction l as [|x l IH]; cbn [app].
  - split; [intros H; split; [constructor|split; [auto|intros ? ? []]]|tauto].
  - split.
    + intros H. inversion H as [|? ? H1 H2]; subst. apply IH in H1. destruct H1 as [H1 [H3 H4]].
      apply Forall_app in H2. destruct H2 as [H2 H5]. split; [constructor; auto|]. split; auto.
      intros a b [->|Ha] Hb; [|auto]. rewrite Forall_forall in H5; auto.
    + intros [H1 [H2 H3]]. inversion H1 as [|? ? H4 H5]; subst. constructor.
      * apply IH. split; auto. split; auto. intros a b Ha Hb. apply H3; cbn; auto.
      * apply Forall_app. split; auto. apply Forall_forall. intros b Hb. apply H3; cbn; auto.
Qed.

Lemma bfs_step root x q vis path : sinv root (x :: q) vis path -> labelled root (x :: q) vis path ->
  forall vis', sinv root (fold_left push_back (fresh (nbs x) vis) q) vis' (path ++ [x]) ->
  labelled root (fold_left push_back (fresh (nbs x) vis) q) vis' (path ++ [x]).
Proof using Hn.
  intros I [dp [dq [Lp [Lq [HF [HS Hh]]]]]] vis' _. rewrite fold_push_back.
  destruct dq as [|k0 dq]; [discriminate|]. cbn [length] in Lq.
  exists (dp ++ [k0]), (dq ++ repeat (S k0) (length (fresh (nbs x) vis))).
  split; [rewrite !app_length; cbn; lia|]. split; [rewrite !app_length, repeat_length; lia|].
  assert (Hp : Forall2 (fun v k => is_dist E root v k) path dp /\ Forall2 (fun v k => is_dist E root v k) (x :: q) (k0 :: dq)).
  { clear - HF Lp. revert dp Lp HF. induction path as [|a path IH]; intros [|b dp] Lp HF; try discriminate; auto.
    cbn [app] in HF. inversion HF; subst. destruct (IH dp) as [G1 G2]; auto. }
  destruct Hp as [Hp Hq]. inversion Hq as [|? ? ? ? Hx Hq']; subst.
  assert (Hxn : (x < n)%N) by (apply (si_rng _ _ _ _ I); rewrite in_app_iff; cbn; auto).
  (* every vertex at distance below k0 has been processed *)
  assert (HC : forall j v, j < k0 -> walk E root v j -> In v path).
  { assert (Hmin : forall v k, In v (x :: q) -> is_dist E root v k -> k0 <= k).
    { intros v k Hv Hk. destruct (Forall2_In _ _ _ v Hq Hv) as [k' [G1 G2]].
      rewrite (is_dist_unique root v k k' Hk G2). apply SS_app in HS. destruct HS as [_ [HS _]].
      inversion HS as [|? ? _ G3]; subst. destruct G1 as [<-|G1]; auto. rewrite Forall_forall in G3; auto. }
    assert (Hseen : forall v j, j < k0 -> walk E root v j -> In v (path ++ x :: q) -> In v path).
    { intros v j Hj Hw Hv. apply in_app_iff in Hv. destruct Hv as [Hv|Hv]; auto. exfalso.
      destruct (Forall2_In _ _ _ v Hq Hv) as [k [_ G2]]. pose proof (Hmin v k Hv G2). destruct G2 as [_ G2].
      apply G2 in Hw. lia. }
    induction j as [|j IH]; intros v Hj Hw.
    - inversion Hw; subst. apply Hseen with 0; auto. apply (si_root _ _ _ _ I).
    - inversion Hw as [|z ? ? Hz [Hzn He]]; subst. apply Hseen with (S j); auto.
      apply (si_closed _ _ _ _ I z); auto. apply IH; auto. lia. }
  assert (Hnew : forall y, In y (fresh (nbs x) vis) -> is_dist E root y (S k0)).
  { intros y Hy. apply fresh_In in Hy. destruct Hy as [Hy1 Hy2]. rewrite (si_vis _ _ _ _ I) in Hy2. split.
    - econstructor; [apply Hx|split; auto].
    - intros j Hw. destruct (le_lt_dec (S k0) j); auto. exfalso. apply Hy2.
      destruct Hw as [|z y j Hz [Hzn He]].
      + apply (si_root _ _ _ _ I).
      + apply (si_closed _ _ _ _ I z); auto. apply HC with j; auto. lia. }
  split; [|split].
  - rewrite <- !app_assoc. apply Forall2_app; auto. cbn [app]. constructor; auto.
    apply Forall2_app; auto. clear - Hnew. induction (fresh (nbs x) vis) as [|y l IH]; cbn [length repeat]; constructor.
    + apply Hnew; left; auto.
    + apply IH. intros y' Hy. apply Hnew; right; auto.
  - rewrite <- app_assoc. cbn [app]. change (k0 :: dq ++ repeat (S k0) (length (fresh (nbs x) vis)))
      with ((k0 :: dq) ++ repeat (S k0) (length (fresh (nbs x) vis))). rewrite app_assoc. apply SS_app.
    split; [exact HS|]. split.
    + clear. induction (length (fresh (nbs x) vis)) as [|m IH]; cbn [repeat]; constructor; auto.
      apply Forall_forall. intros b Hb. apply repeat_spec in Hb. lia.
    + intros a b Ha Hb. apply repeat_spec in Hb. subst b. apply in_app_iff in Ha. destruct Ha as [Ha|Ha].
      * apply SS_app in HS. destruct HS as [_ [_ HS]]. specialize (HS a k0 Ha). cbn in HS. specialize (HS (or_introl eq_refl)). lia.
      * rewrite Forall_forall in Hh. auto.
  - destruct dq as [|k1 dq]; cbn [app].
    + destruct (fresh (nbs x) vis) as [|y l]; cbn [length repeat]; [exact Logic.I|]. constructor; [lia|].
      apply Forall_forall. intros b Hb. apply repeat_spec in Hb. lia.
    + apply SS_app in HS. destruct HS as [_ [HS _]]. inversion HS as [|? ? HS1 HS2]; subst. inversion HS2; subst.
      change (k1 :: dq ++ repeat (S k0) (length (fresh (nbs x) vis))) with ((k1 :: dq) ++ repeat (S k0) (length (fresh (nbs x) vis))).
      apply Forall_app. split.
      * inversion Hh as [|? ? _ Hh']; subst. apply Forall_forall. intros b Hb. rewrite Forall_forall in Hh'. specialize (Hh' b Hb). lia.
      * apply Forall_forall. intros b Hb. apply repeat_spec in Hb. lia.
Qed.

Lemma labelled_sorted root vis p : labelled root [] vis p -> by_distance E root p.
Proof using Type.
  intros [dp [dq [Lp [Lq [HF [HS _]]]]]]. destruct dq; [|discriminate]. rewrite !app_nil_r in *.
  intros p1 a p2 b p3 da db -> Ha Hb.
  apply Forall2_app_inv_l in HF. destruct HF as [d1 [d2 [F1 [F2 ->]]]].
  inversion F2 as [|? ka ? d3 Ga F3]; subst. apply Forall2_app_inv_l in F3. destruct F3 as [d4 [d5 [F4 [F5 ->]]]].
  inversion F5 as [|? kb ? d6 Gb F6]; subst.
  rewrite (is_dist_unique root a da ka Ha Ga), (is_dist_unique root b db kb Hb Gb).
  apply SS_app in HS. destruct HS as [_ [HS _]]. inversion HS as [|? ? _ G]; subst. rewrite Forall_forall in G.
  apply G. apply in_app_iff. right. left. auto.
Qed.

Theorem bfs_correct root : (root < n)%N -> exists p, bfs K g root p /\ NoDup p /\
  (forall v, In v p <-> reach E root v) /\ hd_error p = Some root /\ by_distance E root p /\ search_order E p.
Proof using Hn Hnw Hrg.
  intros Hr.
  assert (HP : forall q y, Permutation (push_back q y) (y :: q)).
  { intros q y. unfold push_back. symmetry. apply Permutation_cons_append. }
  destruct (search_run push_back HP root (fun q vis path => labelled root q vis path /\ ord root q vis path)) with
    (k := S (N.to_nat n)) (q := [root]) (vis := [root]) (path := @nil N) as [vis [p [H1 [H2 [H3 [O1 [O2 [O3 O4]]]]]]]].
  - intros x q vis path I [J O] vis' I'. split; [apply bfs_step; auto|apply ord_step; auto].
  - cbn; lia.
  - apply sinv_init; auto.
  - split; [|apply ord_init]. exists [], [0]. cbn. split; [auto|]. split; [auto|]. split.
    + constructor; [|constructor]. split; [constructor|]. intros; lia.
    + split; [repeat constructor|]. repeat constructor.
  - exists p. destruct (sinv_final root vis p H2) as [N1 N2]. split; [exact H1|]. split; [exact N1|]. split; [exact N2|].
    assert (Hne : p <> []). { intros ->. apply (N2 root). constructor. }
    split; [auto|]. split; [apply (labelled_sorted root vis); auto|].
    intros p1 v p2 G Hp. destruct (O3 p1 v p2 G Hp) as [u [G1 [G2 G3]]]. exists u. auto.
Qed.

(** ** Depth first *)
Lemma push_front_perm q y : Permutation (push_front q y) (y :: q).
Proof using Type. reflexivity. Qed.
Lemma fold_push_front ys : forall q, fold_left push_front ys q = rev ys ++ q.
Proof using Type.
  induction ys as [|y ys IH]; intros q; cbn [fold_left rev app]; auto.
  rewrite IH. unfold push_front. rewrite <- app_assoc. reflexivity.
Qed.

(** Stack entries carry the index in the path of the vertex they were pushed from. *)
Definition parents (root : N) (q vis path : list N) : Prop :=
  (path = [] -> q = [root] /\ vis = [root]) /\ depth_first E path /\
  (path <> [] -> In root path /\ exists ix, length ix = length q /\
     (forall k v i, nth_error q k = Some v -> nth_error ix k = Some i -> exists u, nth_error path i = Some u /\ E u v) /\
     StronglySorted (fun a b => b <= a) ix /\
     (forall i w y, nth_error path i = Some w -> E w y -> ~ In y path -> exists k, nth_error q k = Some y /\ nth_error ix k = Some i)) /\
  (forall v, In v path -> v <> root -> exists u, In u path /\ E u v).

Context (Hforest : forall x x' y, (x < n)%N -> (x' < n)%N -> In y (nbs x) -> In y (nbs x') -> x = x').

Lemma SSge_app (l m : list nat) : StronglySorted (fun a b => b <= a) l -> StronglySorted (fun a b => b <= a) m ->
  (forall a b, In a l -> In b m -> b <= a) -> StronglySorted (fun a b => b <= a) (l ++ m).
Proof using Type.
  induction 1 as [|x l H IH HF]; intros Hm Hc; cbn [app]; auto. constructor.
  - apply IH; auto. intros a b Ha Hb. apply Hc; cbn; auto.
  - apply Forall_app. split; auto. apply Forall_forall. intros b Hb. apply Hc; cbn; auto.
Qed.

Lemma dfs_step root x q vis path : sinv root (x :: q) vis path -> parents root (x :: q) vis path ->
  forall vis', sinv root (fold_left push_front (fresh (nbs x) vis) q) vis' (path ++ [x]) ->
  parents root (fold_left push_front (fresh (nbs x) vis) q) vis' (path ++ [x]).
Proof using Hn Hforest.
  intros I [P1 [P2 [P3 P4]]] vis' I'. rewrite fold_push_front in *.
  assert (Hne : path ++ [x] <> []) by (destruct path; discriminate).
  assert (Hx : (x < n)%N) by (apply (si_rng _ _ _ _ I); rewrite in_app_iff; cbn; auto).
  assert (Hxp : ~ In x path).
  { intros G. pose proof (si_nd _ _ _ _ I) as Hd. apply NoDup_app in Hd. apply (proj2 (proj2 Hd) x G). left; auto. }
  (* the top of the stack was pushed from the most recent vertex with an unvisited out-neighbour *)
  assert (Htop : path <> [] -> exists i u, nth_error path i = Some u /\ E u x /\
             forall j w y, i < j -> nth_error path j = Some w -> E w y -> In y path).
  { intros Hp. destruct (P3 Hp) as [_ [ix [L1 [L2 [L3 L4]]]]]. destruct ix as [|i ix]; [discriminate|].
    destruct (L2 0 x i eq_refl eq_refl) as [u [G1 G2]]. exists i, u. split; auto. split; auto.
    intros j w y Hj Hw Hy. destruct (in_dec N.eq_dec y path) as [|Hny]; auto. exfalso.
    destruct (L4 j w y Hw Hy Hny) as [k [_ Gk]]. inversion L3 as [|? ? _ HFa]; subst. destruct k as [|k]; cbn in Gk.
    - injection Gk as ->. lia.
    - rewrite Forall_forall in HFa. apply nth_error_In in Gk. apply HFa in Gk. lia. }
  split; [intros G; contradiction|]. split; [|split].
  - intros p1 v p2 G Hp. apply snoc_split in G. destruct G as [[_ [-> ->]]|[p2' [_ G]]].
    + destruct (Htop Hp) as [i [u [G1 [G2 G3]]]]. destruct (nth_error_split _ _ G1) as [q1 [q2 [-> <-]]].
      exists q1, u, q2. split; auto. split; auto. intros w y Hw Hy. apply In_nth_error in Hw. destruct Hw as [m Hm].
      apply (G3 (S (length q1) + m) w y); auto; [lia|]. rewrite nth_error_app2 by lia.
      replace (S (length q1) + m - length q1) with (S m) by lia. exact Hm.
    + destruct (P2 p1 v p2' G Hp) as [q1 [u [q2 Hq]]]. exists q1, u, q2. exact Hq.
  - intros _. split.
    { rewrite in_app_iff. destruct path as [|a path]; [|left; apply (P3 ltac:(discriminate))].
      destruct (P1 eq_refl) as [P1a _]. injection P1a as -> _. right; left; auto. }
    (* the new stack *)
    assert (Hold : exists ix, length ix = length q /\
       (forall k v i, nth_error q k = Some v -> nth_error ix k = Some i -> exists u, nth_error path i = Some u /\ E u v) /\
       StronglySorted (fun a b => b <= a) ix /\
       (forall i w y, nth_error path i = Some w -> E w y -> ~ In y path -> y <> x -> exists k, nth_error q k = Some y /\ nth_error ix k = Some i)).
    { destruct path as [|a path].
      - destruct (P1 eq_refl) as [P1a _]. injection P1a as _ ->. exists []. split; auto. split; [intros [|]; discriminate|].
        split; [constructor|]. intros [|]; discriminate.
      - destruct (P3 ltac:(discriminate)) as [_ [ix [L1 [L2 [L3 L4]]]]]. destruct ix as [|i ix]; [discriminate|].
        exists ix. split; [cbn in L1; lia|]. split; [intros k v j G1 G2; apply (L2 (S k)); auto|].
        split; [inversion L3; auto|]. intros j w y G1 G2 G3 Hyx. destruct (L4 j w y G1 G2 G3) as [[|k] [G4 G5]].
        + cbn in G4. congruence.
        + exists k. auto. }
    destruct Hold as [ix [L1 [L2 [L3 L4]]]].
    set (fr := fresh (nbs x) vis) in *.
    exists (repeat (length path) (length fr) ++ ix). split; [rewrite !app_length, repeat_length, rev_length; lia|].
    split; [|split].
    + intros k v i G1 G2. destruct (Nat.lt_ge_cases k (length fr)) as [Hk|Hk].
      * rewrite nth_error_app1 in G1 by (rewrite rev_length; auto).
        rewrite nth_error_app1, nth_error_repeat in G2 by (rewrite repeat_length; auto).
        apply Nat.ltb_lt in Hk. rewrite Hk in G2. injection G2 as <-. exists x.
        rewrite nth_error_app2, Nat.sub_diag by lia. split; auto. split; auto.
        apply nth_error_In in G1. rewrite <- in_rev in G1. apply fresh_In in G1. tauto.
      * rewrite nth_error_app2, rev_length in G1 by (rewrite rev_length; auto).
        rewrite nth_error_app2, repeat_length in G2 by (rewrite repeat_length; auto).
        destruct (L2 _ v i G1 G2) as [u [G3 G4]]. exists u. split; auto. rewrite nth_error_app1; auto.
        apply nth_error_Some. congruence.
    + apply SSge_app; auto.
      * clear. induction (length fr) as [|m IH]; cbn [repeat]; constructor; auto. apply Forall_forall. intros b Hb.
        apply repeat_spec in Hb. lia.
      * intros a b Ha Hb. apply repeat_spec in Ha. subst a. apply In_nth_error in Hb. destruct Hb as [k Hk].
        assert (Hkq : k < length q) by (rewrite <- L1; apply nth_error_Some; congruence).
        destruct (nth_error q k) as [v|] eqn:Ev; [|apply nth_error_None in Ev; lia].
        destruct (L2 k v b Ev Hk) as [u [G3 _]]. assert (b < length path) by (apply nth_error_Some; congruence). lia.
    + intros i w y G1 G2 G3. rewrite in_app_iff in G3.
      destruct (Nat.lt_ge_cases i (length path)) as [Hi|Hi].
      * rewrite nth_error_app1 in G1 by auto. destruct (L4 i w y G1 G2) as [k [G4 G5]]; [tauto| |].
        { intros ->. apply G3. right; left; auto. }
        exists (length fr + k). rewrite !nth_error_app2 by (rewrite ?rev_length, ?repeat_length; lia).
        rewrite rev_length, repeat_length. replace (length fr + k - length fr) with k by lia. auto.
      * rewrite nth_error_app2 in G1 by auto. destruct (i - length path) as [|m] eqn:Em; cbn in G1; [|destruct m; discriminate].
        injection G1 as <-. assert (i = length path) by lia. subst i.
        assert (Hy : In y fr).
        { apply fresh_In. split; [apply G2|]. rewrite (si_vis _ _ _ _ I). intros Hv. apply in_app_iff in Hv.
          destruct Hv as [Hv|[->|Hv]]; [tauto|apply G3; right; left; auto|].
          destruct path as [|a path].
          - destruct (P1 eq_refl) as [P1a _]. injection P1a as _ ->. destruct Hv.
          - apply In_nth_error in Hv. destruct Hv as [k Hk].
            assert (Hkq : k < length ix) by (rewrite L1; apply nth_error_Some; congruence).
            destruct (nth_error ix k) as [j|] eqn:Ej; [|apply nth_error_None in Ej; lia].
            destruct (L2 k y j Hk Ej) as [u [G4 [G5 G6]]]. destruct G2 as [_ G2].
            rewrite (Hforest u x y) in G4; auto. apply nth_error_In in G4. auto. }
        rewrite in_rev in Hy. apply In_nth_error in Hy. destruct Hy as [k Hk].
        assert (Hkl : k < length fr) by (rewrite <- rev_length; apply nth_error_Some; congruence).
        exists k. rewrite !nth_error_app1 by (rewrite ?rev_length, ?repeat_length; auto). split; auto.
        rewrite nth_error_repeat. apply Nat.ltb_lt in Hkl. rewrite Hkl. auto.
  - intros v Hv Hr. apply in_app_iff in Hv. destruct Hv as [Hv|[<-|[]]].
    + destruct (P4 v Hv Hr) as [u [G1 G2]]. exists u. rewrite in_app_iff. auto.
    + destruct path as [|a path].
      * destruct (P1 eq_refl) as [P1a _]. injection P1a as -> _. contradiction.
      * destruct (Htop ltac:(discriminate)) as [i [u [G1 [G2 _]]]]. exists u. apply nth_error_In in G1.
        rewrite in_app_iff. auto.
Qed.
End Search.

Theorem dfs_correct K (g : dk K) n nbs : (n <= 2 ^ 32)%N ->
  (forall x, (x < n)%N -> nwalk K g x (map Z.of_N (nbs x))) ->
  (forall x y, (x < n)%N -> In y (nbs x) -> (y < n)%N) ->
  forall root, (root < n)%N ->
  let E := fun x y => (x < n)%N /\ In y (nbs x) in
  exists p, dfs K g root p /\ NoDup p /\
  (forall v, In v p <-> reach E root v) /\ hd_error p = Some root /\ search_order E p.
Proof.
  intros Hn Hnw Hrg root Hr E.
  destruct (search_run K g n nbs Hn Hnw Hrg push_front push_front_perm root (fun q vis path => ord n nbs root q vis path)) with
    (k := S (N.to_nat n)) (q := [root]) (vis := [root]) (path := @nil N) as [vis [p [H1 [H2 [O1 [O2 [O3 O4]]]]]]].
  - intros x q vis path I O vis' I'. apply ord_step; auto.
  - cbn; lia.
  - apply sinv_init; auto.
  - apply ord_init.
  - exists p. destruct (sinv_final n nbs root vis p H2) as [N1 N2]. split; [exact H1|]. split; [exact N1|]. split; [exact N2|].
    assert (Hne : p <> []). { intros ->. apply (N2 root). constructor. }
    split; [auto|]. intros p1 v p2 G Hp. destruct (O3 p1 v p2 G Hp) as [u [G1 [G2 G3]]]. exists u. split; auto. split; auto.
Qed.

Theorem dfs_forest K (g : dk K) n nbs : (n <= 2 ^ 32)%N ->
  (forall x, (x < n)%N -> nwalk K g x (map Z.of_N (nbs x))) ->
  (forall x y, (x < n)%N -> In y (nbs x) -> (y < n)%N) ->
  (forall x x' y, (x < n)%N -> (x' < n)%N -> In y (nbs x) -> In y (nbs x') -> x = x') ->
  forall root, (root < n)%N ->
  exists p, dfs K g root p /\ depth_first (fun x y => (x < n)%N /\ In y (nbs x)) p.
Proof.
  intros Hn Hnw Hrg Hf root Hr.
  destruct (search_run K g n nbs Hn Hnw Hrg push_front push_front_perm root (fun q vis path => parents n nbs root q vis path)) with
    (k := S (N.to_nat n)) (q := [root]) (vis := [root]) (path := @nil N) as [vis [p [H1 [H2 [P1 [P2 P3]]]]]].
  - intros x q vis path I O vis' I'. apply dfs_step; auto.
  - cbn; lia.
  - apply sinv_init; auto.
  - split; [auto|]. split; [intros p1 v p2 G; destruct p1; discriminate|]. split; [intros G; congruence|]. intros v [].
  - exists p. auto.
Qed.
