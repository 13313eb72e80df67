(** * C33, C35: the exact order in which bfs and dfs visit the vertices, in terms of the neighbour lists.

    The searches mark a vertex when they first see it; the vertex from whose list that happens is its discoverer: the earliest visited vertex that lists it. *)
From Verif Require Import Base Spec AlgoSpec Thresholds Table K2 C0 DK DKHist Prop_DK Iter IterProof Prop_Iter Algo AlgoProof Prop_Algo.

(** A complete search from root: every vertex reachable through the lists, each once, the root first. *)
Definition complete (nb : N -> list N) (root : N) (p : list N) : Prop :=
  NoDup p /\ (forall v, In v p <-> reach (fun x y => In y (nb x)) root v) /\ hd_error p = Some root.
(** Queue order: the next vertex v is the first unvisited one in the list of the earliest visited vertex u that has an unvisited one in its list. *)
Definition queue_order (nb : N -> list N) (p : list N) : Prop :=
  forall p1 v p2, p = p1 ++ v :: p2 -> p1 <> [] ->
    exists q1 u q2 l1 l2, p1 = q1 ++ u :: q2 /\ nb u = l1 ++ v :: l2 /\
      (forall w y, In w q1 -> In y (nb w) -> In y p1) /\ (forall y, In y l1 -> In y p1).
(** Stack order: u is the discoverer of the next vertex v; all vertices discovered after u was visited have been visited, and so have those that u
    discovered and that come after v in the list of u. *)
Definition stack_order (nb : N -> list N) (p : list N) : Prop :=
  forall p1 v p2, p = p1 ++ v :: p2 -> p1 <> [] ->
    exists q1 u q2 l1 l2, p1 = q1 ++ u :: q2 /\ nb u = l1 ++ v :: l2 /\ (forall w, In w q1 -> ~ In v (nb w)) /\
      (forall y, In y l2 -> In y p1 \/ exists w, In w q1 /\ In y (nb w)) /\
      (forall w y, In w q2 -> In y (nb w) -> In y p1 \/ exists w', In w' (q1 ++ [u]) /\ In y (nb w')).

(** ** The orders determine the search *)
Lemma two_splits {X} (a b a' b' : list X) v v' : a ++ v :: b = a' ++ v' :: b' -> (a = a' /\ v = v' /\ b = b') \/ (exists c, a' = a ++ v :: c /\ b = c ++ v' :: b') \/ (exists c, a = a' ++ v' :: c /\ b' = c ++ v :: b).
Proof.
  revert a'. induction a as [|x a IH]; intros [|y a'] E; cbn in E; injection E as -> E.
  - auto.
  - right; left. exists a'. auto.
  - right; right. exists a. auto.
  - destruct (IH _ E) as [(-> & -> & ->)|[(c & -> & ->)|(c & -> & ->)]]; [auto|right; left; exists c; auto|right; right; exists c; auto].
Qed.
Lemma same_search nb root (order : list N -> Prop) p p' :
  (forall p1 v p2 v' p2', order (p1 ++ v :: p2) -> order (p1 ++ v' :: p2') -> NoDup (p1 ++ v :: p2) -> NoDup (p1 ++ v' :: p2') -> p1 <> [] -> v = v') ->
  complete nb root p -> complete nb root p' -> order p -> order p' -> p = p'.
Proof.
  intros HO (N1 & R1 & H1) (N2 & R2 & H2) O1 O2.
  assert (Hl : length p = length p') by (apply NoDup_length_eq; auto; intros a; rewrite R1, R2; tauto).
  assert (G : forall k, k <= length p -> firstn k p = firstn k p').
  { induction k as [|k IH]; intros Hk; [reflexivity|]. specialize (IH ltac:(lia)).
    destruct (nth_error p k) as [v|] eqn:E1; [|apply nth_error_None in E1; lia]. destruct (nth_error p' k) as [v'|] eqn:E2; [|apply nth_error_None in E2; lia].
    destruct (nth_error_split p k E1) as (a & b & -> & La). destruct (nth_error_split p' k E2) as (a' & b' & -> & La').
    rewrite !firstn_app, La, La' in IH. rewrite Nat.sub_diag in IH. cbn [firstn] in IH. rewrite !app_nil_r, <- La, firstn_all in IH. rewrite La, <- La', firstn_all in IH. subst a'.
    assert (v = v').
    { destruct a as [|z a]; [cbn in *; congruence|]. apply (HO (z :: a) v b v' b'); auto. discriminate. }
    subst v'. rewrite !firstn_app, La. replace (S k - k) with 1 by lia. reflexivity. }
  specialize (G (length p) (le_n _)). rewrite firstn_all in G. rewrite G, Hl, firstn_all. reflexivity.
Qed.
Lemma nd_mid {X} (a b : list X) v : NoDup (a ++ v :: b) -> ~ In v a.
Proof. intros H G. apply NoDup_remove_2 in H. apply H, in_app_iff. auto. Qed.
Lemma queue_next nb p1 v p2 v' p2' : queue_order nb (p1 ++ v :: p2) -> queue_order nb (p1 ++ v' :: p2') ->
  NoDup (p1 ++ v :: p2) -> NoDup (p1 ++ v' :: p2') -> p1 <> [] -> v = v'.
Proof.
  intros O O' N N' Ne. destruct (O p1 v p2 eq_refl Ne) as (q1 & u & q2 & l1 & l2 & E1 & E2 & A & B). destruct (O' p1 v' p2' eq_refl Ne) as (r1 & u' & r2 & m1 & m2 & F1 & F2 & A' & B').
  apply nd_mid in N, N'. rewrite E1 in F1. destruct (two_splits _ _ _ _ _ _ F1) as [(<- & <- & <-)|[(c & -> & _)|(c & -> & _)]].
  - rewrite E2 in F2. destruct (two_splits _ _ _ _ _ _ F2) as [(_ & H & _)|[(c & -> & _)|(c & -> & _)]]; auto; exfalso.
    + apply N, B'. apply in_app_iff; cbn; auto.
    + apply N', B. apply in_app_iff; cbn; auto.
  - exfalso. apply N, (A' u); [apply in_app_iff; cbn; auto|]. rewrite E2. apply in_app_iff; cbn; auto.
  - exfalso. apply N', (A u'); [apply in_app_iff; cbn; auto|]. rewrite F2. apply in_app_iff; cbn; auto.
Qed.
Lemma stack_next nb p1 v p2 v' p2' : stack_order nb (p1 ++ v :: p2) -> stack_order nb (p1 ++ v' :: p2') ->
  NoDup (p1 ++ v :: p2) -> NoDup (p1 ++ v' :: p2') -> p1 <> [] -> v = v'.
Proof.
  intros O O' N N' Ne. destruct (O p1 v p2 eq_refl Ne) as (q1 & u & q2 & l1 & l2 & E1 & E2 & D & B & A). destruct (O' p1 v' p2' eq_refl Ne) as (r1 & u' & r2 & m1 & m2 & F1 & F2 & D' & B' & A').
  apply nd_mid in N, N'. rewrite E1 in F1. destruct (two_splits _ _ _ _ _ _ F1) as [(<- & <- & <-)|[(c & -> & ->)|(c & -> & ->)]].
  - rewrite E2 in F2. destruct (two_splits _ _ _ _ _ _ F2) as [(_ & H & _)|[(c & -> & ->)|(c & -> & ->)]]; auto; exfalso.
    + destruct (B v') as [X|(w & X & Y)]; [apply in_app_iff; cbn; auto|auto|exact (D' w X Y)].
    + destruct (B' v) as [X|(w & X & Y)]; [apply in_app_iff; cbn; auto|auto|exact (D w X Y)].
  - exfalso. destruct (A u' v') as [X|(w & X & Y)]; [apply in_app_iff; cbn; auto|rewrite F2; apply in_app_iff; cbn; auto|auto|].
    apply (D' w); auto. apply in_app_iff in X. apply in_app_iff. cbn in *. tauto.
  - exfalso. destruct (A' u v) as [X|(w & X & Y)]; [apply in_app_iff; cbn; auto|rewrite E2; apply in_app_iff; cbn; auto|auto|].
    apply (D w); auto. apply in_app_iff in X. apply in_app_iff. cbn in *. tauto.
Qed.

(** ** The searches follow them *)
Section Search.
Context (K : k2impl) (g : dk K) (n : N) (nbs : N -> list N).
Context (Hn : (n <= 2 ^ 32)%N).
Context (Hnw : forall x, (x < n)%N -> nwalk K g x (map Z.of_N (nbs x))).
Context (Hrg : forall x y, (x < n)%N -> In y (nbs x) -> (y < n)%N).
Context (Hnd : forall x, (x < n)%N -> NoDup (nbs x)).

Lemma app_split {X} (q f s1 s2 : list X) v : q ++ f = s1 ++ v :: s2 ->
  (exists f1, s1 = q ++ f1 /\ f = f1 ++ v :: s2) \/ exists s3, q = s1 ++ v :: s3 /\ s2 = s3 ++ f.
Proof.
  clear. revert s1. induction q as [|x q IH]; intros s1 E; cbn in E; [left; exists s1; auto|]. destruct s1 as [|y s1]; cbn in E; injection E as -> E.
  - right. exists q. auto.
  - destruct (IH _ E) as [(f1 & -> & ->)|(s3 & -> & ->)]; [left; exists f1; auto|right; exists s3; auto].
Qed.
Lemma fresh_split vis : forall ys f1 v f2, NoDup ys -> fresh ys vis = f1 ++ v :: f2 ->
  exists l1 l2, ys = l1 ++ v :: l2 /\ (forall y, In y l1 -> In y vis \/ In y f1) /\ (forall y, In y l2 -> In y vis \/ In y f2).
Proof.
  assert (F : forall ys vis z, ~ In z ys -> fresh ys (z :: vis) = fresh ys vis).
  { clear. induction ys as [|y ys IH]; intros vis z H; [reflexivity|]. cbn [fresh]. assert (Hz : y <> z) by (intros ->; apply H; cbn; auto).
    assert (En : nmem y (z :: vis) = nmem y vis) by (unfold nmem; cbn [existsb]; destruct (N.eqb_spec y z); [contradiction|reflexivity]).
    rewrite En. destruct (nmem y vis); [apply IH; intros G; apply H; cbn; auto|]. f_equal.
    assert (X : forall (l a b : list N) , (forall w, nmem w a = nmem w b) -> fresh l a = fresh l b).
    { clear. induction l as [|w l IH]; intros a b H; [reflexivity|]. cbn [fresh]. rewrite H. destruct (nmem w b); [auto|]. f_equal. apply IH. intros x. unfold nmem in *. cbn. rewrite H. reflexivity. }
    rewrite (X ys (y :: z :: vis) (z :: y :: vis)) by (intros w; unfold nmem; cbn; destruct (w =? y)%N, (w =? z)%N; reflexivity).
    apply IH. intros G. apply H. cbn; auto. }
  induction ys as [|y ys IH]; intros f1 v f2 ND E; [destruct f1; discriminate|]. inversion ND as [|? ? Hy ND']; subst. cbn [fresh] in E.
  destruct (nmem y vis) eqn:En.
  - apply nmem_In in En. destruct (IH _ _ _ ND' E) as (l1 & l2 & -> & A & B). exists (y :: l1), l2. split; [reflexivity|]. split; auto.
    intros z [<-|G]; auto.
  - rewrite F in E by auto. destruct f1 as [|z f1]; cbn in E; injection E as -> E.
    + exists [], ys. split; [reflexivity|]. split; [intros ? []|]. intros z Hz. destruct (nmem z vis) eqn:Ez; [apply nmem_In in Ez; auto|]. right. rewrite <- E. apply fresh_In. split; auto. apply nmem_false; auto.
    + destruct (IH _ _ _ ND' E) as (l1 & l2 & -> & A & B). exists (z :: l1), l2. split; [reflexivity|]. split; auto.
      intros w [<-|G]; [right; cbn; auto|]. destruct (A w G); cbn; auto.
Qed.

Definition qinv (root : N) (q vis path : list N) : Prop :=
  (path = [] -> q = [root]) /\ queue_order nbs path /\
  (path <> [] -> forall s1 v s2, q = s1 ++ v :: s2 -> exists q1 u q2 l1 l2, path = q1 ++ u :: q2 /\ nbs u = l1 ++ v :: l2 /\
     (forall w y, In w q1 -> In y (nbs w) -> In y (path ++ s1)) /\ (forall y, In y l1 -> In y (path ++ s1))).
Lemma qinv_step root x q vis path : sinv n nbs root (x :: q) vis path -> qinv root (x :: q) vis path ->
  forall vis', sinv n nbs root (fold_left push_back (fresh (nbs x) vis) q) vis' (path ++ [x]) ->
  qinv root (fold_left push_back (fresh (nbs x) vis) q) vis' (path ++ [x]).
Proof.
  intros I (Q1 & Q2 & Q3) vis' _. assert (Hx : (x < n)%N) by (apply (si_rng _ _ _ _ _ _ I); rewrite in_app_iff; cbn; auto).
  split; [intros G; destruct path; discriminate|]. split.
  - intros p1 v p2 E Hp. apply snoc_split in E. destruct E as [(-> & -> & ->)|(p2' & -> & ->)]; [|apply (Q2 p1 v p2'); auto].
    destruct (Q3 Hp [] v q eq_refl) as (q1 & u & q2 & l1 & l2 & E1 & E2 & A & B). rewrite app_nil_r in A, B. exists q1, u, q2, l1, l2. auto.
  - intros _ s1 v s2 E. rewrite fold_push_back in E. symmetry in E.
    destruct (app_split _ _ _ _ _ (eq_sym E)) as [(f1 & -> & Ef)|(s3 & -> & ->)].
    + destruct (fresh_split vis _ _ _ _ (Hnd x Hx) Ef) as (l1 & l2 & En & A & B).
      exists path, x, [], l1, l2. split; [reflexivity|]. split; [exact En|]. split.
      * intros w y Hw Hy. pose proof (si_closed _ _ _ _ _ _ I w y Hw Hy) as G. rewrite !in_app_iff in *. cbn in *. tauto.
      * intros y Hy. destruct (A y Hy) as [G|G]; [apply (si_vis _ _ _ _ _ _ I) in G|]; rewrite !in_app_iff in *; cbn in *; tauto.
    + destruct (list_eq_dec N.eq_dec path []) as [Hp|Hp].
      { specialize (Q1 Hp). injection Q1 as _ Q1. destruct s1; discriminate. }
      destruct (Q3 Hp (x :: s1) v s3 eq_refl) as (q1 & u & q2 & l1 & l2 & E1 & E2 & A & B). exists q1, u, (q2 ++ [x]), l1, l2.
      split; [rewrite E1, <- app_assoc; reflexivity|]. split; [exact E2|]. split.
      * intros w y Hw Hy. specialize (A w y Hw Hy). rewrite !in_app_iff in *. cbn in *. tauto.
      * intros y Hy. specialize (B y Hy). rewrite !in_app_iff in *. cbn in *. tauto.
Qed.

Lemma fold_push_front ys : forall q, fold_left push_front ys q = rev ys ++ q.
Proof. induction ys as [|y ys IH]; intros q; [reflexivity|]. cbn [fold_left rev]. rewrite IH, <- app_assoc. reflexivity. Qed.
Definition tinv (root : N) (q vis path : list N) : Prop :=
  (path = [] -> q = [root]) /\ stack_order nbs path /\
  (path <> [] -> forall s1 v s2, q = s1 ++ v :: s2 -> exists q1 u q2 l1 l2, path = q1 ++ u :: q2 /\ nbs u = l1 ++ v :: l2 /\ (forall w, In w q1 -> ~ In v (nbs w)) /\
     (forall y, In y l2 -> In y (path ++ s1) \/ exists w, In w q1 /\ In y (nbs w)) /\
     (forall w y, In w q2 -> In y (nbs w) -> In y (path ++ s1) \/ exists w', In w' (q1 ++ [u]) /\ In y (nbs w')) /\
     (forall y, In y s2 -> exists w, In w (q1 ++ [u]) /\ In y (nbs w))).
Lemma tinv_step root x q vis path : sinv n nbs root (x :: q) vis path -> tinv root (x :: q) vis path ->
  forall vis', sinv n nbs root (fold_left push_front (fresh (nbs x) vis) q) vis' (path ++ [x]) ->
  tinv root (fold_left push_front (fresh (nbs x) vis) q) vis' (path ++ [x]).
Proof.
  intros I (Q1 & Q2 & Q3) vis' _. assert (Hx : (x < n)%N) by (apply (si_rng _ _ _ _ _ _ I); rewrite in_app_iff; cbn; auto).
  split; [intros G; destruct path; discriminate|]. split.
  - intros p1 v p2 E Hp. apply snoc_split in E. destruct E as [(-> & -> & ->)|(p2' & -> & ->)]; [|apply (Q2 p1 v p2'); auto].
    destruct (Q3 Hp [] v q eq_refl) as (q1 & u & q2 & l1 & l2 & E1 & E2 & D & B & A & _). rewrite app_nil_r in A, B. exists q1, u, q2, l1, l2. auto.
  - intros _ s1 v s2 E. rewrite fold_push_front in E.
    assert (Hq : forall y, In y q -> exists w, In w path /\ In y (nbs w)).
    { intros y Hy. destruct (list_eq_dec N.eq_dec path []) as [Hp|Hp].
      { specialize (Q1 Hp). injection Q1 as _ ->. destruct Hy. }
      destruct (in_split _ _ Hy) as (a & b & ->). destruct (Q3 Hp (x :: a) y b eq_refl) as (q1 & u & q2 & l1 & l2 & E1 & E2 & _). exists u. rewrite E1, E2, !in_app_iff. cbn. auto. }
    destruct (app_split _ _ _ _ _ E) as [(f1 & -> & ->)|(s3 & Ef & ->)].
    + destruct (list_eq_dec N.eq_dec path []) as [Hp|Hp].
      { specialize (Q1 Hp). injection Q1 as _ Q1. destruct f1; discriminate. }
      destruct (Q3 Hp (x :: f1) v s2 eq_refl) as (q1 & u & q2 & l1 & l2 & E1 & E2 & D & B & A & C). exists q1, u, (q2 ++ [x]), l1, l2.
      split; [rewrite E1, <- app_assoc; reflexivity|]. split; [exact E2|]. split; [exact D|]. split.
      { intros y Hy. destruct (B y Hy) as [G|G]; auto. left. rewrite !in_app_iff in *. cbn in *. tauto. }
      split; [|exact C]. intros w y Hw Hy. apply in_app_iff in Hw. destruct Hw as [Hw|[<-|[]]].
      * destruct (A w y Hw Hy) as [G|G]; auto. left. rewrite !in_app_iff in *. cbn in *. tauto.
      * destruct (in_dec N.eq_dec y vis) as [Hv|Hv].
        -- apply (si_vis _ _ _ _ _ _ I) in Hv. rewrite !in_app_iff in *. cbn in Hv. rewrite in_app_iff in Hv. cbn in *. destruct Hv as [Hv|[Hv|[Hv|[Hv|Hv]]]]; auto.
           right. exists u. subst y. rewrite E2, !in_app_iff. cbn. auto.
        -- left. rewrite !in_app_iff. right. left. rewrite <- in_rev. apply fresh_In. auto.
    + apply (f_equal (@rev N)) in Ef. rewrite rev_involutive, rev_app_distr in Ef. cbn [rev] in Ef. rewrite <- app_assoc in Ef. cbn [app] in Ef.
      destruct (fresh_split vis _ _ _ _ (Hnd x Hx) Ef) as (l1 & l2 & En & A & B).
      assert (Hvf : In v (fresh (nbs x) vis)) by (rewrite Ef; apply in_app_iff; cbn; auto). apply fresh_In in Hvf. destruct Hvf as [_ Hvf].
      exists path, x, [], l1, l2. split; [reflexivity|]. split; [exact En|]. split; [intros w Hw G; apply Hvf, (si_vis _ _ _ _ _ _ I), (si_closed _ _ _ _ _ _ I w v Hw G)|].
      split; [|split; [intros w y []|]].
      * intros y Hy. destruct (B y Hy) as [G|G].
        -- apply (si_vis _ _ _ _ _ _ I) in G. rewrite !in_app_iff in *. cbn in *. destruct G as [G|[G|G]]; auto.
        -- left. rewrite <- in_rev in G. rewrite !in_app_iff. auto.
      * intros y Hy. apply in_app_iff in Hy. destruct Hy as [Hy|Hy].
        -- exists x. split; [apply in_app_iff; cbn; auto|]. apply (fresh_In (nbs x) vis). rewrite Ef. apply in_app_iff. left. apply in_rev in Hy. exact Hy.
        -- destruct (Hq y Hy) as (w & H1 & H2). exists w. rewrite in_app_iff. auto.
Qed.

Theorem bfs_queue root : (root < n)%N -> exists p, bfs K g root p /\ NoDup p /\
  (forall v, In v p <-> reach (fun x y => (x < n)%N /\ In y (nbs x)) root v) /\ hd_error p = Some root /\ queue_order nbs p.
Proof.
  intros Hr. assert (HP : forall q y, Permutation (push_back q y) (y :: q)) by (intros q y; unfold push_back; symmetry; apply Permutation_cons_append).
  destruct (search_run K g n nbs Hn Hnw Hrg push_back HP root (fun q vis path => qinv root q vis path /\ ord n nbs root q vis path)) with
    (k := S (N.to_nat n)) (q := [root]) (vis := [root]) (path := @nil N) as [vis [p [H1 [H2 [(_ & Q & _) (_ & O2 & _)]]]]].
  - intros x q vis path I [J O] vis' I'. split; [apply qinv_step; auto|apply ord_step; auto].
  - cbn; lia.
  - apply sinv_init; auto.
  - split; [|apply ord_init]. split; [auto|]. split; [intros p1 v p2 E; destruct p1; discriminate|]. congruence.
  - destruct (sinv_final n nbs root vis p H2) as [N1 N2]. exists p. split; [exact H1|]. split; [exact N1|]. split; [exact N2|]. split; [|exact Q].
    apply O2. intros ->. apply (N2 root). constructor.
Qed.
Theorem dfs_stack root : (root < n)%N -> exists p, dfs K g root p /\ NoDup p /\
  (forall v, In v p <-> reach (fun x y => (x < n)%N /\ In y (nbs x)) root v) /\ hd_error p = Some root /\ stack_order nbs p.
Proof.
  intros Hr. assert (HP : forall q y, Permutation (push_front q y) (y :: q)) by (intros q y; reflexivity).
  destruct (search_run K g n nbs Hn Hnw Hrg push_front HP root (fun q vis path => tinv root q vis path /\ ord n nbs root q vis path)) with
    (k := S (N.to_nat n)) (q := [root]) (vis := [root]) (path := @nil N) as [vis [p [H1 [H2 [(_ & Q & _) (_ & O2 & _)]]]]].
  - intros x q vis path I [J O] vis' I'. split; [apply tinv_step; auto|apply ord_step; auto].
  - cbn; lia.
  - apply sinv_init; auto.
  - split; [|apply ord_init]. split; [auto|]. split; [intros p1 v p2 E; destruct p1; discriminate|]. congruence.
  - destruct (sinv_final n nbs root vis p H2) as [N1 N2]. exists p. split; [exact H1|]. split; [exact N1|]. split; [exact N2|]. split; [|exact Q].
    apply O2. intros ->. apply (N2 root). constructor.
Qed.
End Search.

Lemma reach_in n (nb : N -> list N) root : (root < n)%N -> (forall x y, (x < n)%N -> In y (nb x) -> (y < n)%N) ->
  forall v, reach (fun x y => In y (nb x)) root v <-> reach (fun x y => (x < n)%N /\ In y (nb x)) root v.
Proof.
  intros Hr Hc v. assert (G : reach (fun x y => In y (nb x)) root v -> (v < n)%N /\ reach (fun x y => (x < n)%N /\ In y (nb x)) root v).
  { induction 1 as [|x y H [I1 I2] He]; [split; [auto|constructor]|]. split; [apply (Hc x); auto|]. econstructor; eauto. }
  split; [apply G|]. clear G. induction 1 as [|x y H IH [_ He]]; [constructor|]. econstructor; eauto.
Qed.
Lemma lists_facts T K (L : k2laws K) n h g nb : (2 <= n <= 2 ^ 31)%N -> reached T K n h g -> (forall x, (x < n)%N -> dk_neigh K g x = Ok (nb x)) ->
  (forall x, (x < n)%N -> nwalk K g x (map Z.of_N (nb x))) /\ (forall x y, (x < n)%N -> In y (nb x) -> (y < n)%N) /\ (forall x, (x < n)%N -> NoDup (nb x)).
Proof.
  intros Hn HR Hnb. destruct (nbs_of_spec T K L n h g Hn HR) as [N1 [N2 N3]].
  assert (E : forall x, (x < n)%N -> nbs_of K g x = nb x) by (intros x Hx; specialize (N3 x Hx); rewrite (Hnb x Hx) in N3; congruence).
  split; [intros z Hz; rewrite <- (E z Hz); auto|]. split; [intros z y Hz; rewrite <- (E z Hz); eauto|].
  intros x Hx. destruct (C46_neighbours_sound T K L n h g x ltac:(lia) HR Hx) as [l [E1 [E2 _]]]. rewrite (Hnb x Hx) in E1. injection E1 as ->. exact E2.
Qed.

(** C33, exactly: on every graph, the result of bfs is the one complete search in queue order over the lists list_neighbour gives. *)
Theorem C33_order_exact : forall T K (L : k2laws K) n h g nb root,
  (2 <= n <= 2 ^ 31)%N -> reached T K n h g -> (root < n)%N -> (forall x, (x < n)%N -> dk_neigh K g x = Ok (nb x)) ->
  forall p, bfs K g root p <-> complete nb root p /\ queue_order nb p.
Proof.
  intros T K L n h g nb root Hn HR Hr Hnb p. destruct (lists_facts T K L n h g nb Hn HR Hnb) as (A & B & C).
  destruct (bfs_queue K g n nb ltac:(lia) A B C root Hr) as (p0 & H1 & H2 & H3 & H4 & H5).
  assert (C0 : complete nb root p0). { split; [exact H2|]. split; [|exact H4]. intros v. rewrite H3, (reach_in n nb root); auto. tauto. }
  split.
  - intros G. rewrite (search_unique K g _ _ _ _ _ G p0 H1). auto.
  - intros [G1 G2]. rewrite (same_search nb root (queue_order nb) p p0 (queue_next nb)); auto.
Qed.
(** C35, exactly: the result of dfs is the one complete search in stack order. *)
Theorem C35_order_exact : forall T K (L : k2laws K) n h g nb root,
  (2 <= n <= 2 ^ 31)%N -> reached T K n h g -> (root < n)%N -> (forall x, (x < n)%N -> dk_neigh K g x = Ok (nb x)) ->
  forall p, dfs K g root p <-> complete nb root p /\ stack_order nb p.
Proof.
  intros T K L n h g nb root Hn HR Hr Hnb p. destruct (lists_facts T K L n h g nb Hn HR Hnb) as (A & B & C).
  destruct (dfs_stack K g n nb ltac:(lia) A B C root Hr) as (p0 & H1 & H2 & H3 & H4 & H5).
  assert (C0 : complete nb root p0). { split; [exact H2|]. split; [|exact H4]. intros v. rewrite H3, (reach_in n nb root); auto. tauto. }
  split.
  - intros G. rewrite (search_unique K g _ _ _ _ _ G p0 H1). auto.
  - intros [G1 G2]. rewrite (same_search nb root (stack_order nb) p p0 (stack_next nb)); auto.
Qed.

(** The hypotheses are met, and the orders differ: a graph with a vertex (3) that is discovered early and also reachable later. *)
Definition w33 : list op := map Add [(0, 1); (0, 2); (0, 3); (1, 4); (2, 3); (4, 3); (2, 4)]%N.
Definition nb33 (x : N) : list N := match x with 0 => [3; 1; 2] | 1 => [4] | 2 => [4; 3] | 4 => [3] | _ => [] end%N.
Ltac walk := unfold nwalk; eexists; split; [vm_compute; reflexivity|]; repeat loop_step; apply visits_end; vm_compute; reflexivity.
Ltac one := eapply search_step; [walk|vm_compute; reflexivity|].
Example C35_order_example : exists g, reached th_exact K2Ref 5 w33 g /\ (forall x, (x < 5)%N -> dk_neigh K2Ref g x = Ok (nb33 x)) /\
  dfs K2Ref g 0 [0; 2; 4; 1; 3]%N /\ bfs K2Ref g 0 [0; 3; 1; 2; 4]%N.
Proof.
  unfold reached. rewrite <- (tabled_eq th_exact th_real_inhabited). eexists. split; [split; [ranges|vm_compute; reflexivity]|]. split.
  - intros x Hx. assert (X : x = 0%N \/ x = 1%N \/ x = 2%N \/ x = 3%N \/ x = 4%N) by lia. destruct X as [-> |[-> |[-> |[-> | ->]]]]; vm_compute; reflexivity.
  - split; unfold dfs, bfs; do 5 one; apply search_stop.
Qed.
