(** * Prop_DelayExact: C25, the numbers of vertices for which a DKtree_delay takes every list of insertions. *)
From Verif Require Import Base Spec Thresholds K2 C0 C0Proof DK DKProof DKHist DKTotal Delay DelayProof Table4 DelayExact MunroTime Prop_DK Prop_Delay.

Lemma nodup_prefix {A} (l r : list A) : NoDup (l ++ r) -> NoDup l.
Proof. induction l as [|a l IH]; cbn; intros H; [constructor|]. inversion H; subst. constructor; auto. intros G. apply H2, in_app_iff. auto. Qed.
Lemma max0_162 T m : th_real T -> (162 <= m)%N -> (6 <= th_max T m 0)%N.
Proof.
  intros HT Hm. apply N.le_trans with (th_max T 162 0); [|apply th_max0_mono; auto; lia].
  rewrite <- (tabled4_eq T HT). vm_compute. discriminate.
Qed.

Lemma explored T : forallb (fun i => let n := N.of_nat i in Bool.eqb (safe (tabled4 T) n) (negb (nmem n unsafe))) (seq 2 160) = true.
Proof. vm_compute. reflexivity. Qed.

Lemma safe_total T K (L : k2laws K) n es : th_real T -> (2 <= n)%N -> ~ In n unsafe -> Forall (in_range n) es ->
  exists d, dl_hist T K n (map Add es) = Done d.
Proof.
  intros HT Hn Hu HF. destruct (N.le_gt_cases 162 n) as [Hb|Hb].
  { apply (hist_total_dl T K L n Hn); auto; [apply th_real_top; auto|]. intros m Hm. apply max0_162; auto. lia. }
  destruct (start_abs T K L n Hn) as [d [E [R [HR Al]]]]. unfold dl_hist. rewrite E.
  pose proof (explored T) as X. rewrite forallb_forall in X. specialize (X (N.to_nat n)). cbn beta zeta in X. rewrite N2Nat.id in X.
  specialize (X ltac:(apply in_seq; lia)). apply Bool.eqb_prop in X.
  assert (Hm : nmem n unsafe = false) by (destruct (nmem n unsafe) eqn:G; auto; elim Hu; apply nmem_In; auto).
  rewrite Hm, (tabled4_eq T HT) in X. cbn [negb] in X.
  eapply (explore_sound T K L n Hn (th_real_top T HT) (fun m => max0_162 T m HT) es _ _ d [] []); [exact X| |exact R|exact HR| |exact HF].
  - rewrite Al. apply closures_in. left. reflexivity.
  - cbn [length]. lia.
Qed.

(** The number of new edges at which the insertion fails. *)
Definition limit (n : N) : nat := if (n <=? 12)%N then 25 else if (n <=? 19)%N then 42 else if (n <=? 34)%N then 82 else 90.
Lemma limits T : forallb (fun n => match arun (tabled4 T) n (limit n) astart with None => true | Some _ => false end &&
  match arun (tabled4 T) n (limit n - 1) astart with None => false | Some _ => true end && (N.of_nat (limit n) <=? n * n)%N)%bool unsafe = true.
Proof. vm_compute. reflexivity. Qed.

Lemma limits_at T n : th_real T -> In n unsafe ->
  arun T n (limit n) astart = None /\ arun T n (limit n - 1) astart <> None /\ (N.of_nat (limit n) <= n * n)%N.
Proof.
  intros HT Hu. pose proof (limits T) as X. rewrite (tabled4_eq T HT), forallb_forall in X. specialize (X n Hu). rewrite !andb_true_iff in X.
  destruct X as [[X1 X2] X3]. apply N.leb_le in X3. split; [|split]; auto.
  - destruct (arun T n (limit n) astart); congruence.
  - destruct (arun T n (limit n - 1) astart); congruence.
Qed.
Lemma unsafe_2 n : In n unsafe -> (2 <= n)%N.
Proof. intros H. repeat (destruct H as [<-|H]; [lia|]). destruct H. Qed.

(** C25, new edges only: on the 18 listed numbers of vertices, inserting different edges into a new DKtree_delay succeeds for
    fewer than [limit n] of them (24, 41, 81 or 89) and fails if there are more, whichever edges they are. *)
Theorem C25_limit : forall T K (L : k2laws K) n es,
  th_real T -> In n unsafe -> NoDup es -> Forall (in_range n) es ->
  (exists d, dl_hist T K n (map Add es) = Done d) <-> length es < limit n.
Proof.
  intros T K L n es HT Hu ND HF. pose proof (unsafe_2 n Hu) as Hn. destruct (limits_at T n HT Hu) as [X1 [X2 _]].
  destruct (start_abs T K L n Hn) as [d [E [R [HR Al]]]]. unfold dl_hist. rewrite E. split.
  - intros [d' Hd]. destruct (Nat.lt_ge_cases (length es) (limit n)) as [G|G]; [exact G|]. exfalso.
    refine (arun_fails T K L n Hn es (limit n) d [] [] _ R HR ND G HF d' Hd). rewrite Al. exact X1.
  - intros G. apply (arun_done T K L n Hn es d [] []); auto. rewrite Al. refine (arun_le T n Hn (limit n - 1) _ _ _ X2). lia.
Qed.

(** C25, exactly: a DKtree_delay with n >= 2 vertices takes every list of insertions, whatever the edges, their order and their
    repetitions, if and only if n is not one of the 18 numbers listed in [unsafe]. *)
Theorem C25_exact : forall T K (L : k2laws K) n, th_real T -> (2 <= n)%N ->
  (forall es, Forall (in_range n) es -> exists d, dl_hist T K n (map Add es) = Done d) <-> ~ In n [8; 9; 10; 11; 12; 16; 17; 18; 19; 28; 29; 30; 31; 32; 33; 34; 46; 47]%N.
Proof.
  intros T K L n HT Hn. split.
  - intros H Hu. change (In n unsafe) in Hu. destruct (limits_at T n HT Hu) as [_ [_ Hl]].
    set (es := firstn (limit n) (grid n)).
    assert (N1 : NoDup es) by (apply (nodup_prefix es (skipn (limit n) (grid n))); unfold es; rewrite firstn_skipn; apply grid_nodup).
    assert (F1 : Forall (in_range n) es).
    { apply Forall_forall. intros e He. apply grid_range. rewrite <- (firstn_skipn (limit n)). apply in_app_iff. left. exact He. }
    apply (C25_limit T K L n es HT Hu N1 F1) in H; auto. unfold es in H. rewrite firstn_length, grid_length in H. lia.
  - intros Hu es HF. apply (safe_total T K L n es); auto.
Qed.

(** the smallest such graph: 64 edges in any order, 24 succeed *)
Example C25_limit_applies : In 8%N unsafe /\ limit 8 = 25 /\ NoDup w25 /\ Forall (in_range 8) w25 /\ length w25 = 25.
Proof. split; [left; reflexivity|]. split; [reflexivity|]. split; [|split; [ranges|reflexivity]]. exact (nodup_prefix w25 (skipn 25 (grid 8)) (grid_nodup 8)). Qed.
