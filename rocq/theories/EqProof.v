(** * EqProof: what operator== decides. *)
From Verif Require Import Base Spec Thresholds K2 C0 C0Proof C0Hist DK DKProof DKHist Serial Bits Union Munro MunroProof MunroSerial.

(** ** The buffer *)
Lemma zlist_eqb_eq : forall a b, zlist_eqb a b = true -> a = b.
Proof.
  induction a as [|x a IH]; intros [|y b]; cbn [zlist_eqb]; try discriminate; auto.
  intros E. apply andb_true_iff in E. destruct E as [E1 E2]. apply Z.eqb_eq in E1. f_equal; auto.
Qed.
Lemma nodes_eqb_true a b : forall js, nodes_eqb a b js = Ok true -> forall j, In j js -> exists e, node_at a j = Ok e /\ node_at b j = Ok e.
Proof.
  induction js as [|i js IH]; cbn [nodes_eqb]; intros E j [].
  - subst j. destruct (node_at a i) as [e|]; [|discriminate]. cbn [obind] in E. destruct (node_at b i) as [f|]; [|discriminate]. cbn [obind] in E.
    destruct (nodes_eqb a b js) as [r|]; [|discriminate]. cbn [obind] in E. injection E as E. apply andb_true_iff in E. destruct E as [E _].
    apply eeqb_eq in E. subst f. eauto.
  - apply IH; auto. destruct (node_at a i) as [e|]; [|discriminate]. cbn [obind] in E. destruct (node_at b i) as [f|]; [|discriminate]. cbn [obind] in E.
    destruct (nodes_eqb a b js) as [r|]; [|discriminate]. cbn [obind] in E. injection E as E. apply andb_true_iff in E. destruct E as [_ ->]. reflexivity.
Qed.
(** equal buffers hold the same edges in the same slots *)
Lemma c0_eqb_true a b sa sb : c0_inv a sa -> c0_inv b sb -> c0_eqb a b = Ok true -> sa = sb.
Proof.
  intros Ia Ib E. unfold c0_eqb in E. destruct (nodes_eqb a b (seq 0 (c_n a))) as [r|] eqn:En; [|discriminate]. cbn [obind] in E. injection E as E.
  rewrite !andb_true_iff in E. destruct E as (((((((E1 & E2) & _) & _) & _) & _) & ->) & E8). apply Nat.eqb_eq in E1, E2. apply zlist_eqb_eq in E8.
  pose proof (nodes_eqb_true _ _ _ En) as Nd. apply nth_ext'. intros i.
  pose proof (iv_n _ _ Ia) as Na. pose proof (iv_n _ _ Ib) as Nb. pose proof (iv_le _ _ Ia) as La. pose proof (iv_le _ _ Ib) as Lb.
  destruct (nth_error sa i) as [[e1 b1]|] eqn:A1.
  - assert (Hi : i < length sa) by (apply nth_error_Some; congruence).
    destruct (nth_error sb i) as [[e2 b2]|] eqn:A2; [|apply nth_error_None in A2; lia].
    destruct (Nd i) as (e & X1 & X2); [apply in_seq; lia|]. rewrite (inv_node_at _ _ _ _ _ Ia A1) in X1. rewrite (inv_node_at _ _ _ _ _ Ib A2) in X2.
    injection X1 as ->. injection X2 as ->.
    pose proof (iv_free _ _ Ia i ltac:(lia)) as F1. pose proof (iv_free _ _ Ib i ltac:(lia)) as F2. rewrite A1 in F1. rewrite A2, <- E8, F1 in F2. injection F2 as F2.
    destruct b1, b2; auto; lia.
  - symmetry. apply nth_error_None. apply nth_error_None in A1. lia.
Qed.

(** ** When the comparison is defined *)
Lemma nodes_eqb_def a b sa sb : c0_inv a sa -> c0_inv b sb -> (forall i, length sb <= i -> node_at b i = UB) ->
  ((exists r, c0_eqb a b = Ok r) <-> c_n a <= c_n b).
Proof.
  intros Ia Ib Fr. rewrite (iv_n _ _ Ib). unfold c0_eqb.
  assert (G : forall k, k <= length sa -> ((exists r, nodes_eqb a b (seq (length sa - k) k) = Ok r) <-> (k = 0 \/ length sa <= length sb))).
  { induction k as [|k IH]; intros Hk; [cbn; split; [auto|eauto]|]. cbn [seq nodes_eqb]. replace (S (length sa - S k)) with (length sa - k) by lia.
    destruct (nth_error sa (length sa - S k)) as [[e1 b1]|] eqn:A1; [|apply nth_error_None in A1; lia].
    rewrite (inv_node_at _ _ _ _ _ Ia A1). cbn [obind]. specialize (IH ltac:(lia)).
    destruct (Nat.le_gt_cases (length sb) (length sa - S k)) as [C|C].
    - rewrite Fr by lia. cbn [obind]. split; [intros [r X]; discriminate|]. intros [X|X]; lia.
    - destruct (nth_error sb (length sa - S k)) as [[e2 b2]|] eqn:A2; [|apply nth_error_None in A2; lia].
      rewrite (inv_node_at _ _ _ _ _ Ib A2). cbn [obind]. split.
      + intros [r X]. destruct (nodes_eqb a b (seq (length sa - k) k)) as [q|]; [|discriminate]. destruct IH as [IH _]. destruct IH as [->|IH]; eauto. lia.
      + intros [X|X]; [lia|]. destruct IH as [_ IH]. destruct IH as [q ->]; [auto|]. cbn [obind]. eauto. }
  specialize (G (length sa) ltac:(lia)). rewrite Nat.sub_diag in G. rewrite (iv_n _ _ Ia). split.
  - intros [r X]. destruct (nodes_eqb a b (seq 0 (length sa))) as [q|]; [|discriminate]. destruct G as [G _]. destruct G as [G|G]; eauto. lia.
  - intros X. destruct G as [_ G]. destruct G as [q ->]; [auto|]. cbn [obind]. eauto.
Qed.

(** slots never written hold no edge *)
Definition blank_nodes (c : c0) : Prop := length (c_nodes c) = c_max c /\ c_n c <= c_max c /\ forall i, c_n c <= i -> i < c_max c -> nth_error (c_nodes c) i = Some None.
Lemma blank_new m nv : blank_nodes (mkc0 [] [] (repeat node0 m) (repeat None m) (iota m) 0 0 m nv).
Proof.
  split; [apply repeat_length|]. split; [cbn; lia|]. intros i _ Hi. cbn [c_nodes c_max] in *. rewrite nth_error_repeat. destruct (Nat.ltb_spec i m); [reflexivity|lia].
Qed.
Lemma blank_clean c c' : c0_clean c = Ok c' -> blank_nodes c'.
Proof.
  unfold c0_clean. destruct (_ <? _); [discriminate|]. intros E. injection E as <-. split; [apply repeat_length|]. split; [cbn; lia|].
  intros i _ Hi. cbn [c_nodes c_max] in *. rewrite nth_error_repeat. destruct (Nat.ltb_spec i (c_max c)); [reflexivity|lia].
Qed.
Lemma blank_erase c e b c' : c0_erase c e = Ok (b, c') -> blank_nodes c -> blank_nodes c'.
Proof.
  unfold c0_erase. destruct (eget e (c_lst c)) as [k|]; [|intros E; injection E as _ <-; auto].
  destruct (get (c_els c) k) as [d|]; [|discriminate]. cbn [obind].
  match goal with |- context [obind ?p _] => destruct p as [q|]; [|discriminate] end. cbn [obind].
  destruct (set (c_free c) k (-1)%Z); [|discriminate]. cbn [obind]. intros E. injection E as _ <-. auto.
Qed.
Lemma blank_insert T c sl e ne c' : c0_inv c sl -> c0_insert T c e ne = Ok c' -> blank_nodes c -> blank_nodes c'.
Proof.
  intros H E B. destruct (emem e (live_edges sl)) eqn:Em.
  { apply emem_In in Em. rewrite (insert_present T _ _ _ ne H Em) in E. injection E as <-. exact B. }
  apply emem_false in Em. pose proof (insert_room _ _ _ _ _ _ H Em E) as Hroom. unfold c0_insert in E.
  rewrite (proj2 (inv_find_none _ _ _ H) Em), (iv_els_len _ _ H) in E.
  assert (Core : forall q, c0_inv q sl -> blank_nodes q -> c_n q < c_max q -> c0_insert_core q e = Ok c' -> blank_nodes c').
  { intros q Iq (B1 & B2 & B3) Lq Eq. unfold c0_insert_core in Eq.
    pose proof (iv_free _ _ Iq (c_n q) Lq) as Fq. rewrite (iv_n _ _ Iq) in Fq.
    assert (Nn : nth_error sl (length sl) = None) by (apply nth_error_None; lia). rewrite Nn in Fq.
    unfold get in Eq. rewrite (iv_n _ _ Iq), Fq in Eq. cbn [obind] in Eq. destruct (Z.ltb_spec (Z.of_nat (length sl)) 0); [lia|].
    rewrite Nat2Z.id in Eq. unfold set in Eq. rewrite B1 in Eq. pose proof (iv_n _ _ Iq) as Nq. destruct (Nat.ltb_spec (length sl) (c_max q)) as [L1|]; [|lia]. cbn [obind] in Eq.
    match type of Eq with obind ?p _ = _ => destruct p as [els|]; [|discriminate] end. cbn [obind] in Eq. injection Eq as <-.
    split; [cbn [c_nodes c_max]; rewrite length_upd; exact B1|]. cbn [c_n c_max c_nodes]. split; [lia|].
    intros i Hi Hm. rewrite nth_error_upd_neq by lia. apply B3; lia. }
  destruct (Nat.leb_spec (c_max c) (c_n c)) as [Hfull|Hfree].
  - destruct Hroom as [?|[Hm Hr]]; [lia|].
    unfold maxsz in E. destruct (N.eqb_spec (N.max (c_nv c) ne) 1); [congruence|]. cbn [obind] in E.
    set (m := N.to_nat (th_max T (N.max (c_nv c) ne) 0)) in *.
    destruct (inv_resize c sl m H) as [H' [Hx [Hv [Hl Hn]]]].
    apply (Core (c0_resize c m) H'); [|rewrite Hx, Hn; lia|].
    + destruct B as (B1 & B2 & B3). split; [apply (iv_nodes_len _ _ H')|]. split; [rewrite Hx, Hn; lia|]. rewrite Hx, Hn. intros i Hi Hm'.
      unfold c0_resize. destruct (Nat.ltb_spec (c_max c) m) as [L1|L1]; [|lia].
      cbn [c_nodes]. unfold vresize. rewrite firstn_all2 by (rewrite B1; lia). rewrite nth_error_app2 by (rewrite B1; lia). rewrite B1.
      rewrite nth_error_repeat. destruct (Nat.ltb_spec (i - c_max c) (m - c_max c)); [reflexivity|lia].
    + exact E.
  - apply (Core c H B Hfree E).
Qed.
Lemma blank_ub c sl : c0_inv c sl -> blank_nodes c -> forall i, length sl <= i -> node_at c i = UB.
Proof.
  intros H (B1 & B2 & B3) i Hi. unfold node_at, get. rewrite <- (iv_n _ _ H) in Hi. destruct (Nat.lt_ge_cases i (c_max c)) as [C|C].
  - rewrite B3 by auto. reflexivity.
  - assert (X : nth_error (c_nodes c) i = None) by (apply nth_error_None; lia). rewrite X. reflexivity.
Qed.

Section DK.
Context (T : thresholds) (K : k2impl) (L : k2laws K) (n : N) (Hn : (2 <= n)%N).

Lemma blank_contains g x y b g' : dk_contains_forced K g x y = Ok (b, g') -> C0_ g' = C0_ g.
Proof.
  unfold dk_contains_forced. destruct (c0_contains (C0_ g) (x, y)) as [[|]|]; cbn [obind]; try discriminate; [intros E; injection E as _ <-; auto|].
  destruct (ks_adjf K (ks g) x y) as [r l]. intros E. injection E as _ <-. reflexivity.
Qed.
Lemma blank_add g sl x y g' : dk_inv K L n g sl -> in_range n (x, y) -> dk_add T K g x y = Done g' -> blank_nodes (C0_ g) -> blank_nodes (C0_ g').
Proof using Hn L.
  intros I R E B. unfold dk_add in E. destruct (dk_contains_forced K g x y) as [[f g1]|] eqn:Ef; [|discriminate]. cbn [rbind] in E.
  pose proof (blank_contains _ _ _ _ _ Ef) as Ec. destruct f; [injection E as <-; rewrite Ec; exact B|]. cbv zeta in E.
  destruct (maxsz T (dk_m K g1) 0) as [ms|]; [|discriminate]. cbn [rbind] in E. destruct (_ <? _)%N.
  - rewrite Ec in E. destruct (c0_insert T (C0_ g) (x, y) (nt g1)) as [c|] eqn:Ei; [|discriminate]. cbn [rbind] in E. injection E as <-. cbn [C0_].
    eapply blank_insert; eauto. apply (dv_c0 _ _ _ _ _ I).
  - destruct (find_level T K (dk_m K g1) (ks g1) 0 ms) as [i|]; [|discriminate]. destruct (c0_converted (C0_ g1)); [|discriminate]. cbn [rbind] in E.
    destruct (c0_clean (C0_ g1)) as [c|] eqn:Ecl; [|discriminate]. cbn [rbind] in E. destruct (merge_upto K _ (ks g1) (S i)) as [t l]. injection E as <-. cbn [C0_].
    eapply blank_clean; eauto.
Qed.
Lemma blank_rebuild g sl g' : dk_inv K L n g sl -> dk_rebuild T K g = Done g' -> blank_nodes (C0_ g) -> blank_nodes (C0_ g').
Proof using Hn L.
  intros I E B. unfold dk_rebuild in E. set (i := rebuild_level T (dk_m K g) (nt g) RS 0) in *.
  match type of E with rbind ?p _ = _ => destruct p as [[oo dummy]|]; [|discriminate] end. cbn [rbind] in E.
  assert (H : exists g2, (if dummy then dk_add T K g 1 1 else Done g) = Done g2 /\ blank_nodes (C0_ g2)).
  { destruct dummy; [|eauto]. destruct (dk_add T K g 1 1) as [g2| |] eqn:Ea; try discriminate. exists g2. split; auto. eapply blank_add; eauto. split; cbn; lia. }
  destruct H as (g2 & Eg & B2). rewrite Eg in E.
  match type of E with rbind ?p _ = _ => destruct p as [[tmp c]|] eqn:Eq; [|discriminate] end. cbn [rbind] in E.
  assert (Q : blank_nodes c).
  { destruct (0 <? c0_size (C0_ g2)); [|injection Eq as _ <-; auto]. destruct (c0_converted (C0_ g2)); [|discriminate]. cbn [obind] in Eq.
    destruct (c0_clean (C0_ g2)) as [c'|] eqn:Ec; [|discriminate]. cbn [obind] in Eq. injection Eq as _ <-. eapply blank_clean; eauto. }
  destruct (merge_all K tmp (ks g2)) as [tmp2|]; [|discriminate]. cbn [rbind] in E. destruct (i <? RS); [|discriminate].
  destruct oo; [injection E as <-; exact Q|]. destruct tmp2 as [t|]; [|discriminate]. destruct (kt_erase K t 1 1) as [eb t']. injection E as <-. exact Q.
Qed.
Lemma blank_del g sl x y g' : dk_inv K L n g sl -> in_range n (x, y) -> dk_del T K g x y = Done g' -> blank_nodes (C0_ g) -> blank_nodes (C0_ g').
Proof using Hn L.
  intros H Hr E B. unfold dk_del in E. destruct (c0_erase (C0_ g) (x, y)) as [[b c]|] eqn:Ee; [|discriminate]. cbn [rbind] in E.
  pose proof (blank_erase _ _ _ _ Ee B) as Bc. destruct b; [injection E as <-; exact Bc|].
  destruct (erase_inv _ _ _ _ _ (dv_c0 _ _ _ _ _ H) Ee) as [_ [_ [_ [sl1 [_ [_ [_ I4]]]]]]]. specialize (I4 eq_refl). subst c.
  destruct (ks_erase_spec K L n (ks g) x y (dv_wf _ _ _ _ _ H) (dv_disj _ _ _ _ _ H) Hr) as [R1 [R2 [R3 [R4 [R5 [R6 _]]]]]].
  destruct (ks_erase K (ks g) x y) as [eb l]. cbn [fst snd] in *.
  destruct (ks_sweep_spec K L n Hn l R1) as [W1 [W2 [W3 [W4 [W5 _]]]]].
  destruct (ks_sweep K l) as [marked l2]. cbn [fst snd] in *.
  set (n' := if eb then u64_dec (nt g) else nt g) in *.
  destruct (th_trig T marked n'); [|injection E as <-; exact B].
  eapply blank_rebuild; [|exact E|exact B].
  constructor; cbn; try apply H; auto.
  - rewrite W2, R2. apply H.
  - intros e G1 G2. apply (dv_c0ks _ _ _ _ _ H e G1). auto.
Qed.

Lemma blank_op g sl o g' : dk_inv K L n g sl -> op_in_range n o -> dk_op T K g o = Done g' -> blank_nodes (C0_ g) -> blank_nodes (C0_ g').
Proof using Hn. destruct o as [[x y]|[x y]]; cbn; [apply blank_add|apply blank_del]. Qed.
Lemma blank_ops h : forall g sl S g', rel K L n g sl S -> Forall (op_in_range n) h -> dk_ops T K g h = Done g' -> blank_nodes (C0_ g) -> blank_nodes (C0_ g').
Proof using Hn L.
  induction h as [|o h IH]; intros g sl S g' H HF E B; cbn in *; [inversion E; subst; auto|].
  inversion HF as [|? ? Ho Hh]; subst. destruct (dk_op T K g o) as [g1|g1|] eqn:Eo; try discriminate.
  destruct (rel_step T K L n Hn g sl S o g1 H Ho Eo) as [sl1 H1]. apply (IH g1 sl1 _ g' H1 Hh E). eapply blank_op; eauto. apply (rl_inv _ _ _ _ _ _ H).
Qed.
Lemma blank_hist h g : Forall (op_in_range n) h -> dk_hist T K n h = Done g -> blank_nodes (C0_ g).
Proof using Hn L.
  intros HF E. unfold dk_hist in E. destruct (dk_new T K n) as [g0|] eqn:E0; cbn in E; [|discriminate].
  apply (blank_ops h g0 [] [] g (rel_new T K L n Hn g0 E0) HF E). unfold dk_new, c0_new in E0.
  destruct (maxsz T n 0); cbn in E0; [|discriminate]. injection E0 as <-. cbn [C0_]. apply blank_new.
Qed.
End DK.
