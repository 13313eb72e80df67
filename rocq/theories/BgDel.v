(** * BgDel: the invariant of the background graphs under every schedule of insertions, queries and deletions. *)
From Verif Require Import Base Spec Thresholds K2 C0 C0Proof DK DKProof DKHist Delay MunroProof BgSpec BgDelSpec Bg BgProof.
From Coq Require Import Permutation.

Notation cnt e l := (count_occ edge_dec l e).
Lemma cnt_pos e (l : list edge) : In e l <-> 0 < cnt e l.
Proof. apply count_occ_In. Qed.
Lemma cnt_zero e (l : list edge) : ~ In e l <-> cnt e l = 0.
Proof. apply count_occ_not_In. Qed.
Lemma cnt_le1 e (l : list edge) : NoDup l -> cnt e l <= 1.
Proof. intros N. rewrite (NoDup_count_occ edge_dec) in N. apply N. Qed.
Lemma cnt_nodup (l : list edge) : (forall e, cnt e l <= 1) -> NoDup l.
Proof. apply (NoDup_count_occ edge_dec). Qed.
Lemma cnt_app e (a b : list edge) : cnt e (a ++ b) = cnt e a + cnt e b.
Proof. apply count_occ_app. Qed.
Lemma cnt_cons e f (l : list edge) : cnt e (f :: l) = cnt e [f] + cnt e l.
Proof. change (f :: l) with ([f] ++ l). apply cnt_app. Qed.
Lemma cnt_len (a b : list edge) : (forall e, cnt e a = cnt e b) -> length a = length b.
Proof. intros E. apply Permutation_length. apply (Permutation_count_occ edge_dec), E. Qed.
Lemma cnt_same e (a b : list edge) : NoDup a -> NoDup b -> (In e a <-> In e b) -> cnt e a = cnt e b.
Proof.
  intros A B I. pose proof (cnt_le1 e _ A). pose proof (cnt_le1 e _ B). rewrite !cnt_pos in I. lia.
Qed.
Lemma cnt_filter e d (l : list edge) : cnt e (filter (fun f => negb (eeqb d f)) l) = if eeqb d e then 0 else cnt e l.
Proof.
  induction l as [|f l IH]; cbn; [destruct (eeqb d e); auto|].
  destruct (eeqb d f) eqn:E1; cbn [negb].
  - apply eeqb_eq in E1; subst f. rewrite IH. destruct (eeqb d e) eqn:E2; auto. destruct (edge_dec d e) as [->|]; auto. rewrite eeqb_refl in E2; discriminate.
  - cbn [count_occ]. rewrite IH. destruct (edge_dec f e) as [->|]; auto. rewrite E1. auto.
Qed.
Lemma filter_all d (l : list edge) : ~ In d l -> filter (fun f => negb (eeqb d f)) l = l.
Proof.
  induction l as [|f l IH]; cbn; [auto|]. intros N. destruct (eeqb d f) eqn:E; [apply eeqb_eq in E; subst; tauto|].
  cbn. f_equal. apply IH. tauto.
Qed.
Lemma filter_len1 d (l : list edge) : NoDup l -> In d l -> S (length (filter (fun f => negb (eeqb d f)) l)) = length l.
Proof.
  induction l as [|f l IH]; cbn; [tauto|]. intros N I. inversion N as [|? ? N1 N2]; subst. destruct (eeqb d f) eqn:E; cbn [negb].
  - apply eeqb_eq in E; subst f. rewrite filter_all; auto.
  - cbn. f_equal. apply IH; auto. destruct I as [->|]; auto. rewrite eeqb_refl in E. discriminate.
Qed.

(** ** What the storage holds, [S] (copies of each edge) and [sz] (entries), against the log [h]; [p]: edges taken out by a rebuild
    and not yet inserted again, counted by [S]; [m]: n_total_edges *)
Record st (S : edge -> nat) (sz p : nat) (m : N) (h : list event) : Prop := {
  st_cov : forall e, In e (live h) -> 0 < S e;
  st_ins : forall e, 0 < S e -> In e (ins_of h);
  st_ex : forall e, fresh_for e h -> S e = cnt e (live h);
  st_sz : (N.of_nat sz <= m)%N;
  st_nt : fresh h -> (m + N.of_nat p)%N = N.of_nat (length (live h))
}.
Arguments st_cov {S sz p m h}. Arguments st_ins {S sz p m h}. Arguments st_ex {S sz p m h}. Arguments st_sz {S sz p m h}. Arguments st_nt {S sz p m h}.
Lemma st_le1 S sz p m h e : st S sz p m h -> fresh_for e h -> S e <= 1.
Proof. intros V F. rewrite (st_ex V e F). apply live_once, F. Qed.
Lemma st_new S sz p m h e w : st S sz p m h -> fresh_for e (EIns e w :: h) -> S e = 0.
Proof. intros V [F1 F2]. rewrite (st_ex V e F2). apply cnt_zero. auto. Qed.
Lemma st_shrink S S' sz sz' p m h : st S sz p m h -> (forall e, S' e <= S e /\ (0 < S e -> 0 < S' e)) -> sz' <= sz -> st S' sz' p m h.
Proof.
  intros V A B. constructor.
  - intros e I. apply A, (st_cov V), I.
  - intros e I. apply (st_ins V). destruct (A e). lia.
  - intros e F. pose proof (st_le1 _ _ _ _ _ e V F). rewrite <- (st_ex V e F). destruct (A e). lia.
  - pose proof (st_sz V). lia.
  - apply (st_nt V).
Qed.
Lemma st_ext S S' sz p m h : st S sz p m h -> (forall e, S' e = S e) -> st S' sz p m h.
Proof. intros V A. apply (st_shrink _ _ _ _ _ _ _ V); [|auto]. intros e. rewrite A. auto. Qed.
Lemma st_query S sz p m h v : st S sz p m h -> match v with EHas _ _ _ | ENbr _ _ _ => True | _ => False end -> st S sz p m (v :: h).
Proof. intros [] Q. destruct v; cbn in Q; try tauto; constructor; auto. Qed.
Lemma st_found S sz p m h e w : st S sz p m h -> 0 < S e -> st S sz p m (EIns e w :: h).
Proof.
  intros V P. assert (X : ~ fresh_for e (EIns e w :: h)) by (intros F; pose proof (st_new _ _ _ _ _ _ _ V F); lia). constructor.
  - intros f [->|I]; [auto|apply (st_cov V), I].
  - intros f I. right. apply (st_ins V), I.
  - intros f F. destruct (edge_dec e f) as [->|Ne]; [tauto|]. cbn [live count_occ]. destruct (edge_dec e f); [tauto|]. destruct F. apply (st_ex V); auto.
  - apply (st_sz V).
  - intros F. destruct (X (F e)).
Qed.
Lemma st_insert S S' sz p m h e w : st S sz p m h -> (forall f, S' f = S f + cnt f [e]) -> st S' (Datatypes.S sz) p (m + 1) (EIns e w :: h).
Proof.
  intros V A. cbn [count_occ] in A. constructor.
  - intros f I. rewrite A. destruct (edge_dec e f) as [|N]; [lia|]. destruct I as [->|I]; [tauto|]. pose proof (st_cov V f I). lia.
  - intros f I. rewrite A in I. destruct (edge_dec e f) as [->|N]; [left; auto|]. right. apply (st_ins V). lia.
  - intros f F. rewrite A. cbn [live count_occ]. rewrite (st_ex V f (proj2 F)). destruct (edge_dec e f); lia.
  - pose proof (st_sz V). lia.
  - intros F. cbn [live length]. pose proof (st_nt V (fun f => proj2 (F f))). lia.
Qed.
(** a rebuild finds the edge it wants to insert *)
Lemma st_skip S S' sz p m h e : st S sz (Datatypes.S p) m h -> (forall f, S f = S' f + cnt f [e]) -> 0 < S' e -> st S' sz p m h.
Proof.
  intros V A P. assert (X : ~ fresh_for e h).
  { intros F. pose proof (st_le1 _ _ _ _ _ e V F) as Z. rewrite A in Z. cbn [count_occ] in Z. destruct (edge_dec e e); [lia|tauto]. }
  cbn [count_occ] in A. constructor.
  - intros f I. pose proof (st_cov V f I) as Z. rewrite A in Z. destruct (edge_dec e f) as [->|]; [auto|lia].
  - intros f I. apply (st_ins V). rewrite A. lia.
  - intros f F. rewrite <- (st_ex V f F), A. destruct (edge_dec e f) as [->|]; [tauto|lia].
  - apply (st_sz V).
  - intros F. destruct (X (F e)).
Qed.
(** a rebuild inserts it *)
Lemma st_move S S' sz p m h : st S sz (Datatypes.S p) m h -> (forall f, S' f = S f) -> st S' (Datatypes.S sz) p (m + 1) h.
Proof.
  intros V A. apply (st_ext _ S') in V; auto. destruct V as [V1 V2 V3 V4 V5]. constructor; auto; [lia|]. intros F. specialize (V5 F). lia.
Qed.
Lemma st_del S S' sz p m h d : st S (Datatypes.S sz) p m h -> (forall f, S f = S' f + cnt f [d]) -> st S' sz p (u64_dec m) (EDel d :: h).
Proof.
  intros V A. cbn [count_occ] in A. pose proof (st_sz V) as Z. constructor.
  - intros f I. cbn [live] in I. apply filter_In in I. destruct I as [I Ne]. pose proof (st_cov V f I) as Q. rewrite A in Q.
    destruct (edge_dec d f) as [->|]; [rewrite eeqb_refl in Ne; discriminate|lia].
  - intros f I. cbn [ins_of]. apply (st_ins V). rewrite A. lia.
  - intros f F. cbn [fresh_for live] in *. rewrite cnt_filter, <- (st_ex V f F). pose proof (st_le1 _ _ _ _ _ f V F) as Q. rewrite A in *.
    destruct (edge_dec d f) as [->|Ne]; [rewrite eeqb_refl; lia|]. destruct (eeqb d f) eqn:E; [apply eeqb_eq in E; tauto|lia].
  - unfold u64_dec. destruct (N.eqb_spec m 0); lia.
  - intros F. change (fresh h) in F. cbn [live]. assert (I : In d (live h)).
    { apply cnt_pos. rewrite <- (st_ex V d (F d)), A. destruct (edge_dec d d); [lia|tauto]. }
    pose proof (filter_len1 _ _ (live_nodup _ F) I). pose proof (st_nt V F). unfold u64_dec. destruct (N.eqb_spec m 0); lia.
Qed.
Lemma st_del0 S sz p m h d : st S sz p m h -> S d = 0 -> st S sz p m (EDel d :: h).
Proof.
  intros V A. assert (I : ~ In d (live h)) by (intros I; pose proof (st_cov V d I); lia). destruct V. constructor; cbn [live ins_of fresh_for]; auto; rewrite filter_all; auto.
Qed.
(** the trees are emptied *)
Lemma st_rebuild S A sz sz' p m h : st S sz 0 m h -> (forall f, S f = cnt f A) -> sz = sz' + p -> length A = sz -> st S sz' p (N.of_nat sz') h.
Proof.
  intros [V1 V2 V3 V4 V5] E Z1 Z2. constructor; auto; [lia|]. intros F. replace (length (live h)) with (length A); [lia|].
  apply cnt_len. intros f. rewrite <- E. auto.
Qed.

Section Del.
Context (wt : bool) (T : thresholds) (K : k2impl) (L : k2laws K) (n : N) (Hn : (2 <= n)%N).
Local Notation ktree := (kt K).
Local Notation bg := (bg K).
Local Notation kse := (ks_edges K).
Local Notation inr := (in_range n).
Local Notation pend := (pend K).
Local Notation none_above := (none_above K).
Local Notation nbrs := (nbrs K).

(** the insertion in progress *)
Definition mcur (m : mpc) : option edge :=
  match m with
  | MHas true e | MScan true e _ | MIns e | MBusy e | MPush e | MCopy e _ | MFlag e | MClean e => Some e
  | _ => None
  end.
Definition ncur (m : mpc) : list edge :=
  match m with MClean _ => [] | _ => match mcur m with Some e => [e] | None => [] end end.
(** the log with the call in progress, as far as the storage has it *)
Definition fl (t : option (edge * list edge)) (c : option edge) (h : list event) : list event :=
  match t with
  | Some (d, _) => EDel d :: h
  | None => match c with Some e => EIns e Found :: h | None => h end
  end.
Definition slog (g : bg) : list event :=
  fl (b_todo g) (match b_m g with MClean e => Some e | _ => None end) (b_log g).
(** taken out of the trees by a rebuild, not yet inserted again *)
Definition out_of (t : option (edge * list edge)) (m : mpc) : list edge :=
  match t with Some (_, r) => ncur m ++ r | None => [] end.
(** between the flag and the clearing of the buffer the buffer does not count *)
Definition beff (m : mpc) (B : list edge) : list edge := match m with MClean _ => [] | _ => B end.
Definition extra (m : mpc) : nat := match m with MClean _ => 1 | _ => 0 end.

Definition bfactd (l : list (option ktree)) (maxr : nat) (conv : list edge) (nw : bool) (b : bpc K) : Prop :=
  if nw then
    match b with
    | BPoll | BBuild => conv <> [] /\ NoDup conv /\ Forall inr conv
    | BClear t => wf L n t
    | BLevel t => wf L n t /\ conv = []
    | BMerge t i j => wf L n t /\ conv = [] /\ (i <= maxr /\ i < RS) /\ j <= S i /\ (forall k, k < j -> nth_error l k = Some None)
    | BStore t i => wf L n t /\ conv = [] /\ (i <= maxr /\ i < RS) /\ nth_error l i = Some None
    | BDone => conv = []
    | BDead => False
    end
  else b = BPoll.

(** [BE]: the buffer as far as it counts; [P]: edges to be inserted again; [x]: stored but not yet counted by n_total_edges *)
Record core (c : c0) (nt : N) (l : list (option ktree)) (maxr : nat) (conv : list edge) (nw : bool) (b : bpc K) (cp : list (option ktree))
  (B BE P : list edge) (x : nat) (h : list event) : Prop := {
  co_c0 : exists sl, c0_inv c sl /\ live_edges sl = B;
  co_nd : NoDup B;
  co_st : st (fun e => cnt e BE + cnt e (pend nw b conv) + cnt e (kse l) + cnt e P) (length BE + length (pend nw b conv) + length (kse l))
             (length P) (nt + N.of_nat x) h;
  co_rng : Forall inr (ins_of h);
  co_wf : ks_wf K L n l;
  co_len : length l = RS;
  co_above : none_above maxr l;
  co_b : bfactd l maxr conv nw b;
  co_cpwf : ks_wf K L n cp;
  co_cplen : length cp = RS
}.

(** what the copy shows is stored *)
Definition copy_in (l : list (option ktree)) (conv : list edge) (nw : bool) (b : bpc K) (tmp : edge) (cp : list (option ktree)) : Prop :=
  forall e, e = tmp \/ In e (kse cp) -> 0 < cnt e (pend nw b conv) + cnt e (kse l).

Definition mfactd (m : mpc) (g : bg) (B : list edge) : Prop :=
  match m with
  | MIdle => True
  | MHas k e => inr e /\ ~ In e B
  | MScan k e i => inr e /\ ~ In e B /\ b_nw g = false /\ ~ In e (kse (firstn i (b_ks g)))
  | MIns e | MBusy e => inr e /\ ~ In e B
  | MPush e => inr e /\ ~ In e B /\ b_nw g = false
  | MCopy e j => inr e /\ ~ In e B /\ b_nw g = false /\ b_tmp g = e /\ b_conv g = B ++ [e] /\ firstn j (b_copy g) = firstn j (b_ks g)
  | MFlag e => inr e /\ ~ In e B /\ b_nw g = false /\ b_tmp g = e /\ b_conv g = B ++ [e] /\ b_copy g = b_ks g
  | MClean e => True
  | MNbr x acc => (x < n)%N /\ acc = rev (succs x B)
  | MNb x acc busy l => (x < n)%N /\
      if busy then forall y, In y acc -> In (x, y) (ins_of (b_log g)) /\ (fresh_for (x, y) (b_log g) -> In (x, y) (live (b_log g)))
      else b_nw g = false /\ acc = rev (succs x B) ++ nbrs x (firstn l (b_ks g))
  | MWait e => inr e /\ ~ In e B
  | MErase e => inr e /\ ~ In e B /\ b_nw g = false
  end.

Definition coreg (g : bg) (B BE P : list edge) (x : nat) (h : list event) : Prop :=
  core (b_c0 g) (b_nt g) (b_ks g) (b_maxr g) (b_conv g) (b_nw g) (b_b g) (b_copy g) B BE P x h.
Definition copyg (g : bg) : Prop := copy_in (b_ks g) (b_conv g) (b_nw g) (b_b g) (b_tmp g) (b_copy g).

Record J (g : bg) (B : list edge) : Prop := {
  j_n : b_n g = n;
  j_core : coreg g B (beff (b_m g) B) (out_of (b_todo g) (b_m g)) (extra (b_m g)) (slog g);
  j_conv : ~ copying (b_m g) -> b_nw g = false -> b_conv g = [];
  j_copy : b_nw g = true \/ busy_nb (b_m g) -> copyg g;
  j_todo : b_todo g <> None -> mcur (b_m g) <> None;
  j_m : mfactd (b_m g) g B
}.

(** ** The merging thread *)
Lemma union_cnt a b : wf L n a -> wf L n b -> wf L n (kt_union K a b) /\
  (forall e, cnt e (kt_edges K (kt_union K a b)) <= cnt e (kt_edges K a) + cnt e (kt_edges K b) /\
     (0 < cnt e (kt_edges K a) + cnt e (kt_edges K b) -> 0 < cnt e (kt_edges K (kt_union K a b)))) /\
  length (kt_edges K (kt_union K a b)) <= length (kt_edges K a) + length (kt_edges K b).
Proof.
  intros A B. destruct (law_union L n a b A B) as [U1 [U2 _]]. pose proof (law_edges_nodup L n _ U1) as ND. split; [auto|]. split.
  - intros e. pose proof (cnt_le1 e _ ND). specialize (U2 e). rewrite !cnt_pos in U2. lia.
  - rewrite <- app_length. apply NoDup_incl_length; [exact ND|]. intros e I. apply U2 in I. apply in_app_iff. exact I.
Qed.

(** the trees and the batch still hold the same edges, and not more *)
Definition same_sum (g : bg) (l : list (option ktree)) cv w b : Prop :=
  (forall e, cnt e (pend w b cv) + cnt e (kse l) <= cnt e (pend (b_nw g) (b_b g) (b_conv g)) + cnt e (kse (b_ks g)) /\
    (0 < cnt e (pend (b_nw g) (b_b g) (b_conv g)) + cnt e (kse (b_ks g)) -> 0 < cnt e (pend w b cv) + cnt e (kse l))) /\
  length (pend w b cv) + length (kse l) <= length (pend (b_nw g) (b_b g) (b_conv g)) + length (kse (b_ks g)).
Lemma same_eq (g : bg) l cv w b : kse l = kse (b_ks g) -> pend w b cv = pend (b_nw g) (b_b g) (b_conv g) -> same_sum g l cv w b.
Proof. intros E1 E2. unfold same_sum. rewrite E1, E2. split; auto. Qed.

Lemma back_keepd (g : bg) B r l cv w b : J g B -> b_nw g = true ->
  same_sum g l cv w b -> ks_wf K L n l -> length l = RS -> none_above r l -> bfactd l r cv w b -> (w = false -> cv = []) ->
  J (mkbg (b_n g) (b_nt g) (b_c0 g) r l cv w (b_msz g) (b_mrb g) (b_tmp g) (b_copy g) (b_m g) b (b_todo g) (b_log g)) B.
Proof.
  intros [J1 J2 J4 J5 J6 J7] W [S SL] S1 S2 S3 S4 S5. destruct J2 as [C1 C2 C3 C4 C6 C7 C8 C9 C10 C11].
  constructor; gcbn; auto.
  - constructor; gcbn; auto. unfold slog in *. gcbn. eapply st_shrink; [exact C3| |].
    + intros e. cbv beta. specialize (S e). lia.
    + lia.
  - intros _ e I. specialize (J5 (or_introl W) e I). specialize (S e). gcbn. lia.
  - unfold mfactd in *. gcbn. destruct (b_m g); auto; try (exfalso; intuition congruence).
    destruct busy; auto. exfalso; intuition congruence.
Qed.

Lemma back_J g B g' : J g B -> back_step T K g = Ok g' -> b_b g' <> BDead -> J g' B.
Proof.
  intros V E ND. pose proof (j_core _ _ V) as C. pose proof C as [C1 C2 C3 C4 C6 C7 C8 C9 C10 C11]. unfold bfactd in C9.
  unfold back_step in E. destruct (b_nw g) eqn:W.
  2: { rewrite C9 in E. injection E as <-. auto. }
  destruct (b_b g) eqn:EB.
  - injection E as <-. unfold set_b. rewrite W. apply back_keepd; auto. apply same_eq; rewrite ?W, ?EB; reflexivity. discriminate.
  - injection E as <-. unfold set_b. rewrite W. destruct C9 as [F1 [F3 F2]].
    replace (kt_build K (b_conv g) (b_n g)) with (kt_build K (b_conv g) n) by (rewrite (j_n _ _ V); auto).
    destruct (law_build L n (b_conv g) Hn F1 F3 F2) as [L1 [_ L3]].
    assert (X : forall e, cnt e (kt_edges K (kt_build K (b_conv g) n)) = cnt e (b_conv g)).
    { intros e. apply cnt_same; auto. apply (law_edges_nodup L n _ L1). }
    apply back_keepd; auto; [|discriminate]. unfold same_sum. rewrite W, EB. cbn [BgProof.pend]. rewrite (cnt_len _ _ X). split; [intros e; rewrite X; auto|auto].
  - injection E as <-. unfold set_b, set_conv. gcbn. rewrite W. apply back_keepd; auto; [|split; auto].
    apply same_eq; rewrite ?W, ?EB; reflexivity.
  - destruct C9 as [F1 F2]. destruct (maxsz T (b_msz g) 0); [|discriminate]. cbn [obind] in E.
    destruct (find_level T K (b_msz g) (b_ks g) 0 a) as [i|] eqn:Ei.
    2: { injection E as <-. destruct ND. reflexivity. }
    pose proof (find_level_range T K n Hn _ _ _ _ _ Ei) as Ri. rewrite C7 in Ri.
    injection E as <-. unfold set_b, set_ks. gcbn. rewrite W. apply back_keepd; auto.
    + apply same_eq; rewrite ?W, ?EB; reflexivity.
    + intros k t Ek. apply C8 in Ek. lia.
    + split; [auto|]. split; [auto|]. split; [lia|]. split; [lia|]. intros k Hk; lia.
  - destruct C9 as [F1 [F2 [F3 [F4 F5]]]]. destruct (Nat.leb_spec j i) as [Lj|Lj].
    + destruct (nth_error (b_ks g) j) as [o|] eqn:Ej; [|discriminate]. destruct o as [s|].
      * injection E as <-. unfold set_b, set_ks. gcbn. rewrite W.
        assert (Os : wf L n s). { unfold ks_wf in C6. rewrite Forall_forall in C6. apply (C6 (Some s)). eapply nth_error_In; eauto. }
        pose proof (kse_split K _ _ _ Ej) as E1. pose proof (kse_upd K (b_ks g) j _ None Ej) as E2.
        destruct (union_cnt tmp s F1 Os) as [U1 [U2 U3]].
        apply back_keepd; auto.
        -- unfold same_sum. rewrite W, EB. cbn [BgProof.pend]. rewrite E1, E2, !app_length. split; [|cbn [length]; lia].
           intros e. specialize (U2 e). rewrite !cnt_app. cbn [count_occ]. lia.
        -- apply Forall_forall. intros o I. apply In_upd in I. destruct I as [->|I]; [exact Logic.I|]. unfold ks_wf in C6. rewrite Forall_forall in C6. apply (C6 o I).
        -- rewrite length_upd. auto.
        -- intros k t Ek. rewrite nth_error_upd in Ek. destruct (Nat.eqb_spec j k); [destruct (j <? length (b_ks g)); discriminate|apply C8 in Ek; auto].
        -- split; [exact U1|]. split; [auto|]. split; [auto|]. split; [lia|]. intros k Hk. rewrite nth_error_upd.
           destruct (Nat.eqb_spec j k) as [->|Ne]; [|apply F5; lia]. destruct (Nat.ltb_spec k (length (b_ks g))) as [|Ge]; [auto|].
           apply nth_error_None in Ge. congruence.
      * injection E as <-. unfold set_b. gcbn. rewrite W. apply back_keepd; auto.
        -- apply same_eq; rewrite ?W, ?EB; reflexivity.
        -- split; [auto|]. split; [auto|]. split; [auto|]. split; [lia|]. intros k Hk.
           destruct (Nat.eq_dec k j) as [->|]; auto. apply F5; lia.
    + injection E as <-. unfold set_b. gcbn. rewrite W. apply back_keepd; auto.
      * apply same_eq; rewrite ?W, ?EB; reflexivity.
      * split; [auto|]. split; [auto|]. split; [auto|]. apply F5. lia.
  - destruct C9 as [F1 [F2 [F3 F5]]]. destruct (Nat.ltb_spec i (length (b_ks g))) as [Li|Li]; [|discriminate].
    injection E as <-. unfold set_b, set_ks. gcbn. rewrite W. apply back_keepd; auto.
    + unfold same_sum. rewrite W, EB. cbn [BgProof.pend]. rewrite (kse_upd K _ _ _ (Some tmp) F5), (kse_split K _ _ _ F5), !app_length.
      split; [|cbn [length]; lia]. intros e. rewrite !cnt_app. cbn [count_occ]. lia.
    + apply Forall_forall. intros o I. apply In_upd in I. destruct I as [->|I]; [exact F1|]. unfold ks_wf in C6. rewrite Forall_forall in C6. apply (C6 o I).
    + rewrite length_upd. auto.
    + intros k t Ek. rewrite nth_error_upd in Ek. destruct (Nat.eqb_spec i k); [lia|apply C8 in Ek; auto].
  - injection E as <-. unfold set_b, set_nw. gcbn. apply back_keepd; auto.
    + apply same_eq; rewrite ?W, ?EB; reflexivity.
    + reflexivity.
  - destruct C9.
Qed.

(** ** The caller's thread *)
Definition rest (t : option (edge * list edge)) : list edge := match t with Some (_, r) => r | None => [] end.
Definition query (v : event) : Prop := match v with EHas _ _ _ | ENbr _ _ _ => True | _ => False end.

Lemma plain_core m B t h : plain m -> beff m B = B /\ extra m = 0 /\
  fl t (match m with MClean e => Some e | _ => None end) h = fl t None h /\ ncur m = match mcur m with Some e => [e] | None => [] end.
Proof. destruct m; cbn; try tauto; destruct t as [[? ?]|]; auto. Qed.
Lemma J_core g B : J g B -> plain (b_m g) -> coreg g B B (out_of (b_todo g) (b_m g)) 0 (fl (b_todo g) None (b_log g)).
Proof.
  intros V P. pose proof (j_core _ _ V) as C. unfold slog in C. destruct (plain_core (b_m g) B (b_todo g) (b_log g) P) as (E1 & E2 & E3 & E4).
  rewrite E1, E2, E3 in C. exact C.
Qed.
Lemma J_idle g B : J g B -> mcur (b_m g) = None -> b_todo g = None.
Proof. intros V E. pose proof (j_todo _ _ V) as A. destruct (b_todo g); [|auto]. destruct A; [discriminate|auto]. Qed.
Lemma J_qcore g B : J g B -> plain (b_m g) -> mcur (b_m g) = None -> coreg g B B [] 0 (b_log g).
Proof. intros V P E. pose proof (J_core _ _ V P) as C. rewrite (J_idle _ _ V E) in C. exact C. Qed.

Lemma move_J g B m' : J g B -> plain (b_m g) -> plain m' -> mcur m' = mcur (b_m g) ->
  (busy_nb m' -> b_nw g = true \/ busy_nb (b_m g)) -> mfactd m' g B -> J (set_m g m') B.
Proof.
  intros V P P' E Bz M. pose proof (J_core _ _ V P) as C.
  destruct (plain_core m' B (b_todo g) (b_log g) P') as (E1 & E2 & E3 & E4).
  destruct (plain_core (b_m g) B (b_todo g) (b_log g) P) as (_ & _ & _ & E4').
  destruct V as [J1 J2 J4 J5 J6 J7]. constructor; gcbn; auto.
  - unfold slog. gcbn. rewrite E1, E2, E3. unfold out_of in *. rewrite E4, E. rewrite E4' in C. exact C.
  - intros _. apply J4. destruct (b_m g); cbn in *; tauto.
  - intros A. apply J5. destruct A; auto.
  - rewrite E. exact J6.
Qed.

Lemma done_J g B v : J g B -> plain (b_m g) -> mcur (b_m g) = None -> query v -> J (done g v) B.
Proof.
  intros V P E Q. pose proof (J_qcore _ _ V P E) as C. pose proof (J_idle _ _ V E) as Et.
  destruct V as [J1 J2 J4 J5 J6 J7].
  constructor; gcbn; auto.
  - unfold slog. gcbn. cbn [fl beff extra out_of]. destruct C as [C1 C2 C3 C4 C6 C7 C8 C9 C10 C11]. constructor; gcbn; auto.
    + apply st_query; auto.
    + destruct v; cbn in Q; try tauto; exact C4.
  - intros _. apply J4. destruct (b_m g); cbn in *; tauto.
  - intros [A|[]]. apply J5. auto.
  - exact Logic.I.
Qed.

(** the storage in the middle of a query *)
Definition held (g : bg) (e : edge) : nat := cnt e (pend (b_nw g) (b_b g) (b_conv g)) + cnt e (kse (b_ks g)).
Lemma q_cov g B e : J g B -> plain (b_m g) -> mcur (b_m g) = None -> In e (live (b_log g)) -> In e B \/ 0 < held g e.
Proof.
  intros V P E I. pose proof (st_cov (co_st _ _ _ _ _ _ _ _ _ _ _ _ _ (J_qcore _ _ V P E)) e I) as A. cbn [count_occ] in A. unfold held. rewrite cnt_pos. lia.
Qed.
Lemma q_snd g B e : J g B -> plain (b_m g) -> mcur (b_m g) = None -> In e B \/ 0 < held g e ->
  In e (ins_of (b_log g)) /\ (fresh_for e (b_log g) -> In e (live (b_log g))).
Proof.
  intros V P E I. pose proof (co_st _ _ _ _ _ _ _ _ _ _ _ _ _ (J_qcore _ _ V P E)) as A. unfold held in I. rewrite cnt_pos in I.
  split; [apply (st_ins A); lia|]. intros F. pose proof (st_ex A e F) as X. cbv beta in X. apply cnt_pos. lia.
Qed.

(** an insertion returns, to the caller or to the rebuild loop *)
Lemma found_core g B e d r (h : list event) : coreg g B B (e :: r) 0 (EDel d :: h) -> In e B \/ 0 < held g e -> coreg g B B r 0 (EDel d :: h).
Proof.
  intros [C1 C2 C3 C4 C6 C7 C8 C9 C10 C11] I. constructor; auto. cbn [length] in C3. eapply st_skip; [exact C3| |].
  - intros f. cbv beta. rewrite (cnt_cons f e r). instantiate (1 := e). lia.
  - cbv beta. unfold held in I. rewrite cnt_pos in I. lia.
Qed.
Lemma ins_start_J fuel : forall g B d f r g', b_n g = n -> b_todo g = Some (d, r) -> length r <= fuel -> coreg g B B (f :: r) 0 (EDel d :: b_log g) ->
  (b_nw g = false -> b_conv g = []) -> (b_nw g = true -> copyg g) ->
  ins_start K fuel g f = Ok g' -> J g' B /\ (b_log g' = b_log g \/ b_log g' = EDel d :: b_log g).
Proof.
  induction fuel as [|fuel IH]; intros g B d f r g' Nn Et Le C Cv Cp E; pose proof C as [[sl [C0 CB]] C2 C3 C4 C6 C7 C8 C9 C10 C11];
  cbn [ins_start] in E; rewrite (inv_contains _ _ f C0), CB in E; cbn [obind] in E; destruct (emem f B) eqn:Eb.
  1, 3: assert (Ib : In f B \/ 0 < held g f) by (left; apply emem_In, Eb); pose proof (found_core _ _ _ _ _ _ C Ib) as C'; unfold ins_done in E; rewrite Et in E.
  1, 2: destruct r as [|f2 r];
    [injection E as <-; split; [|right; reflexivity]; constructor; gcbn; auto; [intros [A|[]]; apply Cp, A|exact Logic.I]|].
  - cbn [length] in Le. lia.
  - eapply (IH _ B d f2 r) in E; gcbn; eauto. cbn [length] in Le. lia.
  - apply emem_false in Eb. injection E as <-. split; [|left; reflexivity]. constructor; gcbn; auto.
    + unfold slog. gcbn. rewrite Et. exact C.
    + intros [A|[]]. apply Cp, A.
    + intros _ A. discriminate A.
    + cbn [mfactd]. split; [|auto]. rewrite Forall_forall in C4. apply C4. apply (st_ins C3). cbv beta. rewrite (cnt_cons f f). cbn [count_occ].
      destruct (edge_dec f f); [lia|congruence].
  - apply emem_false in Eb. injection E as <-. split; [|left; reflexivity]. constructor; gcbn; auto.
    + unfold slog. gcbn. rewrite Et. exact C.
    + intros [A|[]]. apply Cp, A.
    + intros _ A. discriminate A.
    + cbn [mfactd]. split; [|auto]. rewrite Forall_forall in C4. apply C4. apply (st_ins C3). cbv beta. rewrite (cnt_cons f f). cbn [count_occ].
      destruct (edge_dec f f); [lia|congruence].
Qed.
Lemma start_J g B d f r g' : b_n g = n -> coreg g B B (f :: r) 0 (EDel d :: b_log g) ->
  (b_nw g = false -> b_conv g = []) -> (b_nw g = true -> copyg g) -> answers_ok (b_log g) ->
  start K (set_todo g (Some (d, r))) f = Ok g' -> J g' B /\ answers_ok (b_log g').
Proof.
  intros Nn C Cv Cp An E. unfold start in E. eapply (ins_start_J _ _ B d f r) in E; gcbn; eauto.
  destruct E as [A [E|E]]; gcbn; (split; [auto|]); rewrite E; [auto|split; [exact Logic.I|auto]].
Qed.

Lemma ins_end_J g B e hw g' : b_n g = n -> coreg g B B (rest (b_todo g)) 0 (fl (b_todo g) (Some e) (b_log g)) ->
  (b_nw g = false -> b_conv g = []) -> (b_nw g = true -> copyg g) -> answers_ok (b_log g) ->
  ins_end K g e hw = Ok g' -> J g' B /\ answers_ok (b_log g').
Proof.
  intros Nn C Cv Cp An E. unfold ins_end, ins_done in E. destruct (b_todo g) as [[d [|f r]]|] eqn:Et; cbn [rest fl] in C.
  - injection E as <-. split; [|split; [exact Logic.I|exact An]]. constructor; gcbn; auto.
    + intros [A|[]]. apply Cp, A.
    + exact Logic.I.
  - eapply (start_J g B d f r g'); eauto.
  - injection E as <-. split; [|split; [exact Logic.I|exact An]]. constructor; gcbn; auto.
    + unfold slog. gcbn. cbn [fl beff extra out_of]. destruct C as [C1 C2 C3 C4 C6 C7 C8 C9 C10 C11]. constructor; auto.
      destruct C3; constructor; auto.
    + intros [A|[]]. apply Cp, A.
    + exact Logic.I.
Qed.

Lemma has_end_J g B (k : bool) e b busy g' : J g B -> plain (b_m g) -> mcur (b_m g) = (if k then Some e else None) -> inr e -> ~ In e B ->
  (b = true -> 0 < held g e) ->
  (k = false -> busy = false -> b = false -> ~ In e (live (b_log g))) ->
  answers_ok (b_log g) -> has_end K g k e b busy = Ok g' -> J g' B /\ answers_ok (b_log g').
Proof.
  intros V P E R NB A1 A2 An G. unfold has_end in G. destruct k.
  - destruct b.
    + pose proof (J_core _ _ V P) as C. destruct (plain_core (b_m g) B (b_todo g) (b_log g) P) as (_ & _ & _ & E4). unfold out_of in C. rewrite E4, E in C.
      eapply (ins_end_J g B e); eauto.
      * apply (j_n _ _ V).
      * destruct (b_todo g) as [[d r]|]; cbn [fl rest] in *.
        -- eapply found_core; [exact C|]. auto.
        -- destruct C as [C1 C2 C3 C4 C6 C7 C8 C9 C10 C11]. constructor; auto.
           ++ apply st_found; auto. cbv beta. specialize (A1 eq_refl). unfold held in A1. lia.
           ++ constructor; auto.
      * apply (j_conv _ _ V). destruct (b_m g); cbn in *; tauto.
      * intros W. apply (j_copy _ _ V (or_introl W)).
    + injection G as <-. split; [|exact An]. apply move_J; auto; try exact Logic.I. cbn [mfactd]. auto.
  - injection G as <-. split; [apply done_J; auto; exact Logic.I|]. gcbn. split; [|exact An]. cbn [answer_ok].
    split.
    + intros Hz I. destruct b; auto. destruct (A2 eq_refl Hz eq_refl I).
    + intros Hb. apply (q_snd _ _ _ V P E). auto.
Qed.

Lemma buffered_J g B c c' sl e g' : J g B -> plain (b_m g) -> mcur (b_m g) = Some e -> inr e -> ~ In e B -> c0_inv c sl -> live_edges sl = B ->
  c0_insert T c e (b_nt g) = Ok c' -> answers_ok (b_log g) ->
  ins_end K (set_store g c' (b_nt g + 1)) e Buffered = Ok g' -> exists B', J g' B' /\ answers_ok (b_log g').
Proof.
  intros V P E R NI I0 EB Ei An G.
  destruct (insert_inv _ _ _ _ _ _ I0 Ei) as [_ [_ I1]]. rewrite EB in I1.
  assert (NB : emem e B = false) by (apply emem_false, NI). rewrite NB in I1.
  exists (B ++ [e]). pose proof (J_core _ _ V P) as C.
  destruct (plain_core (b_m g) B (b_todo g) (b_log g) P) as (_ & _ & _ & E4). rewrite E in *. unfold out_of in C. rewrite E4 in C.
  destruct C as [_ C2 C3 C4 C6 C7 C8 C9 C10 C11].
  eapply ins_end_J in G; eauto; gcbn.
  - apply (j_n _ _ V).
  - constructor; gcbn; auto.
    + eexists. split; [exact I1|]. rewrite live_edges_app, EB. reflexivity.
    + apply NoDup_app. split; [auto|]. split; [repeat constructor; intros []|]. intros f I [->|[]]. auto.
    + replace (b_nt g + 1 + N.of_nat 0)%N with (b_nt g + N.of_nat 0 + 1)%N by lia.
      match goal with |- st _ ?s _ _ _ => replace s with (S (length B + length (pend (b_nw g) (b_b g) (b_conv g)) + length (kse (b_ks g)))) by (rewrite app_length; cbn [length]; lia) end.
      destruct (b_todo g) as [[d r]|]; cbn [fl rest] in *.
      * cbn [app length] in C3. eapply st_move; [exact C3|]. intros f. cbv beta. rewrite cnt_app, (cnt_cons f e r). lia.
      * eapply st_insert; [exact C3|]. intros f. cbv beta. rewrite cnt_app. lia.
    + destruct (b_todo g) as [[d r]|]; cbn [fl rest ins_of] in *; auto.
  - apply (j_conv _ _ V). destruct (b_m g); cbn in *; tauto.
  - intros W. apply (j_copy _ _ V (or_introl W)).
Qed.

(** erase takes out one copy, from the first tree that has it *)
Lemma dl_erase_cnt x y : inr (x, y) -> forall l, ks_wf K L n l ->
  let '(b, k, l') := dl_erase K l x y in
  ks_wf K L n l' /\ length l' = length l /\
  (forall e, cnt e (kse l) = cnt e (kse l') + if b then cnt e [(x, y)] else 0) /\ (b = false -> ~ In (x, y) (kse l)) /\
  (forall i t, nth_error l' i = Some (Some t) -> exists s, nth_error l i = Some (Some s)).
Proof.
  intros [Rx Ry]. cbn [fst snd] in *. induction l as [|o l IH]; intros W; cbn [dl_erase].
  - split; [constructor|]. split; [auto|]. split; [intros e; reflexivity|]. split; [intros _ []|].
    intros [|i] t E; discriminate.
  - inversion W as [|? ? W1 W2]; subst. specialize (IH W2). destruct o as [t|].
    + pose proof (law_erase_res L n t x y W1 Rx Ry) as R1. pose proof (law_erase L n t x y W1 Rx Ry) as R2.
      destruct (kt_erase K t x y) as [b t']. cbn [fst snd] in *. destruct R2 as [R2 [R3 R4]].
      assert (Ct : forall e, cnt e (kt_edges K t) = cnt e (kt_edges K t') + if b then cnt e [(x, y)] else 0).
      { intros e. pose proof (cnt_le1 e _ (law_edges_nodup L n _ R2)). pose proof (cnt_le1 e _ (law_edges_nodup L n _ W1)).
        specialize (R3 e). rewrite !cnt_pos in R3. rewrite cnt_pos in R1. cbn [count_occ]. destruct (edge_dec (x, y) e) as [<-|Ne].
        - assert (~ 0 < cnt (x, y) (kt_edges K t')) by (rewrite R3; tauto). destruct b; [assert (0 < cnt (x, y) (kt_edges K t)) by (apply R1; auto); lia|].
          assert (~ 0 < cnt (x, y) (kt_edges K t)) by (rewrite <- R1; discriminate). lia.
        - assert (e <> (x, y)) by congruence. assert (X : 0 < cnt e (kt_edges K t') <-> 0 < cnt e (kt_edges K t)) by tauto. destruct b; lia. }
      destruct b.
      * destruct (N.eqb_spec (kt_marked K t') (kt_total K t')) as [Em|Em].
        -- split; [constructor; auto|]. split; [auto|]. split; [|split; [discriminate|]].
           ++ intros e. rewrite ks_edges_cons_none, ks_edges_cons_some, cnt_app, Ct.
              assert (Z2 : kt_edges K t' = []). { rewrite (law_total L n t' R2) in Em. destruct (kt_edges K t'); [auto|cbn [length] in Em; lia]. }
              rewrite Z2. cbn [count_occ]. lia.
           ++ intros [|i] u Eu; [discriminate|]. cbn in *. eauto.
        -- split; [constructor; auto|]. split; [auto|]. split; [|split; [discriminate|]].
           ++ intros e. rewrite !ks_edges_cons_some, !cnt_app, Ct. lia.
           ++ intros [|i] u Eu; cbn in *; eauto.
      * assert (I : ~ In (x, y) (kt_edges K t)) by (rewrite <- R1; discriminate).
        destruct (dl_erase K l x y) as [[b' k'] l']. destruct IH as (I1 & I2 & I3 & I4 & I5).
        split; [constructor; auto|]. split; [cbn; auto|]. split; [|split].
        -- intros e. rewrite !ks_edges_cons_some, !cnt_app, I3, Ct. lia.
        -- intros Eb. rewrite ks_edges_cons_some, in_app_iff. intros [X|X]; [auto|apply (I4 Eb X)].
        -- intros [|i] u Eu; cbn in *; eauto.
    + destruct (dl_erase K l x y) as [[b' k'] l']. destruct IH as (I1 & I2 & I3 & I4 & I5).
      split; [constructor; auto|]. split; [cbn; auto|]. split; [|split].
      * intros e. rewrite !ks_edges_cons_none. auto.
      * intros Eb. rewrite ks_edges_cons_none. auto.
      * intros [|i] u Eu; cbn in *; eauto.
Qed.
Lemma dl_erase_len x y (l l' : list (option ktree)) (b : bool) :
  (forall e, cnt e (kse l) = cnt e (kse l') + if b then cnt e [(x, y)] else 0) -> length (kse l) = length (kse l') + if b then 1 else 0.
Proof.
  intros A. assert (X : length (kse l) = length (kse l' ++ if b then [(x, y)] else [])).
  { apply cnt_len. intros e. rewrite cnt_app, A. destruct b; reflexivity. }
  rewrite X, app_length. destruct b; reflexivity.
Qed.

Lemma kse_flat (l : list (option ktree)) : flat_map (fun o => match o with Some t => kt_edges K t | None => [] end) l = kse l.
Proof. induction l as [|[t|] l IH]; [reflexivity| |]; cbn [flat_map]; rewrite IH; [rewrite ks_edges_cons_some|rewrite ks_edges_cons_none]; reflexivity. Qed.

Lemma erase_J g B e g' : J g B -> b_m g = MErase e -> answers_ok (b_log g) -> main_step wt T K g = Ok g' ->
  exists B', J g' B' /\ answers_ok (b_log g').
Proof.
  intros V Em An E. exists B. assert (P : plain (b_m g)) by (rewrite Em; exact Logic.I). assert (Ec : mcur (b_m g) = None) by (rewrite Em; reflexivity).
  pose proof (J_qcore _ _ V P Ec) as C. pose proof (J_idle _ _ V Ec) as Et. pose proof (j_m _ _ V) as M. rewrite Em in M. cbn [mfactd] in M. destruct M as [M1 [M2 M3]].
  pose proof (j_conv _ _ V) as Cv. rewrite Em in Cv. specialize (Cv (fun x => x) M3).
  unfold main_step in E. rewrite Em in E.
  destruct C as [[sl [C0 CB]] C2 C3 C4 C6 C7 C8 C9 C10 C11].
  rewrite M3 in *. cbn [BgProof.pend count_occ bfactd length] in *. destruct e as [x y]. cbn [fst snd] in E.
  pose proof (dl_erase_cnt x y M1 (b_ks g) C6) as D. destruct (dl_erase K (b_ks g) x y) as [[eb mk] l].
  destruct D as (D1 & D2 & D3 & D4 & D5). pose proof (dl_erase_len x y _ _ _ D3) as DL. cbv zeta in E.
  set (n' := if eb then u64_dec (b_nt g) else b_nt g) in E.
  assert (ST : st (fun f => cnt f B + 0 + cnt f (kse l) + 0) (length B + 0 + length (kse l)) 0 n' (EDel (x, y) :: b_log g)).
  { unfold n'. destruct eb.
    - replace (u64_dec (b_nt g)) with (u64_dec (b_nt g + N.of_nat 0)) by (f_equal; lia). eapply st_del.
      + replace (S (length B + 0 + length (kse l))) with (length B + 0 + length (kse (b_ks g))) by lia. exact C3.
      + intros f. cbv beta. rewrite D3. cbn [count_occ]. lia.
    - replace (b_nt g) with (b_nt g + N.of_nat 0)%N by lia. apply st_del0.
      + replace (length (kse l)) with (length (kse (b_ks g))) by lia. eapply st_ext; [exact C3|]. intros f. cbv beta. rewrite D3. lia.
      + cbv beta. specialize (D4 eq_refl). apply cnt_zero in D4. rewrite D3 in D4. apply cnt_zero in M2. lia. }
  assert (LR : Forall inr (ins_of (EDel (x, y) :: b_log g))) by exact C4.
  assert (AB : none_above (b_maxr g) l) by (intros i t Ei; destruct (D5 i t Ei) as [s Es]; apply (C8 i s Es)).
  assert (An' : answers_ok (EDel (x, y) :: b_log g)) by (split; [exact Logic.I|exact An]).
  set (g1 := set_store (set_ks g (b_maxr g) l) (b_c0 g) n') in E.
  destruct (th_trig T mk n').
  - rewrite kse_flat in E. unfold g1 in E. gcbn. rewrite (kse_firstn K n Hn l (b_maxr g)) in E by (auto; lia).
    set (l2 := repeat None (Nat.min (S (b_maxr g)) (length l)) ++ skipn (S (b_maxr g)) l) in E.
    assert (A2 : forall o, In o l2 -> o = None).
    { intros o I. unfold l2 in I. apply in_app_iff in I. destruct I as [I|I]; [apply repeat_spec in I; auto|].
      revert o I. apply (none_skip K n Hn). intros i t Ei. apply AB in Ei. lia. }
    assert (K2 : kse l2 = []) by (apply kse_all_none, A2).
    assert (W2 : ks_wf K L n l2) by (apply Forall_forall; intros o I; rewrite (A2 o I); exact Logic.I).
    assert (L2 : length l2 = RS) by (unfold l2; rewrite app_length, repeat_length, skipn_length; lia).
    assert (B2 : none_above 0 l2). { intros i t Ei. apply nth_error_In, A2 in Ei. discriminate. }
    assert (S2 : c0_size (b_c0 g) = length B) by (rewrite (inv_size _ _ C0), CB; reflexivity).
    assert (Q : forall P, P = kse l -> core (b_c0 g) (N.of_nat (c0_size (b_c0 g))) l2 0 (b_conv g) false (b_b g) (b_copy g) B B P 0 (EDel (x, y) :: b_log g)).
    { intros Q ->. constructor; auto.
      - eauto.
      - cbn [BgProof.pend length count_occ]. rewrite K2, S2. cbn [length count_occ].
        replace (N.of_nat (length B) + N.of_nat 0)%N with (N.of_nat (length B + 0 + 0)) by lia.
        eapply st_rebuild with (sz := length B + 0 + length (kse l)) (A := B ++ kse l).
        + eapply st_ext; [exact ST|]. intros f. cbv beta. lia.
        + intros f. cbv beta. rewrite cnt_app. lia.
        + lia.
        + rewrite app_length. lia. }
    destruct (kse l) as [|f r] eqn:EL.
    + injection E as <-. split; [|gcbn; exact An']. constructor; gcbn; auto.
      * apply (j_n _ _ V).
      * unfold slog, coreg. gcbn. rewrite M3. apply Q. reflexivity.
      * rewrite M3. intros [A|[]]; discriminate A.
      * exact Logic.I.
    + match type of E with start _ (set_todo ?gg _) _ = _ => set (g2 := gg) in E end.
      eapply (start_J g2 B (x, y) f r g'); auto.
      * apply (j_n _ _ V).
      * unfold coreg, g2. gcbn. rewrite M3. apply Q. reflexivity.
      * intros X. unfold g2 in X. gcbn. congruence.
  - injection E as <-. split; [|gcbn; exact An']. constructor; unfold g1; gcbn; auto.
    + apply (j_n _ _ V).
    + unfold slog, coreg. gcbn. rewrite M3. cbn [beff out_of extra fl]. constructor; auto.
      * eauto.
      * replace (n' + N.of_nat 0)%N with n' by lia. exact ST.
      * congruence.
    + rewrite M3. intros [A|[]]; discriminate A.
    + exact Logic.I.
Qed.

(** how often a vertex is listed *)
Lemma succs_count x y (B : list edge) : NoDup B -> count_occ N.eq_dec (succs x B) y <= cnt (x, y) B.
Proof.
  intros N. pose proof (NoDup_succs B x N) as N1. rewrite (NoDup_count_occ N.eq_dec) in N1. specialize (N1 y).
  pose proof (In_succs B x y) as I. rewrite (count_occ_In N.eq_dec), cnt_pos in I. lia.
Qed.
Lemma nbrs_count x y l : ks_wf K L n l -> (x < n)%N -> count_occ N.eq_dec (nbrs x l) y <= cnt (x, y) (kse l).
Proof.
  intros W Hx. induction W as [|o l Ho W IH]; [cbn; lia|]. destruct o as [t|]; cbn [BgProof.nbrs flat_map].
  - rewrite ks_edges_cons_some, count_occ_app, cnt_app. fold (nbrs x l). unfold BgProof.nbrs in *. pose proof (law_neigh_nodup L n t x Ho Hx) as N1.
    rewrite (NoDup_count_occ N.eq_dec) in N1. specialize (N1 y). pose proof (law_neigh L n t x y Ho Hx) as I. rewrite (count_occ_In N.eq_dec), cnt_pos in I. lia.
  - exact IH.
Qed.
Lemma count_occ_rev_N (l : list N) y : count_occ N.eq_dec (rev l) y = count_occ N.eq_dec l y.
Proof. induction l as [|a l IH]; [reflexivity|]. cbn [rev]. rewrite count_occ_app, IH. cbn [count_occ]. destruct (N.eq_dec a y); lia. Qed.

Lemma main_J g B g' : J g B -> answers_ok (b_log g) -> main_step wt T K g = Ok g' -> exists B', J g' B' /\ answers_ok (b_log g').
Proof.
  intros V An E. pose proof E as E0. pose proof (j_m _ _ V) as M. unfold main_step in E.
  assert (PP : plain (b_m g) -> coreg g B B (out_of (b_todo g) (b_m g)) 0 (fl (b_todo g) None (b_log g))) by (apply J_core; auto).
  destruct (b_m g) eqn:Em; cbn [mfactd] in M; try (assert (P : plain (b_m g)) by (rewrite Em; exact Logic.I); specialize (PP Logic.I)).
  - injection E as <-. eauto.
  - (* MHas *) destruct M as [M1 M2]. exists B.
    assert (Ec : mcur (b_m g) = if k then Some e else None) by (rewrite Em; destruct k; auto).
    destruct (b_nw g) eqn:W.
    + pose proof (j_copy _ _ V (or_introl W)) as Cp. unfold copyg, copy_in in Cp. destruct (eeqb (b_tmp g) e) eqn:Et.
      * apply eeqb_eq in Et. eapply has_end_J; eauto. discriminate.
      * destruct (b_mrb g <? length (b_copy g)); [|discriminate]. eapply has_end_J; eauto; [|discriminate].
        intros A. apply Cp. right. destruct e as [x y]. cbn [fst snd] in A.
        pose proof (co_cpwf _ _ _ _ _ _ _ _ _ _ _ _ _ PP) as Wc.
        rewrite (ks_adj_spec K L n) in A by (auto; apply ks_wf_firstn; auto). rewrite <- (firstn_skipn (S (b_mrb g)) (b_copy g)), ks_edges_app. apply in_app_iff. auto.
    + injection E as <-. split; [|exact An]. apply move_J; [assumption|assumption|exact Logic.I|rewrite Ec; destruct k; reflexivity|intros []|].
      cbn [mfactd firstn]. split; [auto|]. split; [auto|]. split; [auto|]. intros [].
  - (* MScan *) destruct M as [M1 [M2 [M3 M4]]]. exists B.
    assert (Ec : mcur (b_m g) = if k then Some e else None) by (rewrite Em; destruct k; auto).
    pose proof (co_wf _ _ _ _ _ _ _ _ _ _ _ _ _ PP) as Wf. unfold ks_wf in Wf. rewrite Forall_forall in Wf.
    destruct (Nat.leb_spec i (b_maxr g)) as [Li|Li].
    + destruct (nth_error (b_ks g) i) as [o|] eqn:Ei; [|discriminate].
      assert (Mv : ~ In e (match o with Some t => kt_edges K t | None => [] end) -> J (set_m g (MScan k e (S i))) B).
      { intros X. apply move_J; [assumption|assumption|exact Logic.I|rewrite Ec; destruct k; reflexivity|intros []|].
        cbn [mfactd]. split; [auto|]. split; [auto|]. split; [auto|]. rewrite (firstn_S _ _ _ Ei), ks_edges_app, in_app_iff. intros [Y|Y]; [auto|].
          apply X. destruct o; [rewrite ks_edges_cons_some in Y; cbn [ks_edges] in Y; rewrite app_nil_r in Y; exact Y|exact Y]. }
      destruct o as [t|].
      * assert (Wt : wf L n t) by (apply (Wf (Some t)); eapply nth_error_In; eauto). destruct e as [x y]. cbn [fst snd] in E.
        destruct M1 as [R1 R2]. cbn [fst snd] in *. pose proof (law_adj L n t x y Wt R1 R2) as A.
        destruct (kt_adj K t x y) eqn:Ea.
        -- eapply has_end_J; eauto; [split; auto| |discriminate]. intros _. assert (I : In (x, y) (kse (b_ks g))) by (eapply nth_kse; eauto; apply A; auto).
           apply cnt_pos in I. unfold held. lia.
        -- injection E as <-. split; [|exact An]. apply Mv. rewrite <- A. discriminate.
      * injection E as <-. split; [|exact An]. apply Mv. intros [].
    + eapply has_end_J; eauto; [discriminate|]. intros -> _ _ I.
      rewrite (kse_firstn K n Hn _ (b_maxr g)) in M4; [|apply (co_above _ _ _ _ _ _ _ _ _ _ _ _ _ PP)|lia].
      apply (q_cov _ _ _ V P Ec) in I. destruct I as [I|I]; [auto|]. unfold held in I. rewrite M3 in I. cbn [BgProof.pend count_occ] in I. apply cnt_zero in M4. lia.
  - (* MIns *) destruct M as [M1 M2]. destruct (maxsz T (N.max (b_n g) (b_nt g)) 0) as [ms|]; [|discriminate]. cbn [obind] in E.
    assert (Ec : mcur (b_m g) = Some e) by (rewrite Em; auto).
    destruct (N.of_nat (c0_size (b_c0 g)) <? ms)%N.
    + destruct (c0_insert T (b_c0 g) e (b_nt g)) as [c'|] eqn:Ei; [|discriminate]. cbn [obind] in E.
      destruct (co_c0 _ _ _ _ _ _ _ _ _ _ _ _ _ PP) as [sl [C0 CB]]. eapply buffered_J; eauto.
    + injection E as <-. exists B. split; [|exact An]. apply move_J; [assumption|assumption|exact Logic.I|rewrite Em; reflexivity|intros []|cbn; auto].
  - (* MBusy *) destruct M as [M1 M2]. assert (Ec : mcur (b_m g) = Some e) by (rewrite Em; auto). destruct (b_nw g) eqn:W.
    + destruct wt; [injection E as <-; eauto|]. cbv zeta in E.
      set (c := if c0_size (b_c0 g) =? c_max (b_c0 g) then c0_resize (b_c0 g) (c_max (b_c0 g) + 10) else b_c0 g) in E.
      destruct (c0_insert T c e (b_nt g)) as [c'|] eqn:Ei; [|discriminate]. cbn [obind] in E.
      destruct (co_c0 _ _ _ _ _ _ _ _ _ _ _ _ _ PP) as [sl [C0 CB]].
      assert (C0' : c0_inv c sl) by (unfold c; destruct (c0_size (b_c0 g) =? c_max (b_c0 g)); [apply inv_resize; auto|auto]).
      eapply buffered_J; eauto.
    + injection E as <-. exists B. split; [|exact An]. apply move_J; [assumption|assumption|exact Logic.I|rewrite Em; reflexivity|intros []|cbn; auto].
  - (* MPush *) destruct M as [M1 [M0 M2]]. assert (Ec : mcur (b_m g) = Some e) by (rewrite Em; auto).
    destruct (co_c0 _ _ _ _ _ _ _ _ _ _ _ _ _ PP) as [sl [C0 CB]].
    rewrite (inv_converted _ _ C0), CB in E. cbn [obind] in E. injection E as <-. exists B. split; [|exact An].
    pose proof (j_conv _ _ V) as Cv. rewrite Em in Cv. specialize (Cv (fun x => x) M2).
    destruct PP as [C1 C2 C3 C4 C6 C7 C8 C9 C10 C11]. rewrite M2 in *. cbn [BgProof.pend bfactd] in *.
    constructor; gcbn; auto.
    + apply (j_n _ _ V).
    + unfold slog, coreg. gcbn. rewrite M2. constructor; auto.
    + intros X. destruct X. exact Logic.I.
    + rewrite M2. intros [A|[]]; discriminate A.
    + discriminate.
    + cbn [mfactd]. gcbn. rewrite Cv. split; [exact M1|]. split; [auto|]. split; [auto|]. split; auto.
  - (* MCopy *) destruct M as (M1 & M0 & M2 & M3 & M4 & M5). exists B.
    pose proof (j_core _ _ V) as C. rewrite Em in C. unfold slog in C. rewrite Em in C. cbn [beff extra] in C.
    destruct C as [C1 C2 C3 C4 C6 C7 C8 C9 C10 C11]. rewrite M2 in *. cbn [BgProof.pend bfactd] in *.
    destruct (nth_error (b_ks g) j) as [o|] eqn:Ej; injection E as <-; (split; [|exact An]).
    + assert (Lj : j < RS) by (rewrite <- C7; apply nth_error_Some; congruence).
      constructor; gcbn; auto.
      * apply (j_n _ _ V).
      * unfold slog, coreg. gcbn. rewrite M2. constructor; auto.
        -- apply Forall_forall. intros p I. apply In_upd in I. unfold ks_wf in *. rewrite Forall_forall in C6, C10. destruct I as [->|I]; [apply C6; eapply nth_error_In; eauto|apply (C10 p I)].
        -- rewrite length_upd. auto.
      * intros X. destruct X. exact Logic.I.
      * rewrite M2. intros [A|[]]; discriminate A.
      * discriminate.
      * cbn [mfactd]. gcbn. split; [exact M1|]. split; [auto|]. split; [auto|]. split; [auto|]. split; [auto|].
        assert (X : nth_error (upd (b_copy g) j o) j = Some o) by (apply nth_error_upd_eq; lia).
        rewrite (firstn_S _ _ _ X), (firstn_S _ _ _ Ej). f_equal. rewrite <- M5.
        clear - Lj C11. revert Lj C11. generalize (b_copy g). intros l Lj Hl. assert (Y : j < length l) by lia. clear Lj Hl.
        revert l Y. induction j as [|j IH]; intros [|a l] Y; cbn in *; try lia; auto. f_equal. apply IH. lia.
    + apply nth_error_None in Ej. rewrite !firstn_all2 in M5 by lia. constructor; gcbn; auto.
      * apply (j_n _ _ V).
      * unfold slog, coreg. gcbn. rewrite M2. constructor; auto.
      * intros X. destruct X. exact Logic.I.
      * rewrite M2. intros [A|[]]; discriminate A.
      * discriminate.
      * cbn [mfactd]. gcbn. split; [exact M1|]. split; [exact M0|]. auto.
  - (* MFlag *) destruct M as (M1 & M0 & M2 & M3 & M4 & M5). exists B. injection E as <-. split; [|exact An].
    assert (Ec : mcur (b_m g) = Some e) by (rewrite Em; auto).
    pose proof (j_core _ _ V) as C. rewrite Em in C. unfold slog in C. rewrite Em in C. cbn [beff extra] in C.
    destruct C as [C1 C2 C3 C4 C6 C7 C8 C9 C10 C11]. rewrite M2 in *. cbn [BgProof.pend bfactd] in *.
    constructor; gcbn; auto.
    + apply (j_n _ _ V).
    + unfold slog, coreg. gcbn. rewrite C9. cbn [beff extra]. constructor; auto.
      * cbn [BgProof.pend length count_occ]. rewrite M4, app_length. cbn [length].
        replace (b_nt g + N.of_nat 1)%N with (b_nt g + N.of_nat 0 + 1)%N by lia.
        replace (0 + (length B + 1) + length (kse (b_ks g))) with (S (length B + 0 + length (kse (b_ks g)))) by lia.
        destruct (b_todo g) as [[d r]|]; cbn [fl out_of ncur mcur app length] in *.
        -- eapply st_move; [exact C3|]. intros f. cbv beta. rewrite cnt_app, (cnt_cons f e r). cbn [count_occ]. lia.
        -- eapply st_insert; [exact C3|]. intros f. cbv beta. rewrite cnt_app. cbn [count_occ]. lia.
      * destruct (b_todo g) as [[d r]|]; cbn [fl ins_of] in *; auto.
      * cbn [bfactd]. rewrite M4. split; [destruct B; discriminate|]. split.
        -- apply NoDup_app. split; [auto|]. split; [repeat constructor; intros []|]. intros f I [->|[]]. auto.
        -- apply Forall_app. split; [|repeat constructor; apply M1].
           rewrite Forall_forall in *. intros f I. apply C4. apply (st_ins C3). cbv beta. apply cnt_pos in I. lia.
    + discriminate.
    + intros _ f. unfold copyg. gcbn. rewrite C9. cbn [BgProof.pend]. rewrite M3, M4, M5. intros [->|I].
      * rewrite cnt_app. cbn [count_occ]. destruct (edge_dec e e); [lia|congruence].
      * apply cnt_pos in I. lia.
    + discriminate.
    + exact Logic.I.
  - (* MClean *) pose proof (j_core _ _ V) as C. rewrite Em in C. unfold slog in C. rewrite Em in C. cbn [beff extra] in C.
    destruct C as [[sl [C0 CB]] C2 C3 C4 C6 C7 C8 C9 C10 C11].
    destruct (inv_clean _ _ C0) as (c' & E1 & IC & _ & Nv). rewrite E1 in E. cbn [obind] in E. exists [].
    eapply ins_end_J in E; eauto; gcbn.
    + apply (j_n _ _ V).
    + constructor; gcbn; auto.
      * eexists. split; [exact IC|reflexivity].
      * constructor.
      * replace (b_nt g + 1 + N.of_nat 0)%N with (b_nt g + N.of_nat 1)%N by lia.
        destruct (b_todo g) as [[d r]|]; cbn [out_of ncur rest app length] in *; exact C3.
    + apply (j_conv _ _ V). rewrite Em. exact (fun x => x).
    + intros W. apply (j_copy _ _ V (or_introl W)).
  - (* MNbr *) destruct M as [M1 M2]. exists B. assert (Ec : mcur (b_m g) = None) by (rewrite Em; auto).
    assert (UB : forall y, In y acc <-> In (x, y) B) by (intros y; rewrite M2, <- in_rev, In_succs; reflexivity).
    destruct (b_nw g) eqn:W; injection E as <-; (split; [|exact An]); (apply move_J; [assumption|assumption|exact Logic.I|rewrite Em; reflexivity|cbn; tauto|]).
    + cbn [mfactd]. split; [auto|]. intros y I. apply (q_snd _ _ _ V P Ec). apply in_app_iff in I. destruct I as [I|I]; [left; apply UB, I|right].
      apply (j_copy _ _ V (or_introl W)). left. destruct (b_tmp g) as [a b]. cbn [fst snd] in I. destruct (N.eqb_spec a x) as [->|]; [|destruct I].
      destruct I as [->|[]]. reflexivity.
    + cbn [mfactd firstn BgProof.nbrs flat_map]. split; [auto|]. split; [auto|]. rewrite app_nil_r. auto.
  - (* MNb *) destruct M as [M1 M2]. exists B. assert (Ec : mcur (b_m g) = None) by (rewrite Em; auto).
    pose proof (co_wf _ _ _ _ _ _ _ _ _ _ _ _ _ PP) as Wf. pose proof (co_cpwf _ _ _ _ _ _ _ _ _ _ _ _ _ PP) as Wc.
    assert (Cp : busy = true -> copyg g) by (intros ->; apply (j_copy _ _ V); right; rewrite Em; exact Logic.I).
    destruct (Nat.leb_spec l (b_maxr g)) as [Ll|Ll].
    + destruct (nth_error (if busy then b_copy g else b_ks g) l) as [o|] eqn:Eo; [|discriminate].
      assert (Y : forall acc', acc' = acc ++ nbrs x [o] -> J (set_m g (MNb x acc' busy (S l))) B).
      { intros acc' ->. apply move_J; [assumption|assumption|exact Logic.I|rewrite Em; reflexivity|rewrite Em; auto|]. cbn [mfactd]. split; [auto|]. destruct busy.
        - intros y I. apply in_app_iff in I. destruct I as [I|I]; [apply M2, I|]. apply (q_snd _ _ _ V P Ec). right. apply (Cp eq_refl). right.
          destruct o as [t|]; [|destruct I]. cbn [BgProof.nbrs flat_map] in I. rewrite app_nil_r in I.
          unfold ks_wf in Wc. rewrite Forall_forall in Wc. apply (law_neigh L n t x y) in I; auto; [eapply nth_kse; eauto|].
          apply (Wc (Some t)). eapply nth_error_In; eauto.
        - destruct M2 as [M2 M3]. split; [auto|]. rewrite M3, (firstn_S _ _ _ Eo). unfold BgProof.nbrs at 3. rewrite flat_map_app, <- app_assoc. reflexivity. }
      destruct o as [t|]; injection E as <-; (split; [|exact An]); apply Y; cbn [BgProof.nbrs flat_map]; rewrite ?app_nil_r; reflexivity.
    + injection E as <-. split; [apply done_J; auto; exact Logic.I|]. gcbn. split; [|exact An]. cbn [answer_ok]. destruct busy.
      * split; [discriminate|]. split; [auto|discriminate].
      * destruct M2 as [M2 M3]. rewrite (nbrs_firstn K n Hn x (b_ks g) (b_maxr g) l) in M3; [|apply (co_above _ _ _ _ _ _ _ _ _ _ _ _ _ PP)|lia].
        assert (A : forall y, In y acc <-> In (x, y) B \/ 0 < held g (x, y)).
        { intros y. unfold held. rewrite M3, in_app_iff, <- in_rev, In_succs, (nbrs_In K L n x _ y Wf M1), M2, (cnt_pos _ (kse _)). cbn [BgProof.pend count_occ]. reflexivity. }
        split; [intros _ y I; apply A; apply (q_cov _ _ _ V P Ec I)|]. split; [intros y I; apply (q_snd _ _ _ V P Ec); apply A, I|].
        intros _ y F. pose proof (st_le1 _ _ _ _ _ _ (co_st _ _ _ _ _ _ _ _ _ _ _ _ _ (J_qcore _ _ V P Ec)) F) as Z. cbv beta in Z.
        pose proof (succs_count x y B (co_nd _ _ _ _ _ _ _ _ _ _ _ _ _ PP)) as Z1. pose proof (nbrs_count x y (b_ks g) Wf M1) as Z2.
        rewrite M3, count_occ_app, count_occ_rev_N. lia.
  - (* MWait *) destruct M as [M1 M2]. destruct (b_nw g) eqn:W; injection E as <-; [eauto|]. exists B. split; [|exact An].
    apply move_J; [assumption|assumption|exact Logic.I|rewrite Em; reflexivity|intros []|cbn; auto].
  - eapply erase_J; eauto.
Qed.

(** ** A call begins *)
Definition act_rng (a : act) : Prop :=
  match a with ACall (CIns e) | ACall (CHas e) | ACall (CDel e) => inr e | ACall (CNbr x) => (x < n)%N | _ => True end.

Lemma call_J g B c g' : J g B -> act_rng (ACall c) -> answers_ok (b_log g) -> call_step K c g = Ok g' ->
  answers_ok (b_log g') /\ exists B', J g' B'.
Proof.
  intros V R An E. unfold call_step in E.
  destruct (b_m g) eqn:Em; try (injection E as <-; eauto; fail).
  assert (P : plain (b_m g)) by (rewrite Em; exact Logic.I). assert (Ec : mcur (b_m g) = None) by (rewrite Em; reflexivity).
  pose proof (J_qcore _ _ V P Ec) as C. pose proof (J_idle _ _ V Ec) as Et. pose proof C as [[sl [C0 CB]] C2 C3 C4 C6 C7 C8 C9 C10 C11].
  destruct c as [e|e|x|e]; cbn [act_rng] in R.
  - unfold start, fuel_of in E. rewrite Et in E. cbn [ins_start] in E. rewrite (inv_contains _ _ e C0), CB in E. cbn [obind] in E.
    destruct (emem e B) eqn:Eb.
    + unfold ins_done in E. rewrite Et in E. injection E as <-. split; [split; [exact Logic.I|exact An]|]. exists B.
      apply emem_In, cnt_pos in Eb. pose proof V as [J1 J2 J4 J5 J6 J7]. constructor; gcbn; auto.
      * unfold slog. gcbn. cbn [fl beff extra out_of]. constructor; auto; [eauto| |constructor; auto]. apply st_found; auto. cbv beta. lia.
      * intros _. apply J4. rewrite Em. exact (fun x => x).
      * intros [A|[]]. apply J5. auto.
      * exact Logic.I.
    + injection E as <-. split; [exact An|]. exists B. pose proof V as [J1 J2 J4 J5 J6 J7]. constructor; gcbn; auto.
      * unfold slog. gcbn. rewrite Et. exact C.
      * intros _. apply J4. rewrite Em. exact (fun x => x).
      * intros [A|[]]. apply J5. auto.
      * cbn [mfactd]. split; [auto|]. apply emem_false, Eb.
  - rewrite (inv_contains _ _ e C0), CB in E. cbn [obind] in E. destruct (emem e B) eqn:Eb; injection E as <-.
    + split; [|exists B; apply done_J; auto; exact Logic.I]. gcbn. split; [|exact An]. cbn [answer_ok]. split; [auto|].
      intros _. apply (q_snd _ _ _ V P Ec). left. apply emem_In, Eb.
    + split; [exact An|]. exists B. apply move_J; [assumption|assumption|exact Logic.I|rewrite Em; reflexivity|intros []|].
      cbn [mfactd]. split; [auto|]. apply emem_false, Eb.
  - rewrite (inv_neigh _ _ x C0), CB in E. cbn [obind] in E. injection E as <-. split; [exact An|]. exists B.
    apply move_J; [assumption|assumption|exact Logic.I|rewrite Em; reflexivity|intros []|]. cbn [mfactd]. auto.
  - destruct (c0_erase (b_c0 g) e) as [[b c']|] eqn:Ee; [|discriminate]. cbn [obind fst snd] in E.
    destruct (erase_inv _ _ _ _ _ C0 Ee) as (Eb & _ & _ & sl' & I' & _ & LE' & Ef). rewrite CB in Eb, LE'.
    destruct b; injection E as <-.
    + symmetry in Eb. apply emem_In in Eb. split; [split; [exact Logic.I|exact An]|]. exists (filter (fun f => negb (eeqb e f)) B).
      pose proof V as [J1 J2 J4 J5 J6 J7]. pose proof (filter_len1 _ _ C2 Eb) as FL. pose proof (cnt_le1 e _ C2) as U. apply cnt_pos in Eb.
      constructor; gcbn; auto.
      * unfold slog. gcbn. cbn [fl beff extra out_of]. constructor; gcbn; auto.
        -- exists sl'. auto.
        -- apply NoDup_filter, C2.
        -- replace (u64_dec (b_nt g) + N.of_nat 0)%N with (u64_dec (b_nt g + N.of_nat 0)) by (replace (b_nt g + N.of_nat 0)%N with (b_nt g) by lia; lia).
           eapply st_del.
           ++ match type of C3 with st _ ?s _ _ _ => match goal with |- st _ ?s' _ _ _ => replace s' with s by lia end end. exact C3.
           ++ intros f. cbv beta. rewrite cnt_filter. cbn [count_occ]. destruct (edge_dec e f) as [<-|Ne]; [rewrite eeqb_refl; lia|].
              destruct (eeqb e f) eqn:Ee2; [apply eeqb_eq in Ee2; tauto|lia].
      * intros _. apply J4. rewrite Em. exact (fun x => x).
      * intros [A|[]]. apply J5. auto.
      * exact Logic.I.
    + symmetry in Eb. apply emem_false in Eb. rewrite (Ef eq_refl). split; [exact An|]. exists B.
      assert (X : set_m (set_store g (b_c0 g) (b_nt g)) (MWait e) = set_m g (MWait e)) by reflexivity. rewrite X.
      apply move_J; [assumption|assumption|exact Logic.I|rewrite Em; reflexivity|intros []|]. cbn [mfactd]. auto.
Qed.

(** ** What the caller's thread leaves alone *)
Definition grows (g g' : bg) : Prop := b_b g' = b_b g /\ exists vs, b_log g' = vs ++ b_log g.
Lemma grows_refl (g g' : bg) : b_b g' = b_b g -> b_log g' = b_log g -> grows g g'.
Proof. intros E1 E. split; [auto|]. exists []. auto. Qed.
Lemma grows_one (g g' : bg) v : b_b g' = b_b g -> b_log g' = v :: b_log g -> grows g g'.
Proof. intros E1 E. split; [auto|]. exists [v]. auto. Qed.
Ltac gr := first [apply grows_refl; reflexivity | eapply grows_one; reflexivity].
Lemma grows_done next (g : bg) e h g' : (forall g f g', next g f = Ok g' -> grows g g') -> ins_done K next g e h = Ok g' -> grows g g'.
Proof.
  intros Nx E. unfold ins_done in E. destruct (b_todo g) as [[d [|f r]]|]; try (injection E as <-; gr).
  apply Nx in E. exact E.
Qed.
Lemma grows_ins fuel : forall (g : bg) e g', ins_start K fuel g e = Ok g' -> grows g g'.
Proof.
  induction fuel as [|fuel IH]; intros g e g' E; cbn [ins_start] in E; destruct (c0_contains (b_c0 g) e) as [[|]|]; try discriminate; cbn [obind] in E;
  try (injection E as <-; gr); eapply grows_done; eauto; discriminate.
Qed.
Lemma grows_end (g : bg) e h g' : ins_end K g e h = Ok g' -> grows g g'.
Proof. apply grows_done. intros g1 f g2. apply grows_ins. Qed.
Lemma grows_has (g : bg) k e b busy g' : has_end K g k e b busy = Ok g' -> grows g g'.
Proof. unfold has_end. destruct k; [destruct b; [apply grows_end|]|]; intros E; injection E as <-; gr. Qed.
Lemma grows_step a (g g' : bg) : a <> ABack -> step wt T K a g = Ok g' -> grows g g'.
Proof.
  destruct a as [c| |]; cbn [step]; intros NA; [| |congruence].
  - unfold call_step. destruct (b_m g); try (intros E; injection E as <-; gr). destruct c.
    + apply grows_ins.
    + destruct (c0_contains (b_c0 g) e) as [[|]|]; try discriminate; intros E; injection E as <-; gr.
    + destruct (c0_neigh (b_c0 g) x); try discriminate; intros E; injection E as <-; gr.
    + destruct (c0_erase (b_c0 g) e) as [[[|] c]|]; try discriminate; intros E; injection E as <-; gr.
  - unfold main_step. destruct (b_m g).
    + intros E; injection E as <-; gr.
    + destruct (b_nw g); [|intros E; injection E as <-; gr]. destruct (eeqb (b_tmp g) e); [apply grows_has|].
      destruct (b_mrb g <? length (b_copy g)); [apply grows_has|discriminate].
    + destruct (i <=? b_maxr g); [|apply grows_has]. destruct (nth_error (b_ks g) i) as [[t|]|]; try discriminate; [|intros E; injection E as <-; gr].
      destruct (kt_adj K t (fst e) (snd e)); [apply grows_has|intros E; injection E as <-; gr].
    + destruct (maxsz T (N.max (b_n g) (b_nt g)) 0); [|discriminate]. cbn [obind]. destruct (N.of_nat (c0_size (b_c0 g)) <? a)%N; [|intros E; injection E as <-; gr].
      destruct (c0_insert T (b_c0 g) e (b_nt g)); [|discriminate]. cbn [obind]. intros E. apply grows_end in E. exact E.
    + destruct (b_nw g); [|intros E; injection E as <-; gr]. destruct wt; [intros E; injection E as <-; gr|]. cbv zeta.
      match goal with |- obind ?X _ = _ -> _ => destruct X end; [|discriminate]. cbn [obind]. intros E. apply grows_end in E. exact E.
    + destruct (c0_converted (b_c0 g)); [|discriminate]. intros E; injection E as <-; gr.
    + destruct (nth_error (b_ks g) j); intros E; injection E as <-; gr.
    + intros E; injection E as <-; gr.
    + destruct (c0_clean (b_c0 g)); [|discriminate]. cbn [obind]. intros E. apply grows_end in E. exact E.
    + destruct (b_nw g); intros E; injection E as <-; gr.
    + destruct (l <=? b_maxr g); [|intros E; injection E as <-; gr]. destruct (nth_error (if busy then b_copy g else b_ks g) l) as [[t|]|]; try discriminate; intros E; injection E as <-; gr.
    + destruct (b_nw g); intros E; injection E as <-; gr.
    + destruct (dl_erase K (b_ks g) (fst e) (snd e)) as [[eb mk] l]. cbv zeta. destruct (th_trig T mk _); [|intros E; injection E as <-; gr].
      match goal with |- match ?X with _ => _ end = _ -> _ => destruct X end; [intros E; injection E as <-; gr|]. intros E. apply grows_ins in E. exact E.
Qed.

Lemma back_frame_d (g g' : bg) : back_step T K g = Ok g' -> b_m g' = b_m g /\ b_todo g' = b_todo g /\ b_log g' = b_log g.
Proof.
  unfold back_step. destruct (b_b g).
  - destruct (b_nw g); intros E; injection E as <-; auto.
  - intros E; injection E as <-; auto.
  - intros E; injection E as <-; auto.
  - destruct (maxsz T (b_msz g) 0); [|discriminate]. cbn [obind]. destruct (find_level T K (b_msz g) (b_ks g) 0 a); intros E; injection E as <-; auto.
  - destruct (j <=? i); [|intros E; injection E as <-; auto]. destruct (nth_error (b_ks g) j) as [[t|]|]; try discriminate; intros E; injection E as <-; auto.
  - destruct (i <? length (b_ks g)); [|discriminate]. intros E; injection E as <-; auto.
  - intros E; injection E as <-; auto.
  - intros E; injection E as <-; auto.
Qed.

(** ** Every execution *)
Definition Jinv (g : bg) : Prop := b_b g <> BDead -> answers_ok (b_log g) /\ exists B, J g B.
Lemma step_J a g g' : Jinv g -> act_rng a -> step wt T K a g = Ok g' -> Jinv g'.
Proof.
  intros V R E ND. assert (NB : b_b g <> BDead).
  { destruct a as [c| |].
    - destruct (grows_step (ACall c) g g') as [X _]; [discriminate|auto|]. congruence.
    - destruct (grows_step AMain g g') as [X _]; [discriminate|auto|]. congruence.
    - intros X. cbn [step] in E. unfold back_step in E. rewrite X in E. injection E as <-. auto. }
  destruct (V NB) as [An [B JB]].
  destruct a as [c| |]; cbn [step] in E.
  - eapply call_J; eauto.
  - destruct (main_J _ _ _ JB An E) as (B' & J' & A'). eauto.
  - pose proof (back_J _ _ _ JB E ND) as J'. destruct (back_frame_d _ _ E) as (_ & _ & El). rewrite El. eauto.
Qed.
Lemma run_J s : forall g g', Jinv g -> Forall act_rng s -> run wt T K s g = Ok g' -> Jinv g'.
Proof.
  induction s as [|a s IH]; intros g g' V F E; cbn [run] in E; [injection E as <-; auto|]. inversion F; subst.
  destruct (step wt T K a g) as [g1|] eqn:E1; [|discriminate]. cbn [obind] in E. eapply IH; [|eauto|eauto]. eapply step_J; eauto.
Qed.
Lemma new_J g : bg_new wt T K n = Ok g -> Jinv g.
Proof.
  intros E. destruct (bg_new_ok wt T K L n Hn) as (g0 & E0 & V). rewrite E in E0. injection E0 as <-.
  unfold bg_new in E. destruct (c0_new T n) as [c|] eqn:Ec; [|discriminate]. cbn [obind] in E. injection E as <-.
  intros _. split; [exact Logic.I|]. exists []. pose proof (bi_c0 _ _ _ _ _ V) as C0. gcbn. cbn [recent rev lv map] in C0.
  constructor; gcbn; auto.
  - unfold slog, coreg. gcbn. cbn [fl beff out_of extra]. constructor; auto.
    + exists []. auto.
    + constructor.
    + constructor; cbn; try tauto; try lia; auto.
    + constructor.
    + repeat constructor.
    + intros i t E. change (nth_error (repeat (@None ktree) RS) i = Some (Some t)) in E. rewrite nth_error_repeat in E. destruct (i <? RS); discriminate.
    + reflexivity.
    + repeat constructor.
  - intros [A|[]]. discriminate A.
  - exact Logic.I.
Qed.
Lemma exec_J s g : Forall act_rng s -> exec wt T K n s = Ok g -> Jinv g.
Proof.
  intros F E. unfold exec in E. destruct (bg_new wt T K n) as [g0|] eqn:E0; [|discriminate]. cbn [obind] in E.
  eapply run_J; eauto. apply new_J, E0.
Qed.
End Del.
