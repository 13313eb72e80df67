(** * BgSerial: serialize, load and operator== of the background graphs: include/dktree/DKtree_background.hpp:296-403 (line numbers
    without a file refer to it); DKtree_background_wait.hpp:354-446 has the same code.

    Simplifications: as in Serial.v, a tree file holds the tree and the stream holds the archive (boost's and sdsl's load are trusted to
    invert their serialize, Container0's own part is C0.c0_save and c0_load); mkdir succeeds or the directory exists; nobody else touches
    the directory. *)
From Verif Require Import Base Spec Thresholds K2 C0 C0Proof C0Hist DK DKProof DKHist Delay MunroProof BgSpec Bg BgProof BgTime BgDelSpec BgDel Serial.

Section BgSerial.
Context (wt : bool) (T : thresholds) (K : k2impl).
Local Notation ktree := (kt K).
Local Notation bg := (bg K).

(** the archive, :296-303: max_r, n_vertices, n_total_edges, C0 *)
Record head := mkhead { hd_r : nat; hd_v : N; hd_e : N; hd_c : c0_image }.
Definition bg_head (g : bg) : out head :=
  let* im := c0_save (b_c0 g) in Ok (mkhead (b_maxr g) (b_n g) (b_nt g) im).

(** the directory: "<l>.kt" *)
Definition tdir := nat -> option ktree.
Definition tdir_empty : tdir := fun _ => None.
(** :321-328: "<l>.kt" is written for every tree at a level l <= r *)
Definition put_trees (r : nat) (l : list (option ktree)) (d : tdir) : tdir :=
  fun i => if i <=? r then match nth_error l i with Some (Some t) => Some t | _ => d i end else d i.

(** serialize, :313-330, called between two calls (MIdle).  The archive is written first (:314-315); then the caller waits for needs_work to
    be false (:320), while the merging thread takes [k] steps; then the trees are written.  None: it is still waiting.  The third
    component is the graph afterwards. *)
Definition bg_serialize (k : nat) (d : tdir) (g : bg) : out (option (head * tdir * bg)) :=
  let* h := bg_head g in
  let* g1 := run wt T K (repeat ABack k) g in
  if b_nw g1 then Ok None
  else if b_maxr g1 <? length (b_ks g1) then Ok (Some (h, put_trees (b_maxr g1) (b_ks g1) d, g1))
  else UB.

(** :336-351: k_collection[l] is replaced if "<l>.kt" can be opened *)
Fixpoint get_trees (d : tdir) (cnt i : nat) (l : list (option ktree)) : list (option ktree) :=
  match cnt, l with
  | S c, o :: l => (match d i with Some t => Some t | None => o end) :: get_trees d c (S i) l
  | _, _ => l
  end.
(** load, :332-355, into the graph [g0].  The log is ghost state: [log] is what the loaded graph is supposed to have been through. *)
Definition bg_load (h : head) (d : tdir) (g0 : bg) (log : list event) : out bg :=
  let* c := c0_load T (hd_c h) in
  if hd_r h <? length (b_ks g0) then
    Ok (mkbg (hd_v h) (hd_e h) c (hd_r h) (get_trees d (S (hd_r h)) 0 (b_ks g0)) (b_conv g0) (b_nw g0) (b_msz g0) (b_mrb g0) (b_tmp g0)
          (b_copy g0) (b_m g0) (b_b g0) (b_todo g0) log)
  else UB.
(** :357-374, operator==; [trees_eqb] is the same loop in DKtree.hpp *)
Definition bg_eqb (a b : bg) : out bool :=
  let* r := c0_eqb (b_c0 a) (b_c0 b) in
  if b_maxr a <? length (b_ks a) then
    Ok (Nat.eqb (b_maxr a) (b_maxr b) && N.eqb (b_n a) (b_n b) && N.eqb (b_nt a) (b_nt b) && r
        && trees_eqb K (firstn (S (b_maxr a)) (b_ks a)) (firstn (S (b_maxr a)) (b_ks b)))
  else UB.

(** DKtree_background(), :104: max_r = 0, n_vertices = 0, no trees, no edges; run and needs_work are not initialised ([garbage] is what the
    memory happens to hold) and there is no merging thread (so no step of it: a run of such a graph has no ABack).  The default
    Container0 is replaced by load. *)
Definition bg_default (garbage : bool) : bg :=
  mkbg 0 0 (mkc0 [] [] [] [] [] 0 0 0 0) 0 (repeat None RS) [] garbage 0 0 (0, 0)%N (repeat None RS) MIdle BPoll None [].

(** ** Proofs *)
Context (L : k2laws K) (n : N) (Hn : (2 <= n)%N).
Local Notation kse := (ks_edges K).
Local Notation none_above := (none_above K).

Lemma get_trees_nth d cnt : forall i l j, nth_error (get_trees d cnt i l) j =
  match nth_error l j with
  | None => None
  | Some o => Some (if j <? cnt then match d (i + j) with Some t => Some t | None => o end else o)
  end.
Proof.
  induction cnt as [|cnt IH]; intros i [|o l] [|j]; cbn [get_trees nth_error]; auto.
  - destruct (nth_error l j); reflexivity.
  - rewrite Nat.add_0_r. reflexivity.
  - rewrite IH. rewrite <- plus_n_Sm. destruct (nth_error l j); [|reflexivity]. reflexivity.
Qed.
Lemma get_trees_len d cnt : forall i l, length (get_trees d cnt i l) = length l.
Proof. induction cnt as [|cnt IH]; intros i [|o l]; cbn [get_trees length]; auto. Qed.
(** what was written comes back *)
Lemma trees_back r l d l0 : length l = length l0 -> none_above r l -> (forall i, d i = None) -> (forall o, In o l0 -> o = None) ->
  get_trees (put_trees r l d) (S r) 0 l0 = l.
Proof.
  intros E A D Z. apply list_ext. intros j. rewrite get_trees_nth. destruct (nth_error l0 j) as [o|] eqn:Eo.
  - assert (o = None) by (apply Z; eapply nth_error_In; eauto). subst o.
    assert (j < length l) by (rewrite E; apply nth_error_Some; congruence).
    destruct (nth_error l j) as [o|] eqn:El; [|apply nth_error_None in El; lia]. f_equal. cbn [Nat.add]. unfold put_trees.
    destruct (Nat.ltb_spec j (S r)) as [C|C].
    + destruct (Nat.leb_spec j r); [|lia]. rewrite El, D. destruct o; reflexivity.
    + destruct o as [t|]; [|reflexivity]. apply A in El. lia.
  - symmetry. apply nth_error_None. rewrite E. apply nth_error_None, Eo.
Qed.

(** what the merging thread leaves alone *)
Lemma back_store (g g' : bg) : back_step T K g = Ok g' -> b_n g' = b_n g /\ b_nt g' = b_nt g /\ b_c0 g' = b_c0 g.
Proof.
  unfold back_step. destruct (b_b g).
  - destruct (b_nw g); intros E; injection E as <-; auto.
  - intros E; injection E as <-; auto.
  - intros E; injection E as <-; auto.
  - destruct (maxsz T (b_msz g) 0); [|discriminate]. cbn [obind]. destruct (find_level T K (b_msz g) (b_ks g) 0 a); intros E; injection E as <-; auto.
  - destruct (j <=? i); [|intros E; injection E as <-; auto]. destruct (nth_error (b_ks g) j) as [[t|]|]; try discriminate; intros E; injection E as <-; auto.
  - destruct (i <? length (b_ks g)); [|discriminate]. intros E; injection E as <-; auto.
  - intros E; injection E as <-; auto.
  - intros E; injection E as <-; auto.
Qed.
Lemma backs_frame k : forall g g', run wt T K (repeat ABack k) g = Ok g' ->
  b_n g' = b_n g /\ b_nt g' = b_nt g /\ b_c0 g' = b_c0 g /\ b_m g' = b_m g /\ b_log g' = b_log g.
Proof.
  induction k as [|k IH]; intros g g' E; cbn [repeat run step] in E; [injection E as <-; auto|].
  destruct (back_step T K g) as [g1|] eqn:E1; [|discriminate]. cbn [obind] in E. apply IH in E.
  destruct (back_store _ _ E1) as (A1 & A2 & A3). destruct (back_frame_d _ _ _ _ E1) as (B1 & _ & B3). intuition congruence.
Qed.
Lemma backs_quiet k : forall g, b_b g = BPoll -> b_nw g = false -> run wt T K (repeat ABack k) g = Ok g.
Proof. induction k as [|k IH]; intros g B W; cbn [repeat run step]; [reflexivity|]. unfold back_step. rewrite B, W. cbn [obind]. auto. Qed.

(** a graph just built *)
Definition blank (g0 : bg) : Prop :=
  b_ks g0 = repeat None RS /\ b_conv g0 = [] /\ b_nw g0 = false /\ b_copy g0 = repeat None RS /\ b_m g0 = MIdle /\ b_b g0 = BPoll /\ b_todo g0 = None.
Lemma default_blank : blank (bg_default false).
Proof. repeat split. Qed.
Lemma new_blank n0 g0 : bg_new wt T K n0 = Ok g0 -> blank g0.
Proof. unfold blank, bg_new. destruct (c0_new T n0); [|discriminate]. cbn [obind]. intros E. injection E as <-. gcbn. repeat split; auto. Qed.
Lemma In_repeat_none k (o : option ktree) : In o (repeat None k) -> o = None.
Proof. intros I. apply repeat_spec in I. exact I. Qed.
Lemma wf_repeat k : ks_wf K L n (repeat None k).
Proof. apply Forall_forall. intros o I. apply In_repeat_none in I. subst. exact Logic.I. Qed.

(** ** With deletions *)
Lemma load_J k d g B h d' g1 g0 : (forall i, d i = None) -> J K L n g B -> b_m g = MIdle ->
  bg_serialize k d g = Ok (Some (h, d', g1)) -> b_b g1 <> BDead -> J K L n g1 B -> b_maxr g1 = b_maxr g -> blank g0 ->
  exists g', bg_load h d' g0 (b_log g) = Ok g' /\ J K L n g' B /\ b_n g' = b_n g /\ b_nt g' = b_nt g /\ b_log g' = b_log g /\
    b_ks g' = b_ks g1 /\ b_maxr g' = b_maxr g1 /\ c_max (b_c0 g') = c_max (b_c0 g) /\ c_nv (b_c0 g') = c_nv (b_c0 g) /\
    b_m g' = MIdle /\ b_b g' = BPoll /\ b_nw g' = false /\
    exists sl, c0_inv (b_c0 g) sl /\ c0_inv (b_c0 g') sl.
Proof.
  intros D V Em ES ND V1 ER EN. unfold bg_serialize, bg_head in ES.
  destruct (c0_save (b_c0 g)) as [im|] eqn:Ei; [|discriminate]. cbn [obind] in ES.
  destruct (run wt T K (repeat ABack k) g) as [g2|] eqn:E2; [|discriminate]. cbn [obind] in ES.
  destruct (b_nw g2) eqn:W; [discriminate|]. destruct (Nat.ltb_spec (b_maxr g2) (length (b_ks g2))) as [Lr|]; [|discriminate]. injection ES as <- <- <-.
  destruct (backs_frame _ _ _ E2) as (F1 & F2 & F3 & F4 & F5).
  pose proof (J_qcore _ _ _ _ _ V1) as C1. rewrite F4, Em in C1. specialize (C1 Logic.I eq_refl).
  pose proof (J_qcore _ _ _ _ _ V) as C. rewrite Em in C. specialize (C Logic.I eq_refl).
  destruct EN as (N1 & N2 & N3 & N4 & N5 & N6 & N7).
  destruct (co_c0 _ _ _ _ _ _ _ _ _ _ _ _ _ _ _ _ C) as (sl & IC & LB).
  destruct (inv_load T _ _ _ IC Ei) as (c' & Ec & IC' & Hm & Hv).
  unfold bg_load. cbn [hd_c hd_r hd_v hd_e]. rewrite Ec. cbn [obind]. rewrite <- ER, N1, repeat_length.
  unfold coreg in C1. rewrite W in C1. destruct C1 as [C1 C2 C3 C4 C5 C6 C7 C8 C9 C10]. rewrite C6 in Lr.
  destruct (Nat.ltb_spec (b_maxr g2) RS) as [_|]; [|lia].
  eexists. split; [reflexivity|].
  assert (TB : get_trees (put_trees (b_maxr g2) (b_ks g2) d) (S (b_maxr g2)) 0 (repeat None RS) = b_ks g2).
  { apply trees_back; auto. intros o; apply In_repeat_none. }
  rewrite TB. gcbn. sp; auto; [|eauto]. rewrite N2, N3, N4, N5, N6, N7.
  constructor; gcbn; auto.
  - apply (j_n _ _ _ _ _ V).
  - unfold slog, coreg. gcbn. cbn [fl beff out_of extra]. constructor; auto.
    + eauto.
    + rewrite F2, F5 in C3. cbn [BgProof.pend] in *. exact C3.
    + rewrite <- F5. exact C4.
    + reflexivity.
    + apply wf_repeat.
  - intros [X|[]]. discriminate X.
  - exact Logic.I.
Qed.
Lemma run_backs_J k : forall g B g1, J K L n g B -> run wt T K (repeat ABack k) g = Ok g1 -> b_b g1 <> BDead -> J K L n g1 B.
Proof.
  induction k as [|k IH]; intros g B g1 V E ND; cbn [repeat run step] in E; [injection E as <-; auto|].
  destruct (back_step T K g) as [g2|] eqn:E2; [|discriminate]. cbn [obind] in E.
  assert (b_b g2 <> BDead). { intros X. assert (Y : g1 = g2); [|congruence]. clear - X E. revert E. induction k as [|k IH]; cbn [repeat run step]; [congruence|].
    unfold back_step. rewrite X. cbn [obind]. exact IH. }
  eapply IH; [|exact E|exact ND]. eapply back_J; eauto.
Qed.
(** the copy equals the original *)
Lemma eqb_same (a b : bg) sl : c0_inv (b_c0 a) sl -> c0_inv (b_c0 b) sl -> c_max (b_c0 b) = c_max (b_c0 a) -> c_nv (b_c0 b) = c_nv (b_c0 a) ->
  b_maxr b = b_maxr a -> b_n b = b_n a -> b_nt b = b_nt a -> b_ks b = b_ks a -> b_maxr a < length (b_ks a) -> bg_eqb a b = Ok true.
Proof.
  intros I1 I2 H1 H2 H3 H4 H5 H6 Lr. unfold bg_eqb. rewrite (c0_eqb_same _ _ sl) by auto. cbn [obind].
  destruct (Nat.ltb_spec (b_maxr a) (length (b_ks a))); [|lia].
  rewrite H3, H4, H5, H6, Nat.eqb_refl, !N.eqb_refl, (trees_eqb_refl K L). reflexivity.
Qed.

(** ** Insertions only *)
Context (HT : th_top T).
Lemma dead_lv B : dead_count (lv B) = 0.
Proof. unfold dead_count. induction B as [|e B IH]; cbn; auto. Qed.
Lemma load_inv k d g g0 : (forall i, d i = None) -> inv T K L n g -> b_m g = MIdle -> b_nw g = false -> blank g0 ->
  exists h d' g', bg_serialize k d g = Ok (Some (h, d', g)) /\ bg_load h d' g0 (b_log g) = Ok g' /\ inv T K L n g' /\ b_log g' = b_log g /\
    b_n g' = b_n g /\ b_nt g' = b_nt g /\ b_m g' = MIdle /\ bg_eqb g g' = Ok true /\ bg_eqb g' g = Ok true.
Proof.
  intros D V Em W EN. destruct EN as (N1 & N2 & N3 & N4 & N5 & N6 & N7).
  pose proof (bi_st _ _ _ _ _ V) as S. rewrite Em in S. cbn [vlog] in S. pose proof (st_b _ _ _ _ _ _ _ _ _ _ _ S) as B. rewrite W in B. cbn in B.
  pose proof (bi_c0 _ _ _ _ _ V) as IC.
  assert (Ei : c0_save (b_c0 g) = Ok (c_nv (b_c0 g), c_max (b_c0 g), live_edges (lv (rev (recent (b_log g)))))).
  { rewrite (inv_save _ _ IC), dead_lv. reflexivity. }
  destruct (inv_load T _ _ _ IC Ei) as (c' & Ec & IC' & Hm & Hv).
  unfold bg_serialize, bg_head. rewrite Ei. cbn [obind]. rewrite (backs_quiet k g B W). cbn [obind]. rewrite W.
  pose proof (st_maxr _ _ _ _ _ _ _ _ _ _ _ S) as Rm. destruct (st_ok _ _ _ _ _ _ _ _ _ _ _ S) as [KL KO].
  destruct (Nat.ltb_spec (b_maxr g) (length (b_ks g))) as [Lr|]; [|lia].
  do 3 eexists. split; [reflexivity|]. unfold bg_load. cbn [hd_c hd_r hd_v hd_e]. rewrite Ec. cbn [obind]. rewrite N1, repeat_length.
  destruct (Nat.ltb_spec (b_maxr g) RS) as [_|]; [|lia]. split; [reflexivity|].
  assert (TB : get_trees (put_trees (b_maxr g) (b_ks g) d) (Datatypes.S (b_maxr g)) 0 (repeat None RS) = b_ks g).
  { apply trees_back; auto; [apply (st_above _ _ _ _ _ _ _ _ _ _ _ S)|intros o; apply In_repeat_none]. }
  rewrite TB, N2, N3, N4, N5, N6, N7.
  split.
  - destruct V as [V1 V2 V3 V4 V5 V6 V7 V8 V9 V10 V11 V12 V13]. rewrite Em in *. cbn [vlog] in *. constructor; gcbn; cbn [vlog]; auto; try congruence.
    + rewrite W in V6. destruct V6 as [S1 S2 S3 S4 S5 S6]. constructor; auto. reflexivity.
    + intros [X|[]]. discriminate X.
    + exact Logic.I.
  - gcbn. sp; auto; (eapply eqb_same; [| |gcbn; eauto..]; gcbn; eauto).
Qed.
End BgSerial.
Arguments hd_r : clear implicits.
