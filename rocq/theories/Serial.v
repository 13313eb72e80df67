(** * Serial: DKtree::serialize, load, operator== and the directory they work on (DKtree.hpp:330-420).

    Simplifications: the directory [dktree_serialize] is a map from the number in "<i>.kt" to a file; a tree file
    holds the tree (sdsl's k2_tree::load is trusted to invert k2_tree::serialize); mkdir succeeds or the
    directory exists; files are written whole, in program order, each being first truncated ([Partial]). *)
From Verif Require Import Base Spec Thresholds K2 C0 C0Proof C0Hist DK DKProof DKHist DKGuard DKTotal DKBisim.

Section Serial.
Context (T : thresholds) (K : k2impl).
Local Notation ktree := (kt K).
Local Notation dk := (dk K).

(** The contents of a file: truncated or incomplete; a tree; or the archive 0.kt (DKtree.hpp:333-339: max_r,
    n_vertices, n_total_edges, C0). *)
Inductive file :=
| Partial
| TreeF (t : ktree)
| HeadF (mr : nat) (v e : N) (im : c0_image).

Definition dir := nat -> option file.
Definition dir_empty : dir := fun _ => None.
Definition put (d : dir) (i : nat) (f : file) : dir := fun j => if Nat.eqb i j then Some f else d j.
Definition writes (d : dir) (ws : list (nat * file)) : dir := fold_left (fun d w => put d (fst w) (snd w)) ws d.

(** DKtree.hpp:352-361: "<l+1>.kt" for each tree, l counting from i *)
Fixpoint tree_writes (i : nat) (l : list (option ktree)) : list (nat * file) :=
  match l with
  | [] => []
  | Some t :: l => (S i, TreeF t) :: tree_writes (S i) l
  | None :: l => tree_writes (S i) l
  end.

(** DKtree.hpp:347-367, serialize: the files written, in order.  l <= max_r reads past k_collection when
    max_r >= 8; saving C0 may be undefined (C0.c0_save). *)
Definition dk_serialize (g : dk) : out (list (nat * file)) :=
  if max_r g <? length (ks g) then
    let* im := c0_save (C0_ g) in
    Ok (tree_writes 0 (firstn (S (max_r g)) (ks g)) ++ [(0, HeadF (max_r g) (nv g) (nt g) im)])
  else UB.

(** What the directory may look like if the process stops during serialize: any prefix of the elementary steps,
    each file being truncated and then completed. *)
Definition steps (ws : list (nat * file)) : list (nat * file) :=
  flat_map (fun w => [(fst w, Partial); w]) ws.
Definition crash (d : dir) (ws : list (nat * file)) (k : nat) : dir := writes d (firstn k (steps ws)).

(** DKtree.hpp:382-396, the loop of load over l <= max_r: k_collection[l] is replaced if "<l+1>.kt" can be opened
    and left alone otherwise. *)
Fixpoint load_trees (d : dir) (cnt i : nat) (l : list (option ktree)) : out (list (option ktree)) :=
  match cnt, l with
  | S c, o :: l =>
    let* o' := match d (S i) with
               | None => Ok o
               | Some (TreeF t) => Ok (Some t)
               | Some _ => UB
               end in
    let* l' := load_trees d c (S i) l in
    Ok (o' :: l')
  | _, _ => Ok l
  end.

(** DKtree.hpp:375-400, load into the object [g0]; a missing 0.kt makes the archive constructor throw; an incomplete
    file is [Undefined] here (boost and sdsl may throw or read garbage). *)
Definition dk_load (d : dir) (g0 : dk) : res dk :=
  match d 0 with
  | None => Thrown g0
  | Some (HeadF mr v e im) =>
    let+ c := c0_load T im in
    if mr <? length (ks g0) then
      let+ l := load_trees d (S mr) 0 (ks g0) in
      Done (mkdk mr v e c l)
    else Undefined
  | Some _ => Undefined
  end.

(** DKtree.hpp:398-399, :435-440: load with clear = true removes every file of the directory. *)
Definition dk_clear (d : dir) : dir := dir_empty.

(** DKtree.hpp:409-417 *)
Fixpoint trees_eqb (a b : list (option ktree)) : bool :=
  match a, b with
  | Some s :: a, Some t :: b => kt_eq K s t && trees_eqb a b
  | None :: a, None :: b => trees_eqb a b
  | [], [] => true
  | _, _ => false
  end.
(** DKtree.hpp:403-420 *)
Definition dk_eqb (a b : dk) : out bool :=
  let* r := c0_eqb (C0_ a) (C0_ b) in
  if max_r a <? length (ks a) then
    Ok (Nat.eqb (max_r a) (max_r b) && N.eqb (nv a) (nv b) && N.eqb (nt a) (nt b) && r
        && trees_eqb (firstn (S (max_r a)) (ks a)) (firstn (S (max_r a)) (ks b)))
  else UB.

(** ** The directory *)
Lemma put_eq d i f : put d i f i = Some f.
Proof. unfold put. rewrite Nat.eqb_refl. reflexivity. Qed.
Lemma put_neq d i f j : i <> j -> put d i f j = d j.
Proof. unfold put. intros H. destruct (Nat.eqb_spec i j); [tauto|reflexivity]. Qed.

Lemma writes_app d a b : writes d (a ++ b) = writes (writes d a) b.
Proof. apply fold_left_app. Qed.

Lemma tree_writes_at l : forall i d j,
  writes d (tree_writes i l) j =
  match j with
  | O => d O
  | S p => if p <? i then d j else match nth_error l (p - i) with Some (Some t) => Some (TreeF t) | _ => d j end
  end.
Proof.
  induction l as [|o l IH]; intros i d j.
  - cbn [tree_writes writes fold_left]. destruct j; auto. destruct (j <? i); auto. destruct (j - i); reflexivity.
  - assert (G : writes d (tree_writes i (o :: l)) j =
               writes (match o with Some t => put d (S i) (TreeF t) | None => d end) (tree_writes (S i) l) j).
    { destruct o; reflexivity. }
    rewrite G, IH. clear G. destruct j as [|p].
    + destruct o; [rewrite put_neq by lia|]; reflexivity.
    + destruct (Nat.ltb_spec p (S i)) as [H1|H1], (Nat.ltb_spec p i) as [H2|H2]; try lia.
      * destruct o; [rewrite put_neq by lia|]; reflexivity.
      * assert (p = i) by lia. subst. rewrite Nat.sub_diag. cbn.
        destruct o; [rewrite put_eq|]; reflexivity.
      * replace (p - i) with (S (p - S i)) by lia. cbn.
        destruct (nth_error l (p - S i)) as [[t|]|]; auto.
        all: destruct o; [rewrite put_neq by lia|]; reflexivity.
Qed.

Lemma load_trees_at d : forall cnt i l l', length l' = length l ->
  (forall j, j < cnt -> j < length l ->
     match nth_error l' j, d (S (i + j)) with
     | Some (Some t), Some (TreeF u) => t = u
     | Some o, None => nth_error l j = Some o
     | _, _ => False
     end) ->
  (forall j, cnt <= j -> nth_error l' j = nth_error l j) ->
  load_trees d cnt i l = Ok l'.
Proof.
  induction cnt as [|c IH]; intros i l l' Hl H1 H2.
  - assert (l' = l) by (apply list_ext; intros j; apply H2; lia). subst. destruct l; reflexivity.
  - destruct l as [|o l], l' as [|o' l']; try discriminate; [reflexivity|]. cbn [load_trees].
    pose proof (H1 0 ltac:(lia) ltac:(cbn; lia)) as H0. cbn in H0. rewrite Nat.add_0_r in H0.
    rewrite (IH (S i) l l').
    + destruct (d (S i)) as [[|t|]|]; cbn [obind].
      * destruct o'; tauto.
      * destruct o' as [u|]; [subst; reflexivity|tauto].
      * destruct o'; tauto.
      * assert (o = o') by (destruct o'; congruence). subst. reflexivity.
    + cbn in Hl. lia.
    + intros j Hj1 Hj2. specialize (H1 (S j) ltac:(lia) ltac:(cbn; lia)). cbn in H1.
      replace (S i + j) with (i + S j) by lia. exact H1.
    + intros j Hj. apply (H2 (S j)). lia.
Qed.

Lemma load_trees_ext a b : (forall i, a i = b i) -> forall cnt i l, load_trees a cnt i l = load_trees b cnt i l.
Proof. intros H. induction cnt as [|c IH]; intros i [|o l]; cbn; auto. rewrite H, IH. reflexivity. Qed.
Lemma load_ext a b g0 : (forall i, a i = b i) -> dk_load a g0 = dk_load b g0.
Proof.
  intros H. unfold dk_load. rewrite H. destruct (b 0) as [[| |]|]; auto. destruct (c0_load T im); auto. cbn [rbind].
  rewrite (load_trees_ext a b H). reflexivity.
Qed.
Lemma steps_length ws : length (steps ws) = 2 * length ws.
Proof. unfold steps. induction ws; cbn [flat_map app length]; lia. Qed.
Lemma writes_steps ws : forall a b, (forall i, a i = b i) -> forall i, writes a (steps ws) i = writes b ws i.
Proof.
  induction ws as [|[j f] ws IH]; intros a b H i; cbn; auto. apply IH. intros p. unfold put. cbn.
  destruct (Nat.eqb j p); auto.
Qed.
Lemma writes_other ws i : (forall w, In w ws -> fst w <> i) -> forall d, writes d ws i = d i.
Proof.
  induction ws as [|w ws IH]; intros H d; cbn; auto.
  change (writes (put d (fst w) (snd w)) ws i = d i). rewrite IH by (intros v Hv; apply H; right; auto).
  apply put_neq, H. left; auto.
Qed.
Lemma In_firstn {A} (l : list A) k a : In a (firstn k l) -> In a l.
Proof. intros H. rewrite <- (firstn_skipn k l). apply in_app_iff. auto. Qed.
Lemma In_steps ws w : In w (steps ws) -> exists w', In w' ws /\ fst w = fst w'.
Proof. unfold steps. rewrite in_flat_map. intros [w' [H1 [<-|[<-|[]]]]]; eauto. Qed.

(** ** Serialize followed by load *)
Context (L : k2laws K) (n : N).
Local Notation dk_inv := (dk_inv K L n).

(** Nothing is left over, in the directory or in the target, at a level the graph does not overwrite. *)
Definition no_stale (g : dk) (d : dir) (g0 : dk) : Prop :=
  length (ks g0) = RS /\
  (forall i, i <= max_r g -> i < RS -> nth_error (ks g) i = Some None -> d (S i) = None /\ nth_error (ks g0) i = Some None) /\
  (forall i, max_r g < i < RS -> nth_error (ks g0) i = Some None).

(** What survives: everything except trees above max_r. *)
Definition cut (g : dk) : list (option ktree) :=
  firstn (S (max_r g)) (ks g) ++ repeat None (RS - S (max_r g)).

Lemma nth_error_firstn {A} (l : list A) : forall k i, nth_error (firstn k l) i = if i <? k then nth_error l i else None.
Proof.
  induction l as [|a l IH]; intros [|k] [|i]; cbn [firstn nth_error]; auto.
  - destruct (S i <? S k); reflexivity.
  - rewrite IH. reflexivity.
Qed.
Lemma cut_nth g : length (ks g) = RS -> max_r g < RS -> forall i,
  nth_error (cut g) i = if i <=? max_r g then nth_error (ks g) i else if i <? RS then Some None else None.
Proof.
  intros H1 H2 i. unfold cut. destruct (Nat.leb_spec i (max_r g)) as [H|H].
  - rewrite nth_error_app1 by (rewrite firstn_length; lia). rewrite nth_error_firstn.
    destruct (Nat.ltb_spec i (S (max_r g))); [auto|lia].
  - rewrite nth_error_app2 by (rewrite firstn_length; lia). rewrite firstn_length, nth_error_repeat.
    destruct (Nat.ltb_spec (i - Nat.min (S (max_r g)) (length (ks g))) (RS - S (max_r g))), (Nat.ltb_spec i RS); auto; lia.
Qed.
Lemma cut_below g : length (ks g) = RS -> max_r g < RS -> ks_below K g -> cut g = ks g.
Proof.
  intros H1 H2 Hb. apply list_ext. intros i. rewrite cut_nth by auto.
  destruct (Nat.leb_spec i (max_r g)); auto. destruct (Nat.ltb_spec i RS) as [Hi|Hi].
  - destruct (nth_error (ks g) i) as [[t|]|] eqn:E; auto; [apply Hb in E; lia|].
    apply nth_error_None in E. lia.
  - symmetry. apply nth_error_None. lia.
Qed.

Lemma serial_core0 g sl d g0 : length (ks g) = RS -> max_r g < RS -> c0_inv (C0_ g) sl -> dead_count sl = 0 -> no_stale g d g0 ->
  exists ws g', dk_serialize g = Ok ws /\ dk_load (writes d ws) g0 = Done g' /\
    max_r g' = max_r g /\ nv g' = nv g /\ nt g' = nt g /\ ks g' = cut g /\
    c0_inv (C0_ g') sl /\ c_max (C0_ g') = c_max (C0_ g) /\ c_nv (C0_ g') = c_nv (C0_ g).
Proof.
  intros Hl Hm Ic Hd [Hl0 [Hs1 Hs2]].
  assert (Hsv : c0_save (C0_ g) = Ok (c_nv (C0_ g), c_max (C0_ g), live_edges sl)).
  { rewrite (inv_save _ _ Ic), Hd. reflexivity. }
  destruct (inv_load T _ _ _ Ic Hsv) as [c' [Ec [Ic' [Hcm Hcv]]]].
  unfold dk_serialize. rewrite Hsv. cbn [obind]. destruct (Nat.ltb_spec (max_r g) (length (ks g))); [|lia].
  do 2 eexists. split; [reflexivity|]. rewrite writes_app. unfold dk_load. cbn [writes fold_left fst snd].
  rewrite put_eq, Ec. cbn [rbind]. destruct (Nat.ltb_spec (max_r g) (length (ks g0))); [|lia].
  rewrite (load_trees_at _ _ 0 _ (cut g)).
  - cbn [rbind]. split; [reflexivity|]. cbn [max_r nv nt ks C0_]. sp; auto.
  - unfold cut. rewrite app_length, firstn_length, repeat_length. lia.
  - intros j Hj1 Hj2. rewrite cut_nth by auto. destruct (Nat.leb_spec j (max_r g)); [|lia].
    rewrite put_neq by lia. cbn [Nat.add]. rewrite tree_writes_at. cbn [Nat.ltb Nat.leb]. rewrite Nat.sub_0_r.
    rewrite nth_error_firstn. destruct (Nat.ltb_spec j (S (max_r g))); [|lia].
    destruct (nth_error (ks g) j) as [[t|]|] eqn:E; auto.
    + destruct (Hs1 j) as [-> Hs3]; auto. lia.
    + apply nth_error_None in E. lia.
  - intros j Hj. rewrite cut_nth by auto. destruct (Nat.leb_spec j (max_r g)); [lia|].
    destruct (Nat.ltb_spec j RS).
    + symmetry. apply Hs2. lia.
    + symmetry. apply nth_error_None. lia.
Qed.

Lemma serial_core g sl d g0 : dk_inv g sl -> dead_count sl = 0 -> no_stale g d g0 ->
  exists ws g', dk_serialize g = Ok ws /\ dk_load (writes d ws) g0 = Done g' /\
    max_r g' = max_r g /\ nv g' = nv g /\ nt g' = nt g /\ ks g' = cut g /\
    c0_inv (C0_ g') sl /\ c_max (C0_ g') = c_max (C0_ g) /\ c_nv (C0_ g') = c_nv (C0_ g).
Proof. intros I. apply serial_core0; apply I. Qed.

Lemma no_stale_fresh g g0 : ks g0 = repeat None RS -> no_stale g dir_empty g0.
Proof.
  intros H. unfold no_stale. rewrite H. sp; [reflexivity| |].
  - intros i _ Hi E. split; [reflexivity|]. rewrite nth_error_repeat. destruct (Nat.ltb_spec i RS); [auto|lia].
  - intros i Hi. rewrite nth_error_repeat. destruct (Nat.ltb_spec i RS); [auto|lia].
Qed.

Lemma trees_eqb_refl l : trees_eqb l l = true.
Proof. induction l as [|[t|] l IH]; cbn; auto. rewrite (law_eq_refl L), IH. reflexivity. Qed.

Lemma dk_eqb_same g h sl : dk_inv g sl -> max_r g = max_r h -> nv g = nv h -> nt g = nt h -> ks g = ks h ->
  c0_inv (C0_ h) sl -> c_max (C0_ g) = c_max (C0_ h) -> c_nv (C0_ g) = c_nv (C0_ h) -> dk_eqb g h = Ok true.
Proof.
  intros I H1 H2 H3 H4 H5 H6 H7. unfold dk_eqb. rewrite (c0_eqb_same _ _ sl (dv_c0 _ _ _ _ _ I) H5 H6 H7). cbn [obind].
  pose proof (dv_len _ _ _ _ _ I). pose proof (dv_maxr _ _ _ _ _ I).
  destruct (Nat.ltb_spec (max_r g) (length (ks g))); [|lia].
  rewrite <- H1, <- H2, <- H3, <- H4, Nat.eqb_refl, !N.eqb_refl, trees_eqb_refl. reflexivity.
Qed.

Lemma disj_app_none l k : ks_disj K L l -> ks_disj K L (l ++ repeat None k).
Proof.
  assert (G : ks_disj K L (repeat None k)) by (induction k; cbn; auto).
  induction l as [|[t|] l IH]; cbn [app ks_disj]; auto. intros [H1 H2]. split; auto.
  intros e He [u [Hu Hk]]. apply in_app_iff in Hu. destruct Hu as [Hu|Hu]; [|apply repeat_spec in Hu; discriminate].
  apply (H1 e He). exists u. auto.
Qed.
Lemma ks_sub_inv g sl g' : dk_inv g sl -> nv g' = nv g -> max_r g' = max_r g -> ks g' = cut g ->
  c0_inv (C0_ g') sl -> c_nv (C0_ g') = c_nv (C0_ g) -> dk_inv g' sl.
Proof.
  intros I H1 H2 H3 H4 H5.
  pose proof (dv_len _ _ _ _ _ I) as Hl. pose proof (dv_maxr _ _ _ _ _ I) as Hm.
  assert (Hsub : forall t, In (Some t) (cut g) -> In (Some t) (ks g)).
  { intros t Ht. unfold cut in Ht. apply in_app_iff in Ht. destruct Ht as [Ht|Ht].
    - rewrite <- (firstn_skipn (S (max_r g)) (ks g)). apply in_app_iff. auto.
    - apply repeat_spec in Ht. discriminate. }
  constructor; auto.
  - rewrite H1. apply (dv_nv _ _ _ _ _ I).
  - rewrite H3. unfold cut. rewrite app_length, firstn_length, repeat_length. lia.
  - lia.
  - rewrite H5. apply (dv_c0nv _ _ _ _ _ I).
  - apply (dv_range _ _ _ _ _ I).
  - rewrite H3. pose proof (dv_wf _ _ _ _ _ I) as W. unfold ks_wf in *. apply Forall_forall. intros [t|] Ht; auto.
    rewrite Forall_forall in W. apply (W (Some t)), Hsub, Ht.
  - rewrite H3. unfold cut. apply disj_app_none. apply ks_disj_firstn; auto. apply (dv_disj _ _ _ _ _ I).
  - rewrite H3. intros e He Hk. apply (dv_c0ks _ _ _ _ _ I e He). unfold ks_known in *.
    destruct Hk as [t [Ht Hk]]. exists t. auto.
Qed.

End Serial.
Arguments Partial {K}. Arguments TreeF {K}. Arguments HeadF {K}.

(** ** Which tree implementation is used makes no difference to files either *)
Section SerialSim.
Context (T : thresholds) (n : N) (K1 : k2impl) (L1 : k2laws K1) (K2 : k2impl) (L2 : k2laws K2).
Local Notation tsim := (tsim n K1 L1 K2 L2).
Local Notation osim := (osim n K1 L1 K2 L2).
Local Notation lsim := (lsim n K1 L1 K2 L2).
Local Notation gsim := (gsim n K1 L1 K2 L2).

Definition fsim (a : file K1) (b : file K2) : Prop :=
  match a, b with
  | Partial, Partial => True
  | TreeF a, TreeF b => tsim a b
  | HeadF a b c d, HeadF a' b' c' d' => a = a' /\ b = b' /\ c = c' /\ d = d'
  | _, _ => False
  end.
Definition dsim (a : dir K1) (b : dir K2) : Prop :=
  forall i, match a i, b i with Some f, Some g => fsim f g | None, None => True | _, _ => False end.
Definition wsim : list (nat * file K1) -> list (nat * file K2) -> Prop :=
  Forall2 (fun v w => fst v = fst w /\ fsim (snd v) (snd w)).

Lemma dsim_empty : dsim (dir_empty K1) (dir_empty K2).
Proof. intros i. exact I. Qed.
Lemma dsim_writes v w : wsim v w -> forall a b, dsim a b -> dsim (writes K1 a v) (writes K2 b w).
Proof.
  induction 1 as [|[i f] [j g] v w [H1 H2] H IH]; intros a b Hd; cbn; auto. apply IH. cbn in *. subst.
  intros p. unfold put. destruct (Nat.eqb j p); auto. apply Hd.
Qed.
Lemma wsim_trees l1 l2 : lsim l1 l2 -> forall i, wsim (tree_writes K1 i l1) (tree_writes K2 i l2).
Proof.
  induction 1 as [|[a|] [b|] l1 l2 Ho Hl IH]; intros i; cbn in *; try tauto; auto; try constructor; auto. apply IH.
Qed.
Lemma lsim_firstn l1 l2 : lsim l1 l2 -> forall k, lsim (firstn k l1) (firstn k l2).
Proof. induction 1; intros [|k]; cbn; constructor; auto. apply IHForall2. Qed.
Lemma lsim_length l1 l2 : lsim l1 l2 -> length l1 = length l2.
Proof. induction 1; cbn; auto. Qed.

Lemma sim_serialize g h : gsim g h ->
  match dk_serialize K1 g, dk_serialize K2 h with
  | Ok v, Ok w => wsim v w | UB, UB => True | _, _ => False end.
Proof.
  intros [G1 G2 G3 G4 G5]. unfold dk_serialize. rewrite G1, G4, (lsim_length _ _ G5).
  destruct (max_r h <? length (ks h)); auto. destruct (c0_save (C0_ h)) as [im|]; cbn [obind]; auto.
  apply Forall2_app; [apply wsim_trees, lsim_firstn; auto|]. constructor; [|constructor]. cbn. sp; auto.
Qed.

Lemma sim_load_trees a b : dsim a b -> forall cnt i l1 l2, lsim l1 l2 ->
  match load_trees K1 a cnt i l1, load_trees K2 b cnt i l2 with
  | Ok v, Ok w => lsim v w | UB, UB => True | _, _ => False end.
Proof.
  intros Hd. induction cnt as [|c IH]; intros i l1 l2 H.
  - destruct H; cbn; constructor; auto.
  - destruct H as [|o p l1 l2 Ho Hl]; [constructor|]. cbn [load_trees]. specialize (Hd (S i)).
    specialize (IH (S i) l1 l2 Hl).
    destruct (a (S i)) as [[|t|]|], (b (S i)) as [[|u|]|]; cbn in Hd; try tauto; cbn [obind]; auto.
    all: destruct (load_trees K1 a c (S i) l1), (load_trees K2 b c (S i) l2); cbn [obind]; try tauto.
    all: constructor; auto.
Qed.

Lemma sim_load a b g h : dsim a b -> gsim g h -> rsim n K1 L1 K2 L2 (dk_load T K1 a g) (dk_load T K2 b h).
Proof.
  intros Hd [G1 G2 G3 G4 G5]. pose proof (Hd 0) as H0. unfold dk_load.
  destruct (a 0) as [[|t|mr v e im]|], (b 0) as [[|u|mr' v' e' im']|]; cbn in H0; try tauto; try exact I.
  - destruct H0 as [<- [<- [<- <-]]]. destruct (c0_load T im) as [c|]; cbn [rbind]; [|exact I].
    rewrite (lsim_length _ _ G5). destruct (mr <? length (ks h)); [|exact I].
    pose proof (sim_load_trees a b Hd (S mr) 0 _ _ G5) as HL.
    destruct (load_trees K1 a (S mr) 0 (ks g)), (load_trees K2 b (S mr) 0 (ks h)); cbn [rbind]; try tauto.
    constructor; auto.
  - constructor; auto.
Qed.

End SerialSim.
