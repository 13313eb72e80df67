(** * Bits: the bitmap representation of a k^2-tree.

    sdsl::k2_tree (external) stores the k^2-ary trie of the adjacency matrix in level order: T (member k_t) has k^2 bits
    per node above the last level, L (member k_l) k^2 bits per node of the last level.  The class
    k2_tree_union_support of the repository reads and writes T and L directly (union_support.hpp:30, :43-50,
    :127-185), so the representation has to be part of the model.

    [nav] is the textbook navigation (row of the child of a 1 at position p = 1 + number of 1s before p), the meaning
    given to a pair of bitmaps; [trie], [stream] are used in proofs and in the definition of a well formed pair. *)
From Verif Require Import Base.

Section Bits.
Variable kk : nat.   (* k * k *)

(** ** Tries: a node has a list of k^2 possible children; height 0 is a cell of the matrix *)
Inductive trie := Nd (cs : list (option trie)).
Definition cs (t : trie) := let (l) := t in l.
Fixpoint twf (h : nat) (t : trie) : Prop :=
  match h with
  | O => True
  | S h => length (cs t) = kk /\ forall c, In (Some c) (cs t) -> twf h c
  end.
Fixpoint tmem (h : nat) (t : trie) (p : list nat) : bool :=
  match h, p with
  | O, [] => true
  | S h, d :: p => match nth_error (cs t) d with Some (Some c) => tmem h c p | _ => false end
  | _, _ => false
  end.

Fixpoint somes {A} (l : list (option A)) : list A :=
  match l with [] => [] | Some a :: l => a :: somes l | None :: l => somes l end.
Definition is_some {A} (o : option A) : bool := match o with Some _ => true | None => false end.

(** ** Level order *)
Definition rows (ns : list trie) : list bool := flat_map (fun t => map is_some (cs t)) ns.
Definition kids (ns : list trie) : list trie := flat_map (fun t => somes (cs t)) ns.
Fixpoint stream (h : nat) (ns : list trie) : list bool :=
  match h with O => [] | S h => rows ns ++ stream h (kids ns) end.
(** bits of the levels above the last, bits of the last level *)
Fixpoint tbits (h : nat) (ns : list trie) : list bool :=
  match h with
  | O => []
  | S h => match h with O => [] | S _ => rows ns ++ tbits h (kids ns) end
  end.
Fixpoint lbits (h : nat) (ns : list trie) : list bool :=
  match h with
  | O => []
  | S h => match h with O => rows ns | S _ => lbits h (kids ns) end
  end.

(** ** Navigation *)
Definition ones (l : list bool) : nat := length (filter (fun b => b) l).
Fixpoint nav (s : list bool) (h : nat) (row : nat) (p : list nat) : bool :=
  match h, p with
  | O, [] => true
  | S h, d :: p => match nth_error s (row * kk + d) with
                   | Some true => nav s h (S (ones (firstn (row * kk + d) s))) p
                   | _ => false
                   end
  | _, _ => false
  end.

Lemma stream_split h (ns : list trie) : stream h ns = tbits h ns ++ lbits h ns.
Proof.
  revert ns. induction h as [|h IH]; intros ns; [reflexivity|]. cbn [stream tbits lbits].
  destruct h as [|h]; [cbn [stream]; rewrite app_nil_r; reflexivity|]. rewrite IH, app_assoc. reflexivity.
Qed.

Lemma ones_app a b : ones (a ++ b) = ones a + ones b.
Proof. unfold ones. rewrite filter_app, app_length. reflexivity. Qed.
Lemma ones_somes {A} (t : list (option A)) : ones (map is_some t) = length (somes t).
Proof. induction t as [|[c|] t IH]; cbn in *; auto. Qed.
Lemma somes_app {A} (a b : list (option A)) : somes (a ++ b) = somes a ++ somes b.
Proof. induction a as [|[c|] a IH]; cbn; congruence. Qed.
Lemma In_somes {A} (l : list (option A)) a : In a (somes l) <-> In (Some a) l.
Proof.
  induction l as [|[c|] l IH]; cbn; [tauto| |]; rewrite IH; intuition congruence.
Qed.

Lemma kids_app (a b : list trie) : kids (a ++ b) = kids a ++ kids b.
Proof. apply flat_map_app. Qed.
Lemma rows_app (a b : list trie) : rows (a ++ b) = rows a ++ rows b.
Proof. apply flat_map_app. Qed.
Lemma ones_rows (ns : list trie) : ones (rows ns) = length (kids ns).
Proof.
  induction ns as [|t ns IH]; [reflexivity|]. cbn [rows kids flat_map] in *. rewrite ones_app, app_length, ones_somes.
  unfold rows, kids in IH. rewrite IH. reflexivity.
Qed.
Definition fwf h (ns : list trie) : Prop := forall t, In t ns -> twf h t.
Lemma fwf_cons h t (ns : list trie) : fwf h (t :: ns) <-> twf h t /\ fwf h ns.
Proof. unfold fwf. cbn. split; [intros H; split; auto|intros [H1 H2] u [<-|Hu]; auto]. Qed.
Lemma fwf_app h (a b : list trie) : fwf h (a ++ b) <-> fwf h a /\ fwf h b.
Proof. unfold fwf. setoid_rewrite in_app_iff. firstorder. Qed.
Lemma fwf_kids h (ns : list trie) : fwf (S h) ns -> fwf h (kids ns).
Proof.
  intros H t Ht. unfold kids in Ht. apply in_flat_map in Ht. destruct Ht as [u [Hu Ht]]. apply In_somes in Ht.
  apply (H u Hu). exact Ht.
Qed.
Lemma length_rows h (ns : list trie) : fwf (S h) ns -> length (rows ns) = length ns * kk.
Proof.
  induction ns as [|t ns IH]; intros H; [reflexivity|]. apply fwf_cons in H. destruct H as [[H _] H2].
  cbn [rows flat_map length]. rewrite app_length, map_length. cbn [Nat.mul]. f_equal; [exact H|]. apply IH. exact H2.
Qed.
Lemma length_kids h (ns : list trie) : fwf (S h) ns -> length (kids ns) <= length ns * kk.
Proof.
  intros H. rewrite <- (length_rows h) by exact H. rewrite <- ones_rows. unfold ones. generalize (rows ns). intros l.
  induction l as [|b l IH]; cbn; [lia|]. destruct b; cbn; lia.
Qed.

Lemma somes_at {A} (t : list (option A)) : forall d c, nth_error t d = Some (Some c) ->
  nth_error (somes t) (ones (firstn d (map is_some t))) = Some c.
Proof.
  induction t as [|o t IH]; intros [|d] c H; cbn in *; try discriminate.
  - injection H as ->. reflexivity.
  - destruct o as [a|]; cbn in *; apply IH; exact H.
Qed.

(** The meaning of the level-order bits is the trie. *)
Lemma nav_forest h : forall (ns : list trie) pre R i t p,
  fwf h ns -> length pre = R * kk -> ones pre + 1 = R + length ns -> nth_error ns i = Some t -> Forall (fun d => d < kk) p ->
  nav (pre ++ stream h ns) h (R + i) p = tmem h t p.
Proof.
  induction h as [|h IH]; intros ns pre R i t p Hw Hl Ho Hi Hp.
  { cbn. destruct p; reflexivity. }
  destruct p as [|d p]; [reflexivity|]. inversion Hp as [|? ? Hd Hp']; subst.
  cbn [nav tmem stream].
  destruct (nth_error_split ns i Hi) as [n1 [n2 [En Ei]]].
  assert (Ht : twf (S h) t) by (apply Hw; eapply nth_error_In; eauto).
  assert (W : fwf (S h) n1 /\ fwf (S h) n2).
  { rewrite En in Hw. apply fwf_app in Hw. destruct Hw as [A B]. apply fwf_cons in B. tauto. }
  destruct W as [W1 W2]. destruct Ht as [Htl Htc].
  assert (El : length (pre ++ rows n1) = (R + i) * kk) by (rewrite app_length, (length_rows h) by auto; lia).
  assert (Es : pre ++ rows ns ++ stream h (kids ns) = (pre ++ rows n1) ++ map is_some (cs t) ++ (rows n2 ++ stream h (kids ns))).
  { rewrite En at 1. rewrite rows_app. change (t :: n2) with ([t] ++ n2). rewrite (rows_app [t]).
    cbn [rows flat_map]. rewrite app_nil_r, <- !app_assoc. reflexivity. }
  rewrite Es. rewrite <- El.
  rewrite nth_error_app2 by lia. replace (length (pre ++ rows n1) + d - length (pre ++ rows n1)) with d by lia.
  rewrite nth_error_app1 by (rewrite map_length; lia).
  rewrite nth_error_map. destruct (nth_error (cs t) d) as [[c|]|] eqn:Ed; cbn [option_map is_some]; auto.
  rewrite firstn_app_2. rewrite firstn_app. rewrite map_length.
  replace (d - length (cs t)) with 0 by lia. cbn [firstn]. rewrite app_nil_r.
  rewrite <- Es. rewrite app_assoc.
  set (idx := length (kids n1) + ones (firstn d (map is_some (cs t)))).
  replace (S (ones ((pre ++ rows n1) ++ firstn d (map is_some (cs t))))) with ((R + length ns) + idx).
  2:{ rewrite !ones_app, ones_rows. unfold idx. lia. }
  refine (IH (kids ns) (pre ++ rows ns) (R + length ns) idx c p _ _ _ _ Hp').
  - apply fwf_kids. exact Hw.
  - rewrite app_length, (length_rows h) by exact Hw. lia.
  - rewrite ones_app, ones_rows. lia.
  - rewrite En, kids_app. unfold idx. rewrite nth_error_app2 by lia.
    replace (length (kids n1) + ones (firstn d (map is_some (cs t))) - length (kids n1)) with (ones (firstn d (map is_some (cs t)))) by lia.
    cbn [kids flat_map]. rewrite nth_error_app1.
    + apply somes_at. exact Ed.
    + apply nth_error_Some. rewrite (somes_at (cs t) d c Ed). discriminate.
Qed.

Theorem nav_trie h t p : twf h t -> Forall (fun d => d < kk) p -> nav (stream h [t]) h 0 p = tmem h t p.
Proof.
  intros Ht Hp. apply (nav_forest h [t] [] 0 0 t p); auto. intros u [<-|[]]. exact Ht.
Qed.

(** ** Union of tries *)
Fixpoint zipo {A} (f : A -> A -> A) (a b : list (option A)) : list (option A) :=
  match a, b with
  | x :: a, y :: b => (match x, y with Some u, Some v => Some (f u v) | Some u, None => Some u | None, o => o end) :: zipo f a b
  | _, _ => []
  end.
Fixpoint tun (h : nat) (a b : trie) : trie :=
  match h with O => Nd [] | S h => Nd (zipo (tun h) (cs a) (cs b)) end.

Lemma zipo_nth {A} (f : A -> A -> A) a : forall b d, length a = length b ->
  nth_error (zipo f a b) d = match nth_error a d, nth_error b d with
    | Some (Some u), Some (Some v) => Some (Some (f u v))
    | Some (Some u), Some None => Some (Some u)
    | Some None, o => o
    | _, _ => None end.
Proof.
  induction a as [|x a IH]; intros [|y b] d H; cbn in *; try lia.
  - destruct d; reflexivity.
  - destruct d as [|d]; cbn; [destruct x, y; reflexivity|]. apply IH. lia.
Qed.
Lemma zipo_length {A} (f : A -> A -> A) a : forall b, length a = length b -> length (zipo f a b) = length a.
Proof. induction a as [|x a IH]; intros [|y b] H; cbn in *; try lia. f_equal. apply IH. lia. Qed.

Lemma tun_wf h : forall a b, twf h a -> twf h b -> twf h (tun h a b).
Proof.
  induction h as [|h IH]; intros a b Ha Hb; [exact I|]. destruct Ha as [La Ha], Hb as [Lb Hb]. cbn [tun twf cs].
  split; [rewrite zipo_length; congruence|]. intros c Hc. apply In_nth_error in Hc. destruct Hc as [d Hd].
  rewrite zipo_nth in Hd by congruence.
  destruct (nth_error (cs a) d) as [[u|]|] eqn:Ea, (nth_error (cs b) d) as [[v|]|] eqn:Eb; try discriminate; injection Hd as <-;
    try apply nth_error_In in Ea; try apply nth_error_In in Eb; auto.
Qed.
Lemma tun_mem h : forall a b p, twf h a -> twf h b -> Forall (fun d => d < kk) p -> tmem h (tun h a b) p = tmem h a p || tmem h b p.
Proof.
  induction h as [|h IH]; intros a b p Ha Hb Hp; [destruct p; reflexivity|].
  destruct p as [|d p]; [reflexivity|]. inversion Hp as [|? ? Hd Hp']; subst. destruct Ha as [La Ha], Hb as [Lb Hb].
  cbn [tun tmem cs]. rewrite zipo_nth by congruence.
  assert (Na : nth_error (cs a) d <> None) by (apply nth_error_Some; lia).
  assert (Nb : nth_error (cs b) d <> None) by (apply nth_error_Some; lia).
  destruct (nth_error (cs a) d) as [[u|]|] eqn:Ea, (nth_error (cs b) d) as [[v|]|] eqn:Eb; try congruence; auto.
  - apply nth_error_In in Ea. apply nth_error_In in Eb. apply IH; auto.
  - rewrite orb_false_r. reflexivity.
Qed.

End Bits.
