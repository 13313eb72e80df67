(** * Base: outcomes, vectors, associative maps.

    Nothing here is specific to the repository; it is the C++ vocabulary the
    model is written in.  *)
From Coq Require Export List Arith NArith ZArith Lia Bool Permutation.
Export ListNotations.

(** Outcome of a call that cannot throw.  [UB] stands for undefined behaviour
    (out-of-bounds index, null dereference, read of an indeterminate value,
    failed assert) and, in fuelled loops, for running past the fuel
    (non-termination).  It is never a normal value. *)
Inductive out (A : Type) : Type :=
| Ok (a : A)
| UB.
Arguments Ok {A} a.
Arguments UB {A}.

Definition obind {A B} (x : out A) (f : A -> out B) : out B :=
  match x with Ok a => f a | UB => UB end.
Notation "'let*' x ':=' e 'in' b" := (obind e (fun x => b))
  (at level 200, x pattern, e at level 100, b at level 200).

(** Outcome of a call that may throw; [Thrown s] carries the object state at
    the moment of the throw. *)
Inductive res (A : Type) : Type :=
| Done (a : A)
| Thrown (a : A)
| Undefined.
Arguments Done {A} a.
Arguments Thrown {A} a.
Arguments Undefined {A}.

Definition rbind {A B} (x : out A) (f : A -> res B) : res B :=
  match x with Ok a => f a | UB => Undefined end.
Notation "'let+' x ':=' e 'in' b" := (rbind e (fun x => b))
  (at level 200, x pattern, e at level 100, b at level 200).

(** Vertices and edges.  [etype] is uint32_t (Graph.hpp:19); the bound is an
    explicit hypothesis wherever it matters. *)
Definition vertex := N.
Definition edge := (N * N)%type.

(** Graph.hpp:69-71, Edge::operator== *)
Definition eeqb (a b : edge) : bool := (N.eqb (fst a) (fst b) && N.eqb (snd a) (snd b))%bool.

Lemma eeqb_eq a b : eeqb a b = true <-> a = b.
Proof.
  destruct a as [a1 a2], b as [b1 b2]; unfold eeqb; cbn [fst snd].
  rewrite andb_true_iff, !N.eqb_eq. split; intros H; [destruct H; congruence|inversion H; auto].
Qed.
Lemma eeqb_refl a : eeqb a a = true.
Proof. apply eeqb_eq; reflexivity. Qed.
Lemma eeqb_neq a b : eeqb a b = false <-> a <> b.
Proof.
  split; intros H.
  - intros E; apply eeqb_eq in E; congruence.
  - destruct (eeqb a b) eqn:E; [apply eeqb_eq in E; congruence|reflexivity].
Qed.
Lemma edge_dec (a b : edge) : {a = b} + {a <> b}.
Proof. decide equality; apply N.eq_dec. Defined.

(** ** std::vector as a list *)
Definition get {A} (l : list A) (i : nat) : out A :=
  match nth_error l i with Some a => Ok a | None => UB end.

Fixpoint upd {A} (l : list A) (i : nat) (a : A) : list A :=
  match l, i with
  | [], _ => []
  | _ :: t, O => a :: t
  | h :: t, S j => h :: upd t j a
  end.

Definition set {A} (l : list A) (i : nat) (a : A) : out (list A) :=
  if i <? length l then Ok (upd l i a) else UB.

(** vector::resize(n) with default element d *)
Definition vresize {A} (l : list A) (n : nat) (d : A) : list A :=
  firstn n l ++ repeat d (n - length l).

Lemma length_upd {A} (l : list A) i a : length (upd l i a) = length l.
Proof. revert i; induction l as [|h t IH]; intros [|i]; cbn; auto. Qed.

Lemma nth_error_upd_eq {A} (l : list A) i a : i < length l -> nth_error (upd l i a) i = Some a.
Proof. revert i; induction l as [|h t IH]; intros [|i] H; cbn in *; try lia; auto. apply IH; lia. Qed.

Lemma nth_error_upd_neq {A} (l : list A) i j a : i <> j -> nth_error (upd l i a) j = nth_error l j.
Proof.
  revert i j; induction l as [|h t IH]; intros [|i] [|j] H; cbn; try congruence; auto.
Qed.

Lemma nth_error_upd {A} (l : list A) i j a :
  nth_error (upd l i a) j = if Nat.eqb i j then (if i <? length l then Some a else None) else nth_error l j.
Proof.
  destruct (Nat.eqb_spec i j) as [->|Hne]; [|apply nth_error_upd_neq; auto].
  destruct (Nat.ltb_spec j (length l)) as [H|H].
  - apply nth_error_upd_eq; auto.
  - apply nth_error_None. rewrite length_upd; lia.
Qed.

Lemma get_Ok {A} (l : list A) i a : get l i = Ok a <-> nth_error l i = Some a.
Proof. unfold get; destruct (nth_error l i); split; congruence. Qed.

Lemma set_Ok {A} (l : list A) i a : i < length l -> set l i a = Ok (upd l i a).
Proof. intros H; unfold set; apply Nat.ltb_lt in H; rewrite H; reflexivity. Qed.

Lemma set_inv {A} (l l' : list A) i a : set l i a = Ok l' -> i < length l /\ l' = upd l i a.
Proof. unfold set; destruct (Nat.ltb_spec i (length l)) as [Hlt|Hlt]; intros H; inversion H; auto. Qed.

Lemma nth_error_repeat {A} (d : A) n i : nth_error (repeat d n) i = if i <? n then Some d else None.
Proof.
  revert i; induction n as [|n IH]; intros [|i]; cbn; auto.
  rewrite IH. reflexivity.
Qed.

Lemma length_vresize {A} (l : list A) n d : length (vresize l n d) = n.
Proof. unfold vresize; rewrite app_length, firstn_length, repeat_length; lia. Qed.

Lemma nth_error_vresize {A} (l : list A) n d i :
  length l <= n ->
  nth_error (vresize l n d) i = if i <? length l then nth_error l i else if i <? n then Some d else None.
Proof.
  intros Hn; unfold vresize. rewrite firstn_all2 by lia.
  destruct (Nat.ltb_spec i (length l)).
  - rewrite nth_error_app1 by lia; auto.
  - rewrite nth_error_app2, nth_error_repeat by lia.
    destruct (Nat.ltb_spec (i - length l) (n - length l)); destruct (Nat.ltb_spec i n); auto; lia.
Qed.

(** ** std::unordered_map as an association list (at most one entry per key) *)
Section AList.
  Context {K V : Type} (eqb : K -> K -> bool).
  Hypothesis eqb_eq : forall a b, eqb a b = true <-> a = b.

  Fixpoint aget (k : K) (m : list (K * V)) : option V :=
    match m with
    | [] => None
    | (k', v) :: t => if eqb k k' then Some v else aget k t
    end.
  Definition adel (k : K) (m : list (K * V)) : list (K * V) :=
    filter (fun p => negb (eqb k (fst p))) m.
  Definition aset (k : K) (v : V) (m : list (K * V)) : list (K * V) := (k, v) :: adel k m.

  Lemma eqb_refl k : eqb k k = true.
  Proof using eqb_eq. apply eqb_eq; reflexivity. Qed.

  Lemma aget_adel_eq k m : aget k (adel k m) = None.
  Proof using Type.
    induction m as [|[k' v] t IH]; cbn; auto.
    destruct (eqb k k') eqn:E; cbn; auto. rewrite E; auto.
  Qed.
  Lemma aget_adel_neq k k' m : k <> k' -> aget k' (adel k m) = aget k' m.
  Proof using eqb_eq.
    intros Hne; induction m as [|[k2 v] t IH]; cbn; auto.
    destruct (eqb k k2) eqn:E; cbn.
    - destruct (eqb k' k2) eqn:E2; auto.
      apply eqb_eq in E; apply eqb_eq in E2; congruence.
    - destruct (eqb k' k2); auto.
  Qed.
  Lemma aget_aset_eq k v m : aget k (aset k v m) = Some v.
  Proof using eqb_eq. cbn. rewrite eqb_refl; auto. Qed.
  Lemma aget_aset_neq k k' v m : k <> k' -> aget k' (aset k v m) = aget k' m.
  Proof using eqb_eq.
    intros H; cbn. destruct (eqb k' k) eqn:E; [apply eqb_eq in E; congruence|].
    apply aget_adel_neq; auto.
  Qed.

  Lemma adel_keys k m : forall p, In p (adel k m) -> In p m /\ fst p <> k.
  Proof using eqb_eq.
    intros p H; apply filter_In in H; destruct H as [H1 H2]; split; auto.
    intros E; subst k. rewrite eqb_refl in H2; discriminate.
  Qed.
  Lemma adel_nodup k m : NoDup (map fst m) -> NoDup (map fst (adel k m)).
  Proof using eqb_eq.
    induction m as [|[k' v] t IH]; cbn; intros H; auto.
    inversion H as [|? ? Hn Ht]; subst.
    destruct (eqb k k'); cbn; auto. constructor; auto.
    intros Hin; apply Hn. apply in_map_iff in Hin; destruct Hin as [p [Hp1 Hp2]].
    apply adel_keys in Hp2. rewrite <- Hp1. apply in_map. tauto.
  Qed.
  Lemma aset_nodup k v m : NoDup (map fst m) -> NoDup (map fst (aset k v m)).
  Proof using eqb_eq.
    intros H; unfold aset; cbn; constructor.
    - intros Hin; apply in_map_iff in Hin; destruct Hin as [p [Hp1 Hp2]].
      apply adel_keys in Hp2. tauto.
    - apply adel_nodup; auto.
  Qed.
  Lemma aget_In k v m : aget k m = Some v -> In (k, v) m.
  Proof using eqb_eq.
    induction m as [|[k' v'] t IH]; cbn; intros H; [discriminate|].
    destruct (eqb k k') eqn:E; auto. apply eqb_eq in E; left; congruence.
  Qed.
  Lemma In_aget k v m : NoDup (map fst m) -> In (k, v) m -> aget k m = Some v.
  Proof using eqb_eq.
    induction m as [|[k' v'] t IH]; cbn; intros Hnd H; [tauto|].
    inversion Hnd as [|? ? Hn Ht]; subst.
    destruct H as [H|H].
    - inversion H; subst. rewrite eqb_refl; auto.
    - destruct (eqb k k') eqn:E; auto. apply eqb_eq in E; subst.
      exfalso; apply Hn. apply in_map_iff; exists (k', v); auto.
  Qed.
End AList.

(** 64-bit decrement (uint64_t x; x--), wrapping at 0. *)
Definition u64_dec (n : N) : N := if N.eqb n 0 then (2 ^ 64 - 1)%N else (n - 1)%N.

(** ** Small list facts used everywhere *)
Lemma In_upd {A} (l : list A) i a b : In b (upd l i a) -> b = a \/ In b l.
Proof.
  revert i; induction l as [|h t IH]; intros [|i]; cbn; intros H; auto.
  - destruct H as [H|H]; auto.
  - destruct H as [H|H]; auto. destruct (IH _ H); auto.
Qed.

Lemma filter_all {A} (f : A -> bool) l : (forall a, In a l -> f a = true) -> filter f l = l.
Proof.
  induction l as [|h t IH]; cbn; intros H; auto.
  rewrite (H h) by auto. f_equal; auto.
Qed.

Lemma filter_none {A} (f : A -> bool) l : (forall a, In a l -> f a = false) -> filter f l = [].
Proof.
  induction l as [|h t IH]; cbn; intros H; auto.
  rewrite (H h) by auto. auto.
Qed.

Lemma NoDup_filter {A} (f : A -> bool) l : NoDup l -> NoDup (filter f l).
Proof.
  induction 1 as [|h t Hn Ht IH]; cbn; [constructor|].
  destruct (f h); auto. constructor; auto. rewrite filter_In; tauto.
Qed.

Lemma NoDup_app {A} (l1 l2 : list A) :
  NoDup (l1 ++ l2) <-> NoDup l1 /\ NoDup l2 /\ (forall a, In a l1 -> ~ In a l2).
Proof.
  induction l1 as [|h t IH]; cbn.
  - split; [intros H; repeat split; auto; constructor|tauto].
  - split.
    + intros H; inversion H as [|? ? Hn Ht]; subst. apply IH in Ht.
      destruct Ht as [H1 [H2 H3]]. rewrite in_app_iff in Hn.
      repeat split; auto.
      * constructor; tauto.
      * intros a [->|Ha]; [tauto|auto].
    + intros [H1 [H2 H3]]. inversion H1 as [|? ? Hn Ht]; subst.
      constructor.
      * rewrite in_app_iff. intros [H|H]; [tauto|]. exact (H3 h (or_introl eq_refl) H).
      * apply IH; repeat split; auto.
Qed.

Lemma filter_app' {A} (f : A -> bool) l1 l2 : filter f (l1 ++ l2) = filter f l1 ++ filter f l2.
Proof. apply filter_app. Qed.

Lemma list_ext {A} (l1 l2 : list A) : (forall i, nth_error l1 i = nth_error l2 i) -> l1 = l2.
Proof.
  revert l2; induction l1 as [|h t IH]; intros [|h2 t2] H; auto.
  - specialize (H 0); discriminate.
  - specialize (H 0); discriminate.
  - pose proof (H 0) as H0; cbn in H0; inversion H0; subst. f_equal.
    apply IH; intros i; exact (H (S i)).
Qed.

Lemma map_option_nth {A B} (f : A -> B) l i : nth_error (map f l) i = option_map f (nth_error l i).
Proof. revert i; induction l as [|h t IH]; intros [|i]; cbn; auto. Qed.

Lemma NoDup_length_eq {A} (l1 l2 : list A) :
  NoDup l1 -> NoDup l2 -> (forall a, In a l1 <-> In a l2) -> length l1 = length l2.
Proof.
  intros H1 H2 H. apply Permutation_length. apply NoDup_Permutation; auto.
Qed.

(** Out-neighbours of [x] in a list of edges, in list order. *)
Definition src_is (x : N) (e : edge) : bool := N.eqb (fst e) x.
Definition succs (x : N) (l : list edge) : list N := map snd (filter (src_is x) l).

Lemma succs_app x a b : succs x (a ++ b) = succs x a ++ succs x b.
Proof. unfold succs. rewrite filter_app, map_app. reflexivity. Qed.
Lemma In_succs l x y : In y (succs x l) <-> In (x, y) l.
Proof.
  unfold succs, src_is. rewrite in_map_iff. split.
  - intros [[c d] [H1 H2]]. apply filter_In in H2. destruct H2 as [H2 H3].
    cbn in *. apply N.eqb_eq in H3; subst; auto.
  - intros H. exists (x, y). split; auto. apply filter_In. cbn. rewrite N.eqb_refl; auto.
Qed.
Lemma NoDup_succs l x : NoDup l -> NoDup (succs x l).
Proof.
  unfold succs, src_is.
  induction 1 as [|[a b] l Hn Hl IH]; cbn; [constructor|].
  destruct (N.eqb_spec a x) as [->|]; auto. cbn. constructor; auto.
  intros Hin. apply in_map_iff in Hin. destruct Hin as [[c d] [H1 H2]]. cbn in H1; subst.
  apply filter_In in H2. destruct H2 as [H2 H3]. apply N.eqb_eq in H3. cbn in H3; subst. auto.
Qed.

Lemma filter_length_le {A} (f : A -> bool) l : length (filter f l) <= length l.
Proof. induction l as [|a l IH]; cbn; auto. destruct (f a); cbn; lia. Qed.

Ltac sp := repeat match goal with |- _ /\ _ => split end.
