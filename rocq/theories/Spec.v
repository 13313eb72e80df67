(** * Spec: what a user expects of a dynamic directed graph.

    This file knows nothing of the implementation.  Property theorems are
    stated against it. *)
From Verif Require Import Base.

(** Operations of the public API that change the graph. *)
Inductive op := Add (e : edge) | Del (e : edge).

Definition op_edge (o : op) : edge := match o with Add e => e | Del e => e end.

(** The edge set denoted by a history, as a duplicate-free list. *)
Definition emem (e : edge) (l : list edge) : bool := existsb (eeqb e) l.
Definition espec_step (g : list edge) (o : op) : list edge :=
  match o with
  | Add e => if emem e g then g else g ++ [e]
  | Del e => filter (fun f => negb (eeqb e f)) g
  end.
Definition espec (h : list op) : list edge := fold_left espec_step h [].

(** The same thing said without sets: an edge is present iff the last
    operation that mentions it is an [Add]. *)
Fixpoint last_is_add (h : list op) (e : edge) (acc : bool) : bool :=
  match h with
  | [] => acc
  | Add f :: t => last_is_add t e (if eeqb e f then true else acc)
  | Del f :: t => last_is_add t e (if eeqb e f then false else acc)
  end.
Definition present (h : list op) (e : edge) : bool := last_is_add h e false.

(** All vertices of the edge are below n. *)
Definition in_range (n : N) (e : edge) : Prop := (fst e < n)%N /\ (snd e < n)%N.
Definition op_in_range (n : N) (o : op) : Prop := in_range n (op_edge o).

(** Reachability in a directed graph given by its edge relation. *)
Inductive reach (E : N -> N -> Prop) (r : N) : N -> Prop :=
| reach_refl : reach E r r
| reach_step x y : reach E r x -> E x y -> reach E r y.

(** Distance: [path_len E r x d] iff there is a walk of d edges from r to x. *)
Inductive walk (E : N -> N -> Prop) (r : N) : N -> nat -> Prop :=
| walk_nil : walk E r r 0
| walk_snoc x y d : walk E r x d -> E x y -> walk E r y (S d).
Definition is_dist (E : N -> N -> Prop) (r x : N) (d : nat) : Prop :=
  walk E r x d /\ forall d', walk E r x d' -> d <= d'.

(** What a loop [for (it = begin; it != end; ++it) use( *it )] sees: it ends, and the values are [l]. *)
Inductive visits {S V : Type} (at_end : S -> bool) (val : S -> V) (next : S -> out S) : S -> list V -> Prop :=
| visits_end it : at_end it = true -> visits at_end val next it []
| visits_step it it' l : at_end it = false -> next it = Ok it' ->
    visits at_end val next it' l -> visits at_end val next it (val it :: l).

(** ** Sanity of the specification *)
Lemma emem_In e l : emem e l = true <-> In e l.
Proof.
  unfold emem; rewrite existsb_exists. split.
  - intros [f [H1 H2]]. apply eeqb_eq in H2; subst; auto.
  - intros H; exists e; split; auto. apply eeqb_refl.
Qed.

Lemma emem_false e l : emem e l = false <-> ~ In e l.
Proof. rewrite <- emem_In. destruct (emem e l); split; congruence. Qed.

Lemma espec_step_nodup g o : NoDup g -> NoDup (espec_step g o).
Proof.
  destruct o as [e|e]; cbn; intros H.
  - destruct (emem e g) eqn:E; auto. apply emem_false in E.
    apply NoDup_app; repeat split; auto.
    + repeat constructor; auto.
    + intros a Ha [->|[]]; auto.
  - apply NoDup_filter; auto.
Qed.

Lemma espec_step_In g o e :
  In e (espec_step g o) <->
  match o with Add f => e = f \/ In e g | Del f => e <> f /\ In e g end.
Proof.
  destruct o as [f|f]; cbn.
  - destruct (emem f g) eqn:E.
    + apply emem_In in E. split; auto. intros [->|H]; auto.
    + rewrite in_app_iff; cbn. intuition.
  - rewrite filter_In, negb_true_iff, eeqb_neq. intuition.
Qed.

Lemma espec_app h1 h2 : espec (h1 ++ h2) = fold_left espec_step h2 (espec h1).
Proof. unfold espec; apply fold_left_app. Qed.

Lemma espec_snoc h o : espec (h ++ [o]) = espec_step (espec h) o.
Proof. rewrite espec_app; reflexivity. Qed.

Lemma fold_espec_nodup h g : NoDup g -> NoDup (fold_left espec_step h g).
Proof. revert g; induction h as [|o h IH]; cbn; intros g H; auto. apply IH, espec_step_nodup; auto. Qed.

Lemma espec_nodup h : NoDup (espec h).
Proof. apply fold_espec_nodup; constructor. Qed.

Lemma fold_espec_present h g e :
  In e (fold_left espec_step h g) <-> last_is_add h e (emem e g) = true.
Proof.
  revert g; induction h as [|o h IH]; cbn; intros g.
  - rewrite emem_In; reflexivity.
  - rewrite IH. destruct o as [f|f].
    + assert (E : emem e (espec_step g (Add f)) = (if eeqb e f then true else emem e g)).
      { destruct (eeqb e f) eqn:E1.
        - apply eeqb_eq in E1; subst. apply emem_In, espec_step_In; auto.
        - apply eeqb_neq in E1. apply eq_true_iff_eq.
          rewrite !emem_In, espec_step_In; intuition. }
      rewrite E; reflexivity.
    + assert (E : emem e (espec_step g (Del f)) = (if eeqb e f then false else emem e g)).
      { destruct (eeqb e f) eqn:E1.
        - apply eeqb_eq in E1; subst. apply emem_false. rewrite espec_step_In; intuition.
        - apply eeqb_neq in E1. apply eq_true_iff_eq.
          rewrite !emem_In, espec_step_In; intuition. }
      rewrite E; reflexivity.
Qed.

(** The two readings of a history agree. *)
Theorem espec_present h e : In e (espec h) <-> present h e = true.
Proof. unfold espec, present. rewrite fold_espec_present; reflexivity. Qed.

(** For insert-only histories the edge set is the set of inserted edges. *)
Lemma espec_adds es e : In e (espec (map Add es)) <-> In e es.
Proof.
  induction es as [|f es IH] using rev_ind; [cbn; tauto|].
  rewrite map_app; cbn [map]. rewrite espec_snoc, espec_step_In, IH, in_app_iff; cbn. intuition.
Qed.

Lemma espec_range n h e : Forall (op_in_range n) h -> In e (espec h) -> in_range n e.
Proof.
  revert e; induction h as [|o h IH] using rev_ind; intros e HF; [cbn; tauto|].
  apply Forall_app in HF; destruct HF as [HF1 HF2]. inversion HF2 as [|? ? Ho _]; subst.
  rewrite espec_snoc, espec_step_In. destruct o as [f|f].
  - intros [->|H]; auto.
  - intros [_ H]; auto.
Qed.

(** A loop sees one sequence only. *)
Lemma visits_unique {S V} (ae : S -> bool) (val : S -> V) nxt it l1 : visits ae val nxt it l1 ->
  forall l2, visits ae val nxt it l2 -> l1 = l2.
Proof.
  induction 1 as [it H|it it' l H1 H2 H3 IH]; intros l2 G; inversion G; subst; try congruence.
  f_equal. apply IH. match goal with A : nxt it = Ok ?a, B : nxt it = Ok ?b |- _ => assert (a = b) by congruence; subst; assumption end.
Qed.
