(** * BgSpec: what a run of the background graphs reports, and what it should report.

    A run leaves a log of completed calls, newest first.  This file knows nothing of the machine. *)
From Verif Require Import Base Spec.

(** The calls of the API: add_edge, contains, list_neighbour, del_edge. *)
Inductive call := CIns (e : edge) | CHas (e : edge) | CNbr (x : N) | CDel (e : edge).

(** What a completed call reported.  An insertion ends in one of three ways: the edge was found, it went to the buffer, or it was
    handed with the buffer to the merging thread (a flush).  [busy] is the value of the public flag needs_work that
    the query read (false if it did not read it). *)
Inductive how := Found | Buffered | Flushed.
Inductive event :=
| EIns (e : edge) (h : how)
| EHas (e : edge) (b busy : bool)
| ENbr (x : N) (l : list N) (busy : bool)
| EDel (e : edge).

(** the edges inserted so far (no deletions), one entry per add_edge *)
Fixpoint inserted (h : list event) : list edge :=
  match h with [] => [] | EIns e _ :: h => e :: inserted h | _ :: h => inserted h end.
(** ... one entry per add_edge that did not find its edge *)
Fixpoint stored (h : list event) : list edge :=
  match h with
  | [] => []
  | EIns e Found :: h => stored h
  | EIns e _ :: h => e :: stored h
  | _ :: h => stored h
  end.
(** buffered since the last flush *)
Fixpoint recent (h : list event) : list edge :=
  match h with
  | EIns e Buffered :: h => e :: recent h
  | EIns e Flushed :: h => []
  | _ :: h => recent h
  | [] => []
  end.
(** the last flush: its edge, and the log before it *)
Fixpoint last_flush (h : list event) : option (edge * list event) :=
  match h with
  | EIns e Flushed :: h => Some (e, h)
  | _ :: h => last_flush h
  | [] => None
  end.
(** up to and including the last flush *)
Definition older (h : list event) : list edge :=
  match last_flush h with Some (f, r) => f :: stored r | None => [] end.
(** what a query should see while the last flush is being merged: everything except the edges that were in the buffer when that
    flush began *)
Definition visible (h : list event) : list edge :=
  recent h ++ match last_flush h with Some (f, r) => f :: older r | None => [] end.

Definition seen (busy : bool) (h : list event) : list edge := if busy then visible h else stored h.

(** A call that completes after the calls [h]. *)
Definition event_ok (h : list event) (v : event) : Prop :=
  match v with
  | EIns e Found => In e (stored h)
  | EIns e _ => ~ In e (visible h)
  | EHas e b busy => b = true <-> In e (seen busy h)
  | ENbr x l busy => (forall y, In y l <-> In (x, y) (seen busy h)) /\ (NoDup (stored h) -> NoDup l)
  | EDel e => True
  end.
Fixpoint log_ok (h : list event) : Prop := match h with [] => True | v :: h => event_ok h v /\ log_ok h end.

(** ** Facts about logs *)
Lemma stored_split h : forall e, In e (stored h) <-> In e (recent h) \/ In e (older h).
Proof.
  unfold older. induction h as [|v h IH]; intros e; cbn; [tauto|].
  destruct v as [f [| |]| | |]; cbn [stored recent last_flush]; try apply IH.
  - cbn [In]. rewrite IH. tauto.
  - cbn [In]. tauto.
Qed.
Lemma stored_len h : length (stored h) = length (recent h) + length (older h).
Proof.
  unfold older. induction h as [|v h IH]; cbn; [auto|].
  destruct v as [f [| |]| | |]; cbn [stored recent last_flush length]; try apply IH; lia.
Qed.
Lemma visible_stored h e : In e (visible h) -> In e (stored h).
Proof.
  unfold visible. rewrite in_app_iff, stored_split. unfold older at 2. destruct (last_flush h) as [[f r]|]; [|cbn; tauto].
  intros [?|[?|?]]; [tauto|subst; right; left; auto|]. right; right. apply stored_split. auto.
Qed.
Lemma recent_visible h e : In e (recent h) -> In e (visible h).
Proof. intros I. apply in_app_iff; auto. Qed.
Lemma stored_inserted h e : In e (stored h) -> In e (inserted h).
Proof. induction h as [|v h IH]; cbn; [auto|]. destruct v as [f [| |]| | |]; cbn [stored inserted In]; tauto. Qed.
Lemma inserted_stored h e : log_ok h -> In e (inserted h) -> In e (stored h).
Proof.
  induction h as [|v h IH]; cbn [log_ok inserted stored]; [auto|]. intros [V O].
  destruct v as [f [| |]| | |]; cbn [inserted stored In event_ok] in *; auto; intros [->|]; auto.
Qed.
Lemma stored_le h : length (stored h) <= length (inserted h).
Proof. induction h as [|v h IH]; cbn; [auto|]. destruct v as [f [| |]| | |]; cbn [stored inserted length]; lia. Qed.
Lemma stored_exact h : log_ok h -> NoDup (inserted h) -> stored h = inserted h.
Proof.
  induction h as [|v h IH]; cbn [log_ok inserted stored]; [auto|]. intros [V O].
  destruct v as [f w| | |]; try (intros N; apply IH; auto; fail).
  cbn [inserted]. intros N. inversion N as [|? ? N1 N2]; subst.
  destruct w; cbn [stored event_ok] in *; try (f_equal; apply IH; auto; fail).
  exfalso. apply N1, stored_inserted, V.
Qed.
Lemma log_ok_at h2 : forall v h1, log_ok (h2 ++ v :: h1) -> event_ok h1 v.
Proof. induction h2 as [|w h2 IH]; cbn; intros v h1; [tauto|]. intros [_ O]. apply IH, O. Qed.
Lemma log_ok_tail h2 : forall h1, log_ok (h2 ++ h1) -> log_ok h1.
Proof. induction h2 as [|w h2 IH]; cbn; intros h1; [tauto|]. intros [_ O]. apply IH, O. Qed.
