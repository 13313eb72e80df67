(** * BgDelSpec: what a run with deletions should report.

    Logs as in BgSpec: completed calls, newest first.  This file knows nothing of the machine. *)
From Verif Require Import Base Spec BgSpec.

(** the edges of the graph after the calls of a log: one entry per insertion, a deletion removes every entry *)
Fixpoint live (h : list event) : list edge :=
  match h with
  | [] => []
  | EIns e _ :: h => e :: live h
  | EDel e :: h => filter (fun f => negb (eeqb e f)) (live h)
  | _ :: h => live h
  end.
(** the edges ever inserted *)
Fixpoint ins_of (h : list event) : list edge :=
  match h with
  | [] => []
  | EIns e _ :: h => e :: ins_of h
  | _ :: h => ins_of h
  end.
(** the edge [e] was never inserted while it was in the graph *)
Fixpoint fresh_for (e : edge) (h : list event) : Prop :=
  match h with
  | [] => True
  | EIns f _ :: h => (f = e -> ~ In e (live h)) /\ fresh_for e h
  | _ :: h => fresh_for e h
  end.
(** no edge was *)
Definition fresh (h : list event) : Prop := forall e, fresh_for e h.
(** A query that completes after the calls [h].  Nothing is lost, except while a merge is going on; what is reported has been inserted at
    some time; and an edge that was never inserted while it was in the graph is reported only if it is in the graph, and listed once. *)
Definition answer_ok (h : list event) (v : event) : Prop :=
  match v with
  | EHas e b busy =>
      (busy = false -> In e (live h) -> b = true) /\
      (b = true -> In e (ins_of h) /\ (fresh_for e h -> In e (live h)))
  | ENbr x l busy =>
      (busy = false -> forall y, In (x, y) (live h) -> In y l) /\
      (forall y, In y l -> In (x, y) (ins_of h) /\ (fresh_for (x, y) h -> In (x, y) (live h))) /\
      (busy = false -> forall y, fresh_for (x, y) h -> count_occ N.eq_dec l y <= 1)
  | _ => True
  end.
Fixpoint answers_ok (h : list event) : Prop :=
  match h with [] => True | v :: h => answer_ok h v /\ answers_ok h end.

Lemma answers_at h2 : forall v h1, answers_ok (h2 ++ v :: h1) -> answer_ok h1 v.
Proof. induction h2 as [|w h2 IH]; cbn; intros v h1 [A B]; auto. Qed.
Lemma live_ins h : forall e, In e (live h) -> In e (ins_of h).
Proof.
  induction h as [|[f w|f1 b1 z1|x1 l1 z1|f] h IH]; cbn [live ins_of]; intros e; auto.
  - intros [->|I]; [left; auto|right; auto].
  - intros I. apply filter_In in I. apply IH, I.
Qed.
Lemma live_once e h : fresh_for e h -> count_occ edge_dec (live h) e <= 1.
Proof.
  induction h as [|[f w|f1 b1 z1|x1 l1 z1|f] h IH]; cbn [live fresh_for]; auto.
  - intros [A B]. cbn [count_occ]. destruct (edge_dec f e) as [E|E]; [|auto]. specialize (A E). apply (count_occ_not_In edge_dec) in A. rewrite A. auto.
  - intros A. specialize (IH A). clear A. enough (X : forall l, count_occ edge_dec (filter (fun g => negb (eeqb f g)) l) e <= count_occ edge_dec l e) by (specialize (X (live h)); lia).
    clear. induction l as [|a l IHl]; cbn; auto. destruct (negb (eeqb f a)); cbn; destruct (edge_dec a e); lia.
Qed.
Lemma live_nodup h : fresh h -> NoDup (live h).
Proof. intros F. apply (NoDup_count_occ edge_dec). intros e. apply live_once, F. Qed.
