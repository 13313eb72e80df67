(** * IterValProof: what the programs of IterVal.v do. *)
From Verif Require Import Base Spec Thresholds K2 C0 DK Iter IterProof IterVal.

(** ** The specification: a variable is the sequence it has still to visit *)
Section S.
Context {V A : Type} (all : A -> list V) (endv : V).
Definition rest := nat -> option (list V).
(** None: the program is not defined (a variable that does not exist, ++ at the end). *)
Definition sstep (R : rest) (o : vop A) : option (rest * list V) :=
  match o with
  | VBegin v a => Some (setv (setv R 0 (all a)) v (all a), [])
  | VCopy v w => match R w with Some l => Some (setv R v l, []) | None => None end
  | VAssign v w => match R v, R w with Some _, Some l => Some (setv R v l, []) | _, _ => None end
  | VNext v => match R v with Some (_ :: l) => Some (setv R v l, []) | _ => None end
  | VGet v => match R v with Some l => Some (R, [hd endv l]) | None => None end
  | VPost v => match R v with Some l => Some (setv R v (tl l), [hd endv (tl l)]) | None => None end
  end.
Fixpoint srun (p : list (vop A)) (R : rest) : option (rest * list V) :=
  match p with
  | [] => Some (R, [])
  | o :: p => match sstep R o with
              | Some (R, u) => match srun p R with Some (R, u') => Some (R, u ++ u') | None => None end
              | None => None
              end
  end.
(** Only the member exists, and is at its end. *)
Definition rest0 : rest := fun w => if Nat.eqb w 0 then Some [] else None.
End S.

Section G.
Context {S V A : Type} (begin : A -> out S) (asg : S -> S -> S) (at_end : S -> bool) (val : S -> V) (next post : S -> out S).
Context (all : A -> list V) (endv : V) (okA : A -> Prop) (P : S -> Prop) (allowed : vop A -> Prop).
Context (Hbegin : forall a m, okA a -> P m -> exists b, begin a = Ok b /\ P (asg m b) /\ visits at_end val next (asg m b) (all a)).
Context (Hpost : forall s l, visits at_end val next s l -> exists s', post s = Ok s' /\ visits at_end val next s' (tl l)).
Context (Hend : forall s, at_end s = true -> val s = endv).
(** Operations other than begin leave the member alone, or it does not matter. *)
Context (Hmem : forall v w, allowed (VCopy v w) \/ allowed (VAssign v w) \/ allowed (VNext v) \/ allowed (VPost v) -> v <> 0 \/ forall s, P s).
Context (Hasg : forall v w, allowed (VAssign v w) -> forall s t, asg s t = t).
Context (Hok : forall v a, allowed (VBegin v a) -> okA a).

Definition agrees (E : env) (R : rest) : Prop :=
  (exists m, E 0 = Some m /\ P m) /\ forall v l, R v = Some l -> exists s, E v = Some s /\ visits at_end val next s l.

Lemma setv_same {X} (E : nat -> option X) v a : setv E v a v = Some a.
Proof. unfold setv. rewrite Nat.eqb_refl. reflexivity. Qed.
Lemma setv_other {X} (E : nat -> option X) v a w : w <> v -> setv E v a w = E w.
Proof. unfold setv. intros H. destruct (Nat.eqb_spec w v); [congruence|reflexivity]. Qed.

Lemma hd_val s l : visits at_end val next s l -> val s = hd endv l.
Proof using Hend. intros H. inversion H; subst; cbn; auto. Qed.

Lemma agrees_set E R v s l : agrees E R -> (v <> 0 \/ P s) -> visits at_end val next s l -> agrees (setv E v s) (setv R v l).
Proof.
  intros [(m & E0 & Pm) H] Hv Vs. split.
  - destruct (Nat.eq_dec v 0) as [->|Ne]; [exists s; rewrite setv_same; split; auto; destruct Hv; [congruence|auto]|]. exists m. rewrite setv_other; auto.
  - intros w l' Hw. destruct (Nat.eq_dec w v) as [->|Nw].
    + rewrite setv_same in Hw. injection Hw as <-. exists s. rewrite setv_same. auto.
    + rewrite setv_other in Hw by auto. destruct (H w l' Hw) as (t & Et & Vt). exists t. rewrite setv_other by auto. auto.
Qed.

Lemma step_agrees E R o R' u : agrees E R -> allowed o -> sstep all endv R o = Some (R', u) ->
  exists E', vstep begin asg val next post E o = Ok (E', u) /\ agrees E' R'.
Proof using Hasg Hbegin Hend Hmem Hok Hpost.
  intros AG Al Es. pose proof AG as [(m & E0 & Pm) H]. destruct o as [v a|v w|v w|v|v|v]; cbn [sstep vstep] in *.
  - injection Es as <- <-. destruct (Hbegin a m (Hok v a Al) Pm) as (b & Eb & Pb & Vb). unfold getv. rewrite E0. cbn [obind]. rewrite Eb. cbn [obind].
    eexists. split; [reflexivity|]. apply agrees_set; auto. apply agrees_set; auto.
  - destruct (R w) as [l|] eqn:Rw; [|discriminate]. injection Es as <- <-. destruct (H w l Rw) as (s & Ew & Vs). unfold getv. rewrite Ew. cbn [obind].
    eexists. split; [reflexivity|]. apply agrees_set; auto. destruct (Hmem v w) as [|X]; auto.
  - destruct (R v) as [lv|] eqn:Rv; [|discriminate]. destruct (R w) as [l|] eqn:Rw; [|discriminate]. injection Es as <- <-.
    destruct (H w l Rw) as (t & Ew & Vt). destruct (H v lv Rv) as (s & Ev & Vs). unfold getv. rewrite Ev, Ew. cbn [obind].
    eexists. split; [reflexivity|]. destruct (Nat.eqb_spec v w) as [->|Ne].
    + assert (s = t) by congruence. subst t. apply agrees_set; auto. destruct (Hmem w w) as [|X]; auto.
    + rewrite (Hasg v w Al). apply agrees_set; auto. destruct (Hmem v w) as [|X]; auto.
  - destruct (R v) as [[|e l]|] eqn:Rv; [discriminate| |discriminate]. injection Es as <- <-. destruct (H v _ Rv) as (s & Ev & Vs). unfold getv. rewrite Ev. cbn [obind].
    inversion Vs as [|s0 s' l0 A1 A2 A3]; subst. rewrite A2. cbn [obind]. eexists. split; [reflexivity|]. apply agrees_set; auto. destruct (Hmem v 0) as [|X]; auto.
  - destruct (R v) as [l|] eqn:Rv; [|discriminate]. injection Es as <- <-. destruct (H v _ Rv) as (s & Ev & Vs). unfold getv. rewrite Ev. cbn [obind].
    rewrite (hd_val _ _ Vs). eauto.
  - destruct (R v) as [l|] eqn:Rv; [|discriminate]. injection Es as <- <-. destruct (H v _ Rv) as (s & Ev & Vs). unfold getv. rewrite Ev. cbn [obind].
    destruct (Hpost s l Vs) as (s' & Ep & Vs'). rewrite Ep. cbn [obind]. rewrite (hd_val _ _ Vs'). eexists. split; [reflexivity|]. apply agrees_set; auto. destruct (Hmem v 0) as [|X]; auto.
Qed.

Theorem run_agrees p : forall E R R' u, agrees E R -> Forall allowed p -> srun all endv p R = Some (R', u) ->
  exists E', vrun begin asg val next post p E = Ok (E', u) /\ agrees E' R'.
Proof using Hasg Hbegin Hend Hmem Hok Hpost.
  induction p as [|o p IH]; intros E R R' u AG F Es; cbn [srun vrun] in *.
  - injection Es as <- <-. eauto.
  - inversion F; subst. destruct (sstep all endv R o) as [[R1 u1]|] eqn:E1; [|discriminate]. destruct (srun all endv p R1) as [[R2 u2]|] eqn:E2; [|discriminate].
    injection Es as <- <-. destruct (step_agrees E R o R1 u1 AG ltac:(auto) E1) as (Ev & Es1 & AG1). rewrite Es1. cbn [obind fst snd].
    destruct (IH Ev R1 R2 u2 AG1 ltac:(auto) E2) as (Ev' & Es2 & AG2). rewrite Es2. cbn [obind fst snd]. eauto.
Qed.
End G.
