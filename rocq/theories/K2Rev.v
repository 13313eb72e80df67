(** * K2Rev: a second implementation of the contract of K2.v, whose adj_forced revives erased edges ("add it if possible",
    DKtree.hpp:162).  It meets the laws but not [adjf_is_query]; it also keeps its edges in another order than K2Ref. *)
From Verif Require Import Base Spec K2.

Record vtree := { v_n : N; v_edges : list edge; v_dead : list edge }.
Definition vmem (t : vtree) x y : bool := existsb (eeqb (x, y)) (v_edges t).
Definition vdead (t : vtree) x y : bool := existsb (eeqb (x, y)) (v_dead t).
Definition vadd (es : list edge) (e : edge) : list edge := if existsb (eeqb e) es then es else e :: es.

Definition K2Rev : k2impl := {|
  kt := vtree;
  kt_build := fun es n => {| v_n := n; v_edges := fold_left vadd es []; v_dead := [] |};
  kt_new := fun n => {| v_n := n; v_edges := []; v_dead := [] |};
  kt_null := {| v_n := 0; v_edges := []; v_dead := [] |};
  kt_size := v_n;
  kt_adj := vmem;
  kt_adjf := fun t x y =>
    if vmem t x y then (true, t)
    else if vdead t x y
         then (true, {| v_n := v_n t; v_edges := (x, y) :: v_edges t; v_dead := filter (fun e => negb (eeqb (x, y) e)) (v_dead t) |})
         else (false, t);
  kt_erase := fun t x y =>
    if vmem t x y
    then (true, {| v_n := v_n t; v_edges := filter (fun e => negb (eeqb (x, y) e)) (v_edges t); v_dead := (x, y) :: v_dead t |})
    else (false, t);
  kt_union := fun a b => {| v_n := v_n a; v_edges := fold_left vadd (v_edges b) (v_edges a); v_dead := [] |};
  kt_total := fun t => (N.of_nat (length (v_edges t)) + N.of_nat (length (v_dead t)))%N;
  kt_marked := fun t => N.of_nat (length (v_dead t));
  kt_neigh := fun t x => succs x (v_edges t);
  kt_edges := v_edges;
  kt_eq := fun a b => forallb (fun e => existsb (eeqb e) (v_edges b)) (v_edges a)
                      && forallb (fun e => existsb (eeqb e) (v_edges a)) (v_edges b)
|}.

Lemma vadd_In l f e : In e (vadd l f) <-> e = f \/ In e l.
Proof.
  unfold vadd. destruct (existsb (eeqb f) l) eqn:E.
  - apply existsb_eeqb in E. intuition congruence.
  - cbn. intuition.
Qed.
Lemma vadd_nodup l f : NoDup l -> NoDup (vadd l f).
Proof. intros A. unfold vadd. destruct (existsb (eeqb f) l) eqn:E; auto. apply existsb_eeqb_false in E. constructor; auto. Qed.
Lemma fold_vadd_In es l e : In e (fold_left vadd es l) <-> In e es \/ In e l.
Proof. revert l; induction es as [|f es IH]; cbn; intros l; [tauto|]. rewrite IH, vadd_In. intuition. Qed.
Lemma fold_vadd_nodup es l : NoDup l -> NoDup (fold_left vadd es l).
Proof. revert l; induction es as [|f es IH]; cbn; intros l A; auto. apply IH, vadd_nodup; auto. Qed.

Definition vwf (n : N) (t : vtree) : Prop :=
  v_n t = n /\ NoDup (v_edges t) /\ Forall (fun e => fst e < n /\ snd e < n)%N (v_edges t).
Definition vknown (t : vtree) (e : edge) : Prop := In e (v_edges t) \/ In e (v_dead t).

Definition K2Rev_laws : k2laws K2Rev.
Proof.
  refine {| wf := (vwf : N -> kt K2Rev -> Prop); known := (vknown : kt K2Rev -> edge -> Prop) |}; cbn -[fold_left]; unfold vknown.
  - intros n es Hn Hne Hnd Hr. split; [split; [|split]|split]; cbn -[fold_left]; auto.
    + apply fold_vadd_nodup; constructor.
    + apply Forall_forall; intros e He. apply fold_vadd_In in He. cbn in He.
      destruct He as [He|[]]. rewrite Forall_forall in Hr; auto.
    + intros e. rewrite fold_vadd_In; cbn; tauto.
  - intros n Hn. split; [split; [|split]|split]; cbn; auto; constructor.
  - reflexivity.
  - intros n t [A _]; auto.
  - intros n t [_ [A _]]; auto.
  - intros n t e [_ [_ A]] He. rewrite Forall_forall in A; auto.
  - intros n t x y _ _ _. apply existsb_eeqb.
  - intros n t x [_ [A _]] _. apply NoDup_succs; auto.
  - intros n t x y _ _. apply In_succs.
  - reflexivity.
  - intros n t x y _ _ _. unfold vmem.
    destruct (existsb (eeqb (x, y)) (v_edges t)) eqn:E; cbn.
    + apply existsb_eeqb in E; tauto.
    + apply existsb_eeqb_false in E. split; [discriminate|tauto].
  - intros n t x y [A1 [A2 A3]] _ _. unfold vmem.
    destruct (existsb (eeqb (x, y)) (v_edges t)) eqn:E; cbn -[N.of_nat].
    + split; [split; [|split]|split]; cbn -[N.of_nat]; auto.
      * apply NoDup_filter; auto.
      * rewrite Forall_forall in *. intros e He. apply filter_In in He. apply A3; tauto.
      * intros e. rewrite filter_In, negb_true_iff, eeqb_neq. intuition.
      * lia.
    + apply existsb_eeqb_false in E. split; [repeat split; auto|split].
      * intros e. split; [|tauto]. intros He; split; auto. intros ->; tauto.
      * lia.
  - intros n a b [A1 [A2 A3]] [A4 [A5 A6]]. split; [split; [|split]|split]; cbn -[fold_left]; auto.
    + apply fold_vadd_nodup; auto.
    + rewrite Forall_forall in *. intros e He. apply fold_vadd_In in He. destruct He; auto.
    + intros e. rewrite fold_vadd_In. tauto.
  - auto.
  - intros n es e _ _ _ _ [A|A]; [|destruct A]. apply fold_vadd_In in A. cbn in A. tauto.
  - tauto.
  - intros n t x y e _ _ _. unfold vmem. destruct (existsb (eeqb (x, y)) (v_edges t)) eqn:E; cbn; auto.
    apply existsb_eeqb in E. intros [A|[A|A]]; [apply filter_In in A; tauto|subst; auto|auto].
  - intros n a b e _ _ [A|A]; [apply fold_vadd_In in A; tauto|destruct A].
  - intros n t x y A Rx Ry. unfold vmem, vdead. pose proof (existsb_eeqb (x, y) (v_edges t)) as X. pose proof (existsb_eeqb (x, y) (v_dead t)) as Y.
    destruct (existsb (eeqb (x, y)) (v_edges t)) eqn:E; cbn.
    + split; [tauto|]. split; [auto|]. split; [|auto]. intros e; split; auto. intros [He| ->]; auto. apply X; auto.
    + destruct (existsb (eeqb (x, y)) (v_dead t)) eqn:D; cbn.
      * split; [tauto|]. destruct A as [A1 [A2 A3]]. split; [split; [|split]; cbn; auto|].
        -- constructor; [|auto]. intros Z. apply X in Z. discriminate.
        -- split; [intros e; split; intuition congruence|].
           intros e [[Z|Z]|Z]; [subst; right; apply Y; auto|auto|apply filter_In in Z; tauto].
      * split; [|auto]. split; [discriminate|]. intros [Z|Z]; [apply X in Z|apply Y in Z]; discriminate.
  - intros n t x y A _ _ I. unfold vmem. apply existsb_eeqb in I. rewrite I. reflexivity.
  - intros t. apply andb_true_iff; split; apply forallb_forall; intros e He; apply existsb_eeqb; auto.
  - intros n a b _ _ A e. apply andb_true_iff in A. destruct A as [A1 A2].
    rewrite forallb_forall in A1, A2. split; intros He.
    + apply existsb_eeqb, A1; auto.
    + apply existsb_eeqb, A2; auto.
Defined.

(** It revives: after build [(0,0)], erase (0,0), adj_forced(0,0) answers true and the edge is back. *)
Lemma K2Rev_revives : ~ adjf_is_query K2Rev_laws.
Proof.
  intros Q. set (t := snd (kt_erase K2Rev (kt_build K2Rev [(0, 0)]%N 2) 0 0)).
  assert (X : In (0, 0)%N (kt_edges K2Rev t)); [|destruct X].
  apply (Q 2%N).
  - apply (law_erase K2Rev_laws 2); [|lia|lia]. apply (law_build K2Rev_laws 2 [(0, 0)%N]); [lia|discriminate| |repeat constructor].
    constructor; [auto|constructor].
  - right. left. reflexivity.
Qed.
