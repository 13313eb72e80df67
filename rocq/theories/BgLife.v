(** * BgLife: the end of a DKtree_background object, include/dktree/DKtree_background.hpp:35-36, :60, :106-109, :124.

    The merging thread is detached and holds a reference to the object; the destructor waits for needs_work to be false, clears run,
    and returns, after which the members no longer exist.  Only the two flags and the program points that access the object are
    kept: the work between reading needs_work and clearing it (:38-59) is one step that accesses the object. *)
From Verif Require Import Base.

(** the destructor: at :107, at :108, at the closing brace, after it *)
Inductive dpc := DWait | DStop | DClose | DGone.
(** the thread: about to read run (:35), about to read needs_work (:36), about to work and clear needs_work (:38-60), ended *)
Inductive tpc := TRun | TNeed | TWork | TEnd.
Record life := mklife { l_run : bool; l_nw : bool; l_d : dpc; l_t : tpc; l_bad : bool }.
(** the state when the destructor is entered: the thread can be at any of its points; needs_work is set while it works *)
Definition life_start (nw : bool) (t : tpc) : life := mklife true nw DWait t false.

Inductive lact := LDes | LThr.
Definition life_step (a : lact) (l : life) : life :=
  match a with
  | LDes =>
    match l_d l with
    | DWait => if l_nw l then l else mklife (l_run l) (l_nw l) DStop (l_t l) (l_bad l)
    | DStop => mklife false (l_nw l) DClose (l_t l) (l_bad l)
    | DClose => mklife (l_run l) (l_nw l) DGone (l_t l) (l_bad l)
    | DGone => l
    end
  | LThr =>
    (* an access to a member that no longer exists is undefined behaviour *)
    let bad := match l_d l with DGone => true | _ => l_bad l end in
    match l_t l with
    | TRun => mklife (l_run l) (l_nw l) (l_d l) (if l_run l then TNeed else TEnd) bad
    | TNeed => mklife (l_run l) (l_nw l) (l_d l) (if l_nw l then TWork else TRun) bad
    | TWork => mklife (l_run l) false (l_d l) TRun bad
    | TEnd => l
    end
  end.
Definition life_run (s : list lact) (l : life) : life := fold_left (fun l a => life_step a l) s l.

(** what is true at the start *)
Definition life_ok (nw : bool) (t : tpc) : Prop := t <> TEnd /\ (t = TWork -> nw = true).

(** The thread can end only between :108 and the closing brace. *)
Lemma life_inv s : forall nw t, life_ok nw t -> let l := life_run s (life_start nw t) in
  (l_bad l = true -> l_d l = DGone) /\
  (l_t l = TEnd -> l_d l = DClose \/ l_d l = DGone) /\
  (l_d l = DWait \/ l_d l = DStop -> l_run l = true) /\
  (l_d l <> DWait -> l_nw l = false /\ l_t l <> TWork) /\
  (l_t l = TWork -> l_nw l = true) /\
  (l_d l = DClose \/ l_d l = DGone -> l_run l = false).
Proof.
  intros nw t [O1 O2]. induction s as [|a s IH] using rev_ind.
  - cbn. sp; intuition congruence.
  - unfold life_run in *. rewrite fold_left_app. cbn [fold_left]. destruct (fold_left _ s (life_start nw t)) as [r w d p b]. cbn in *.
    destruct IH as (I1 & I2 & I3 & I4 & I5 & I6).
    destruct a, d, p, r, w; cbn in *; intuition (try congruence).
Qed.
Lemma life_app s1 s2 l : life_run (s1 ++ s2) l = life_run s2 (life_run s1 l).
Proof. apply fold_left_app. Qed.
