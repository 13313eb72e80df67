(** * PRFloat: Algorithm::pageRank, Algorithm.hpp:201-269, in the arithmetic it is computed in: double, and float where the code writes
    1.0f / size().

    The numbers are Flocq's IEEE 754 numbers (53 and 24 bits), the operations are rounded in the mode [md] (any; the default is to nearest,
    ties to even).  Simplifications: no fused multiply-add and no wider intermediate results; total_nodes, a double that is incremented
    from 0, is the conversion of the count (exact below 2^53); all NaNs are one. *)
From Coq Require Import Reals.
From Flocq Require Import Core.Core IEEE754.BinarySingleNaN.
From Verif Require Import Base Spec Thresholds K2 C0 DK PageRank.
Open Scope nat_scope.

Definition double := binary_float 53 1024.
Definition single := binary_float 24 128.
Lemma p53 : Prec_gt_0 53. Proof. reflexivity. Qed.
Lemma p24 : Prec_gt_0 24. Proof. reflexivity. Qed.
Lemma l53 : Prec_lt_emax 53 1024. Proof. reflexivity. Qed.
Lemma l24 : Prec_lt_emax 24 128. Proof. reflexivity. Qed.
Local Existing Instances p53 p24 l53 l24.

Definition zero : double := B754_zero false.
Definition one : double := Bone.

Section Float.
Context (md : mode).
Definition dadd (x y : double) : double := Bplus md x y.
Definition dsub (x y : double) : double := Bminus md x y.
Definition dmul (x y : double) : double := Bmult md x y.
Definition ddiv (x y : double) : double := Bdiv md x y.
Definition dabs (x : double) : double := Babs x.
(** conversions of an unsigned integer to double and to float *)
Definition d_of (k : nat) : double := binary_normalize 53 1024 p53 l53 md (Z.of_nat k) 0 false.
Definition s_of (k : nat) : single := binary_normalize 24 128 p24 l24 md (Z.of_nat k) 0 false.
(** conversion of a float to double *)
Definition widen (x : single) : double :=
  match x with
  | B754_zero s => B754_zero s
  | B754_infinity s => B754_infinity s
  | B754_nan => B754_nan
  | B754_finite s m e _ => binary_normalize 53 1024 p53 l53 md (cond_Zopp s (Zpos m)) e s
  end.

(** pr[i] += v *)
Definition dbump (pr : list double) (i : nat) (v : double) : out (list double) :=
  let* o := get pr i in set pr i (dadd o v).
(** Algorithm.hpp:240-245 *)
Fixpoint dspread (pr : list double) (ys : list N) (v : double) : out (list double) :=
  match ys with
  | [] => Ok pr
  | y :: ys => let* pr := dbump pr (N.to_nat y) v in dspread pr ys v
  end.
(** Algorithm.hpp:249-252 *)
Fixpoint derr (pr old : list double) (acc : double) : double :=
  match pr, old with
  | a :: pr, b :: old => derr pr old (dadd acc (dabs (dsub a b)))
  | _, _ => acc
  end.

Section Rank.
Context (nn : nat) (alpha conv : double) (outs : list (list N)).
(** Algorithm.hpp:232-235 *)
Fixpoint ddangling (os : list (list N)) (old : list double) (acc : double) : double :=
  match os, old with
  | [] :: os, r :: old => ddangling os old (dadd acc r)
  | _ :: os, _ :: old => ddangling os old acc
  | _, _ => acc
  end.
(** Algorithm.hpp:243-244: 1.0f / size() is a float *)
Definition share (k : nat) : double := widen (Bdiv md (Bone : single) (s_of k)).
(** Algorithm.hpp:247 *)
Definition base (dsum : double) : double :=
  dadd (dmul dsum (ddiv one (d_of nn))) (dmul (dsub one alpha) (ddiv one (d_of nn))).
(** Algorithm.hpp:238-260 *)
Fixpoint dsweep (old : list double) (dsum : double) (os : list (list N)) (i : nat) (pr : list double) : out (bool * list double) :=
  match os with
  | [] => Ok (false, pr)
  | ys :: os =>
    let* oi := get old i in
    let* pr := dspread pr ys (dmul (dmul alpha oi) (share (length ys))) in
    let* pr := dbump pr i (base dsum) in
    if Bltb (derr pr old zero) (dmul (d_of nn) conv) then Ok (true, pr) else dsweep old dsum os (S i) pr
  end.
(** Algorithm.hpp:223-225 *)
Definition dinit : list double := repeat (ddiv one (d_of (total_nodes outs))) nn.
(** Algorithm.hpp:228-262 *)
Definition dpass (old : list double) : out (bool * list double) :=
  dsweep old (dmul (ddangling outs old zero) alpha) outs 0 (repeat zero nn).
(** Algorithm.hpp:227-268 *)
Fixpoint dloop (k : nat) (pr : list double) : out (list double) :=
  match k with
  | O => Ok pr
  | S k => let* q := dpass pr in let (stop, pr) := q in if stop then Ok pr else dloop k pr
  end.
End Rank.

(** Algorithm.hpp:205-269 *)
Definition pageRank_double (K : k2impl) (g : dk K) (conv : double) (max_iterations : nat) (alpha : double) : out (list double) :=
  let nn := N.to_nat (dk_nodes K g) in
  let* outs := out_links K g (all_vertices (dk_nodes K g)) in
  dloop nn alpha conv outs max_iterations (dinit nn outs).
End Float.
