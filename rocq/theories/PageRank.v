(** * PageRank: Algorithm::pageRank, Algorithm.hpp:201-269, in exact real arithmetic.

    The C++ code computes in double; rounding is not modelled.  Divisions by zero (no vertex has an out-edge) are
    excluded by the theorems. *)
From Coq Require Import Reals Lra.
From Verif Require Import Base Spec Thresholds K2 C0 DK.
Open Scope R_scope.

Definition rsum (l : list R) : R := fold_right Rplus 0 l.

(** pr[i] += v *)
Definition bump (pr : list R) (i : nat) (v : R) : out (list R) :=
  let* o := get pr i in set pr i (o + v).

(** Algorithm.hpp:240-245: for (neigh : outgoing_link[i]) pr[neigh] += alpha * old_pr[i] * k *)
Fixpoint spread (pr : list R) (ys : list N) (v : R) : out (list R) :=
  match ys with
  | [] => Ok pr
  | y :: ys => let* pr := bump pr (N.to_nat y) v in spread pr ys v
  end.

(** Algorithm.hpp:249-252 *)
Fixpoint err (pr old : list R) : R :=
  match pr, old with
  | a :: pr, b :: old => Rabs (a - b) + err pr old
  | _, _ => 0
  end.

Section Rank.
Context (nn : nat) (alpha conv : R) (outs : list (list N)).
Local Notation nR := (INR nn).

(** Algorithm.hpp:213-216: total_nodes *)
Definition total_nodes : nat := length (filter (fun l => negb (length l =? 0)%nat) outs).
(** Algorithm.hpp:217-221, 232-236: alpha times the sum of old_pr over the dangling vertices *)
Fixpoint dangling (os : list (list N)) (old : list R) : R :=
  match os, old with
  | [] :: os, r :: old => r + dangling os old
  | _ :: os, _ :: old => dangling os old
  | _, _ => 0
  end.

(** Algorithm.hpp:238-260, the for loop over i; (true, pr) is the early return. *)
Fixpoint sweep (old : list R) (dsum : R) (os : list (list N)) (i : nat) (pr : list R) : out (bool * list R) :=
  match os with
  | [] => Ok (false, pr)
  | ys :: os =>
    let* oi := get old i in
    let* pr := spread pr ys (alpha * oi * (1 / INR (length ys))) in
    let* pr := bump pr i (dsum * (1 / nR) + (1 - alpha) * (1 / nR)) in
    if Rlt_dec (err pr old) (nR * conv) then Ok (true, pr) else sweep old dsum os (S i) pr
  end.

(** Algorithm.hpp:223-225 *)
Definition pr_init : list R := repeat (1 / INR total_nodes) nn.

(** One pass of the while loop, Algorithm.hpp:228-262 *)
Definition pass (old : list R) : out (bool * list R) :=
  sweep old (dangling outs old * alpha) outs 0 (repeat 0 nn).
(** Algorithm.hpp:227-268; [k] is max_iterations - step *)
Fixpoint pr_loop (k : nat) (pr : list R) : out (list R) :=
  match k with
  | O => Ok pr
  | S k => let* q := pass pr in let (stop, pr) := q in if stop then Ok pr else pr_loop k pr
  end.
End Rank.

(** Algorithm.hpp:211-216: outgoing_link *)
Fixpoint out_links (K : k2impl) (g : dk K) (vs : list N) : out (list (list N)) :=
  match vs with
  | [] => Ok []
  | v :: vs => let* l := dk_neigh K g v in let* r := out_links K g vs in Ok (l :: r)
  end.
Definition all_vertices (n : N) : list N := map N.of_nat (seq 0 (N.to_nat n)).

(** Algorithm.hpp:205-269 *)
Definition pageRank (K : k2impl) (g : dk K) (conv : R) (max_iterations : nat) (alpha : R) : out (list R) :=
  let nn := N.to_nat (dk_nodes K g) in
  let* outs := out_links K g (all_vertices (dk_nodes K g)) in
  pr_loop nn alpha conv outs max_iterations (pr_init nn outs).
