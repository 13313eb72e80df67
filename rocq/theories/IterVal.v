(** * IterVal: iterators as variables of a program: initialised, copied, assigned, advanced and dereferenced in any order.

    One graph that is not modified; any number of iterator variables of one kind.  edge_begin(), node_begin() and neighbour_begin(x) assign to a
    member of the graph and return a reference to it (DKtree.hpp:275-279, 287-291, 302-305): the member is variable 0, [auto it = g.edge_begin()]
    copies it into a variable, [auto &it = g.edge_begin()] uses variable 0 itself. *)
From Verif Require Import Base Spec Thresholds K2 C0 DK Iter.

Section V.
(** S: the state of an iterator; A: the argument of begin.  [asg old new]: operator=.  [post]: operator++(int), which returns a reference to the
    advanced iterator. *)
Context {S V A : Type} (begin : A -> out S) (asg : S -> S -> S) (at_end : S -> bool) (val : S -> V) (next post : S -> out S).

Inductive vop :=
| VBegin (v : nat) (a : A)     (* v = 0: auto &r = g.begin(a); otherwise auto v = g.begin(a) *)
| VCopy (v w : nat)            (* auto v = w; *)
| VAssign (v w : nat)          (* v = w; *)
| VNext (v : nat)              (* ++v; *)
| VGet (v : nat)               (* use( *v ); *)
| VPost (v : nat).             (* use( *v++ ); *)

Definition env := nat -> option S.
Definition setv {X} (E : nat -> option X) (v : nat) (a : X) : nat -> option X := fun w => if Nat.eqb w v then Some a else E w.
Definition getv (E : env) (v : nat) : out S := match E v with Some s => Ok s | None => UB end.

(** The new variables and the values used. *)
Definition vstep (E : env) (o : vop) : out (env * list V) :=
  match o with
  | VBegin v a => let* m := getv E 0 in let* b := begin a in let m := asg m b in Ok (setv (setv E 0 m) v m, [])
  | VCopy v w => let* s := getv E w in Ok (setv E v s, [])
  | VAssign v w => let* s := getv E v in let* t := getv E w in Ok (setv E v (if Nat.eqb v w then s else asg s t), [])
  | VNext v => let* s := getv E v in let* s := next s in Ok (setv E v s, [])
  | VGet v => let* s := getv E v in Ok (E, [val s])
  | VPost v => let* s := getv E v in let* s := post s in Ok (setv E v s, [val s])
  end.
Fixpoint vrun (p : list vop) (E : env) : out (env * list V) :=
  match p with
  | [] => Ok (E, [])
  | o :: p => let* r := vstep E o in let* q := vrun p (fst r) in Ok (fst q, snd r ++ snd q)
  end.
(** Only the member exists. *)
Definition env0 (m : S) : env := fun w => if Nat.eqb w 0 then Some m else None.
End V.
Arguments vop : clear implicits.

(** Edge iterators.  DKtreeEdgeIterator.hpp:155-159: it++ does nothing at the end.  The copy constructor is the implicit one, it copies every member;
    operator= (:175-187) is [eit_assign].  The member it_edge_begin is default-constructed with the graph (:50, :216-227). *)
Section E.
Context (K : k2impl).
Definition eit0 : eit K := mkeit (mkc0 [] [] [] [] [] 0 0 0 0) (repeat None RS) MAXE (-1) (repeat [] RS) 0.
Definition eit_post (it : eit K) : out (eit K) := if eit_at_end K it then Ok it else eit_next K it.
Definition edge_prog (g : dk K) (p : list (vop unit)) : out (env * list edge) :=
  vrun (fun _ => eit_new K g) (eit_assign K) ei_ptr (eit_next K) eit_post p (env0 eit0).

(** Node iterators.  DKtreeNodeIterator.hpp:34-37 (copy), :65-68 (it++), :70-76 (operator=); :20-23 default. *)
Definition node_prog (n : N) (p : list (vop unit)) : out (env * list Z) :=
  vrun (fun _ => Ok (vit_begin n)) (fun _ t => t) vi_ptr vit_next vit_next p (env0 (mkvit (-1) 0)).

(** Neighbour iterators.  Copy and operator= are the implicit ones; DKtreeNeighbourIterator.hpp:60-65 (it++), :21 default (node is indeterminate, 0 here, and
    not read at the end).  The iterator knows its vertex (:127). *)
Definition nit_post (g : dk K) (s : N * nit) : out (N * nit) :=
  if nit_at_end (snd s) then Ok s else let* it := nit_next K g (fst s) (snd s) in Ok (fst s, it).
Definition neigh_prog (g : dk K) (p : list (vop N)) : out (env * list Z) :=
  vrun (fun x => let* it := nit_begin K g x in Ok (x, it)) (fun _ t => t) (fun s => ni_ptr (snd s))
    (fun s => let* it := nit_next K g (fst s) (snd s) in Ok (fst s, it)) (nit_post g) p (env0 (0%N, mknit (-1) (mkc0it (-1) 0) false None [])).
End E.
