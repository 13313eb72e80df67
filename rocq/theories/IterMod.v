(** * IterMod: a graph that is modified inside a loop over its edges or over the neighbours of a vertex.

    The graph is object 0 of a process (Alias.v); the body of the loop calls add_edge and del_edge on it.
    Edge iterator, DKtreeEdgeIterator.hpp:52-153, :216-227: holds a copy of the buffer and shared pointers to the trees.
    Neighbour iterator, DKtreeNeighbourIterator.hpp:23-118, :126-134: holds a pointer to the graph and one to its buffer, and inside a tree an iterator
    of the tree (external class), which keeps no shared pointer.
    An iterator of a tree is the list of what it has still to yield (as in Iter.v).  Two things are added here.  If the tree object has been destroyed (no
    graph refers to it), using the iterator is undefined behaviour: [LDead].  If the tree has been changed, what its iterator does is not known: no rule applies.
    (A tree is also kept alive by edge iterators; those can be added to the process as further objects.) *)
From Verif Require Import Base Spec Thresholds K2 C0 C0Proof DK DKProof DKHist Iter IterProof Alias AliasProof AliasFrame.

Section M.
Context (T : thresholds) (K : k2impl).
Local Notation ktree := (kt K).
Local Notation world := (world K).

(** The calls of one execution of the body; None: a call did not complete. *)
Definition calls (w : world) (b : list op) : option world := match wrun T K w (map (WOp 0) b) with Done w => Some w | _ => None end.

(** How a loop ends: normally, having seen these values; a call of the body did not complete; the iterator used a destroyed tree or read out of bounds;
    the body did something the theorem at hand does not allow. *)
Inductive lout (V : Type) := LEnd (seen : list V) (w : world) | LStop | LDead | LOut.

(** for (auto it = g.edge_begin(); it != g.edge_end(); ++it) body.  [rs] are the shared pointers of the iterator.  What the body does may depend on all the
    values seen so far.  [ok]: the class of bodies considered. *)
Inductive eloop (ok : world -> list op -> Prop) (rs : list (option nat)) (body : list edge -> list op) : world -> eit K -> list edge -> lout edge -> Prop :=
| el_end w it seen : eit_at_end K it = true -> eloop ok rs body w it seen (LEnd _ seen w)
| el_out w it seen : eit_at_end K it = false -> ~ ok w (body (seen ++ [ei_ptr it])) -> eloop ok rs body w it seen (LOut _)
| el_stop w it seen : eit_at_end K it = false -> calls w (body (seen ++ [ei_ptr it])) = None -> eloop ok rs body w it seen (LStop _)
| el_step w it seen w' it' r : eit_at_end K it = false -> ok w (body (seen ++ [ei_ptr it])) -> calls w (body (seen ++ [ei_ptr it])) = Some w' ->
    map (deref K (w_hp w')) rs = ei_ks it -> eit_next K it = Ok it' -> eloop ok rs body w' it' (seen ++ [ei_ptr it]) r -> eloop ok rs body w it seen r.

(** The tree (number of the object, and its value) a neighbour iterator that has just been moved stands in. *)
Definition cell (hp : list ktree) (d : obj) (it : nit) : option (nat * ktree) :=
  if (ni_c0i it || nit_at_end it)%bool then None else
  match ni_cur it with
  | Some i => match nth_error (o_ks d) i with Some (Some r) => match nth_error hp r with Some t => Some (r, t) | None => None end | _ => None end
  | None => None
  end.
(** ++it stayed in the tree it was in (DKtreeNeighbourIterator.hpp:112), or looked up another one in k_collection. *)
Definition stayed (it it' : nit) : bool :=
  match ni_cur it, ni_cur it' with Some i, Some j => (negb (ni_c0i it) && (i =? j))%bool | _, _ => false end.
Definition alive (w : world) (r : nat) : Prop := exists d, In d (w_os w) /\ In (Some r) (o_ks d).
Definition usable (w : world) (c : option (nat * ktree)) : Prop :=
  match c with Some (r, t) => alive w r /\ nth_error (w_hp w) r = Some t | None => True end.

(** for (auto it = g.neighbour_begin(x); it != g.neighbour_end(); ++it) body. *)
Inductive nloop (ok : list Z -> world -> list op -> Prop) (x : N) (body : list Z -> list op) : world -> nit -> option (nat * ktree) -> list Z -> lout Z -> Prop :=
| nl_end w it c seen : nit_at_end it = true -> nloop ok x body w it c seen (LEnd _ seen w)
| nl_out w it c seen : nit_at_end it = false -> ~ ok (seen ++ [ni_ptr it]) w (body (seen ++ [ni_ptr it])) -> nloop ok x body w it c seen (LOut _)
| nl_stop w it c seen : nit_at_end it = false -> calls w (body (seen ++ [ni_ptr it])) = None -> nloop ok x body w it c seen (LStop _)
| nl_dead w it r t seen w' : nit_at_end it = false -> calls w (body (seen ++ [ni_ptr it])) = Some w' -> ~ alive w' r -> nloop ok x body w it (Some (r, t)) seen (LDead _)
| nl_ub w it c seen w' d : nit_at_end it = false -> calls w (body (seen ++ [ni_ptr it])) = Some w' -> usable w' c ->
    nth_error (w_os w') 0 = Some d -> nit_next K (view K (w_hp w') d) x it = UB -> nloop ok x body w it c seen (LDead _)
| nl_step w it c seen w' d it' r : nit_at_end it = false -> ok (seen ++ [ni_ptr it]) w (body (seen ++ [ni_ptr it])) -> calls w (body (seen ++ [ni_ptr it])) = Some w' ->
    usable w' c -> nth_error (w_os w') 0 = Some d -> nit_next K (view K (w_hp w') d) x it = Ok it' ->
    nloop ok x body w' it' (if stayed it it' then c else cell (w_hp w') d it') (seen ++ [ni_ptr it]) r -> nloop ok x body w it c seen r.

(** ** Classes of bodies *)
(** Every edge deleted is in the buffer when it is deleted. *)
Definition buffered (w : world) (e : edge) : Prop := exists d, nth_error (w_os w) 0 = Some d /\ c0_contains (o_c0 d) e = Ok true.
(** The k_collection of the graph is the same. *)
Definition same_trees (w w' : world) : Prop := exists d d', nth_error (w_os w) 0 = Some d /\ nth_error (w_os w') 0 = Some d' /\ o_ks d' = o_ks d.
Fixpoint each (P : world -> op -> world -> Prop) (w : world) (b : list op) : Prop :=
  match b with
  | [] => True
  | o :: b => match wstep T K w (WOp 0 o) with Done w' => P w o w' /\ each P w' b | _ => True end
  end.
(** Insertions, and deletions of buffered edges. *)
Definition edge_ok (n : N) (w : world) (o : op) (_ : world) : Prop :=
  match o with Add e => in_range n e | Del e => in_range n e /\ buffered w e end.
(** Insertions that build no tree, and deletions of buffered edges, those of x only if already seen. *)
Definition neigh_ok (n : N) (x : N) (seen : list Z) (w : world) (o : op) (w' : world) : Prop :=
  match o with
  | Add e => in_range n e /\ same_trees w w'
  | Del e => in_range n e /\ buffered w e /\ (fst e = x -> In (Z.of_N (snd e)) seen)
  end.
End M.
Arguments LEnd {K V}. Arguments LStop {K V}. Arguments LDead {K V}. Arguments LOut {K V}.
