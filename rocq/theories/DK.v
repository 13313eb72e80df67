(** * DK: the graph class DKtree, include/dktree/DKtree.hpp.

    Iterators are in Iter.v, serialization in Serial.v.  Simplification: [k_collection] owns its trees
    (sharing through copies of the object is the subject of Alias.v); counters are unbounded except that
    [n_total_edges--] wraps at 0. *)
From Verif Require Import Base Spec Thresholds K2 C0.

Section DK.
Context (T : thresholds) (K : k2impl).
Local Notation ktree := (kt K).

(** utils.hpp:9 *)
Definition RS : nat := 8.

(** DKtree.hpp:50-61 *)
Record dk := mkdk {
  max_r : nat;
  nv : N;                      (* n_vertices *)
  nt : N;                      (* n_total_edges *)
  C0_ : c0;
  ks : list (option ktree)     (* k_collection, length 8; None = nullptr *)
}.

(** DKtree.hpp:70-79 *)
Definition dk_new (n : N) : out dk :=
  let* c := c0_new T n in
  Ok (mkdk 0 n 0 c (repeat None RS)).

(** DKtree.hpp:151-160: the loop over the trees stops at the first hit. *)
Fixpoint ks_adj (l : list (option ktree)) (x y : N) : bool :=
  match l with
  | [] => false
  | Some t :: l => kt_adj K t x y || ks_adj l x y
  | None :: l => ks_adj l x y
  end.
Definition dk_contains (g : dk) (x y : N) : out bool :=
  let* b := c0_contains (C0_ g) (x, y) in
  Ok (if b then true else ks_adj (ks g) x y).

(** DKtree.hpp:167-176: as contains, with adj_forced, which may change the tree it is called on. *)
Fixpoint ks_adjf (l : list (option ktree)) (x y : N) : bool * list (option ktree) :=
  match l with
  | [] => (false, [])
  | Some t :: l =>
    let (b, t') := kt_adjf K t x y in
    if b then (true, Some t' :: l)
    else let (b', l') := ks_adjf l x y in (b', Some t' :: l')
  | None :: l => let (b', l') := ks_adjf l x y in (b', None :: l')
  end.
Definition dk_contains_forced (g : dk) (x y : N) : out (bool * dk) :=
  let* b := c0_contains (C0_ g) (x, y) in
  Ok (if b then (true, g)
      else let (b', ks') := ks_adjf (ks g) x y in
           (b', mkdk (max_r g) (nv g) (nt g) (C0_ g) ks')).

(** max(n_vertices, n_total_edges) *)
Definition dk_m (g : dk) : N := N.max (nv g) (nt g).

(** DKtree.hpp:111-117, the search for a level: starting at level i with the running total [acc];
    [None] when it runs off the end (i >= RS). *)
Fixpoint find_level (m : N) (l : list (option ktree)) (i : nat) (acc : N) : option nat :=
  match l with
  | [] => None
  | o :: l =>
    let acc := match o with Some t => (acc + kt_total K t)%N | None => acc end in
    if (acc + 1 <? th_max T m (S i))%N then Some i else find_level m l (S i) acc
  end.

(** DKtree.hpp:135-140: tmp->unionOp(k_collection[j]) for j <= i, resetting each. *)
Fixpoint merge_upto (tmp : ktree) (l : list (option ktree)) (cnt : nat) : ktree * list (option ktree) :=
  match cnt, l with
  | S c, o :: l =>
    let tmp := match o with Some t => kt_union K tmp t | None => tmp end in
    let (r, l') := merge_upto tmp l c in (r, None :: l')
  | _, _ => (tmp, l)
  end.

(** DKtree.hpp:101-144.  [max_size] is a size_t initialised from MAXSZ: UB when m = 1 (C0.maxsz). *)
Definition dk_add (g : dk) (x y : N) : res dk :=
  let+ p := dk_contains_forced g x y in
  let (found, g) := p in
  if found then Done g else
  let m := dk_m g in
  let+ max_size := maxsz T m 0 in
  if (N.of_nat (c0_size (C0_ g)) <? max_size)%N then
    let+ c := c0_insert T (C0_ g) (x, y) (nt g) in
    Done (mkdk (max_r g) (nv g) (nt g + 1) c (ks g))
  else
    match find_level m (ks g) 0 max_size with
    | None => Thrown g
    | Some i =>
      let+ conv := c0_converted (C0_ g) in
      let tmp := kt_build K (conv ++ [(x, y)]) (nv g) in
      let+ c := c0_clean (C0_ g) in
      let (tmp, l) := merge_upto tmp (ks g) (S i) in
      Done (mkdk (Nat.max i (max_r g)) (nv g) (nt g + 1) c (upd l i (Some tmp)))
    end.

(** DKtree.hpp:188-192: erase in the first tree that has the edge. *)
Fixpoint ks_erase (l : list (option ktree)) (x y : N) : bool * list (option ktree) :=
  match l with
  | [] => (false, [])
  | Some t :: l =>
    let (b, t') := kt_erase K t x y in
    if b then (true, Some t' :: l)
    else let (b', l') := ks_erase l x y in (b', Some t' :: l')
  | None :: l => let (b', l') := ks_erase l x y in (b', None :: l')
  end.

(** DKtree.hpp:194-204: sum of marked edges over the trees that keep a live edge; the others are reset. *)
Fixpoint ks_sweep (l : list (option ktree)) : N * list (option ktree) :=
  match l with
  | [] => (0%N, [])
  | Some t :: l =>
    let (k, l') := ks_sweep l in
    if (kt_marked K t =? kt_total K t)%N then (k, None :: l') else ((kt_marked K t + k)%N, Some t :: l')
  | None :: l => let (k, l') := ks_sweep l in (k, None :: l')
  end.

(** DKtree.hpp:209-215: the level that receives the rebuilt tree (max_size is computed and not used). *)
Fixpoint rebuild_level (m : N) (nt : N) (cnt i : nat) : nat :=
  match cnt with
  | O => i
  | S c => if (nt <? th_max T m (S i))%N then i else rebuild_level m nt c (S i)
  end.

(** DKtree.hpp:236-241: tmp->unionOp for every tree; a null tmp is dereferenced. *)
Fixpoint merge_all (tmp : option ktree) (l : list (option ktree)) : out (option ktree) :=
  match l with
  | [] => Ok tmp
  | None :: l => merge_all tmp l
  | Some t :: l =>
    match tmp with
    | None => UB
    | Some a => merge_all (Some (kt_union K a t)) l
    end
  end.

(** DKtree.hpp:207-244, the rebuild.  [add_edge(1,1)] may itself throw.  k_collection[i] with i = 8 is
    out of bounds. *)
Definition dk_rebuild (g : dk) : res dk :=
  let i := rebuild_level (dk_m g) (nt g) RS 0 in
  let+ p := (if c0_size (C0_ g) =? 0
             then let* oo := dk_contains g 1 1 in Ok (oo, true)
             else Ok (false, false)) in
  let (oo, dummy) := p in
  match (if dummy then dk_add g 1 1 else Done g) with
  | Undefined => Undefined
  | Thrown g => Thrown g
  | Done g =>
    let+ q := (if 0 <? c0_size (C0_ g)
               then let* conv := c0_converted (C0_ g) in
                    let* c := c0_clean (C0_ g) in
                    Ok (Some (kt_build K conv (nv g)), c)
               else Ok (None, C0_ g)) in
    let (tmp, c) := q in
    let+ tmp := merge_all tmp (ks g) in
    if i <? RS then
      match oo, tmp with
      | true, _ => Done (mkdk (max_r g) (nv g) (nt g) c (upd (repeat None RS) i tmp))
      | false, None => Undefined
      | false, Some t =>
        let (_, t) := kt_erase K t 1 1 in
        Done (mkdk (max_r g) (nv g) (nt g) c (upd (repeat None RS) i (Some t)))
      end
    else Undefined
  end.

(** DKtree.hpp:183-246 *)
Definition dk_del (g : dk) (x y : N) : res dk :=
  let+ p := c0_erase (C0_ g) (x, y) in
  let (b, c) := p in
  if b then Done (mkdk (max_r g) (nv g) (u64_dec (nt g)) c (ks g))
  else
    let (eb, l) := ks_erase (ks g) x y in
    let n' := if eb then u64_dec (nt g) else nt g in
    let (marked, l) := ks_sweep l in
    let g := mkdk (max_r g) (nv g) n' c l in
    if th_trig T marked n' then dk_rebuild g else Done g.

(** DKtree.hpp:252-262.  The loop condition is l <= max_r, an out-of-bounds read when max_r >= 8. *)
Fixpoint ks_neigh (l : list (option ktree)) (x : N) : list N :=
  match l with
  | [] => []
  | Some t :: l => kt_neigh K t x ++ ks_neigh l x
  | None :: l => ks_neigh l x
  end.
Definition dk_neigh (g : dk) (x : N) : out (list N) :=
  let* l := c0_neigh (C0_ g) x in
  if max_r g <? length (ks g) then Ok (l ++ ks_neigh (firstn (S (max_r g)) (ks g)) x) else UB.

(** DKtree.hpp:82-89 *)
Definition dk_edges (g : dk) : N := nt g.
Definition dk_nodes (g : dk) : N := nv g.

(** ** Histories *)
Definition dk_op (g : dk) (o : Spec.op) : res dk :=
  match o with
  | Spec.Add (x, y) => dk_add g x y
  | Spec.Del (x, y) => dk_del g x y
  end.
Fixpoint dk_ops (g : dk) (h : list Spec.op) : res dk :=
  match h with
  | [] => Done g
  | o :: t => match dk_op g o with Done g => dk_ops g t | Thrown g => Thrown g | Undefined => Undefined end
  end.
(** A fresh graph on n vertices, then the calls of h, each completing normally. *)
Definition dk_hist (n : N) (h : list Spec.op) : res dk :=
  let+ g := dk_new n in dk_ops g h.

End DK.
Arguments max_r {K}. Arguments nv {K}. Arguments nt {K}. Arguments C0_ {K}. Arguments ks {K}.
Arguments mkdk {K}.
