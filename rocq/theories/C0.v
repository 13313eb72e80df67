(** * C0: the uncompressed buffer, include/dktree/Container0.hpp and EdgeHashTable.hpp.

    Simplifications common to the file: the hash map and adjacency map are association
    lists with at most one entry per key (the standard's semantics; the hash function is irrelevant
    to it); uint32/uint64 counters are [nat]/[N] without wrap-around (slots are bounded by the capacity). *)
From Verif Require Import Base Thresholds K2.

(** EdgeHashTable.hpp:22-61, NodeEdge: next/prev with a "set" flag each. *)
Record node := mknode { nx : option nat; pv : option nat }.
Definition node0 := mknode None None.

(** Container0.hpp:270-282.  [c_nodes] holds [None] for a default-constructed Edge, whose
    coordinates are indeterminate (Graph.hpp:55, Edge() {}). *)
Record c0 := mkc0 {
  c_lst : list (edge * nat);      (* edge_lst *)
  c_adj : list (N * nat);         (* adj_map *)
  c_els : list node;              (* elements *)
  c_nodes : list (option edge);   (* elements_nodes *)
  c_free : list Z;                (* edge_free *)
  c_marked : nat;                 (* marked *)
  c_n : nat;                      (* n_elements *)
  c_max : nat;                    (* max_edges *)
  c_nv : N                        (* n_vertices *)
}.

Notation eget := (aget eeqb).
Notation eset := (aset eeqb).
Notation edel := (adel eeqb).
Notation nget := (aget N.eqb).
Notation nset := (aset N.eqb).
Notation ndel := (adel N.eqb).

(** [size_t x = MAXSZ(m,i)] : utils.hpp:8.  For m = 1 the value is +inf and the conversion to an
    integer is undefined behaviour. *)
Definition maxsz (T : thresholds) (m : N) (i : nat) : out N :=
  if N.eqb m 1 then UB else Ok (th_max T m i).

(** edge_free[i] = i for i in [0, m) : the loops at Container0.hpp:36, :67, :260 *)
Definition iota (m : nat) : list Z := map Z.of_nat (seq 0 m).

(** Container0.hpp:25-39 (and :41-56, which differs only in reserve) *)
Definition c0_new (T : thresholds) (n : N) : out c0 :=
  let* m := maxsz T n 0 in
  let m := N.to_nat m in
  Ok (mkc0 [] [] (repeat node0 m) (repeat None m) (iota m) 0 0 m n).

(** Container0.hpp:58-70 *)
Definition c0_clean (c : c0) : out c0 :=
  if length (c_free c) <? c_max c then UB else
  Ok (mkc0 [] [] (repeat node0 (c_max c)) (repeat None (c_max c))
           (iota (c_max c) ++ skipn (c_max c) (c_free c)) 0 0 (c_max c) (c_nv c)).

(** Container0.hpp:76-85 *)
Definition c0_contains (c : c0) (e : edge) : out bool :=
  match eget e (c_lst c) with
  | Some m => let* f := get (c_free c) m in Ok (negb (Z.eqb f (-1)))
  | None => Ok false
  end.

(** The loop at Container0.hpp:182-184: edge_free[i] = i for i in [n, length). *)
Definition fill_free (l : list Z) (n : nat) : list Z :=
  firstn n l ++ map Z.of_nat (seq n (length l - n)).

(** Container0.hpp:176-187 *)
Definition c0_resize (c : c0) (m : nat) : c0 :=
  if c_max c <? m then
    mkc0 (c_lst c) (c_adj c) (vresize (c_els c) m node0) (vresize (c_nodes c) m None)
         (fill_free (vresize (c_free c) m 0%Z) (c_n c)) (c_marked c) (c_n c) m (c_nv c)
  else c.

Definition set_nx (v : option nat) (d : node) := mknode v (pv d).
Definition set_pv (v : option nat) (d : node) := mknode (nx d) v.
(** elements[i].f(...) *)
Definition modify (l : list node) (i : nat) (f : node -> node) : out (list node) :=
  let* d := get l i in set l i (f d).

(** Container0.hpp:87-105.  [etype i = edge_free[n_elements]] of a freed slot is 2^32-1, past the end
    of every vector: UB. *)
Definition c0_insert (T : thresholds) (c : c0) (e : edge) (ne : N) : out c0 :=
  match eget e (c_lst c) with
  | Some _ => Ok c
  | None =>
    let* c := if length (c_els c) <=? c_n c
              then let* m := maxsz T (N.max (c_nv c) ne) 0 in Ok (c0_resize c (N.to_nat m))
              else Ok c in
    let* f := get (c_free c) (c_n c) in
    if (f <? 0)%Z then UB else
    let i := Z.to_nat f in
    let* nodes := set (c_nodes c) i (Some e) in
    let lst := eset e i (c_lst c) in
    let x := fst e in
    let* els := match nget x (c_adj c) with
                | None => Ok (c_els c)
                | Some h => let* els := modify (c_els c) i (set_nx (Some h)) in
                            modify els h (set_pv (Some i))
                end in
    Ok (mkc0 lst (nset x i (c_adj c)) els nodes (c_free c) (c_marked c) (S (c_n c)) (c_max c) (c_nv c))
  end.

(** Container0.hpp:107-130 *)
Definition c0_erase (c : c0) (e : edge) : out (bool * c0) :=
  match eget e (c_lst c) with
  | None => Ok (false, c)
  | Some k =>
    let lst := edel e (c_lst c) in
    let x := fst e in
    let* d := get (c_els c) k in
    let* p := match nx d, pv d with
              | None, None => Ok (ndel x (c_adj c), c_els c)
              | None, Some p => let* els := modify (c_els c) p (set_nx None) in Ok (c_adj c, els)
              | Some q, None => let* els := modify (c_els c) q (set_pv None) in Ok (nset x q (c_adj c), els)
              | Some q, Some p => let* els := modify (c_els c) q (set_pv (Some p)) in
                                  let* els := modify els p (set_nx (Some q)) in Ok (c_adj c, els)
              end in
    let* fr := set (c_free c) k (-1)%Z in
    Ok (true, mkc0 lst (fst p) (snd p) (c_nodes c) fr (S (c_marked c)) (c_n c) (c_max c) (c_nv c))
  end.

(** elements_nodes[k], read as a value *)
Definition node_at (c : c0) (k : nat) : out edge :=
  let* o := get (c_nodes c) k in
  match o with Some e => Ok e | None => UB end.

(** Container0.hpp:136-144, the loop; running past the fuel is UB (a cyclic chain). *)
Fixpoint chain_walk (c : c0) (fuel : nat) (k : nat) : out (list N) :=
  match fuel with
  | O => UB
  | S f =>
    let* e := node_at c k in
    let* d := get (c_els c) k in
    match nx d with
    | None => Ok [snd e]
    | Some q => let* l := chain_walk c f q in Ok (snd e :: l)
    end
  end.

(** Container0.hpp:132-146 (neigh_it, :148-162, visits the same sequence) *)
Definition c0_neigh (c : c0) (x : N) : out (list N) :=
  match nget x (c_adj c), c_els c with
  | Some k, _ :: _ => chain_walk c (S (length (c_els c))) k
  | _, _ => Ok []
  end.

(** Container0.hpp:164-166 *)
Definition c0_size (c : c0) : nat := c_n c - c_marked c.

(** DKtree.hpp:124-130 = Container0 read through edge_free; used by add_edge and by the rebuild *)
Fixpoint conv_slots (c : c0) (js : list nat) : out (list edge) :=
  match js with
  | [] => Ok []
  | j :: t =>
    let* f := get (c_free c) j in
    if Z.eqb f (-1) then conv_slots c t
    else if (f <? 0)%Z then UB
    else let* e := node_at c (Z.to_nat f) in
         let* l := conv_slots c t in Ok (e :: l)
  end.
Definition c0_converted (c : c0) : out (list edge) := conv_slots c (seq 0 (c_n c)).

(** Container0.hpp:233-244.  elements_copy[i] of a deleted slot is a default Edge, whose coordinates
    are indeterminate: writing it to the archive is UB. *)
Fixpoint save_slots (c : c0) (js : list nat) : out (list edge) :=
  match js with
  | [] => Ok []
  | j :: t =>
    let* f := get (c_free c) j in
    if Z.eqb f (-1) then UB
    else let* e := node_at c j in
         let* l := save_slots c t in Ok (e :: l)
  end.
Definition c0_image := (N * nat * list edge)%type.
Definition c0_save (c : c0) : out c0_image :=
  let* l := save_slots c (seq 0 (c_n c)) in Ok (c_nv c, c_max c, l).

(** Container0.hpp:246-268: insert(x, y, n_elements) for each stored edge *)
Fixpoint load_edges (T : thresholds) (c : c0) (es : list edge) : out c0 :=
  match es with
  | [] => Ok c
  | e :: t => let* c := c0_insert T c e (N.of_nat (c_n c)) in load_edges T c t
  end.
Definition c0_load (T : thresholds) (im : c0_image) : out c0 :=
  let '(nv, m, es) := im in
  load_edges T (mkc0 [] [] (repeat node0 m) (repeat None m) (iota m) 0 0 m nv) es.

(** Equality of unordered maps: same size and every entry of one found in the other. *)
Definition map_eqb {K} (eqb : K -> K -> bool) (a b : list (K * nat)) : bool :=
  Nat.eqb (length a) (length b) &&
  forallb (fun p => match aget eqb (fst p) b with Some v => Nat.eqb v (snd p) | None => false end) a.

Fixpoint zlist_eqb (a b : list Z) : bool :=
  match a, b with
  | [], [] => true
  | x :: a, y :: b => Z.eqb x y && zlist_eqb a b
  | _, _ => false
  end.
Fixpoint nodes_eqb (a b : c0) (js : list nat) : out bool :=
  match js with
  | [] => Ok true
  | j :: t => let* e := node_at a j in let* f := node_at b j in
              let* r := nodes_eqb a b t in Ok (eeqb e f && r)
  end.

(** Container0.hpp:189-204.  The loop reads elements_nodes[i] of both sides for i < n_elements even
    when the sizes already differ. *)
Definition c0_eqb (a b : c0) : out bool :=
  let* r := nodes_eqb a b (seq 0 (c_n a)) in
  Ok (Nat.eqb (c_n a) (c_n b) && Nat.eqb (c_max a) (c_max b) && N.eqb (c_nv a) (c_nv b)
      && map_eqb eeqb (c_lst a) (c_lst b) && map_eqb N.eqb (c_adj a) (c_adj b)
      && Nat.eqb (length (c_nodes a)) (length (c_nodes b)) && r && zlist_eqb (c_free a) (c_free b)).
