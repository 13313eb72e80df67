(** * Algo: Algorithm.hpp and EdgeHashTable.hpp.

    The algorithms are templates over the graph; they are modelled for DKtree.  They run on the member [g], a copy of
    the graph made by the constructor (Algorithm.hpp:21) that nothing else modifies.  A for-loop over an iterator is
    represented by the sequence of values it sees ([visits], Spec.v), obtained by running the iterator model of Iter.v;
    the loop bodies do not modify the graph.  A while-loop is an inductive relation: a derivation exists iff the loop
    terminates without undefined behaviour. *)
From Verif Require Import Base Spec Thresholds K2 C0 DK Iter.

(** Conversion to etype = uint32_t or uint. *)
Definition to_u32 (z : Z) : N := Z.to_N (z mod 2 ^ 32).
Definition nmem (x : N) (l : list N) : bool := existsb (N.eqb x) l.

(** ** EdgeHashTable.hpp:99-202, the hash table of edges *)
Definition u64 (z : Z) : Z := (z mod 2 ^ 64)%Z.
(** EdgeHashTable.hpp:115-121 *)
Definition edge_to_uint64 (e : edge) : Z := Z.lor (u64 (Z.shiftl (Z.of_N (fst e)) 32)) (Z.of_N (snd e)).
(** EdgeHashTable.hpp:103-113; ~key is 2^64 - 1 - key on unsigned long *)
Definition edge_hash (e : edge) : Z :=
  let key := edge_to_uint64 e in
  let key := u64 ((2 ^ 64 - 1 - key) + u64 (Z.shiftl key 18)) in
  let key := Z.lxor key (Z.shiftr key 31) in
  let key := u64 (u64 (key + u64 (Z.shiftl key 2)) + u64 (Z.shiftl key 4)) in
  let key := Z.lxor key (Z.shiftr key 11) in
  let key := u64 (key + u64 (Z.shiftl key 6)) in
  let key := Z.lxor key (Z.shiftr key 22) in
  (key mod 2 ^ 32)%Z.

(** std::unordered_map<Edge, unsigned, Hash, Comparator> as a chained table: [nb] buckets, an edge lives in bucket
    hash mod nb, buckets are searched with Comparator (= Edge::operator==, EdgeHashTable.hpp:124-129).  Rehashing is
    not modelled: the number of buckets is a parameter. *)
Section Table.
Context (nb : nat).
Definition table := list (list (edge * N)).
Definition tb_new : table := repeat [] nb.
Definition bucket (e : edge) : nat := Z.to_nat (edge_hash e mod Z.of_nat nb).
(** EdgeHashTable.hpp:147-149 *)
Definition tb_insert (t : table) (e : edge) (i : N) : table :=
  upd t (bucket e) (aset eeqb e i (nth (bucket e) t [])).
(** EdgeHashTable.hpp:157-162; the mapped type is unsigned, the result int64_t *)
Definition tb_find (t : table) (e : edge) : Z :=
  match aget eeqb e (nth (bucket e) t []) with Some i => Z.of_N i | None => (-1)%Z end.
(** EdgeHashTable.hpp:164-166 *)
Definition tb_contains (t : table) (e : edge) : bool := negb (tb_find t e =? -1)%Z.
(** EdgeHashTable.hpp:168-170 *)
Definition tb_erase (t : table) (e : edge) : table := upd t (bucket e) (adel eeqb e (nth (bucket e) t [])).
(** EdgeHashTable.hpp:172-174 *)
Definition tb_size (t : table) : nat := length (concat t).
(** Algorithm.hpp:94-98, 154-158: for (...) edges_table.insert(x, y, index++) with uint index *)
Fixpoint tb_fill (t : table) (i : N) (es : list edge) : table :=
  match es with [] => t | e :: es => tb_fill (tb_insert t e (i mod 2 ^ 32)%N) (i + 1)%N es end.
End Table.

Section Algo.
Context (K : k2impl) (g : dk K).

(** for (auto it = g.neighbour_begin(x); it != g.neighbour_end(); ++it): the values *it *)
Definition nwalk (x : N) (l : list Z) : Prop := exists it, nit_begin K g x = Ok it /\ neigh_loop K g x it l.
(** for (auto it = g.edge_begin(); it != g.edge_end(); ++it): the pairs (it.x(), it.y()).  The loop variable is a copy
    of the member it_edge_begin, so the member's _i stays 0. *)
Definition ewalk (l : list edge) : Prop := exists it, dk_edge_begin K g 0 = Ok it /\ edge_loop K it l.
(** for (auto it = g.node_begin(); it != g.node_end(); ++it): the values *it *)
Definition vwalk (l : list Z) : Prop := node_loop (vit_begin (nv g)) l.

(** Algorithm.hpp:45-51 and 74-80: the body of the inner loop; [push] is push_back or push_front.  map::operator[]
    creates a false entry for an absent key, which is indistinguishable from absence here; [vis] holds the keys mapped
    to true. *)
Definition visit_body (push : list N -> N -> list N) (s : list N * list N) (z : Z) : list N * list N :=
  let y := to_u32 z in
  if nmem y (snd s) then s else (push (fst s) y, y :: snd s).

(** Algorithm.hpp:40-52 and 69-81: the while loop, from deque, visited, path to the final path. *)
Inductive search (push : list N -> N -> list N) : list N -> list N -> list N -> list N -> Prop :=
| search_stop vis path : search push [] vis path path
| search_step x q vis path zs q' vis' p : nwalk x zs ->
    fold_left (visit_body push) zs (q, vis) = (q', vis') ->
    search push q' vis' (path ++ [x]) p -> search push (x :: q) vis path p.

Definition push_back (q : list N) (y : N) : list N := q ++ [y].
Definition push_front (q : list N) (y : N) : list N := y :: q.
(** Algorithm.hpp:33-54 *)
Definition bfs (root : N) (p : list N) : Prop := search push_back [root] [root] [] p.
(** Algorithm.hpp:62-83.  neigh is an int; visited[neigh] and push_front(neigh) convert it to uint. *)
Definition dfs (root : N) (p : list N) : Prop := search push_front [root] [root] [] p.

(** Algorithm.hpp:101-107, 162-171: adj_node; an absent key reads as an empty vector. *)
Fixpoint adj_fill (vs : list Z) (m : list (N * list N)) : out (list (N * list N)) :=
  match vs with
  | [] => Ok m
  | v :: vs => let x := to_u32 v in
               let* l := dk_neigh K g x in
               adj_fill vs (match l with [] => m | _ => aset N.eqb x l m end)
  end.
Definition adj_at (m : list (N * list N)) (x : N) : list N := match aget N.eqb x m with Some l => l | None => [] end.

(** uint arithmetic: num_triangles++ *)
Definition u32_inc (r : N) : N := ((r + 1) mod 2 ^ 32)%N.

(** Algorithm.hpp:108-118.  Returns int. *)
Definition hash_inner (nb : nat) (t : table) (v1 v2 : N) (r : N) (u : N) : N :=
  if negb (N.eqb u v1) && negb (N.eqb u v2) && tb_contains nb t (u, v1) then u32_inc r else r.
Definition hash_edge (nb : nat) (t : table) (adj : list (N * list N)) (r : N) (e : edge) : N :=
  let (v1, v2) := e in
  if negb (N.eqb v1 v2) then fold_left (hash_inner nb t v1 v2) (adj_at adj v2) r else r.
(** Algorithm.hpp:91-120 *)
Definition triangles_hash (nb : nat) (r : Z) : Prop :=
  exists es vs adj es2, ewalk es /\ vwalk vs /\ adj_fill vs [] = Ok adj /\ ewalk es2 /\
    r = to_int (Z.of_N (fold_left (hash_edge nb (tb_fill nb (tb_new nb) 0 es) adj) es2 0%N)).

(** Algorithm.hpp:134-139: the inner loop of count_triangles_dummy.  contains is called on the graph. *)
Fixpoint dummy_inner (v1 : N) (zs : list Z) (r : N) : out N :=
  match zs with
  | [] => Ok r
  | z :: zs => let* b := dk_contains K g (to_u32 z) v1 in dummy_inner v1 zs (if b then u32_inc r else r)
  end.
(** Algorithm.hpp:128-143 (edge_it++ is pre-increment unless at the end, DKtreeEdgeIterator.hpp:155-159) *)
Inductive dummy_loop : list edge -> N -> N -> Prop :=
| dl_nil r : dummy_loop [] r r
| dl_loop v es r r' : dummy_loop es r r' -> dummy_loop ((v, v) :: es) r r'
| dl_edge v1 v2 zs es r r1 r' : v1 <> v2 -> nwalk v2 zs -> dummy_inner v1 zs r = Ok r1 -> dummy_loop es r1 r' ->
    dummy_loop ((v1, v2) :: es) r r'.
Definition triangles_dummy (r : N) : Prop := exists es, ewalk es /\ dummy_loop es 0 r.

(** Algorithm.hpp:273-275: node_degree >= sqrt(number of edges), as deg^2 >= edges: the double sqrt is correctly
    rounded and exact enough for edge counts below 2^52. *)
Definition heavy (deg : N) : bool := (dk_edges K g <=? deg * deg)%N.
(** Algorithm.hpp:277-280 *)
Definition minor (v1 d1 v2 d2 : N) : bool := (d1 <? d2)%N || (N.eqb d1 d2 && (v1 <? v2)%N).
(** Algorithm.hpp:173-187; degree_node[v] is the size of adj_node[v], 0 when absent. *)
Definition deg_at (adj : list (N * list N)) (v : N) : N := N.of_nat (length (adj_at adj v)).
Definition heavy_inner (nb : nat) (t : table) (adj : list (N * list N)) (v1 v2 : N) (r : N) (u : N) : N :=
  if tb_contains nb t (u, v2) && minor v1 (deg_at adj v1) u (deg_at adj u) then u32_inc r else r.
Definition heavy_edge (nb : nat) (t : table) (adj : list (N * list N)) (r : N) (e : edge) : N :=
  let (v1, v2) := e in
  if heavy (deg_at adj v1) && heavy (deg_at adj v2) then r
  else if negb (heavy (deg_at adj v1)) && heavy (deg_at adj v2) && minor v1 (deg_at adj v1) v2 (deg_at adj v2)
       then fold_left (heavy_inner nb t adj v1 v2) (adj_at adj v1) r else r.
(** Algorithm.hpp:151-190.  The table is walked bucket by bucket. *)
Definition triangles_heavy (nb : nat) (r : N) : Prop :=
  exists es vs adj, ewalk es /\ vwalk vs /\ adj_fill vs [] = Ok adj /\
    let t := tb_fill nb (tb_new nb) 0 es in
    r = fold_left (heavy_edge nb t adj) (map fst (concat t)) 0%N.
End Algo.
