(** * Iter: the iterators of the graph, DKtreeEdgeIterator.hpp, DKtreeNeighbourIterator.hpp,
    DKtreeNodeIterator.hpp, Container0NeighIterator.hpp.

    An iterator of a compressed tree (external class) is represented by the sequence it has still to yield;
    dereferencing or advancing an exhausted one is UB.  Iterators hold copies (buffer) or shared pointers
    (trees) of the graph's parts; the graph is not modified while an iterator is in use. *)
From Verif Require Import Base Spec Thresholds K2 C0 DK.

Section Iter.
Context (K : k2impl).
Local Notation ktree := (kt K).

(** ** Edge iterator *)
(** DKtreeEdgeIterator.hpp:220 *)
Definition MAXE : edge := (9999999, 9999999)%N.

(** DKtreeEdgeIterator.hpp:216-227 *)
Record eit := mkeit {
  ei_c0 : c0;
  ei_ks : list (option ktree);
  ei_ptr : edge;
  ei_dist : Z;                      (* distance_C0 *)
  ei_curr : list (list edge);       (* _data_k_collection_curr *)
  ei_i : nat                        (* _i *)
}.

(** The loops [for (; i < RS; ++i) if (_kcollection[i] != nullptr)]: first non-null index from i on. *)
Fixpoint scan (l : list (option ktree)) (i : nat) : option nat :=
  match l with
  | [] => None
  | Some _ :: _ => Some i
  | None :: l => scan l (S i)
  end.

(** *_data_k_collection_curr[i] *)
Definition tree_deref (curr : list (list edge)) (i : nat) : out edge :=
  let* r := get curr i in match r with e :: _ => Ok e | [] => UB end.

Definition tree_begin (o : option ktree) : list edge := match o with Some t => kt_edges K t | None => [] end.

(** DKtreeEdgeIterator.hpp:52-86 *)
Definition eit_new (g : dk K) : out eit :=
  let c := C0_ g in
  if N.eqb (nv g) 0 then Ok (mkeit c (ks g) MAXE (-1) (repeat [] RS) 0) else
  let curr := map tree_begin (ks g) in
  if 0 <? c0_size c then let* e := node_at c 0 in Ok (mkeit c (ks g) e 0 curr 0)
  else match scan (ks g) 0 with
       | Some i => let* e := tree_deref curr i in Ok (mkeit c (ks g) e 0 curr i)
       | None => Ok (mkeit c (ks g) MAXE (-1) curr RS)
       end.

(** DKtreeEdgeIterator.hpp:116-153 *)
Definition eit_next (it : eit) : out eit :=
  let c := ei_c0 it in let l := ei_ks it in
  if (ei_dist it <? Z.of_nat (c0_size c))%Z then
    let dd := (ei_dist it + 1)%Z in
    if (dd <? Z.of_nat (c0_size c))%Z then
      let* e := node_at c (Z.to_nat dd) in Ok (mkeit c l e dd (ei_curr it) (ei_i it))
    else match scan l 0 with
         | Some i =>
           let* r := get (ei_curr it) i in
           let* o := get l i in
           if length r =? length (tree_begin o)      (* the assert at :126 *)
           then let* e := tree_deref (ei_curr it) i in Ok (mkeit c l e dd (ei_curr it) i)
           else UB
         | None => Ok (mkeit c l MAXE dd (ei_curr it) (ei_i it))
         end
  else match scan (skipn (ei_i it) l) (ei_i it) with
       | None => Ok (mkeit c l MAXE (ei_dist it) (ei_curr it) (Nat.max RS (ei_i it)))
       | Some j =>
         let* r := get (ei_curr it) j in
         match r with
         | [] => UB                                  (* ++ past the end *)
         | _ :: r' =>
           let curr := upd (ei_curr it) j r' in
           match r' with
           | [] => match scan (skipn (S j) l) (S j) with
                   | Some q => let* e := tree_deref curr q in Ok (mkeit c l e (ei_dist it) curr q)
                   | None => Ok (mkeit c l MAXE (ei_dist it) curr RS)
                   end
           | e :: _ => Ok (mkeit c l e (ei_dist it) curr j)
           end
         end
       end.

(** DKtreeEdgeIterator.hpp:167-169 against the iterator of end() (:161-165): only _ptr is compared. *)
Definition eit_at_end (it : eit) : bool := eeqb (ei_ptr it) MAXE.

(** DKtreeEdgeIterator.hpp:175-187: operator= copies everything but _i. *)
Definition eit_assign (old new : eit) : eit :=
  mkeit (ei_c0 new) (ei_ks new) (ei_ptr new) (ei_dist new) (ei_curr new) (ei_i old).

(** DKtree.hpp:275-279: it_edge_begin = dktree_edge_it(this).  [old_i] is the value _i of the member
    it_edge_begin: 0 unless that member itself was advanced through the reference returned earlier. *)
Definition dk_edge_begin (g : dk K) (old_i : nat) : out eit :=
  let* it := eit_new g in
  Ok (mkeit (ei_c0 it) (ei_ks it) (ei_ptr it) (ei_dist it) (ei_curr it) old_i).

(** The values a loop from edge_begin() to edge_end() sees. *)
Definition edge_loop : eit -> list edge -> Prop := visits eit_at_end ei_ptr eit_next.

(** ** Neighbour iterator of the buffer, Container0NeighIterator.hpp *)
(** :11-13 *)
Record c0it := mkc0it { ci_ptr : Z; ci_k : nat }.
(** :22-30 (k is indeterminate, and never read, when there is no neighbour) *)
Definition c0it_begin (c : c0) (x : N) : out c0it :=
  match nget x (c_adj c), c_els c with
  | Some k, _ :: _ => let* e := node_at c k in Ok (mkc0it (Z.of_N (snd e)) k)
  | _, _ => Ok (mkc0it (-1) 0)
  end.
(** :42-50 *)
Definition c0it_next (c : c0) (it : c0it) : out c0it :=
  let* dd := get (c_els c) (ci_k it) in
  match nx dd with
  | Some q => let* e := node_at c q in Ok (mkc0it (Z.of_N (snd e)) q)
  | None => Ok (mkc0it (-1) (ci_k it))
  end.
(** :36-40 *)
Definition c0it_post (c : c0) (it : c0it) : out c0it :=
  if Z.eqb (ci_ptr it) (-1) then Ok it else c0it_next c it.

Definition c0_loop (c : c0) : c0it -> list Z -> Prop :=
  visits (fun it => Z.eqb (ci_ptr it) (-1)) ci_ptr (c0it_post c).

(** ** Neighbour iterator of the graph, DKtreeNeighbourIterator.hpp *)
(** conversion to int (32 bits, two's complement) *)
Definition to_int (z : Z) : Z :=
  let m := (z mod 2 ^ 32)%Z in if (m <? 2 ^ 31)%Z then m else (m - 2 ^ 32)%Z.

(** :126-134 *)
Record nit := mknit {
  ni_ptr : Z;
  ni_c0 : c0it;
  ni_c0i : bool;            (* _c0_index != -1 *)
  ni_cur : option nat;      (* _curr_ktree; None is -1 *)
  ni_kit : list N           (* _k_collection_it *)
}.

(** The loop of :33-41, :79-87, :99-107: first tree in [i, max_r] with a neighbour of x; [l] is the part of
    k_collection from index i to max_r. *)
Fixpoint scan_n (l : list (option ktree)) (x : N) (i : nat) : option (nat * list N) :=
  match l with
  | [] => None
  | Some t :: l => match kt_neigh K t x with [] => scan_n l x (S i) | r => Some (i, r) end
  | None :: l => scan_n l x (S i)
  end.
Definition upto (g : dk K) : list (option ktree) := firstn (S (max_r g)) (ks g).

(** :23-44.  Indexing k_collection with max_r >= 8 is out of bounds. *)
Definition nit_begin (g : dk K) (x : N) : out nit :=
  let* ci := c0it_begin (C0_ g) x in
  if negb (Z.eqb (ci_ptr ci) (-1)) then Ok (mknit (to_int (ci_ptr ci)) ci true None [])
  else if max_r g <? length (ks g) then
    match scan_n (upto g) x 0 with
    | Some (i, r) => Ok (mknit (to_int (Z.of_N (hd 0%N r))) ci false (Some i) r)
    | None => Ok (mknit (-1) ci false (Some (S (max_r g))) [])
    end
  else UB.

(** :67-118 *)
Definition nit_next (g : dk K) (x : N) (it : nit) : out nit :=
  let from_trees (ci : c0it) : out nit :=
    if max_r g <? length (ks g) then
      match ni_cur it with
      | None =>
        match scan_n (upto g) x 0 with
        | Some (i, r) => Ok (mknit (to_int (Z.of_N (hd 0%N r))) ci false (Some i) r)
        | None => Ok (mknit (-1) ci false (Some (S (max_r g))) [])
        end
      | Some i =>
        match ni_kit it with
        | [] => UB
        | [_] =>
          match scan_n (skipn (S i) (upto g)) x (S i) with
          | Some (j, r) => Ok (mknit (to_int (Z.of_N (hd 0%N r))) ci false (Some j) r)
          | None => Ok (mknit (-1) ci false (Some (S (max_r g))) [])
          end
        | _ :: r => Ok (mknit (to_int (Z.of_N (hd 0%N r))) ci false (Some i) r)
        end
      end
    else UB in
  if ni_c0i it then
    let* ci := c0it_post (C0_ g) (ni_c0 it) in
    if negb (Z.eqb (ci_ptr ci) (-1)) then Ok (mknit (to_int (ci_ptr ci)) ci true (ni_cur it) (ni_kit it))
    else from_trees ci
  else from_trees (ni_c0 it).

(** :50-53 against neighbour_end(): only _ptr is compared, with -1. *)
Definition nit_at_end (it : nit) : bool := Z.eqb (ni_ptr it) (-1).
Definition neigh_loop (g : dk K) (x : N) : nit -> list Z -> Prop := visits nit_at_end ni_ptr (nit_next g x).

(** DKtree.hpp:425-431: the sequence of vertices [func] is called with (Container0::neigh_it walks the chain of
    list_neighbours, C0.v; k2_tree::neigh_it yields the sequence of neigh). *)
Definition dk_neigh_it (g : dk K) (x : N) : out (list N) :=
  let* l := c0_neigh (C0_ g) x in
  if max_r g <? length (ks g) then Ok (l ++ ks_neigh K (upto g) x) else UB.

End Iter.
Arguments mkeit {K}. Arguments ei_c0 {K}. Arguments ei_ks {K}. Arguments ei_ptr {K}. Arguments ei_dist {K}.
Arguments ei_curr {K}. Arguments ei_i {K}.

(** ** Node iterator, DKtreeNodeIterator.hpp *)
(** :78-81; tree_size is an int initialised from get_number_nodes() *)
Record vit := mkvit { vi_ptr : Z; vi_size : Z }.
(** :25-32 *)
Definition vit_begin (n : N) : vit :=
  let s := to_int (Z.of_N n) in if (0 <? s)%Z then mkvit 0 s else mkvit (-1) s.
(** :57-63 *)
Definition vit_next (it : vit) : out vit :=
  if ((vi_size it - 1 <=? vi_ptr it) || (vi_ptr it =? -1))%Z then Ok (mkvit (-1) (vi_size it))
  else Ok (mkvit (vi_ptr it + 1) (vi_size it)).
Definition node_loop : vit -> list Z -> Prop := visits (fun it => Z.eqb (vi_ptr it) (-1)) vi_ptr vit_next.
