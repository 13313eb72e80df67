(** * Munro: the incremental-union graph DKtree_delay_munro, include/dktree/DKtree_delay_.hpp.

    The trees are concrete bitmaps ([Union.bt], k = 2): k2_tree(edges, n) is [built], adj is [badj].  The library's
    neigh is modelled by its answer: the columns of the ones of row x, in increasing order.  A default-constructed
    k_tree (get_number_nodes() = 0) is [None].  Simplification: k_collection_copy[l] != k_tree() (:181) is true of every
    tree with at least one vertex.  Counters are unbounded. *)
From Verif Require Import Base Spec Thresholds C0 Bits Union UnionMerge UnionEdges.

Section Munro.
Context (T : thresholds) (hgt : N -> nat).

(** DKtree_delay_.hpp:51-65, :91-92.  [m_us] is union_support; [m_tmp] is tmp_edge. *)
Record mg := mkmg {
  m_maxr : nat; m_n : N; m_nt : N; m_c0 : c0;
  m_ks : list (option bt);       (* k_collection *)
  m_us : us;
  m_tmp : edge;
  m_copy : list (option bt)      (* k_collection_copy *)
}.

(** DKtree_delay_.hpp:69-77.  tmp_edge is value-initialised to (0,0) by tuple's constructor. *)
Definition mg_new (n : N) : out mg :=
  let* c := c0_new T n in
  Ok (mkmg 0 n 0 c (repeat None RSZ) us_idle (0, 0)%N (repeat None RSZ)).

(** the loops over the collection in contains, DKtree_delay_.hpp:152-154, :158-160 *)
Fixpoint trees_adj (l : list (option bt)) (x y : N) : bool :=
  match l with
  | [] => false
  | Some t :: l => badj t x y || trees_adj l x y
  | None :: l => trees_adj l x y
  end.
(** DKtree_delay_.hpp:146-163 *)
Definition mg_contains (g : mg) (x y : N) : out bool :=
  let* b := c0_contains (m_c0 g) (x, y) in
  if b then Ok true
  else if s_fin (m_us g) then Ok (trees_adj (m_ks g) x y)
  else if eeqb (m_tmp g) (x, y) then Ok true
  else Ok (trees_adj (m_copy g) x y).

(** DKtree_delay_.hpp:109-114: as DK.find_level *)
Fixpoint lev_find (m : N) (l : list (option bt)) (i : nat) (acc : N) : option nat :=
  match l with
  | [] => None
  | o :: l =>
    let acc := match o with Some t => (acc + b_m t)%N | None => acc end in
    if (acc + 1 <? th_max T m (S i))%N then Some i else lev_find m l (S i) acc
  end.

(** max(n_vertices, n_total_edges) *)
Definition mg_m (g : mg) : N := N.max (m_n g) (m_nt g).

(** union_support.unionOperation(), DKtree_delay_.hpp:94, :141 *)
Definition mg_step (g : mg) : out mg :=
  let* r := union_op K4 hgt RSZ (m_ks g) (m_us g) in
  Ok (mkmg (m_maxr g) (m_n g) (m_nt g) (m_c0 g) (fst r) (snd r) (m_tmp g) (m_copy g)).

(** DKtree_delay_.hpp:93-144.  The failed assertion (:106) is [Undefined]. *)
Definition mg_add (g : mg) (x y : N) : res mg :=
  let+ g := mg_step g in
  let+ found := mg_contains g x y in
  if found then Done g else
  let m := mg_m g in
  let+ max_size := maxsz T m 0 in
  if (N.of_nat (c0_size (m_c0 g)) <? max_size)%N then
    let+ c := c0_insert T (m_c0 g) (x, y) (m_nt g) in
    Done (mkmg (m_maxr g) (m_n g) (m_nt g + 1) c (m_ks g) (m_us g) (m_tmp g) (m_copy g))
  else if s_fin (m_us g) then
    match lev_find m (m_ks g) 0 max_size with
    | None => Thrown (mkmg (m_maxr g) (m_n g) (m_nt g) (m_c0 g) (m_ks g) (m_us g) (x, y) (m_copy g))
    | Some i =>
      let+ conv := c0_converted (m_c0 g) in
      let+ c := c0_clean (m_c0 g) in
      let es := conv ++ [(x, y)] in
      let+ r := us_new (built hgt (m_n g) es) (length es) (m_ks g) i in
      let+ g' := mg_step (mkmg (Nat.max i (m_maxr g)) (m_n g) (m_nt g) c (fst r) (snd r) (x, y) (m_ks g)) in
      Done (mkmg (m_maxr g') (m_n g') (m_nt g' + 1) (m_c0 g') (m_ks g') (m_us g') (m_tmp g') (m_copy g'))
    end
  else Undefined.

(** DKtree_delay_.hpp:165 *)
Definition mg_del (g : mg) (x y : N) : res mg := Done g.

(** k_tree::neigh *)
Definition bneigh (t : bt) (x : N) : list N :=
  filter (fun y => badj t x y) (map N.of_nat (seq 0 (N.to_nat (b_n t)))).
Fixpoint trees_neigh (l : list (option bt)) (x : N) : list N :=
  match l with
  | [] => []
  | Some t :: l => bneigh t x ++ trees_neigh l x
  | None :: l => trees_neigh l x
  end.
(** DKtree_delay_.hpp:167-187 *)
Definition mg_neigh (g : mg) (x : N) : out (list N) :=
  let* l := c0_neigh (m_c0 g) x in
  if s_fin (m_us g) then
    Ok (l ++ (if (fst (m_tmp g) =? x)%N then [snd (m_tmp g)] else []) ++ trees_neigh (m_ks g) x)
  else Ok (l ++ trees_neigh (m_copy g) x).

(** DKtree_delay_.hpp:79-89, union_support.hpp:229 *)
Definition mg_edges (g : mg) : N := m_nt g.
Definition mg_max_r (g : mg) : nat := m_maxr g.
Definition mg_finished (g : mg) : bool := s_fin (m_us g).

(** ** Histories *)
Definition mg_op (g : mg) (o : op) : res mg :=
  match o with Add (x, y) => mg_add g x y | Del (x, y) => mg_del g x y end.
Fixpoint mg_ops (g : mg) (h : list op) : res mg :=
  match h with
  | [] => Done g
  | o :: t => match mg_op g o with Done g => mg_ops g t | Thrown g => Thrown g | Undefined => Undefined end
  end.
Definition mg_hist (n : N) (h : list op) : res mg :=
  let+ g := mg_new n in mg_ops g h.
End Munro.
