(** * Alias: several DKtree objects of one process that share trees.

    DKtree has the implicit copy constructor and copy assignment, used by Algorithm.hpp:20 ([Algorithm(Graph &g)]) and :22
    ([set_graph]): Container0 and the counters are copied, k_collection (DKtree.hpp:61, array<shared_ptr<k_tree>, RS>) is copied
    pointer by pointer.  Here the trees are cells of a heap and an object holds references to them.  A cell is never freed: shared_ptr
    frees it when nothing refers to it, which no call can observe.  Everything else is as in DK.v. *)
From Verif Require Import Base Spec Thresholds K2 C0 DK.

Section Alias.
Context (T : thresholds) (K : k2impl).
Local Notation ktree := (kt K).

Definition heap := list ktree.
(** DKtree.hpp:50-61 *)
Record obj := mkobj { o_r : nat; o_nv : N; o_nt : N; o_c0 : c0; o_ks : list (option nat) }.

(** *k_collection[l], or null *)
Definition deref (hp : heap) (o : option nat) : option ktree := match o with Some r => nth_error hp r | None => None end.
(** What the calls that only read see: the object with its trees. *)
Definition view (hp : heap) (d : obj) : dk K := mkdk (o_r d) (o_nv d) (o_nt d) (o_c0 d) (map (deref hp) (o_ks d)).

(** DKtree.hpp:70-79 *)
Definition o_new (n : N) : out obj :=
  let* c := c0_new T n in
  Ok (mkobj 0 n 0 c (repeat None RS)).

(** DKtree.hpp:172-174: adj_forced changes the tree the pointer refers to. *)
Fixpoint o_adjf (hp : heap) (l : list (option nat)) (x y : N) : bool * heap :=
  match l with
  | [] => (false, hp)
  | Some r :: l =>
    match nth_error hp r with
    | Some t => let (b, t') := kt_adjf K t x y in
                if b then (true, upd hp r t') else o_adjf (upd hp r t') l x y
    | None => o_adjf hp l x y
    end
  | None :: l => o_adjf hp l x y
  end.

(** DKtree.hpp:135-140, k_collection[j].reset() for j <= i *)
Definition o_reset (l : list (option nat)) (cnt : nat) : list (option nat) := repeat None (Nat.min cnt (length l)) ++ skipn cnt l.

(** DKtree.hpp:101-144.  [make_shared] at :132 is a new cell (written here once, with the tree after the unions of :135-140). *)
Definition o_add (hp : heap) (d : obj) (x y : N) : res (heap * obj) :=
  let+ b := c0_contains (o_c0 d) (x, y) in
  let (found, hp) := if b then (true, hp) else o_adjf hp (o_ks d) x y in
  if found then Done (hp, d) else
  let m := N.max (o_nv d) (o_nt d) in
  let+ max_size := maxsz T m 0 in
  if (N.of_nat (c0_size (o_c0 d)) <? max_size)%N then
    let+ c := c0_insert T (o_c0 d) (x, y) (o_nt d) in
    Done (hp, mkobj (o_r d) (o_nv d) (o_nt d + 1) c (o_ks d))
  else
    match find_level T K m (map (deref hp) (o_ks d)) 0 max_size with
    | None => Thrown (hp, d)
    | Some i =>
      let+ conv := c0_converted (o_c0 d) in
      let tmp := kt_build K (conv ++ [(x, y)]) (o_nv d) in
      let+ c := c0_clean (o_c0 d) in
      let tmp := fst (merge_upto K tmp (map (deref hp) (o_ks d)) (S i)) in
      Done (hp ++ [tmp],
            mkobj (Nat.max i (o_r d)) (o_nv d) (o_nt d + 1) c (upd (o_reset (o_ks d) (S i)) i (Some (length hp))))
    end.

(** DKtree.hpp:188-192: erase changes the tree the pointer refers to. *)
Fixpoint o_erase (hp : heap) (l : list (option nat)) (x y : N) : bool * heap :=
  match l with
  | [] => (false, hp)
  | Some r :: l =>
    match nth_error hp r with
    | Some t => let (b, t') := kt_erase K t x y in
                if b then (true, upd hp r t') else o_erase (upd hp r t') l x y
    | None => o_erase hp l x y
    end
  | None :: l => o_erase hp l x y
  end.

(** DKtree.hpp:194-204: reset() drops this object's reference, not the tree. *)
Fixpoint o_sweep (hp : heap) (l : list (option nat)) : N * list (option nat) :=
  match l with
  | [] => (0%N, [])
  | o :: l =>
    let (k, l') := o_sweep hp l in
    match deref hp o with
    | Some t => if (kt_marked K t =? kt_total K t)%N then (k, None :: l') else ((kt_marked K t + k)%N, o :: l')
    | None => (k, None :: l')
    end
  end.

(** DKtree.hpp:207-244.  The tree built at :233 is a new cell (written once, after the unions and the erase of :244). *)
Definition o_rebuild (hp : heap) (d : obj) : res (heap * obj) :=
  let i := rebuild_level T (N.max (o_nv d) (o_nt d)) (o_nt d) RS 0 in
  let+ p := (if c0_size (o_c0 d) =? 0
             then let* oo := dk_contains K (view hp d) 1 1 in Ok (oo, true)
             else Ok (false, false)) in
  let (oo, dummy) := p in
  match (if dummy then o_add hp d 1 1 else Done (hp, d)) with
  | Undefined => Undefined
  | Thrown s => Thrown s
  | Done (hp, d) =>
    let+ q := (if 0 <? c0_size (o_c0 d)
               then let* conv := c0_converted (o_c0 d) in
                    let* c := c0_clean (o_c0 d) in
                    Ok (Some (kt_build K conv (o_nv d)), c)
               else Ok (None, o_c0 d)) in
    let (tmp, c) := q in
    let+ tmp := merge_all K tmp (map (deref hp) (o_ks d)) in
    if i <? RS then
      match oo, tmp with
      | true, None => Done (hp, mkobj (o_r d) (o_nv d) (o_nt d) c (repeat None RS))
      | true, Some t => Done (hp ++ [t], mkobj (o_r d) (o_nv d) (o_nt d) c (upd (repeat None RS) i (Some (length hp))))
      | false, None => Undefined
      | false, Some t =>
        let (_, t) := kt_erase K t 1 1 in
        Done (hp ++ [t], mkobj (o_r d) (o_nv d) (o_nt d) c (upd (repeat None RS) i (Some (length hp))))
      end
    else Undefined
  end.

(** DKtree.hpp:183-246 *)
Definition o_del (hp : heap) (d : obj) (x y : N) : res (heap * obj) :=
  let+ p := c0_erase (o_c0 d) (x, y) in
  let (b, c) := p in
  if b then Done (hp, mkobj (o_r d) (o_nv d) (u64_dec (o_nt d)) c (o_ks d))
  else
    let (eb, hp) := o_erase hp (o_ks d) x y in
    let n' := if eb then u64_dec (o_nt d) else o_nt d in
    let (marked, l) := o_sweep hp (o_ks d) in
    let d := mkobj (o_r d) (o_nv d) n' c l in
    if th_trig T marked n' then o_rebuild hp d else Done (hp, d).

Definition o_op (hp : heap) (d : obj) (o : Spec.op) : res (heap * obj) :=
  match o with
  | Spec.Add (x, y) => o_add hp d x y
  | Spec.Del (x, y) => o_del hp d x y
  end.

(** ** A process with several objects *)
Record world := mkw { w_hp : heap; w_os : list obj }.
Inductive wop :=
| WOp (i : nat) (o : Spec.op)      (* objects[i].add_edge / del_edge *)
| WCopy (i : nat)                  (* a new object, copy-constructed from objects[i]: Algorithm.hpp:20 *)
| WAssign (i j : nat).             (* objects[i] = objects[j]: Algorithm.hpp:22 *)

Definition wstep (w : world) (o : wop) : res world :=
  match o with
  | WOp i o =>
    match nth_error (w_os w) i with
    | Some d => match o_op (w_hp w) d o with
                | Done (hp, d') => Done (mkw hp (upd (w_os w) i d'))
                | Thrown (hp, d') => Thrown (mkw hp (upd (w_os w) i d'))
                | Undefined => Undefined
                end
    | None => Undefined
    end
  | WCopy i =>
    match nth_error (w_os w) i with
    | Some d => Done (mkw (w_hp w) (w_os w ++ [d]))
    | None => Undefined
    end
  | WAssign i j =>
    match nth_error (w_os w) i, nth_error (w_os w) j with
    | Some _, Some d => Done (mkw (w_hp w) (upd (w_os w) i d))
    | _, _ => Undefined
    end
  end.
Fixpoint wrun (w : world) (h : list wop) : res world :=
  match h with
  | [] => Done w
  | o :: t => match wstep w o with Done w => wrun w t | Thrown w => Thrown w | Undefined => Undefined end
  end.
(** One fresh graph on n vertices, then the calls of h, each completing normally. *)
Definition whist (n : N) (h : list wop) : res world :=
  let+ d := o_new n in wrun (mkw [] [d]) h.
End Alias.
Arguments mkobj _ _ _ _ _ : clear implicits.
Arguments w_hp {K}. Arguments w_os {K}. Arguments mkw {K}.

(** ** Specification: the calls an object has received, those of the object it was copied from included *)
Definition own_step (s : list (list op)) (o : wop) : list (list op) :=
  match o with
  | WOp i o => upd s i (nth i s [] ++ [o])
  | WCopy i => s ++ [nth i s []]
  | WAssign i j => upd s i (nth j s [])
  end.
Definition owns (h : list wop) : list (list op) := fold_left own_step h [[]].
Definition own (h : list wop) (j : nat) : list op := nth j (owns h) [].
