(** * Delay: the delayed-union graph DKtree_delay, include/dktree/DKtree_delay.hpp.

    The fields shared with DKtree (max_r, n_vertices, n_total_edges, C0, k_collection) are those of [DK.dk]; contains,
    list_neighbour, the counters, serialize, load and operator== are textually those of DKtree
    (DKtree_delay.hpp:186-203, :262-285, :325-408) except that serialize and load do not touch the union state. *)
From Verif Require Import Base Spec Thresholds K2 C0 DK Serial.

Section Delay.
Context (T : thresholds) (K : k2impl).
Local Notation ktree := (kt K).

(** DKtree_delay.hpp:50-57, :90-93 *)
Record dl := mkdl {
  d_g : dk K;
  u_i : nat;                 (* union_i *)
  u_prev : nat;              (* union_prev; RS = none *)
  u_final : nat;             (* union_final *)
  d_tmp : option ktree       (* tmp *)
}.

(** DKtree_delay.hpp:68-77, :90-93 *)
Definition dl_new (n : N) : out dl :=
  let* g := dk_new T K n in Ok (mkdl g 0 RS 1 None).

(** DKtree_delay.hpp:97-109, the search: the first level i, i+1, ..., i+cnt-1 that holds a tree *)
Fixpoint next_tree (l : list (option ktree)) (i cnt : nat) : option nat :=
  match cnt with
  | O => None
  | S c => match nth_error l i with
           | Some (Some _) => Some i
           | _ => next_tree l (S i) c
           end
  end.

(** DKtree_delay.hpp:96-119.  unionOp of a null pointer is UB.  k_collection[union_final] is in bounds because
    union_final < 8 always; the check is kept in the model. *)
Definition union_delay (d : dl) : out dl :=
  let l := ks (d_g d) in
  let put l := mkdk (max_r (d_g d)) (nv (d_g d)) (nt (d_g d)) (C0_ (d_g d)) l in
  if u_final d <? length l then
    match next_tree l (u_i d) (S (u_final d) - u_i d) with
    | Some j =>
      match nth_error l j with
      | Some (Some t) =>
        if u_prev d <? RS then
          match nth_error l (u_prev d) with
          | Some (Some s) => Ok (mkdl (put (upd (upd l j (Some (kt_union K t s))) (u_prev d) None)) (S j) j (u_final d) (d_tmp d))
          | _ => UB
          end
        else
          match d_tmp d with
          | Some s => Ok (mkdl (put (upd l j (Some (kt_union K t s)))) (S j) j (u_final d) None)
          | None => UB
          end
      | _ => UB
      end
    | None =>
      let i := S (Nat.max (u_i d) (S (u_final d))) in
      if u_prev d <? RS then
        match nth_error l (u_prev d) with
        | Some o => Ok (mkdl (put (upd (upd l (u_final d) o) (u_prev d) None)) i (u_prev d) (u_final d) (d_tmp d))
        | None => UB
        end
      else Ok (mkdl (put (upd l (u_final d) (d_tmp d))) i (u_prev d) (u_final d) None)
    end
  else UB.

(** DKtree_delay.hpp:121-123 *)
Definition work_done (d : dl) : bool := u_final d <? u_i d.

(** DKtree_delay.hpp:186-203 *)
Definition dl_contains (d : dl) (x y : N) : out bool := dk_contains K (d_g d) x y.
(** DKtree_delay.hpp:262-285 *)
Definition dl_neigh (d : dl) (x : N) : out (list N) := dk_neigh K (d_g d) x.
(** DKtree_delay.hpp:79-85 *)
Definition dl_edges (d : dl) : N := nt (d_g d).

(** DKtree_delay.hpp:125-184.  assert(false) is UB (with NDEBUG the edge would be counted and lost). *)
Definition dl_add (d : dl) (x y : N) : res dl :=
  let+ d := if work_done d then Ok d else union_delay d in
  let+ found := dl_contains d x y in
  if found then Done d else
  let g := d_g d in
  let m := dk_m K g in
  let+ max_size := maxsz T m 0 in
  if (N.of_nat (c0_size (C0_ g)) <? max_size)%N then
    let+ c := c0_insert T (C0_ g) (x, y) (nt g) in
    Done (mkdl (mkdk (max_r g) (nv g) (nt g + 1) c (ks g)) (u_i d) (u_prev d) (u_final d) (d_tmp d))
  else if work_done d then
    match find_level T K m (ks g) 0 max_size with
    | None => Thrown d
    | Some i =>
      let+ conv := c0_converted (C0_ g) in
      let tmp := kt_build K (conv ++ [(x, y)]) (nv g) in
      let+ c := c0_clean (C0_ g) in
      let+ d := union_delay (mkdl (mkdk (Nat.max i (max_r g)) (nv g) (nt g) c (ks g)) 0 RS i (Some tmp)) in
      let g := d_g d in
      Done (mkdl (mkdk (max_r g) (nv g) (nt g + 1) (C0_ g) (ks g)) (u_i d) (u_prev d) (u_final d) (d_tmp d))
    end
  else Undefined.

(** DKtree_delay.hpp:211-225: erase in the first tree that has the edge; returns its number of marked edges (0 if it
    became empty, in which case it is reset). *)
Fixpoint dl_erase (l : list (option ktree)) (x y : N) : bool * N * list (option ktree) :=
  match l with
  | [] => (false, 0%N, [])
  | Some t :: l =>
    let (b, t') := kt_erase K t x y in
    if b then
      if (kt_marked K t' =? kt_total K t')%N then (true, 0%N, None :: l) else (true, kt_marked K t', Some t' :: l)
    else let '(b', k, l') := dl_erase l x y in (b', k, Some t' :: l')
  | None :: l => let '(b', k, l') := dl_erase l x y in (b', k, None :: l')
  end.

(** DKtree_delay.hpp:205-260.  k_collection[8] is written when no level is found. *)
Definition dl_del (d : dl) (x y : N) : res dl :=
  let g := d_g d in
  let+ p := c0_erase (C0_ g) (x, y) in
  let (b, c) := p in
  let put g := mkdl g (u_i d) (u_prev d) (u_final d) (d_tmp d) in
  if b then Done (put (mkdk (max_r g) (nv g) (u64_dec (nt g)) c (ks g)))
  else
    let '(eb, marked, l) := dl_erase (ks g) x y in
    let n' := if eb then u64_dec (nt g) else nt g in
    let g := mkdk (max_r g) (nv g) n' c l in
    if th_trig T marked n' then
      let m := dk_m K g in
      let+ max_size := maxsz T m 0 in
      match find_level T K m l 0 max_size with
      | None => Undefined
      | Some i =>
        let+ q := (if c0_size c =? 0 then Ok (kt_new K (nv g), c)
                   else let* conv := c0_converted c in
                        let* c := c0_clean c in
                        Ok (kt_build K conv (nv g), c)) in
        let (tmp2, c) := q in
        let (t, l) := merge_upto K tmp2 l (S i) in
        Done (put (mkdk (max_r g) (nv g) n' c (upd l i (Some t))))
      end
    else Done (put g).

(** ** Histories *)
Definition dl_op (d : dl) (o : op) : res dl :=
  match o with
  | Add (x, y) => dl_add d x y
  | Del (x, y) => dl_del d x y
  end.
Fixpoint dl_ops (d : dl) (h : list op) : res dl :=
  match h with
  | [] => Done d
  | o :: t => match dl_op d o with Done d => dl_ops d t | Thrown d => Thrown d | Undefined => Undefined end
  end.
Definition dl_hist (n : N) (h : list op) : res dl :=
  let+ d := dl_new n in dl_ops d h.

(** DKtree_delay.hpp:337-408 (load into the object [d0], which keeps its union state) *)
Definition dl_serialize (d : dl) : out (list (nat * file K)) := dk_serialize K (d_g d).
Definition dl_load (dd : dir K) (d0 : dl) : res dl :=
  match dk_load T K dd (d_g d0) with
  | Done g => Done (mkdl g (u_i d0) (u_prev d0) (u_final d0) (d_tmp d0))
  | Thrown g => Thrown (mkdl g (u_i d0) (u_prev d0) (u_final d0) (d_tmp d0))
  | Undefined => Undefined
  end.

End Delay.
Arguments d_g {K}. Arguments u_i {K}. Arguments u_prev {K}. Arguments u_final {K}. Arguments d_tmp {K}. Arguments mkdl {K}.
