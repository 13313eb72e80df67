(** * Union: the incremental bitmap union k2_tree_union_support, include/dktree/union_support.hpp.

    Simplifications: k_t_rank (rebuilt at :50) is not a field, ranks are computed; the uint positions pA, pB, idx_t,
    idx_l, times are natural numbers (they never exceed the bitmap sizes, see UnionProof); pointers to the collection
    are replaced by passing the collection; std::log-based height (:51-52) is the parameter [hgt], the same
    function for the trees built by k2_tree(edges, n) and here. *)
From Verif Require Import Base Bits.

Section Union.
Variable kk : nat.            (* k * k, union_support.hpp:126, :163 *)
Variable hgt : N -> nat.      (* ceil(log n / log k), at least 1 *)
Definition RSZ := 8.          (* RS, utils.hpp *)

(** The members of k2_tree the class uses: get_number_nodes, k_height, k_t, k_l, total_edges *)
Record bt := mkbt { b_n : N; b_h : nat; b_t : list bool; b_l : list bool; b_m : N }.

(** union_support.hpp:15-27, :58.  The queue entries are (l, rA, rB). *)
Record us := mkus {
  s_q : list (nat * bool * bool);
  s_ct : list bool; s_cl : list bool;      (* C_t, C_l; C_t_size, C_l_size are their lengths *)
  s_ne : N;                                (* n_total_edges *)
  s_pa : nat; s_pb : nat; s_il : nat; s_it : nat;
  s_tmp : option bt;
  s_ki : nat;                              (* k_collection_i *)
  s_isz : nat; s_times : nat;              (* iteration_size, times *)
  s_fin : bool;                            (* finish *)
  s_mi : nat                               (* max_i *)
}.

(** union_support.hpp:60-62 *)
Definition us_idle : us := mkus [] [] [] 0 0 0 0 0 None RSZ 0 0 true 0.

(** union_support.hpp:29-31 *)
Definition get_ones (t : bt) : nat := length (b_t t) + length (b_l t).

(** union_support.hpp:33-40 *)
Definition q0 : list (nat * bool * bool) := [(0, true, true)].

(** first level in [i, i+cnt) that holds a tree, union_support.hpp:89-94, :202-206 *)
Fixpoint first_tree {A} (ks : list (option A)) (i cnt : nat) : option nat :=
  match cnt with
  | O => None
  | S c => match nth_error ks i with Some (Some _) => Some i | _ => first_tree ks (S i) c end
  end.

(** union_support.hpp:64-118.  [t] is the tree built from [edges] (:69), [esz] is edges.size(); division by zero
    (:85) is UB.  The assertion :87 holds by arithmetic and is kept. *)
Definition us_new (t : bt) (esz : nat) (ks : list (option bt)) (mi : nat) : out (list (option bt) * us) :=
  let total := fold_right (fun o n => match o with Some t => get_ones t + n | None => n end) 0 (firstn (S mi) ks) + get_ones t in
  let total := if total =? 0 then 1 else total in
  if esz =? 0 then UB else
  let isz := total / esz + (if total mod esz =? 0 then 0 else 1) in
  if total <? isz then UB else
  match first_tree ks 0 (S mi) with
  | None => let* ks := set ks mi (Some t) in Ok (ks, mkus [] [] [] 0 0 0 0 0 (Some t) RSZ isz 0 true mi)
  | Some j => Ok (ks, mkus q0 [] [] 0 0 0 0 0 (Some t) j isz 0 false mi)
  end.

(** union_support.hpp:137-149: the sizes of C_t and C_l, in 32-bit arithmetic *)
Fixpoint maxbits (h : nat) (calc mb : N) : N * N :=
  match h with
  | O => (calc, mb)
  | S h => let calc := ((calc * N.of_nat kk) mod 2 ^ 32)%N in maxbits h calc ((mb + calc) mod 2 ^ 32)%N
  end.
Definition csize (mh szA szB : nat) : nat :=
  let mb := snd (maxbits mh 1 0) in
  if (mb <? N.of_nat (szA + szB))%N then N.to_nat mb else szA + szB.

(** The bit at position p of T followed by L: T if [inner], otherwise L at p minus the size of T
    (union_support.hpp:166-179; the unsigned subtraction wraps to an out-of-bounds index). *)
Definition rd (t : bt) (inner : bool) (p : nat) : out bool :=
  if inner then get (b_t t) p
  else if p <? length (b_t t) then UB else get (b_l t) (p - length (b_t t)).

(** State of the loops: the queue, C_t, C_l, n_total_edges, pA, pB, idx_l, idx_t *)
Record ls := mkls { l_q : list (nat * bool * bool); l_ct : list bool; l_cl : list bool; l_ne : N;
                    l_pa : nat; l_pb : nat; l_il : nat; l_it : nat }.

(** union_support.hpp:163-195: [cnt] iterations of the inner loop for the entry (l, rA, rB).  l_aux is a uint8_t. *)
Fixpoint row_loop (A B : bt) (mh l : nat) (rA rB : bool) (cnt : nat) (s : ls) : out ls :=
  match cnt with
  | O => Ok s
  | S c =>
    let inner := l <? mh - 1 in
    let* bA := (if rA then rd A inner (l_pa s) else Ok false) in
    let pa := if rA then S (l_pa s) else l_pa s in
    let* bB := (if rB then rd B inner (l_pb s) else Ok false) in
    let pb := if rB then S (l_pb s) else l_pb s in
    if inner then
      if bA || bB then
        let* ct := set (l_ct s) (l_it s) true in
        row_loop A B mh l rA rB c (mkls (l_q s ++ [((S l) mod 256, bA, bB)]) ct (l_cl s) (l_ne s) pa pb (l_il s) (S (l_it s)))
      else row_loop A B mh l rA rB c (mkls (l_q s) (l_ct s) (l_cl s) (l_ne s) pa pb (l_il s) (S (l_it s)))
    else
      if bA || bB then
        let* cl := set (l_cl s) (l_il s) true in
        row_loop A B mh l rA rB c (mkls (l_q s) (l_ct s) cl (l_ne s + 1)%N pa pb (S (l_il s)) (l_it s))
      else row_loop A B mh l rA rB c (mkls (l_q s) (l_ct s) (l_cl s) (l_ne s) pa pb (S (l_il s)) (l_it s))
  end.

(** union_support.hpp:153-196: at most [budget] = iteration_size - times entries are popped; returns the budget left *)
Fixpoint pop_loop (A B : bt) (mh : nat) (budget : nat) (s : ls) : out (nat * ls) :=
  match budget with
  | O => Ok (0, s)
  | S b =>
    match l_q s with
    | [] => Ok (S b, s)
    | (l, rA, rB) :: q =>
      let* s := row_loop A B mh l rA rB kk (mkls q (l_ct s) (l_cl s) (l_ne s) (l_pa s) (l_pb s) (l_il s) (l_it s)) in
      pop_loop A B mh b s
    end
  end.

(** union_support.hpp:42-55 *)
Definition us_result (A : bt) (s : ls) : out bt :=
  if (length (l_ct s) <? l_it s) || (length (l_cl s) <? l_il s) then UB
  else Ok (mkbt (b_n A) (hgt (b_n A)) (firstn (l_it s) (l_ct s)) (firstn (l_il s) (l_cl s)) (l_ne s)).

(** union_support.hpp:120-227.  [fuel] bounds the recursion of :219; RSZ levels suffice (union_op_total). *)
Fixpoint union_op (fuel : nat) (ks : list (option bt)) (u : us) : out (list (option bt) * us) :=
  if s_fin u then Ok (ks, u) else
  match nth_error ks (s_ki u), s_tmp u with
  | Some (Some B), Some A =>
    let mh := Nat.max (b_h A) (b_h B) in
    match s_q u with
    | [] => UB                                  (* Q.front() of an empty queue *)
    | (l, rA, rB) :: _ =>
      let first := (l =? 0) && rA && rB in
      let ct := if first then repeat false (csize mh (length (b_t A)) (length (b_t B))) else s_ct u in
      let cl := if first then repeat false (csize (S mh) (length (b_l A)) (length (b_l B))) else s_cl u in
      let* r := pop_loop A B mh (s_isz u - s_times u) (mkls (s_q u) ct cl (s_ne u) (s_pa u) (s_pb u) (s_il u) (s_it u)) in
      let (left, s) := r in
      match l_q s with
      | [] =>
        let ks := upd ks (s_ki u) None in
        let* A' := us_result A s in
        match first_tree ks (s_ki u) (S (s_mi u) - s_ki u) with
        | None =>
          let* ks := set ks (s_mi u) (Some A') in
          Ok (ks, mkus [] (l_ct s) (l_cl s) 0 (l_pa s) (l_pb s) (l_il s) (l_it s) (Some A') (S (s_mi u)) (s_isz u) (s_isz u - left) true (s_mi u))
        | Some j =>
          let u' tm := mkus q0 (l_ct s) (l_cl s) 0 0 0 0 0 (Some A') j (s_isz u) tm false (s_mi u) in
          if left =? 0 then Ok (ks, u' 0)
          else match fuel with O => UB | S f => union_op f ks (u' (s_isz u - left)) end
        end
      | _ => Ok (ks, mkus (l_q s) (l_ct s) (l_cl s) (l_ne s) (l_pa s) (l_pb s) (l_il s) (l_it s) (Some A) (s_ki u) (s_isz u) 0 false (s_mi u))
      end
    end
  | _, _ => UB                                  (* null tree: the assertion at :124 *)
  end.

(** [calls] consecutive calls of unionOperation *)
Fixpoint union_calls (calls : nat) (ks : list (option bt)) (u : us) : out (list (option bt) * us) :=
  match calls with
  | O => Ok (ks, u)
  | S c => let* r := union_op RSZ ks u in let (ks, u) := r in union_calls c ks u
  end.
End Union.
