(** * Bg: the graphs with a background merging thread: DKtree_background, include/dktree/DKtree_background.hpp (wt = false; line
    numbers without a file refer to it), and DKtree_background_wait, include/dktree/DKtree_background_wait.hpp (wt = true), when it is
    the only such graph of the process (Proc.v has the general case).  The second differs in two places: the buffer is not
    enlarged at the start (wait :140), and an insertion into a full buffer waits for the merge to end (wait :180-185) where the
    first goes on buffering (:148-155).

    Two threads, the caller's and the merging thread, as a machine of small steps; an execution is any list of actions.
    Every access to a field both threads use is a step of its own, or the only such access of its step, except that the loop over
    k_collection_background (which only the caller's thread touches) is one step and that the merging thread's search for a
    level (:41-51) is one step.  Interleaving semantics: by the C++ memory model this is adequate for executions without a
    data race ([race] below); the flags run and needs_work are sequentially consistent atomics.
    Simplifications: run is true throughout (the destructor is in BgLife.v); polling the two flags is one step; the
    32-bit max_size_background does not overflow; counters are unbounded except that n_total_edges-- wraps at 0. *)
From Verif Require Import Base Spec Thresholds K2 C0 DK Delay BgSpec.

Section Bg.
Context (wt : bool) (T : thresholds) (K : k2impl).
Local Notation ktree := (kt K).

(** The caller's thread: where it is.  [k] in MHas, MScan: contains was called by add_edge. *)
Inductive mpc :=
| MIdle
| MHas (k : bool) (e : edge)               (* :184, about to read needs_work *)
| MScan (k : bool) (e : edge) (i : nat)    (* :191, the loop over k_collection *)
| MIns (e : edge)                          (* :142 *)
| MBusy (e : edge)                         (* :148; wait :180-185 *)
| MPush (e : edge)                         (* :156-166 *)
| MCopy (e : edge) (j : nat)               (* :167 *)
| MFlag (e : edge)                         (* :173 *)
| MClean (e : edge)                        (* :175 *)
| MNbr (x : N) (acc : list N)              (* :248 *)
| MNb (x : N) (acc : list N) (busy : bool) (l : nat)  (* :251, :257 *)
| MWait (e : edge)                         (* :203 *)
| MErase (e : edge).                       (* :204-240 *)

(** The merging thread. *)
Inductive bpc :=
| BPoll                                    (* :35-36 *)
| BBuild                                   (* :38 *)
| BClear (tmp : ktree)                     (* :39 *)
| BLevel (tmp : ktree)                     (* :42-51 *)
| BMerge (tmp : ktree) (i j : nat)         (* :53 *)
| BStore (tmp : ktree) (i : nat)           (* :59 *)
| BDone                                    (* :60 *)
| BDead.                                   (* :50, the exception leaves the thread: std::terminate *)

(** DKtree_background.hpp:84-102.  [b_conv] is converted, [b_msz] max_size_background, [b_mrb] max_r_background, [b_tmp]
    tmp_edge, [b_copy] k_collection_background (None: a default-constructed tree), [b_nw] needs_work.  [b_todo] is the loop that
    re-inserts the edges during a rebuild (:232-239): the deleted edge and the edges still to be inserted.  [b_log]: the calls
    completed so far, newest first. *)
Record bg := mkbg {
  b_n : N; b_nt : N; b_c0 : c0; b_maxr : nat; b_ks : list (option ktree);
  b_conv : list edge; b_nw : bool; b_msz : N; b_mrb : nat; b_tmp : edge; b_copy : list (option ktree);
  b_m : mpc; b_b : bpc; b_todo : option (edge * list edge); b_log : list event
}.

(** DKtree_background.hpp:111-127, DKtree_background_wait.hpp:137-154.  C0.resize(2 * max_size()) in the first only.  The uninitialised max_size_background and max_r_background are 0 here:
    they are not read before they are written. *)
Definition bg_new (n : N) : out bg :=
  let* c := c0_new T n in
  Ok (mkbg n 0 (if wt then c else c0_resize c (2 * c_max c)) 0 (repeat None RS) [] false 0 0 (0, 0)%N (repeat None RS) MIdle BPoll None []).

Definition set_m (g : bg) (m : mpc) : bg :=
  mkbg (b_n g) (b_nt g) (b_c0 g) (b_maxr g) (b_ks g) (b_conv g) (b_nw g) (b_msz g) (b_mrb g) (b_tmp g) (b_copy g) m (b_b g) (b_todo g) (b_log g).
Definition set_b (g : bg) (b : bpc) : bg :=
  mkbg (b_n g) (b_nt g) (b_c0 g) (b_maxr g) (b_ks g) (b_conv g) (b_nw g) (b_msz g) (b_mrb g) (b_tmp g) (b_copy g) (b_m g) b (b_todo g) (b_log g).
Definition set_store (g : bg) (c : c0) (nt : N) : bg :=
  mkbg (b_n g) nt c (b_maxr g) (b_ks g) (b_conv g) (b_nw g) (b_msz g) (b_mrb g) (b_tmp g) (b_copy g) (b_m g) (b_b g) (b_todo g) (b_log g).
Definition set_ks (g : bg) (r : nat) (l : list (option ktree)) : bg :=
  mkbg (b_n g) (b_nt g) (b_c0 g) r l (b_conv g) (b_nw g) (b_msz g) (b_mrb g) (b_tmp g) (b_copy g) (b_m g) (b_b g) (b_todo g) (b_log g).
Definition set_conv (g : bg) (l : list edge) : bg :=
  mkbg (b_n g) (b_nt g) (b_c0 g) (b_maxr g) (b_ks g) l (b_nw g) (b_msz g) (b_mrb g) (b_tmp g) (b_copy g) (b_m g) (b_b g) (b_todo g) (b_log g).
Definition set_nw (g : bg) (w : bool) : bg :=
  mkbg (b_n g) (b_nt g) (b_c0 g) (b_maxr g) (b_ks g) (b_conv g) w (b_msz g) (b_mrb g) (b_tmp g) (b_copy g) (b_m g) (b_b g) (b_todo g) (b_log g).
Definition set_copy (g : bg) (l : list (option ktree)) : bg :=
  mkbg (b_n g) (b_nt g) (b_c0 g) (b_maxr g) (b_ks g) (b_conv g) (b_nw g) (b_msz g) (b_mrb g) (b_tmp g) l (b_m g) (b_b g) (b_todo g) (b_log g).
Definition set_batch (g : bg) (l : list edge) (e : edge) : bg :=
  mkbg (b_n g) (b_nt g) (b_c0 g) (b_maxr g) (b_ks g) l (b_nw g) (N.max (b_n g) (b_nt g)) (b_maxr g) e (b_copy g) (b_m g) (b_b g) (b_todo g) (b_log g).
Definition set_todo (g : bg) (t : option (edge * list edge)) : bg :=
  mkbg (b_n g) (b_nt g) (b_c0 g) (b_maxr g) (b_ks g) (b_conv g) (b_nw g) (b_msz g) (b_mrb g) (b_tmp g) (b_copy g) (b_m g) (b_b g) t (b_log g).
(** the call returns *)
Definition done (g : bg) (v : event) : bg :=
  mkbg (b_n g) (b_nt g) (b_c0 g) (b_maxr g) (b_ks g) (b_conv g) (b_nw g) (b_msz g) (b_mrb g) (b_tmp g) (b_copy g) MIdle (b_b g) None (v :: b_log g).

(** An insertion ends, by [how]: add_edge returns, to the caller or to the rebuild loop, which inserts the next edge ([next]) or ends. *)
Definition ins_done (next : bg -> edge -> out bg) (g : bg) (e : edge) (h : how) : out bg :=
  match b_todo g with
  | None => Ok (done g (EIns e h))
  | Some (d, []) => Ok (done g (EDel d))
  | Some (d, f :: r) => next (set_todo g (Some (d, r))) f
  end.
(** add_edge up to the first shared access, DKtree_background.hpp:140, :180.  An edge of the buffer is found at once; in the rebuild
    loop this continues with the next edge, so the recursion follows [b_todo]. *)
Fixpoint ins_start (fuel : nat) (g : bg) (e : edge) : out bg :=
  let* b := c0_contains (b_c0 g) e in
  if b then match fuel with
            | O => ins_done (fun _ _ => UB) g e Found
            | S f => ins_done (ins_start f) g e Found
            end
  else Ok (set_m g (MHas true e)).
Definition fuel_of (g : bg) : nat := match b_todo g with None => 0 | Some (_, l) => length l end.
Definition start (g : bg) (e : edge) : out bg := ins_start (fuel_of g) g e.
Definition ins_end (g : bg) (e : edge) (h : how) : out bg := ins_done (fun g => start g) g e h.

(** contains returns b, DKtree_background.hpp:179-195, :140 *)
Definition has_end (g : bg) (k : bool) (e : edge) (b busy : bool) : out bg :=
  if k then if b then ins_end g e Found else Ok (set_m g (MIns e))
  else Ok (done g (EHas e b busy)).

(** A call begins: the part before the first access to a shared field. *)
Definition call_step (c : call) (g : bg) : out bg :=
  match b_m g with
  | MIdle =>
    match c with
    | CIns e => start g e
    | CHas e => let* b := c0_contains (b_c0 g) e in
                if b then Ok (done g (EHas e true false)) else Ok (set_m g (MHas false e))
    | CNbr x => let* l := c0_neigh (b_c0 g) x in Ok (set_m g (MNbr x l))
    | CDel e => let* p := c0_erase (b_c0 g) e in
                if fst p then Ok (done (set_store g (snd p) (u64_dec (b_nt g))) (EDel e))
                else Ok (set_m (set_store g (snd p) (b_nt g)) (MWait e))
    end
  | _ => Ok g
  end.

(** A step of the caller's thread inside a call. *)
Definition main_step (g : bg) : out bg :=
  match b_m g with
  | MIdle => Ok g
  | MHas k e =>
    if b_nw g then
      if eeqb (b_tmp g) e then has_end g k e true true
      else if b_mrb g <? length (b_copy g)
           then has_end g k e (ks_adj K (firstn (S (b_mrb g)) (b_copy g)) (fst e) (snd e)) true
           else UB
    else Ok (set_m g (MScan k e 0))
  | MScan k e i =>
    if i <=? b_maxr g then
      match nth_error (b_ks g) i with
      | None => UB
      | Some None => Ok (set_m g (MScan k e (S i)))
      | Some (Some t) => if kt_adj K t (fst e) (snd e) then has_end g k e true false else Ok (set_m g (MScan k e (S i)))
      end
    else has_end g k e false false
  | MIns e =>
    let* max_size := maxsz T (N.max (b_n g) (b_nt g)) 0 in
    if (N.of_nat (c0_size (b_c0 g)) <? max_size)%N then
      let* c := c0_insert T (b_c0 g) e (b_nt g) in ins_end (set_store g c (b_nt g + 1)) e Buffered
    else Ok (set_m g (MBusy e))
  | MBusy e =>
    if b_nw g then if wt then Ok g else
      let c := if c0_size (b_c0 g) =? c_max (b_c0 g) then c0_resize (b_c0 g) (c_max (b_c0 g) + 10) else b_c0 g in
      let* c := c0_insert T c e (b_nt g) in ins_end (set_store g c (b_nt g + 1)) e Buffered
    else Ok (set_m g (MPush e))
  | MPush e =>
    let* l := c0_converted (b_c0 g) in Ok (set_m (set_batch g (b_conv g ++ l ++ [e]) e) (MCopy e 0))
  | MCopy e j =>
    match nth_error (b_ks g) j with
    | Some o => Ok (set_m (set_copy g (upd (b_copy g) j o)) (MCopy e (S j)))
    | None => Ok (set_m g (MFlag e))
    end
  | MFlag e => Ok (set_m (set_nw g true) (MClean e))
  | MClean e => let* c := c0_clean (b_c0 g) in ins_end (set_store g c (b_nt g + 1)) e Flushed
  | MNbr x acc =>
    if b_nw g then Ok (set_m g (MNb x (acc ++ if (fst (b_tmp g) =? x)%N then [snd (b_tmp g)] else []) true 0))
    else Ok (set_m g (MNb x acc false 0))
  | MNb x acc busy l =>
    if l <=? b_maxr g then
      match nth_error (if busy then b_copy g else b_ks g) l with
      | None => UB
      | Some None => Ok (set_m g (MNb x acc busy (S l)))
      | Some (Some t) => Ok (set_m g (MNb x (acc ++ kt_neigh K t x) busy (S l)))
      end
    else Ok (done g (ENbr x acc busy))
  | MWait e => if b_nw g then Ok g else Ok (set_m g (MErase e))
  | MErase e =>
    let '(eb, marked, l) := dl_erase K (b_ks g) (fst e) (snd e) in
    let n' := if eb then u64_dec (b_nt g) else b_nt g in
    let g := set_store (set_ks g (b_maxr g) l) (b_c0 g) n' in
    if th_trig T marked n' then
      let es := flat_map (fun o => match o with Some t => kt_edges K t | None => [] end) (firstn (S (b_maxr g)) l) in
      let g := set_store (set_ks g 0 (repeat None (Nat.min (S (b_maxr g)) (length l)) ++ skipn (S (b_maxr g)) l)) (b_c0 g) (N.of_nat (c0_size (b_c0 g))) in
      match es with
      | [] => Ok (done g (EDel e))
      | f :: r => start (set_todo g (Some (e, r))) f
      end
    else Ok (done g (EDel e))
  end.

(** A step of the merging thread. *)
Definition back_step (g : bg) : out bg :=
  match b_b g with
  | BPoll => if b_nw g then Ok (set_b g BBuild) else Ok g
  | BBuild => Ok (set_b g (BClear (kt_build K (b_conv g) (b_n g))))
  | BClear t => Ok (set_b (set_conv g []) (BLevel t))
  | BLevel t =>
    let* max_size := maxsz T (b_msz g) 0 in
    match find_level T K (b_msz g) (b_ks g) 0 max_size with
    | None => Ok (set_b g BDead)
    | Some i => Ok (set_b (set_ks g (Nat.max i (b_maxr g)) (b_ks g)) (BMerge t i 0))
    end
  | BMerge t i j =>
    if j <=? i then
      match nth_error (b_ks g) j with
      | None => UB
      | Some None => Ok (set_b g (BMerge t i (S j)))
      | Some (Some s) => Ok (set_b (set_ks g (b_maxr g) (upd (b_ks g) j None)) (BMerge (kt_union K t s) i (S j)))
      end
    else Ok (set_b g (BStore t i))
  | BStore t i => if i <? length (b_ks g) then Ok (set_b (set_ks g (b_maxr g) (upd (b_ks g) i (Some t))) BDone) else UB
  | BDone => Ok (set_b (set_nw g false) BPoll)
  | BDead => Ok g
  end.

(** ** Executions *)
Inductive act := ACall (c : call) | AMain | ABack.
Definition step (a : act) (g : bg) : out bg :=
  match a with ACall c => call_step c g | AMain => main_step g | ABack => back_step g end.
Fixpoint run (s : list act) (g : bg) : out bg :=
  match s with [] => Ok g | a :: s => let* g := step a g in run s g end.
Definition exec (n : N) (s : list act) : out bg := let* g := bg_new n in run s g.

(** ** Data races: the fields both threads access, and what the next step of each accesses (true: writes) *)
Inductive loc := LConv | LKs | LMaxR | LMsz.
Definition main_acc (m : mpc) : list (loc * bool) :=
  match m with
  | MScan _ _ _ => [(LMaxR, false); (LKs, false)]
  | MPush _ => [(LConv, true); (LMsz, true); (LMaxR, false)]
  | MCopy _ _ => [(LKs, false)]
  | MNb _ _ busy _ => if busy then [(LMaxR, false)] else [(LMaxR, false); (LKs, false)]
  | MErase _ => [(LMaxR, true); (LKs, true)]
  | _ => []
  end.
Definition back_acc (b : bpc) : list (loc * bool) :=
  match b with
  | BBuild => [(LConv, false)]
  | BClear _ => [(LConv, true)]
  | BLevel _ => [(LMsz, false); (LKs, false); (LMaxR, true)]
  | BMerge _ _ _ | BStore _ _ => [(LKs, true)]
  | _ => []
  end.
Definition race (g : bg) : Prop :=
  exists l w1 w2, In (l, w1) (main_acc (b_m g)) /\ In (l, w2) (back_acc (b_b g)) /\ (w1 || w2) = true.

(** the observers that read one field of the caller's thread, DKtree_background.hpp:127-133 *)
Definition bg_edges (g : bg) : N := b_nt g.
Definition bg_nodes (g : bg) : N := b_n g.
End Bg.
Arguments b_n {K}. Arguments b_nt {K}. Arguments b_c0 {K}. Arguments b_maxr {K}. Arguments b_ks {K}. Arguments b_conv {K}.
Arguments b_nw {K}. Arguments b_msz {K}. Arguments b_mrb {K}. Arguments b_tmp {K}. Arguments b_copy {K}. Arguments b_m {K}. Arguments b_b {K}.
Arguments b_todo {K}. Arguments b_log {K}. Arguments mkbg {K}. Arguments BClear {K}. Arguments BLevel {K}. Arguments BMerge {K}. Arguments BStore {K}.
Arguments BPoll {K}. Arguments BBuild {K}. Arguments BDone {K}. Arguments BDead {K}.
Arguments set_m {K}. Arguments set_b {K}. Arguments set_store {K}. Arguments set_ks {K}. Arguments set_conv {K}. Arguments set_nw {K}.
Arguments set_copy {K}. Arguments set_batch {K}. Arguments set_todo {K}. Arguments done {K}. Arguments race {K}.
