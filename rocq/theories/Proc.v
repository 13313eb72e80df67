(** * Proc: a process with several DKtree_background_wait graphs, include/dktree/DKtree_background_wait.hpp.

    The flags needs_work_w and run_w, the mutex and the condition variable are globals (:33-35): every graph and every
    merging thread of the process uses the same ones.  One thread constructs the graphs, calls their methods and destroys
    them; each graph has its merging thread, which is detached.
    The graphs are those of Bg.v (wt = true); their flag [b_nw] is replaced by the global before every step and read back after it.
    The waits on cv_w are polls: a wait can end only when its condition is found true while m_mutex is held, and (Cv.v) every wait
    whose condition becomes true is woken. *)
From Verif Require Import Base Spec Thresholds K2 C0 DK Delay BgSpec Bg.

(** The control of a merging thread: at :40, at :41-46, at :47, at :49-75 (where: [b_b] of its graph), ended. *)
Inductive tpc := THead | TWait | TCheck | TIn | TEnd.

Section Proc.
Context (T : thresholds) (K : k2impl).

(** A graph: the object, whether it still exists, its thread. *)
Record slot := mkslot { s_g : bg K; s_live : bool; s_t : tpc }.
(** The calling thread: between calls, in a call on graph i, in the destructor of graph i: at :124-129, at :130-134, at :135. *)
Inductive pmain := PIdle | PIn (i : nat) | PWait (i : nat) | PStop (i : nat) | PClose (i : nat).
Record proc := mkproc { p_nw : bool; p_run : bool; p_gs : list slot; p_main : pmain }.
Definition proc0 : proc := mkproc false false [] PIdle.

Inductive pact :=
| PNew (n : N)               (* a graph is constructed *)
| PCall (i : nat) (c : call) (* a call on graph i begins *)
| PDel (i : nat)             (* the destructor of graph i is entered *)
| PMain                      (* the calling thread takes a step *)
| PThr (i : nat).            (* the thread of graph i takes a step *)

Definition main_of (i : nat) (g : bg K) : pmain := match b_m g with MIdle => PIdle | _ => PIn i end.

(** DKtree_background_wait.hpp:137-154: the constructor assigns both flags.  Calls on objects that do not exist are not made. *)
Definition pstep (a : pact) (p : proc) : out proc :=
  match a with
  | PNew n =>
    match p_main p with
    | PIdle => let* g := bg_new true T K n in Ok (mkproc false true (p_gs p ++ [mkslot g true THead]) PIdle)
    | _ => Ok p
    end
  | PCall i c =>
    match p_main p, nth_error (p_gs p) i with
    | PIdle, Some (mkslot g true t) =>
        let* g := call_step K c (set_nw g (p_nw p)) in
        Ok (mkproc (p_nw p) (p_run p) (upd (p_gs p) i (mkslot g true t)) (main_of i g))
    | _, _ => Ok p
    end
  | PDel i =>
    match p_main p, nth_error (p_gs p) i with
    | PIdle, Some (mkslot g true t) => Ok (mkproc (p_nw p) (p_run p) (p_gs p) (PWait i))
    | _, _ => Ok p
    end
  | PMain =>
    match p_main p with
    | PIdle => Ok p
    | PIn i =>
      match nth_error (p_gs p) i with
      | Some (mkslot g true t) =>
          let* g := main_step true T K (set_nw g (p_nw p)) in
          Ok (mkproc (b_nw g) (p_run p) (upd (p_gs p) i (mkslot g true t)) (main_of i g))
      | _ => UB
      end
    (* :126 *)
    | PWait i => if p_nw p then Ok p else Ok (mkproc (p_nw p) (p_run p) (p_gs p) (PStop i))
    (* :132 *)
    | PStop i => Ok (mkproc (p_nw p) false (p_gs p) (PClose i))
    (* :135: the members are destroyed *)
    | PClose i =>
      match nth_error (p_gs p) i with
      | Some (mkslot g _ t) => Ok (mkproc (p_nw p) (p_run p) (upd (p_gs p) i (mkslot g false t)) PIdle)
      | None => UB
      end
    end
  | PThr i =>
    match nth_error (p_gs p) i with
    | None => Ok p
    | Some (mkslot g live t) =>
      let go t := Ok (mkproc (p_nw p) (p_run p) (upd (p_gs p) i (mkslot g live t)) (p_main p)) in
      match t with
      (* :40 *)
      | THead => go (if p_run p then TWait else TEnd)
      (* :43 *)
      | TWait => if p_nw p || negb (p_run p) then go TCheck else Ok p
      (* :47, and entering :49 *)
      | TCheck => if p_run p then Ok (mkproc (p_nw p) (p_run p) (upd (p_gs p) i (mkslot (set_b g BBuild) live TIn)) (p_main p)) else go TEnd
      (* :49-75.  max_size_background (0 here) has no value before the first flush of its graph; an object that was destroyed
         must not be accessed *)
      | TIn =>
        if live then
          match b_b g with
          | BLevel _ => if (b_msz g =? 0)%N then UB else
              let* g := back_step T K (set_nw g (p_nw p)) in Ok (mkproc (b_nw g) (p_run p) (upd (p_gs p) i (mkslot g live TIn)) (p_main p))
          | BDone => let* g := back_step T K (set_nw g (p_nw p)) in Ok (mkproc (b_nw g) (p_run p) (upd (p_gs p) i (mkslot g live THead)) (p_main p))
          | _ => let* g := back_step T K (set_nw g (p_nw p)) in Ok (mkproc (b_nw g) (p_run p) (upd (p_gs p) i (mkslot g live TIn)) (p_main p))
          end
        else UB
      | TEnd => Ok p
      end
    end
  end.
Fixpoint prun (s : list pact) (p : proc) : out proc := match s with [] => Ok p | a :: s => let* p := pstep a p in prun s p end.

(** the answers graph i has given so far, newest first *)
Definition plog (p : proc) (i : nat) : list event := match nth_error (p_gs p) i with Some s => b_log (s_g s) | None => [] end.
End Proc.
Arguments mkslot {K}. Arguments s_g {K}. Arguments s_live {K}. Arguments s_t {K}. Arguments mkproc {K}. Arguments p_nw {K}. Arguments p_run {K}.
Arguments p_gs {K}. Arguments p_main {K}. Arguments proc0 {K}. Arguments plog {K}.
