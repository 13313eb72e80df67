(** * Property theorems about the buffer (C18, C19, C20). *)
From Verif Require Import Base Spec Thresholds K2 C0 C0Proof C0Hist.

(** C18.  After any history of calls that completes, every query of the buffer is what the
    history says: membership (last operation on the edge was an insert), the result of erase, the size,
    and the neighbour list, most recent first. *)
Theorem C18_buffer_is_a_set : forall T n h c,
  c0_hist T n h = Ok c ->
  (forall e, c0_contains c e = Ok (present (map cop_op h) e)) /\
  (forall e, exists c', c0_erase c e = Ok (present (map cop_op h) e, c')) /\
  c0_size c = length (espec (map cop_op h)) /\
  (forall x, c0_neigh c x = Ok (rev (succs x (espec (map cop_op h))))) /\
  (forall x, NoDup (rev (succs x (espec (map cop_op h))))).
Proof.
  intros T n h c E. destruct (c0_hist_inv _ _ _ _ E) as [sl [H [Hl [_ _]]]].
  assert (Hp : forall e, emem e (live_edges sl) = present (map cop_op h) e).
  { intros e. apply eq_true_iff_eq. rewrite emem_In, Hl, espec_present. reflexivity. }
  split; [|split; [|split; [|split]]].
  - intros e. rewrite (inv_contains _ _ _ H), Hp. reflexivity.
  - intros e. destruct (erase_total _ _ e H) as [b [c' E']]. rewrite E'.
    destruct (erase_inv _ _ _ _ _ H E') as [-> _]. rewrite Hp. eauto.
  - rewrite (inv_size _ _ H), Hl. reflexivity.
  - intros x. rewrite (inv_neigh _ _ _ H), Hl. reflexivity.
  - intros x. apply NoDup_rev, NoDup_succs, espec_nodup.
Qed.

(** C18, definedness: erase never fails; insert of a new edge is defined exactly when the slots consumed so
    far (deletions do not give slots back) are fewer than the capacity, after growing it to
    MAXSZ(max(n, n_edges), 0). *)
Theorem C18_insert_defined_iff_room : forall T n h c e ne,
  c0_hist T n h = Ok c -> N.max n ne <> 1%N -> present (map cop_op h) e = false ->
  ((exists c', c0_insert T c e ne = Ok c') <->
   slots_used [] (map cop_op h) < Nat.max (c_max c) (N.to_nat (th_max T (N.max n ne) 0))).
Proof.
  intros T n h c e ne E Hm Hp. destruct (c0_hist_inv _ _ _ _ E) as [sl [H [Hl [Hv Hs]]]].
  assert (Hnin : ~ In e (live_edges sl)).
  { rewrite Hl, espec_present. congruence. }
  rewrite <- Hs, <- (iv_n _ _ H). split.
  - intros [c' E']. pose proof (insert_room _ _ _ _ _ _ H Hnin E') as [Hr|[_ Hr]]; rewrite ?Hv in *; lia.
  - intros Hr. destruct (insert_ok T c sl e ne H Hnin) as [c' [E' _]]; [|eauto].
    unfold room. rewrite Hv. destruct (Nat.lt_ge_cases (c_n c) (c_max c)); [left; auto|right; split; auto; lia].
Qed.

(** C19.  If nothing was deleted (size equals slots consumed), save succeeds, writes exactly the
    edges, and load gives a buffer that is equal under == and answers every query the same. *)
Theorem C19_buffer_round_trip : forall T n h c,
  c0_hist T n h = Ok c -> c0_size c = slots_used [] (map cop_op h) ->
  exists im c', c0_save c = Ok im /\ snd im = espec (map cop_op h) /\ c0_load T im = Ok c' /\
    c0_eqb c c' = Ok true /\ c0_eqb c' c = Ok true /\
    (forall e, c0_contains c' e = c0_contains c e) /\ (forall x, c0_neigh c' x = c0_neigh c x) /\
    c0_size c' = c0_size c.
Proof.
  intros T n h c E Hsz. destruct (c0_hist_inv _ _ _ _ E) as [sl [H [Hl [Hv Hs]]]].
  rewrite (inv_size _ _ H), <- Hs in Hsz. pose proof (dead_live sl) as Hd.
  assert (Hs0 : c0_save c = Ok (c_nv c, c_max c, live_edges sl)).
  { rewrite (inv_save _ _ H). replace (dead_count sl) with 0 by lia. reflexivity. }
  destruct (inv_load T _ _ _ H Hs0) as [c' [E' [H' [Hm' Hv']]]].
  exists (c_nv c, c_max c, live_edges sl), c'. sp; auto.
  - apply (c0_eqb_same _ _ sl); auto.
  - apply (c0_eqb_same _ _ sl); auto.
  - intros e. rewrite (inv_contains _ _ _ H), (inv_contains _ _ _ H'). reflexivity.
  - intros x. rewrite (inv_neigh _ _ _ H), (inv_neigh _ _ _ H'). reflexivity.
  - rewrite (inv_size _ _ H), (inv_size _ _ H'). reflexivity.
Qed.

(** C20 is false of the code.  Saving is undefined exactly when some slot was freed: whenever an
    erase has succeeded, save writes an indeterminate Edge. *)
Theorem C20_save_after_delete_partial : forall T n h c,
  c0_hist T n h = Ok c ->
  (c0_save c = UB <-> c0_size c < slots_used [] (map cop_op h)).
Proof.
  intros T n h c E. destruct (c0_hist_inv _ _ _ _ E) as [sl [H [Hl [Hv Hs]]]].
  rewrite (inv_save _ _ H), (inv_size _ _ H), <- Hs. pose proof (dead_live sl).
  destruct (Nat.eqb_spec (dead_count sl) 0); split; intros; try discriminate; try lia; reflexivity.
Qed.

(** ** The hypotheses are met by a concrete, non-trivial history: 8 vertices, thresholds of utils.hpp *)
Definition ex_T : thresholds := {|
  th_max := fun m i => if N.eqb m 8 then 3%N else 2%N; th_trig := fun _ _ => false |}.
Definition ex_h : list cop := [CIns (1, 2) 0; CIns (1, 5) 1; CErase (1, 2); CIns (1, 2) 1]%N.

Example C18_example : exists c, c0_hist ex_T 8 ex_h = Ok c /\ c0_neigh c 1 = Ok [2; 5]%N /\ c0_size c = 2
  /\ c0_save c = UB.
Proof. eexists. sp; vm_compute; reflexivity. Qed.

Example C19_example : exists c,
  c0_hist ex_T 8 [CIns (1, 2) 0; CIns (1, 5) 1; CErase (7, 7)]%N = Ok c /\
  c0_size c = slots_used [] (map cop_op [CIns (1, 2) 0; CIns (1, 5) 1; CErase (7, 7)]%N) /\
  exists im c', c0_save c = Ok im /\ c0_load ex_T im = Ok c' /\ c0_eqb c c' = Ok true.
Proof.
  eexists. split; [vm_compute; reflexivity|]. split; [reflexivity|].
  do 2 eexists. split; [vm_compute; reflexivity|]. split; vm_compute; reflexivity.
Qed.

Print Assumptions C18_buffer_is_a_set.
Print Assumptions C18_insert_defined_iff_room.
Print Assumptions C19_buffer_round_trip.
Print Assumptions C20_save_after_delete_partial.
