(** * C84: iterators are values: any number of them, copied, advanced and read in any order.

    [edge_prog], [node_prog], [neigh_prog] (IterVal.v) run a program over iterator variables; [srun] (IterValProof.v) is the specification: a variable is
    the sequence it has still to visit, begin gives the whole sequence, a copy and an assignment copy it, ++ drops its first value, *v is its first
    value (the end value when there is none), *v++ drops the first value and then uses the first of what is left.  Variable 0 is the graph's own
    iterator, the one the references returned by begin refer to. *)
From Verif Require Import Base Spec Thresholds Table K2 C0 C0Proof DK DKProof DKHist Prop_DK Iter IterProof Prop_Iter IterVal IterValProof.

(** No assignment between iterators, and the reference returned by edge_begin() is not advanced. *)
Definition by_value {A} (o : vop A) : Prop :=
  match o with VBegin _ _ | VGet _ => True | VCopy v _ | VNext v | VPost v => v <> 0 | VAssign _ _ => False end.

(** C84, edge iterators: every program without assignments does what the specification says, on every graph. *)
Theorem C84_edges_partial : forall T K (L : k2laws K) n h g, th_real T -> (2 <= n)%N -> reached T K n h g ->
  exists l it, dk_edge_begin K g 0 = Ok it /\ edge_loop K it l /\
  forall p R u, Forall by_value p -> srun (fun _ => l) MAXE p rest0 = Some (R, u) ->
    exists E, edge_prog K g p = Ok (E, u) /\ forall v r, R v = Some r -> exists it, E v = Some it /\ edge_loop K it r.
Proof.
  intros T K L n h g HT Hn R. destruct (C51_edge_iterator_safe T K L n h g HT Hn R) as (live & it & l & _ & _ & _ & Eb & El & _).
  exists l, it. split; [exact Eb|]. split; [exact El|]. intros p R1 u F Es.
  destruct (run_agrees (fun _ : unit => eit_new K g) (eit_assign K) (eit_at_end K) ei_ptr (eit_next K) (eit_post K) (fun _ => l) MAXE
    (fun _ => True) (fun m => ei_i m = 0) by_value) with (p := p) (E := env0 (eit0 K)) (R := @rest0 edge) (R' := R1) (u := u) as (E & Er & _ & A); auto.
  - intros _ m _ Pm. unfold dk_edge_begin in Eb. destruct (eit_new K g) as [b|]; cbn [obind] in Eb; [|discriminate]. injection Eb as <-. exists b. split; [reflexivity|].
    unfold eit_assign. rewrite Pm. split; [reflexivity|exact El].
  - intros s r V. unfold eit_post. inversion V as [s0 A1|s0 s1 r1 A1 A2 A3]; subst; rewrite A1; [exists s; split; auto|]. exists s1. split; [exact A2|exact A3].
  - intros s A. apply eeqb_eq. exact A.
  - intros v w [A|[A|[A|A]]]; cbn in A; tauto.
  - intros v w [].
  - split; [exists (eit0 K); split; reflexivity|]. intros v r. unfold rest0, env0. destruct (v =? 0); [|discriminate]. intros X. injection X as <-. eexists. split; [reflexivity|]. constructor. reflexivity.
  - exists E. split; [exact Er|exact A].
Qed.

(** C84, node iterators: every program. *)
Theorem C84_nodes : forall n p R u, (n < 2 ^ 31)%N -> srun (fun _ => map Z.of_nat (seq 0 (N.to_nat n))) (-1)%Z p rest0 = Some (R, u) ->
  exists E, node_prog n p = Ok (E, u) /\ forall v r, R v = Some r -> exists it, E v = Some it /\ node_loop it r.
Proof.
  intros n p R u Hn Es.
  destruct (run_agrees (fun _ : unit => Ok (vit_begin n)) (fun _ t => t) (fun it => Z.eqb (vi_ptr it) (-1)) vi_ptr vit_next vit_next (fun _ => map Z.of_nat (seq 0 (N.to_nat n))) (-1)%Z
    (fun _ => True) (fun _ => True) (fun _ => True)) with (p := p) (E := env0 (mkvit (-1) 0)) (R := @rest0 Z) (R' := R) (u := u) as (E & Er & _ & A); auto.
  - intros _ m _ _. exists (vit_begin n). split; [reflexivity|]. split; [exact I|]. apply C09_node_iterator; auto.
  - intros s r V. inversion V as [s0 A1|s0 s1 r1 A1 A2 A3]; subst; [|exists s1; split; auto].
    unfold vit_next. rewrite A1, orb_true_r. eexists. split; [reflexivity|]. constructor. reflexivity.
  - intros s A. apply Z.eqb_eq. exact A.
  - split; [eexists; split; [reflexivity|exact I]|]. intros v r. unfold rest0, env0. destruct (v =? 0); [|discriminate]. intros X. injection X as <-. eexists. split; [reflexivity|]. constructor. reflexivity.
  - apply Forall_forall. auto.
  - exists E. split; [exact Er|exact A].
Qed.

(** C84, neighbour iterators: every program, iterators of different vertices mixed. *)
Theorem C84_neighbours : forall T K (L : k2laws K) n h g, (2 <= n <= 2 ^ 31)%N -> reached T K n h g ->
  exists nb, (forall x, (x < n)%N -> dk_neigh K g x = Ok (nb x)) /\
  forall p R u, (forall v x, In (VBegin v x) p -> (x < n)%N) -> srun (fun x => map Z.of_N (nb x)) (-1)%Z p rest0 = Some (R, u) ->
    exists E, neigh_prog K g p = Ok (E, u) /\ forall v r, R v = Some r -> exists x it, E v = Some (x, it) /\ neigh_loop K g x it r.
Proof.
  intros T K L n h g Hn R. exists (fun x => match dk_neigh K g x with Ok l => l | UB => [] end). split.
  { intros x Hx. destruct (C05_neighbour_iterator T K L n h g x Hn R Hx) as (l & _ & E & _). rewrite E. reflexivity. }
  intros p R1 u F Es.
  set (lp := fun x it l => visits (fun s : N * nit => nit_at_end (snd s)) (fun s => ni_ptr (snd s)) (fun s => let* it := nit_next K g (fst s) (snd s) in Ok (fst s, it)) (x, it) l).
  assert (LP : forall x it l, lp x it l <-> neigh_loop K g x it l).
  { intros x it l. split.
    - unfold lp. remember (x, it) as s eqn:Es0. intros V. revert x it Es0. induction V as [s A|s s1 r A1 A2 A3 IH]; intros x it ->; [constructor; exact A|].
      cbn [fst snd] in *. destruct (nit_next K g x it) as [it1|] eqn:En; cbn [obind] in A2; [|discriminate]. injection A2 as <-. eapply visits_step; eauto.
      apply (IH x it1 eq_refl).
    - intros V. unfold lp. induction V as [it A|it it1 r A1 A2 A3 IH]; [constructor; exact A|].
      apply (visits_step _ (fun s : N * nit => ni_ptr (snd s)) _ (x, it) (x, it1)); auto. cbn [fst snd]. rewrite A2. reflexivity. }
  destruct (run_agrees (fun x => let* it := nit_begin K g x in Ok (x, it)) (fun _ t => t) (fun s : N * nit => nit_at_end (snd s)) (fun s => ni_ptr (snd s))
    (fun s => let* it := nit_next K g (fst s) (snd s) in Ok (fst s, it)) (nit_post K g) (fun x => map Z.of_N (match dk_neigh K g x with Ok l => l | UB => [] end)) (-1)%Z
    (fun x => (x < n)%N) (fun _ => True) (fun o => forall v x, o = VBegin v x -> (x < n)%N)) with (p := p) (E := env0 (0%N, mknit (-1) (mkc0it (-1) 0) false None [])) (R := @rest0 Z) (R' := R1) (u := u) as (E & Er & _ & A); auto.
  - intros x m Hx _. destruct (C05_neighbour_iterator T K L n h g x Hn R Hx) as (l & it & En & Eit & El & _). rewrite Eit, En. cbn [obind].
    exists (x, it). split; [reflexivity|]. split; [exact I|]. apply LP. exact El.
  - intros [x it] r V. unfold nit_post. inversion V as [s0 A1|s0 s1 r1 A1 A2 A3]; subst; cbn [snd fst] in *; rewrite A1; [exists (x, it); split; auto|].
    exists s1. split; [exact A2|exact A3].
  - intros [x it] A. apply Z.eqb_eq. exact A.
  - intros v x Al. exact (Al v x eq_refl).
  - split; [eexists; split; [reflexivity|exact I]|]. intros v r. unfold rest0, env0. destruct (v =? 0); [|discriminate]. intros X. injection X as <-. eexists. split; [reflexivity|]. constructor. reflexivity.
  - apply Forall_forall. intros o Ho v x ->. eapply F; eauto.
  - exists E. split; [exact Er|]. intros v r Rv. destruct (A v r Rv) as ([x it] & Ev & V). exists x, it. split; [exact Ev|]. apply LP. exact V.
Qed.
