(** * C95: the waiting of DKtree_background_wait ends, and exactly when.

    Model: Cv.v, the mutex, the condition variable, needs_work_w and run_w of a process with any number of graphs, every one with its merging
    thread.  [v_main v]: what the calling thread is doing ([CIdle]: nothing).  [cstep]: one step; [CSpurMain], [CSpur i]: a wait() that
    returns without a notification, as the documentation of boost::condition allows. *)
From Verif Require Import Base Cv.

(** ** Specification *)
(** The calling thread is inside a call; the part of it that waits is over. *)
Definition past_wait (m : cpc) : Prop := match m with CBody _ | CLock2 _ | CSet _ | CNotify _ => True | _ => False end.
(** The merging thread has begun a merge and not yet cleared needs_work_w. *)
Definition merging (t : vpc) : Prop := t = VWork \/ t = VLock2 \/ t = VSet.
(** Somebody will let the calling thread go: no merge is wanted; or run_w is true (no graph was destroyed since the last one was built); or a
    merging thread is at work. *)
Definition served (v : cv) : Prop :=
  v_nw v = false \/ past_wait (v_main v) \/ v_run v = true \/ exists i t, nth_error (v_thr v) i = Some t /\ merging t.

Definition crun (s : list cact) (v : cv) : cv := fold_left (fun v a => cstep a v) s v.
(** A round of a fair schedule: every thread takes at least one step. *)
Definition fair_round (m : nat) (r : list cact) : Prop := In CMain r /\ forall i, i < m -> In (CThr i) r.
Definition spurious (a : cact) : bool := match a with CSpurMain | CSpur _ => true | _ => false end.
Definition spurs (s : list cact) : nat := length (filter spurious s).

(** ** Proof *)
Definition rankA (t : vpc) : nat :=
  match t with VSet | VEnd => 0 | VLock2 => 1 | VWork => 2 | VCheck => 3 | VTest => 4 | VLock => 5 | VSleep | VHead => 6 | VNotify => 10 end.
Definition rankB (run : bool) (m : nat) (t : vpc) : nat :=
  if run then
    match t with VSleep | VEnd => 0 | VTest => 1 | VLock => 2 | VHead => 3 | VNotify => 4 + 2 * m | VSet => 5 + 2 * m | VLock2 => 6 + 2 * m | VWork => 7 + 2 * m | VCheck => 8 + 2 * m end
  else
    match t with VEnd => 0 | VCheck => 1 | VTest => 2 | VLock => 3 | VSleep => 4 | VHead => 1 | VNotify => 2 | VSet => 3 | VLock2 => 4 | VWork => 5 end.
Definition mainA (m : cpc) : nat := match m with CLock _ => 2 | CTest _ => 1 | _ => 0 end.
Definition mainB (m : cpc) : nat := match m with CSleep _ => 5 | CLock _ => 4 | CTest _ => 3 | CBody _ => 2 | CLock2 _ => 1 | _ => 0 end.
Fixpoint tot (f : vpc -> nat) (l : list vpc) : nat := match l with [] => 0 | t :: l => f t + tot f l end.
Definition baseB (m : nat) : nat := 10 * m + 2.
Definition baseA (m : nat) : nat := baseB m + m * (8 + 2 * m) + 6.
Definition mu (v : cv) : nat :=
  let m := length (v_thr v) in
  match v_main v with
  | CNotify _ => 1 + tot rankA (v_thr v)
  | CBody _ | CLock2 _ | CSet _ => baseB m + tot (rankB (v_run v) m) (v_thr v) + mainB (v_main v)
  | _ => if v_nw v then baseA m + tot rankA (v_thr v) + mainA (v_main v)
         else baseB m + tot (rankB (v_run v) m) (v_thr v) + mainB (v_main v)
  end.

Lemma tot_upd f l i t a : nth_error l i = Some t -> tot f (upd l i a) + f t = tot f l + f a.
Proof.
  revert i. induction l as [|x l IH]; intros [|i] E; try discriminate; cbn in E |- *.
  - injection E as ->. lia.
  - specialize (IH i E). lia.
Qed.
Lemma tot_le f b l : (forall t, f t <= b) -> tot f l <= length l * b.
Proof. intros H. induction l as [|x l IH]; cbn [map tot length]; [lia|]. specialize (H x). lia. Qed.
Lemma tot_wake_down f l : (forall t, f (wake_t t) <= f t) -> tot f (map wake_t l) <= tot f l.
Proof. intros H. induction l as [|x l IH]; cbn [map tot]; [lia|]. specialize (H x). lia. Qed.
Lemma tot_wake_up f b l : (forall t, f (wake_t t) <= f t + b) -> tot f (map wake_t l) <= tot f l + length l * b.
Proof. intros H. induction l as [|x l IH]; cbn [map tot length]; [lia|]. specialize (H x). lia. Qed.
Lemma rankA_le t : rankA t <= 10. Proof. destruct t; cbn; lia. Qed.
Lemma rankB_le run m t : rankB run m t <= 8 + 2 * m. Proof. destruct run, t; cbn; lia. Qed.

(** while the calling thread works on the graph no merge is wanted; and while run_w holds a merging thread exists *)
Record ok (v : cv) : Prop := {
  ok_c : cok v;
  ok_nw : match v_main v with CBody _ | CLock2 _ | CSet _ | CNotify ODestroy => v_nw v = false | _ => True end;
  ok_run : v_run v = true -> exists i t, nth_error (v_thr v) i = Some t /\ t <> VEnd
}.
Lemma thr_live v i : (exists j t, nth_error (v_thr v) j = Some t /\ t <> VEnd) -> v_run v = true ->
  exists j t, nth_error (v_thr (cthr i v)) j = Some t /\ t <> VEnd.
Proof.
  intros (j & t & E & N) R. unfold cthr. destruct (nth_error (v_thr v) i) as [u|] eqn:Ei; [|eauto].
  assert (U : forall a, (u <> VEnd -> a <> VEnd) -> exists j t, nth_error (upd (v_thr v) i a) j = Some t /\ t <> VEnd).
  { intros a H. destruct (Nat.eq_dec i j) as [->|Ne].
    - rewrite Ei in E. injection E as ->. exists j, a. rewrite (nth_upd _ _ _ a Ei), Nat.eqb_refl. auto.
    - exists j, t. rewrite (nth_upd _ _ _ a Ei). destruct (Nat.eqb_spec i j); [congruence|auto]. }
  assert (Wk : forall l, (exists j t, nth_error l j = Some t /\ t <> VEnd) -> exists j t, nth_error (map wake_t l) j = Some t /\ t <> VEnd).
  { intros l (k & w & Ek & Nk). exists k, (wake_t w). rewrite nth_error_map, Ek. split; [auto|]. destruct w; cbn; congruence. }
  destruct u; cbn [v_thr]; rewrite ?R; eauto.
  all: try (destruct (v_own v)); try (destruct (negb (v_nw v) && true)); cbn [v_thr]; eauto.
  all: first [apply U; congruence | apply Wk, U; congruence].
Qed.
Lemma ok_step a v : ok v -> ok (cstep a v).
Proof.
  intros [C N R]. constructor; [apply cok_step; auto| |].
  - clear C R. destruct v as [nw run own m thr]. cbn [v_nw v_run v_own v_main v_thr] in *. destruct a as [|o| |i| |i]; cbn [cstep v_main v_thr].
    + destruct m; cbn; auto.
    + destruct m; cbn; auto.
    + unfold cmain. destruct m as [|o|o|o|o|o|o|o]; cbn; auto; try (destruct own; cbn; auto; fail).
      * destruct nw; cbn; auto. destruct o; auto.
      * destruct o; cbn; auto.
    + unfold cthr. cbn [v_nw v_run v_own v_main v_thr]. destruct (nth_error thr i) as [[]|]; cbn; auto; try (destruct own; cbn; auto; fail).
      * destruct (negb nw && run); cbn; auto.
      * destruct m as [|o|o|o|o|o|o|[]]; cbn; auto.
      * destruct m as [|o|o|o|o|o|o|[]]; cbn; auto.
    + destruct m as [|o|o|o|o|o|o|[]]; cbn; auto.
    + destruct (nth_error thr i); cbn; auto.
  - destruct a as [|o| |i| |i]; cbn [cstep].
    + destruct (v_main v); auto. intros _. exists (length (v_thr v)), VHead. cbn [v_thr]. split; [|discriminate].
      rewrite nth_error_app2, Nat.sub_diag by auto. reflexivity.
    + destruct (v_main v); auto.
    + unfold cmain. destruct (v_main v) as [|o|o|o|o|o|o|o]; cbn [v_run v_thr]; auto.
      * destruct (v_own v); auto.
      * destruct (v_nw v); auto.
      * destruct (v_own v); auto.
      * destruct o; cbn [v_run v_thr]; auto; discriminate.
      * intros R1. destruct (R R1) as (j & t & E & Ne). exists j, (wake_t t). rewrite nth_error_map, E. split; [auto|]. destruct t; cbn; congruence.
    + intros R1. assert (R2 : v_run v = true).
      { revert R1. unfold cthr. destruct (nth_error (v_thr v) i) as [[]|]; cbn [v_run]; auto; try (destruct (v_own v); auto; fail).
        destruct (negb (v_nw v) && v_run v) eqn:X; auto. }
      apply thr_live; auto.
    + auto.
    + destruct (nth_error (v_thr v) i) as [u|] eqn:E; auto. cbn [v_run v_thr]. intros R1. destruct (R R1) as (j & t & Ej & Ne).
      destruct (Nat.eq_dec i j) as [->|Nij].
      * exists j, (wake_t u). rewrite (nth_upd _ _ _ _ E), Nat.eqb_refl. split; [auto|]. rewrite E in Ej. injection Ej as ->. destruct t; cbn; congruence.
      * exists j, t. rewrite (nth_upd _ _ _ _ E). destruct (Nat.eqb_spec i j); [congruence|auto].
Qed.
Lemma ok_run_ s : ok (cv_run s).
Proof.
  unfold cv_run. enough (X : forall s v, ok v -> ok (fold_left (fun v a => cstep a v) s v)).
  { apply X. constructor; [|exact I|discriminate]. change cv0 with (cv_run []). apply cok_run. }
  clear. induction s as [|a s IH]; cbn; auto. intros v V. apply IH, ok_step, V.
Qed.

(** Every step that is not spurious either changes nothing, or ends the call, or brings it nearer to its end. *)
Lemma mu_main v : ok v -> v_main v <> CIdle -> let v' := cmain v in v' = v \/ v_main v' = CIdle \/ mu v' < mu v.
Proof.
  intros [C N _] NI. pose proof (tot_le rankA 10 (v_thr v) rankA_le) as BA. pose proof (tot_le _ _ (v_thr v) (rankB_le (v_run v) (length (v_thr v)))) as BB.
  unfold cmain. destruct v as [nw run own m thr]. cbn [v_nw v_run v_own v_main v_thr] in *.
  destruct m as [|o|o|o|o|o|o|o]; cbn zeta; try congruence; auto; cbn [v_main].
  - destruct own; [auto|]. right. right. unfold mu. cbn [v_nw v_run v_own v_main v_thr mainA mainB]. destruct nw; lia.
  - right. destruct nw.
    + right. unfold mu. cbn [v_nw v_run v_own v_main v_thr mainA mainB]. lia.
    + destruct o; cbn [v_main]; auto; right; unfold mu; cbn [v_nw v_run v_own v_main v_thr mainA mainB]; lia.
  - right. right. unfold mu. cbn [v_nw v_run v_own v_main v_thr mainA mainB]. lia.
  - destruct own; [auto|]. right. right. unfold mu. cbn [v_nw v_run v_own v_main v_thr mainA mainB]. lia.
  - right. right. destruct o; unfold mu, baseB; cbn [v_nw v_run v_own v_main v_thr mainA mainB]; lia.
Qed.
Lemma mu_thr v i : ok v -> v_main v <> CIdle -> let v' := cthr i v in v' = v \/ mu v' < mu v.
Proof.
  intros [C N _] NI. pose proof (co_m v C) as M. pose proof (co_t v C i) as Th. unfold cthr.
  pose proof (tot_le rankA 10 (v_thr v) rankA_le) as BA. pose proof (tot_le _ _ (v_thr v) (rankB_le (v_run v) (length (v_thr v)))) as BB.
  destruct v as [nw run own m thr]. cbn [v_nw v_run v_own v_main v_thr] in *. cbn zeta.
  destruct (nth_error thr i) as [t|] eqn:E; [|auto].
  assert (UA : forall a, tot rankA (upd thr i a) + rankA t = tot rankA thr + rankA a) by (intros a; apply tot_upd; auto).
  assert (UB : forall a, tot (rankB run (length thr)) (upd thr i a) + rankB run (length thr) t = tot (rankB run (length thr)) thr + rankB run (length thr) a)
    by (intros a; apply tot_upd; auto).
  (* the step changes only this thread *)
  assert (P : forall own' a, rankA a < rankA t \/ (m_holds m) -> (match m with CNotify _ => rankA a < rankA t | _ => True end) ->
     (nw = false \/ past_wait m -> rankB run (length thr) a < rankB run (length thr) t \/ exists o, m = CNotify o) ->
     (m_holds m -> past_wait m \/ rankA a < rankA t) -> mu (mkcv nw run own' m (upd thr i a)) < mu (mkcv nw run own m thr)).
  { intros own' a H1 H2 H3 H4. specialize (UA a). specialize (UB a). unfold mu. cbn [v_nw v_run v_own v_main v_thr]. rewrite length_upd.
    destruct m as [|o|o|o|o|o|o|o]; try congruence; cbn [past_wait m_holds mainA mainB] in *.
    all: try (destruct H3 as [H3|[o' H3]]; [auto|lia|discriminate]). all: try lia.
    all: destruct nw; [destruct H1; [lia|destruct H4; auto; try lia; tauto]|destruct H3 as [H3|[o' H3]]; [auto|lia|discriminate]]. }
  assert (EX : t_holds t -> own = Some (WThr i)) by (intros H; apply Th; eauto).
  assert (NH : t_holds t -> ~ m_holds m) by (intros H X; apply EX in H; apply M in X; congruence).
  destruct t; cbn [v_main v_thr] in *; auto.
  - (* VHead *) right. apply P; destruct run; cbn; auto; try lia; destruct m; cbn; auto; lia.
  - (* VLock *) destruct own as [w|]; [auto|]. right.
    assert (NM : ~ m_holds m) by (intros X; apply M in X; discriminate). apply P; cbn; [left; lia| | |tauto].
    + destruct m; auto; lia.
    + intros _. left. destruct run; cbn; lia.
  - (* VTest *) specialize (NH I). right. destruct nw; cbn [negb andb].
    + apply P; [left; cbn; lia|destruct m; auto; cbn; lia| |tauto]. intros [X|X]; [discriminate|]. destruct m; cbn in X, N, NH; try tauto; discriminate.
    + destruct run.
      * assert (H : mu (mkcv false true None m (upd thr i VSleep)) < mu (mkcv false true own m thr)).
        { specialize (UB VSleep). cbn [rankB] in UB. unfold mu. cbn [v_nw v_run v_own v_main v_thr]. rewrite length_upd.
          destruct m; cbn [m_holds] in NH; try congruence; try tauto; lia. }
        exact H.
      * apply P; [left; cbn; lia|destruct m; auto; cbn; lia| |tauto]. intros _. left. cbn. lia.
  - (* VCheck *) right. apply P; destruct run; cbn; auto; try lia; destruct m; cbn; auto; lia.
  - (* VWork *) right. apply P; destruct run; cbn; auto; try lia; destruct m; cbn; auto; lia.
  - (* VLock2 *) destruct own as [w|]; [auto|]. right.
    assert (NM : ~ m_holds m) by (intros X; apply M in X; discriminate). apply P; cbn; [left; lia| | |tauto].
    + destruct m; auto; lia.
    + intros _. left. destruct run; cbn; lia.
  - (* VSet *) specialize (NH I). right. specialize (UB VNotify).
    assert (R1 : rankB run (length thr) VNotify < rankB run (length thr) VSet) by (destruct run; cbn; lia).
    pose proof (tot_le _ _ (upd thr i VNotify) (rankB_le run (length thr))) as BU. rewrite length_upd in BU.
    unfold mu, baseA. cbn [v_nw v_run v_own v_main v_thr]. rewrite length_upd.
    destruct m; cbn [m_holds mainA mainB] in *; try congruence; try tauto; try lia; destruct nw; lia.
  - (* VNotify *) specialize (NH I). right. specialize (UA VHead). specialize (UB VHead). cbn [rankA] in UA.
    assert (WA : tot rankA (map wake_t (upd thr i VHead)) <= tot rankA (upd thr i VHead)) by (apply tot_wake_down; intros []; cbn; lia).
    assert (WB : tot (rankB run (length thr)) (map wake_t (upd thr i VHead)) < tot (rankB run (length thr)) thr).
    { destruct run.
      - pose proof (tot_wake_up (rankB true (length thr)) 2 (upd thr i VHead)) as X. rewrite length_upd in X.
        specialize (X ltac:(intros []; cbn; lia)). cbn [rankB] in UB. lia.
      - pose proof (tot_wake_down (rankB false (length thr)) (upd thr i VHead)) as X.
        specialize (X ltac:(intros []; cbn; lia)). cbn [rankB] in UB. lia. }
    unfold mu. cbn [v_nw v_run v_own v_main v_thr]. rewrite map_length, length_upd.
    destruct m; cbn [m_holds mainA mainB wake_m] in *; try congruence; try tauto; destruct nw; cbn [mainA mainB]; lia.
Qed.
Lemma mu_spur a v : spurious a = true -> mu (cstep a v) <= mu v + 2 /\ (v_main (cstep a v) = CIdle <-> v_main v = CIdle).
Proof.
  destruct a as [|o| |i| |i]; try discriminate; intros _; cbn [cstep]; destruct v as [nw run own m thr]; cbn [v_nw v_run v_own v_main v_thr].
  - unfold mu. cbn [v_nw v_run v_own v_main v_thr]. split; [|destruct m; cbn; split; congruence]. destruct m; cbn [wake_m mainA mainB]; try lia; destruct nw; lia.
  - destruct (nth_error thr i) as [t|] eqn:E; cbn [v_nw v_run v_own v_main v_thr]; [|split; [lia|tauto]]. split; [|tauto].
    pose proof (tot_upd rankA _ _ _ (wake_t t) E) as UA. pose proof (tot_upd (rankB run (length thr)) _ _ _ (wake_t t) E) as UB.
    assert (X1 : rankA (wake_t t) <= rankA t) by (destruct t; cbn; lia).
    assert (X2 : rankB run (length thr) (wake_t t) <= rankB run (length thr) t + 2) by (destruct run, t; cbn; lia).
    unfold mu. cbn [v_nw v_run v_own v_main v_thr]. rewrite length_upd. destruct m; try lia; destruct nw; lia.
Qed.

Lemma served_step a v : ok v -> v_main v <> CIdle -> v_main (cstep a v) <> CIdle -> served v -> served (cstep a v).
Proof.
  intros [C N _] NI. pose proof (co_m v C) as M. destruct v as [nw run own m thr]. unfold served. cbn [v_nw v_run v_own v_main v_thr] in *.
  destruct a as [|o| |i| |i]; cbn [cstep v_main v_thr].
  - destruct m; try congruence; auto.
  - destruct m; try congruence; auto.
  - unfold cmain. cbn [v_nw v_run v_own v_main v_thr]. destruct m as [|o|o|o|o|o|o|o]; try congruence; cbn [past_wait]; auto; try (destruct own; cbn; tauto).
    + destruct nw; [|cbn; auto]. intros _ [X|[X|[X|X]]]; [discriminate|destruct X|cbn; auto|cbn; auto].
    + intros _ _. destruct o; cbn; tauto.
  - unfold cthr. cbn [v_nw v_run v_own v_main v_thr]. destruct (nth_error thr i) as [t|] eqn:E; [|auto]. intros _ S.
    assert (U : forall a, (merging t -> merging a) -> nw = false \/ past_wait m \/ run = true \/ exists j u, nth_error (upd thr i a) j = Some u /\ merging u).
    { intros a H. destruct S as [X|[X|[X|(j & u & Ej & X)]]]; auto. right. right. right. destruct (Nat.eq_dec i j) as [->|Ne].
      - rewrite E in Ej. injection Ej as <-. exists j, a. rewrite (nth_upd _ _ _ a E), Nat.eqb_refl. auto.
      - exists j, u. rewrite (nth_upd _ _ _ a E). destruct (Nat.eqb_spec i j); [congruence|auto]. }
    assert (NMer : forall u, u <> VWork -> u <> VLock2 -> u <> VSet -> ~ merging u) by (unfold merging; tauto).
    destruct t; cbn [v_nw v_run v_own v_main v_thr]; auto; try (destruct own as [w|]; cbn [v_nw v_run v_own v_main v_thr]; auto).
    all: try (apply U; unfold merging; intuition congruence).
    + destruct (negb nw && run); cbn [v_nw v_run v_own v_main v_thr]; apply U; unfold merging; intuition congruence.
    + destruct (negb nw && run); cbn [v_nw v_run v_own v_main v_thr]; apply U; unfold merging; intuition congruence.
    + destruct (U VHead ltac:(unfold merging; intuition congruence)) as [X|[X|[X|(j & u & Ej & X)]]]; auto.
      * right. left. destruct m; cbn in *; tauto.
      * right. right. right. exists j, (wake_t u). rewrite nth_error_map, Ej. split; [auto|]. destruct X as [-> | [-> | ->]]; unfold merging; auto.
    + destruct (U VHead ltac:(unfold merging; intuition congruence)) as [X|[X|[X|(j & u & Ej & X)]]]; auto.
      * right. left. destruct m; cbn in *; tauto.
      * right. right. right. exists j, (wake_t u). rewrite nth_error_map, Ej. split; [auto|]. destruct X as [-> | [-> | ->]]; unfold merging; auto.
  - cbn [v_nw v_run v_own v_main v_thr]. intros _ [X|[X|[X|X]]]; auto. right. left. destruct m; cbn in *; tauto.
  - destruct (nth_error thr i) as [t|] eqn:E; cbn [v_nw v_run v_own v_main v_thr]; auto. intros _ [X|[X|[X|(j & u & Ej & X)]]]; auto.
    right. right. right. destruct (Nat.eq_dec i j) as [->|Ne].
    + rewrite E in Ej. injection Ej as <-. exists j, (wake_t t). rewrite (nth_upd _ _ _ _ E), Nat.eqb_refl. split; [auto|].
      destruct X as [-> | [-> | ->]]; unfold merging; auto.
    + exists j, u. rewrite (nth_upd _ _ _ _ E). destruct (Nat.eqb_spec i j); [congruence|auto].
Qed.
(** not served: for ever *)
Lemma unserved_step a v : v_main v <> CIdle -> ~ served v -> v_main (cstep a v) <> CIdle /\ ~ served (cstep a v).
Proof.
  intros NI S. destruct v as [nw run own m thr]. unfold served in S. cbn [v_nw v_run v_own v_main v_thr] in *.
  destruct nw; [|tauto]. destruct run; [tauto|]. assert (NP : ~ past_wait m) by tauto.
  assert (NM : forall i t, nth_error thr i = Some t -> ~ merging t) by (intros i t E X; apply S; right; right; right; eauto).
  assert (F : forall own' m' thr', m' <> CIdle -> ~ past_wait m' -> (forall i t, nth_error thr' i = Some t -> ~ merging t) ->
    v_main (mkcv true false own' m' thr') <> CIdle /\ ~ served (mkcv true false own' m' thr')).
  { intros own' m' thr' H1 H2 H3. split; [exact H1|]. unfold served. cbn [v_nw v_run v_own v_main v_thr].
    intros [X|[X|[X|(i & t & E & X)]]]; try discriminate; [auto|]. apply (H3 i t E X). }
  assert (UP : forall i t a, nth_error thr i = Some t -> ~ merging a -> forall j u, nth_error (upd thr i a) j = Some u -> ~ merging u).
  { intros i t b E Ha j u. rewrite (nth_upd _ _ _ b E). destruct (Nat.eqb_spec i j); [intros X; injection X as <-; auto|apply NM]. }
  assert (WK : forall l, (forall i t, nth_error l i = Some t -> ~ merging t) -> forall i t, nth_error (map wake_t l) i = Some t -> ~ merging t).
  { intros l H i t E. apply nth_wake in E. destruct E as (u & E & ->). apply H in E. unfold merging in *. destruct u; cbn; intuition congruence. }
  assert (NMg : forall u, u <> VWork -> u <> VLock2 -> u <> VSet -> ~ merging u) by (unfold merging; tauto).
  destruct a as [|o| |i| |i]; cbn [cstep v_main v_thr].
  - destruct m; try congruence; apply F; auto.
  - destruct m; try congruence; apply F; auto.
  - unfold cmain. cbn [v_nw v_run v_own v_main v_thr]. destruct m as [|o|o|o|o|o|o|o]; cbn [past_wait] in NP; try congruence; try tauto.
    + destruct own; apply F; auto; discriminate.
    + apply F; auto; discriminate.
    + apply F; auto.
  - unfold cthr. cbn [v_nw v_run v_own v_main v_thr]. destruct (nth_error thr i) as [t|] eqn:E; [|apply F; auto]. pose proof (NM i t E) as Nt.
    destruct t; cbn [negb andb]; try (destruct own as [w|]); try (apply F; auto; fail);
      try (apply F; auto; apply (UP i _ _ E); apply NMg; discriminate); try (exfalso; apply Nt; unfold merging; auto; fail).
    all: apply F; [destruct m; cbn; congruence|destruct m; cbn in *; auto|apply WK; apply (UP i _ _ E); apply NMg; discriminate].
  - cbn [v_nw v_run v_own v_main v_thr]. apply F; auto; destruct m; cbn in *; auto; congruence.
  - destruct (nth_error thr i) as [t|] eqn:E; cbn [v_nw v_run v_own v_main v_thr]; apply F; auto. apply (UP i _ _ E).
    pose proof (NM i t E) as Nt. unfold merging in *. destruct t; cbn; intuition congruence.
Qed.
(** somebody can always move *)
Lemma enabled v : ok v -> v_main v <> CIdle -> served v -> cmain v <> v \/ exists i, i < length (v_thr v) /\ cthr i v <> v.
Proof.
  intros [C N R] NI S. pose proof (co_m v C) as M. pose proof (co_t v C) as Th. pose proof (co_ms v C) as Ms. pose proof (co_ts v C) as Ts.
  destruct v as [nw run own m thr]. unfold served in S. cbn [v_nw v_run v_own v_main v_thr] in *.
  assert (G : forall i t, nth_error thr i = Some t -> i < length thr) by (intros i t E; apply nth_error_Some; congruence).
  assert (D : forall i (l : list vpc) t a, nth_error l i = Some t -> a <> t -> upd l i a <> l).
  { intros i l t a E Ne X. pose proof (nth_upd l i t a E i) as Y. rewrite X, E, Nat.eqb_refl in Y. congruence. }
  assert (H : forall own' i t a nw' m' , nth_error thr i = Some t -> a <> t -> mkcv nw' run own' m' (upd thr i a) <> mkcv nw run own m thr).
  { intros own' i t a nw' m' E Ne X. injection X as X1 X2 X3 X4. eapply D; eauto. }
  assert (MV : own = None -> forall i t, nth_error thr i = Some t -> t <> VSleep -> t <> VEnd -> cthr i (mkcv nw run own m thr) <> mkcv nw run own m thr).
  { intros -> i t E N1 N2. unfold cthr. cbn [v_nw v_run v_own v_main v_thr]. rewrite E.
    assert (NH : ~ t_holds t) by (intros X; assert (Y : @None who = Some (WThr i)) by (apply Th; eauto); discriminate).
    destruct t; cbn in NH; try tauto; try (eapply H; [exact E|destruct run; discriminate]). }
  destruct own as [[|i]|].
  - left. assert (X : m_holds m) by (apply M; auto). unfold cmain. cbn [v_nw v_run v_own v_main v_thr].
    destruct m as [|o|o|o|o|o|o|o]; cbn in X; try tauto.
    + destruct nw; [|destruct o]; intros Y; injection Y; congruence.
    + destruct o; intros Y; injection Y; congruence.
    + intros Y; injection Y; congruence.
  - right. assert (X : exists t, nth_error thr i = Some t /\ t_holds t) by (apply Th; auto). destruct X as (t & E & X). exists i. split; [eauto|].
    unfold cthr. cbn [v_nw v_run v_own v_main v_thr]. rewrite E. destruct t; cbn in X; try tauto.
    + destruct (negb nw && run); intros Y; injection Y; discriminate.
    + eapply H; [exact E|discriminate].
    + intros Y; injection Y; discriminate.
  - destruct m as [|o|o|o|o|o|o|o]; try congruence; try (exfalso; assert (Y : @None who = Some WMain) by (apply M; exact I); discriminate);
      try (left; unfold cmain; cbn [v_nw v_run v_own v_main v_thr]; intros Y; injection Y; discriminate).
    right. assert (W : nw = true).
    { destruct (Ms o eq_refl) as [X|[i X]]; [auto|]. exfalso. assert (Y : @None who = Some (WThr i)) by (apply Th; eexists; split; [eauto|exact I]). discriminate. }
    subst nw. cbn [past_wait] in S. assert (NS : forall i, nth_error thr i <> Some VSleep).
    { intros i E. destruct (Ts i E) as [[X _]|[o' X]]; discriminate. }
    destruct S as [X|[X|[X|(i & t & E & X)]]]; [discriminate|tauto| |].
    + destruct (R X) as (i & t & E & Ne). exists i. split; [eauto|]. apply (MV eq_refl i t E); auto. intros ->. apply (NS i E).
    + exists i. split; [eauto|]. apply (MV eq_refl i t E); destruct X as [-> | [-> | ->]]; discriminate.
Qed.

Lemma thr_len a v : v_main v <> CIdle -> length (v_thr (cstep a v)) = length (v_thr v).
Proof.
  intros NI. destruct v as [nw run own m thr]. cbn [v_nw v_run v_own v_main v_thr] in *. destruct a as [|o| |i| |i]; cbn [cstep v_main v_thr].
  - destruct m; auto; congruence.
  - destruct m; auto.
  - unfold cmain. cbn [v_nw v_run v_own v_main v_thr]. destruct m as [|o|o|o|o|o|o|o]; auto; try (destruct own; auto; fail); try (destruct nw; auto; fail).
    + destruct o; auto.
    + cbn [v_thr]. apply map_length.
  - unfold cthr. cbn [v_nw v_run v_own v_main v_thr]. destruct (nth_error thr i) as [[]|]; cbn [v_thr]; auto;
      try (destruct own; cbn [v_thr]); try (destruct (negb nw && run); cbn [v_thr]); rewrite ?map_length, ?length_upd; auto.
  - reflexivity.
  - destruct (nth_error thr i); cbn [v_thr]; auto. apply length_upd.
Qed.
Lemma idle_dec m : m = CIdle \/ m <> CIdle.
Proof. destruct m; auto; right; discriminate. Qed.
Lemma rounds1 r : forall v, ok v -> v_main v <> CIdle -> served v ->
  (exists p q, r = p ++ q /\ v_main (crun p v) = CIdle) \/
  (let v' := crun r v in ok v' /\ v_main v' <> CIdle /\ served v' /\ length (v_thr v') = length (v_thr v) /\
     (mu v' + 1 <= mu v + 3 * spurs r \/ (mu v' <= mu v + 3 * spurs r /\ v' = v /\ forall a, In a r -> cstep a v = v))).
Proof.
  induction r as [|a r IH]; intros v V NI S; cbn zeta.
  - right. cbn. split; [auto|]. split; [auto|]. split; [auto|]. split; [auto|]. right. split; [lia|]. split; [auto|]. intros a [].
  - destruct (idle_dec (v_main (cstep a v))) as [I|NI1].
    { left. exists [a], r. split; [reflexivity|exact I]. }
    pose proof (ok_step a v V) as V1. pose proof (served_step a v V NI NI1 S) as S1.
    assert (D : cstep a v = v \/ mu (cstep a v) + 1 <= mu v + 3 * (if spurious a then 1 else 0)).
    { destruct (spurious a) eqn:Sp; [right; destruct (mu_spur a v Sp); lia|]. destruct a as [|o| |i| |i]; try discriminate.
      - left. cbn [cstep]. destruct (v_main v); auto; congruence.
      - left. cbn [cstep]. destruct (v_main v); auto; congruence.
      - cbn [cstep] in *. destruct (mu_main v V NI) as [X|[X|X]]; [auto|congruence|right; lia].
      - cbn [cstep] in *. destruct (mu_thr v i V NI) as [X|X]; [auto|right; lia]. }
    assert (Q : 3 * spurs (a :: r) = 3 * (if spurious a then 1 else 0) + 3 * spurs r) by (unfold spurs; cbn [filter]; destruct (spurious a); cbn [length]; lia).
    rewrite Q. destruct (IH (cstep a v) V1 NI1 S1) as [(p & q & -> & X)|(A & B & C & Ln & X)].
    { left. exists (a :: p), q. split; [reflexivity|exact X]. }
    right. change (crun (a :: r) v) with (crun r (cstep a v)). split; [auto|]. split; [auto|]. split; [auto|]. split; [rewrite Ln; apply thr_len; auto|].
    destruct D as [D|D].
    + rewrite D in *. destruct X as [X|(X1 & X2 & X3)]; [left; lia|]. right. split; [lia|]. split; [auto|].
      intros b [<-|I]; auto.
    + left. destruct X as [X|(X1 & _ & _)]; lia.
Qed.
Lemma mu_le v : mu v <= 2 * length (v_thr v) * length (v_thr v) + 28 * length (v_thr v) + 10.
Proof.
  pose proof (tot_le rankA 10 (v_thr v) rankA_le) as BA. pose proof (tot_le _ _ (v_thr v) (rankB_le (v_run v) (length (v_thr v)))) as BB.
  unfold mu, baseA, baseB in *. assert (A : mainA (v_main v) <= 2) by (destruct (v_main v); cbn; lia). assert (B : mainB (v_main v) <= 5) by (destruct (v_main v); cbn; lia).
  destruct (v_main v); try lia; destruct (v_nw v); lia.
Qed.
Lemma fair_rounds rs : forall v, ok v -> v_main v <> CIdle -> served v -> Forall (fair_round (length (v_thr v))) rs ->
  mu v + 3 * spurs (concat rs) < length rs -> exists p q, concat rs = p ++ q /\ v_main (crun p v) = CIdle.
Proof.
  induction rs as [|r rs IH]; intros v V NI S F Le; cbn [length concat] in *; [lia|]. inversion F as [|? ? [F1 F2] Fr]; subst.
  assert (Q : spurs (r ++ concat rs) = spurs r + spurs (concat rs)) by (unfold spurs; rewrite filter_app, app_length; lia).
  destruct (rounds1 r v V NI S) as [(p & q & -> & X)|(A & B & C & Ln & X)].
  - exists p, (q ++ concat rs). rewrite app_assoc. auto.
  - destruct X as [X|(_ & _ & X)].
    + destruct (IH (crun r v) A B C) as (p & q & E & Y); [rewrite Ln; auto|lia|].
      exists (r ++ p), q. rewrite E, app_assoc. split; [auto|]. unfold crun in *. rewrite fold_left_app. exact Y.
    + exfalso. destruct (enabled v V NI S) as [Y|(i & Hi & Y)]; apply Y; [apply (X CMain F1)|apply (X (CThr i) (F2 i Hi))].
Qed.

(** ** C95 *)
(** In every execution, with any number of graphs: if a call (insertion that flushes, del_edge, destructor) is being executed and the state is served, then
    in every schedule in which all threads keep taking steps the call returns; with m merging threads within 2 m^2 + 28 m + 11 rounds, and 3 more for
    every spurious return from wait(). *)
Theorem C95_returns : forall s rs, let v := cv_run s in let m := length (v_thr v) in v_main v <> CIdle -> served v ->
  Forall (fair_round m) rs -> 2 * m * m + 28 * m + 11 + 3 * spurs (concat rs) <= length rs ->
  exists p q, concat rs = p ++ q /\ v_main (crun p v) = CIdle.
Proof.
  intros s rs v m NI S F Le. apply fair_rounds; auto; [apply ok_run_|]. pose proof (mu_le v). fold m in H. lia.
Qed.
(** If it is not served the call never returns, whatever is scheduled. *)
Theorem C95_never : forall s r, let v := cv_run s in v_main v <> CIdle -> ~ served v -> v_main (crun r v) <> CIdle.
Proof.
  intros s r v. generalize v. clear. induction r as [|a r IH]; intros v NI S; [exact NI|].
  destruct (unserved_step a v NI S) as [A B]. apply (IH (cstep a v)); auto.
Qed.
(** Until a destructor has run, every call is served: also the one destructor. *)
Lemma no_destroy s : ~ In (CBegin ODestroy) s -> forall v, v_run v = true -> (forall o, v_main v = CLock o \/ v_main v = CTest o \/ v_main v = CSleep o \/
    v_main v = CBody o \/ v_main v = CLock2 o \/ v_main v = CSet o \/ v_main v = CNotify o -> o <> ODestroy) -> v_run (crun s v) = true.
Proof.
  induction s as [|a s IH]; intros N v R O; [exact R|]. change (crun (a :: s) v) with (crun s (cstep a v)).
  apply IH; [intros I; apply N; right; auto| |].
  - destruct v as [nw run own m thr]. cbn [v_nw v_run v_own v_main v_thr] in *. subst run. destruct a as [|o| |i| |i]; cbn [cstep v_main v_thr].
    + destruct m; auto.
    + destruct m; auto.
    + unfold cmain. cbn [v_nw v_run v_own v_main v_thr]. destruct m as [|o|o|o|o|o|o|o]; auto; try (destruct own; auto; fail); try (destruct nw; auto; fail).
      destruct o; auto. exfalso. apply (O ODestroy); auto. tauto.
    + unfold cthr. cbn [v_nw v_run v_own v_main v_thr]. destruct (nth_error thr i) as [[]|]; cbn [v_run]; auto; try (destruct own; auto; fail).
      destruct (negb nw && true); auto.
    + reflexivity.
    + destruct (nth_error thr i); auto.
  - intros o H E. subst o. revert H. destruct v as [nw run own m thr]. cbn [v_nw v_run v_own v_main v_thr] in *.
    assert (O' : m <> CLock ODestroy /\ m <> CTest ODestroy /\ m <> CSleep ODestroy /\ m <> CBody ODestroy /\ m <> CLock2 ODestroy /\ m <> CSet ODestroy /\ m <> CNotify ODestroy).
    { repeat split; intros X; apply (O ODestroy); auto; tauto. }
    clear O. destruct O' as (O1 & O2 & O3 & O4 & O5 & O6 & O7). destruct a as [|o| |i| |i]; cbn [cstep v_main v_thr].
    + destruct m; cbn [v_main]; intuition congruence.
    + destruct m; cbn [v_main]; try (intuition congruence). intros H. apply N. left. f_equal. intuition congruence.
    + unfold cmain. cbn [v_nw v_run v_own v_main v_thr].
      destruct m as [|[]|[]|[]|[]|[]|[]|[]]; try congruence; try (destruct own); try (destruct nw); cbn [v_main]; intuition congruence.
    + unfold cthr. cbn [v_nw v_run v_own v_main v_thr]. destruct (nth_error thr i) as [[]|]; try (destruct own); try (destruct (negb nw && run)); cbn [v_main];
        destruct m; cbn [wake_m]; intuition congruence.
    + destruct m; cbn [wake_m]; intuition congruence.
    + destruct (nth_error thr i); cbn [v_main]; intuition congruence.
Qed.
Theorem C95_first_destruction : forall s o, ~ In (CBegin ODestroy) s -> v_main (cv_run (CNew :: s)) = CIdle -> served (cv_run (CNew :: s ++ [CBegin o])).
Proof.
  intros s o N I. unfold served. right. right. left. unfold cv_run in *. cbn [fold_left] in *. rewrite fold_left_app. cbn [fold_left].
  assert (R : v_run (crun s (cstep CNew cv0)) = true). { apply no_destroy; [exact N|reflexivity|]. cbn. intuition discriminate. }
  assert (B : forall v, v_main v = CIdle -> v_run (cstep (CBegin o) v) = v_run v) by (intros v E; cbn [cstep]; rewrite E; reflexivity).
  unfold crun in R. rewrite B; auto.
Qed.

(** ** The merging threads end *)
(** A destructor has run and no call is in progress: in a fair schedule without further calls every merging thread ends, within 5 m rounds (the
    destructors do not wait for it). *)
Definition quiet_act (a : cact) : Prop := match a with CNew | CBegin _ => False | _ => True end.
Lemma upd_same {A} (l : list A) i t : nth_error l i = Some t -> upd l i t = l.
Proof. revert i. induction l as [|x l IH]; intros [|i] E; try discriminate; cbn in *; [congruence|]. f_equal. auto. Qed.
Lemma end_step a v : ok v -> v_main v = CIdle -> v_run v = false -> quiet_act a -> let v' := cstep a v in
  ok v' /\ v_main v' = CIdle /\ v_run v' = false /\ length (v_thr v') = length (v_thr v) /\
  (v' = v \/ tot (rankB false 0) (v_thr v') < tot (rankB false 0) (v_thr v)).
Proof.
  intros V I R Q v'. subst v'. split; [apply ok_step, V|]. destruct V as [C _ _]. pose proof (co_ts v C) as Ts.
  destruct v as [nw run own m thr]. cbn [v_nw v_run v_own v_main v_thr] in *. subst m run.
  assert (NS : forall i, nth_error thr i <> Some VSleep) by (intros i E; destruct (Ts i E) as [[_ X]|[o X]]; discriminate).
  destruct a as [|o| |i| |i]; cbn [quiet_act] in Q; [destruct Q|destruct Q| | | |]; cbn [cstep].
  - unfold cmain; cbn; repeat split; auto.
  - unfold cthr. cbn [v_nw v_run v_own v_main v_thr]. destruct (nth_error thr i) as [t|] eqn:E; [|cbn; repeat split; auto].
    assert (U : forall a, rankB false 0 a < rankB false 0 t -> tot (rankB false 0) (upd thr i a) < tot (rankB false 0) thr)
      by (intros a H; pose proof (tot_upd (rankB false 0) _ _ _ a E); lia).
    assert (W : forall a, rankB false 0 a < rankB false 0 t -> tot (rankB false 0) (map wake_t (upd thr i a)) < tot (rankB false 0) thr).
    { intros a H. pose proof (tot_wake_down (rankB false 0) (upd thr i a) ltac:(intros []; cbn; lia)) as X. specialize (U a H). lia. }
    destruct t; try (destruct own as [w|]); try (destruct nw); cbn [negb andb v_nw v_run v_own v_main v_thr wake_m]; rewrite ?map_length, ?length_upd;
      repeat (split; [reflexivity|]); auto; right; (apply U || apply W); cbn; lia.
  - unfold cmain; cbn; repeat split; auto.
  - cbn [v_nw v_run v_own v_main v_thr]. destruct (nth_error thr i) as [t|] eqn:E; [|cbn; repeat split; auto]. cbn [v_nw v_run v_own v_main v_thr].
    rewrite length_upd. repeat (split; [reflexivity|]). left. f_equal. rewrite <- (upd_same thr i t E) at 2. f_equal. specialize (NS i). destruct t; auto; congruence.
Qed.
Lemma end_enabled v : ok v -> v_main v = CIdle -> v_run v = false -> (exists i t, nth_error (v_thr v) i = Some t /\ t <> VEnd) ->
  exists i, i < length (v_thr v) /\ cthr i v <> v.
Proof.
  intros [C _ _] I R (i & t & E & Ne). pose proof (co_m v C) as M. pose proof (co_t v C) as Th. pose proof (co_ts v C) as Ts.
  destruct v as [nw run own m thr]. cbn [v_nw v_run v_own v_main v_thr] in *. subst m run.
  assert (G : forall i t, nth_error thr i = Some t -> i < length thr) by (intros j u Ej; apply nth_error_Some; congruence).
  assert (H : forall own' j u a nw' m' , nth_error thr j = Some u -> a <> u -> mkcv nw' false own' m' (upd thr j a) <> mkcv nw false own CIdle thr).
  { intros own' j u a nw' m' Ej Na X. injection X as X1 X2 X3 X4. pose proof (nth_upd thr j u a Ej j) as Y. rewrite X4, Ej, Nat.eqb_refl in Y. congruence. }
  destruct own as [[|j]|].
  - exfalso. assert (X : m_holds CIdle) by (apply M; auto). exact X.
  - assert (X : exists u, nth_error thr j = Some u /\ t_holds u) by (apply Th; auto). destruct X as (u & Ej & X). exists j. split; [eauto|].
    unfold cthr. cbn [v_nw v_run v_own v_main v_thr]. rewrite Ej. destruct u; cbn in X; try tauto.
    + rewrite andb_false_r. eapply H; [exact Ej|discriminate].
    + eapply H; [exact Ej|discriminate].
    + intros Y; injection Y; discriminate.
  - exists i. split; [eauto|]. unfold cthr. cbn [v_nw v_run v_own v_main v_thr]. rewrite E.
    assert (NH : ~ t_holds t) by (intros X; assert (Y : @None who = Some (WThr i)) by (apply Th; eauto); discriminate).
    destruct t; cbn in NH; try tauto; try (eapply H; [exact E|discriminate]). destruct (Ts i E) as [[_ X]|[o X]]; discriminate.
Qed.
Lemma end_round r : forall v, ok v -> v_main v = CIdle -> v_run v = false -> Forall quiet_act r -> let v' := crun r v in
  ok v' /\ v_main v' = CIdle /\ v_run v' = false /\ length (v_thr v') = length (v_thr v) /\
  (tot (rankB false 0) (v_thr v') < tot (rankB false 0) (v_thr v) \/ (v' = v /\ forall a, In a r -> cstep a v = v)).
Proof.
  induction r as [|a r IH]; intros v V I R Q; cbn zeta.
  - cbn. repeat (split; [auto; fail|]). right. split; [auto|]. intros a [].
  - inversion Q as [|? ? Qa Qr]; subst. destruct (end_step a v V I R Qa) as (V1 & I1 & R1 & L1 & D).
    change (crun (a :: r) v) with (crun r (cstep a v)). destruct (IH (cstep a v) V1 I1 R1 Qr) as (V2 & I2 & R2 & L2 & D2).
    split; [auto|]. split; [auto|]. split; [auto|]. split; [lia|]. destruct D as [D|D].
    + rewrite D in *. destruct D2 as [D2|[D2 D3]]; [left; lia|]. right. split; [auto|]. intros b [<-|Ib]; auto.
    + left. destruct D2 as [D2|[-> _]]; lia.
Qed.
Lemma all_end l : tot (rankB false 0) l = 0 -> forall t, In t l -> t = VEnd.
Proof. induction l as [|x l IH]; cbn [tot]; intros H t I; [destruct I|]. destruct I as [-> | I]; [|apply IH; auto; lia]. destruct t; cbn in H; try lia. reflexivity. Qed.
Lemma ends_core rs : forall v, ok v -> v_main v = CIdle -> v_run v = false -> Forall (Forall quiet_act) rs -> Forall (fair_round (length (v_thr v))) rs ->
  tot (rankB false 0) (v_thr v) <= length rs -> forall t, In t (v_thr (crun (concat rs) v)) -> t = VEnd.
Proof.
  induction rs as [|r rs IH]; intros v V I R Q F Le; cbn [length concat] in *.
  - apply all_end. cbn. lia.
  - inversion Q as [|? ? Qr Qs]; subst. inversion F as [|? ? Fr Fs]; subst. destruct (end_round r v V I R Qr) as (V1 & I1 & R1 & L1 & D).
    unfold crun in *. rewrite fold_left_app. assert (B : tot (rankB false 0) (v_thr (fold_left (fun v a => cstep a v) r v)) <= length rs).
    { destruct D as [D|[D D2]]; [lia|]. rewrite D. destruct (Nat.eq_dec (tot (rankB false 0) (v_thr v)) 0) as [Z|Z]; [lia|]. exfalso.
      destruct (end_enabled v V I R) as (i & Hi & Y); [|apply Y, (D2 (CThr i)), Fr, Hi].
      clear - Z. induction (v_thr v) as [|t l IHl]; cbn [tot] in Z; [lia|]. destruct (Nat.eq_dec (rankB false 0 t) 0) as [E|E].
      - destruct IHl as (i & u & Ei & Nu); [lia|]. exists (S i), u. auto.
      - exists 0, t. split; [reflexivity|]. intros ->. cbn in E. lia. }
    apply IH; auto. rewrite L1. exact Fs.
Qed.
Theorem C95_threads_end : forall s rs, let v := cv_run s in v_main v = CIdle -> v_run v = false -> Forall (Forall quiet_act) rs ->
  Forall (fair_round (length (v_thr v))) rs -> 5 * length (v_thr v) <= length rs -> forall t, In t (v_thr (crun (concat rs) v)) -> t = VEnd.
Proof.
  intros s rs v I R Q F Le. apply ends_core; auto; [apply ok_run_|]. pose proof (tot_le (rankB false 0) 5 (v_thr v) ltac:(intros []; cbn; lia)). lia.
Qed.

(** A destructor asks for no merge: the next call after it returns. *)
Theorem C95_after_destruction : forall s r o, let v := cv_run s in v_main v = CNotify ODestroy -> Forall quiet_act r ->
  v_main (crun (CMain :: r) v) = CIdle /\ served (crun (CMain :: r ++ [CBegin o]) v).
Proof.
  intros s r o v M Q. pose proof (ok_nw v (ok_run_ s)) as W. rewrite M in W.
  change (crun (CMain :: r) v) with (crun r (cmain v)). change (crun (CMain :: r ++ [CBegin o]) v) with (crun (r ++ [CBegin o]) (cmain v)).
  assert (X : v_main (cmain v) = CIdle /\ v_nw (cmain v) = false) by (unfold cmain; rewrite M; cbn; auto). destruct X as [X1 X2]. clear M W.
  assert (Y : v_main (crun r (cmain v)) = CIdle /\ v_nw (crun r (cmain v)) = false).
  { revert X1 X2. generalize (cmain v). clear v. induction r as [|a r IH]; intros v X1 X2; [auto|]. inversion Q as [|? ? Qa Qr]; subst.
    change (crun (a :: r) v) with (crun r (cstep a v)). specialize (IH Qr). apply IH; clear IH.
    - destruct v as [nw run own m thr]. cbn in X1, X2. subst. destruct a; try destruct Qa; cbn [cstep]; auto.
      + unfold cthr. cbn [v_nw v_run v_own v_main v_thr]. destruct (nth_error thr i) as [[]|]; try (destruct own); try (destruct run); reflexivity.
      + cbn [v_thr]. destruct (nth_error thr i); reflexivity.
    - destruct v as [nw run own m thr]. cbn in X1, X2. subst. destruct a; try destruct Qa; cbn [cstep]; auto.
      + unfold cthr. cbn [v_nw v_run v_own v_main v_thr]. destruct (nth_error thr i) as [[]|]; try (destruct own); try (destruct run); reflexivity.
      + cbn [v_thr]. destruct (nth_error thr i); reflexivity. }
  destruct Y as [Y1 Y2]. split; [auto|]. unfold crun in *. rewrite fold_left_app. cbn [fold_left].
  left. cbn [cstep]. rewrite Y1. exact Y2.
Qed.

(** ** The hypotheses are met *)
(** two graphs; a second insertion that flushes waits for the merge the first one asked for; a fair schedule, with a spurious return, lets it go *)
Definition s95 : list cact := [CNew; CNew; CBegin OFlush] ++ repeat CMain 6 ++ CBegin OFlush :: repeat CMain 2.
Definition rs95 : list (list cact) := [CMain; CThr 0; CSpurMain; CThr 1] :: repeat [CMain; CThr 0; CThr 1] 90.
Example C95_example : v_main (cv_run s95) = CSleep OFlush /\ v_nw (cv_run s95) = true /\ length (v_thr (cv_run s95)) = 2 /\ served (cv_run s95) /\
  Forall (fair_round 2) rs95 /\ 2 * 2 * 2 + 28 * 2 + 11 + 3 * spurs (concat rs95) <= length rs95.
Proof.
  split; [reflexivity|]. split; [reflexivity|]. split; [reflexivity|]. split; [right; right; left; reflexivity|]. split; [|vm_compute; lia].
  assert (F : forall r, In CMain r -> In (CThr 0) r -> In (CThr 1) r -> fair_round 2 r).
  { intros r A B C. split; [auto|]. intros i Hi. destruct i as [|[|i]]; auto; lia. }
  constructor; [apply F; cbn; auto 6|]. apply Forall_forall. intros r I. apply repeat_spec in I. subst r. apply F; cbn; auto.
Qed.
(** after a destructor has run and the threads have ended, an insertion that flushes returns and the next one never does *)
Definition s95d : list cact :=
  [CNew; CNew; CBegin ODestroy] ++ repeat CMain 6 ++ [CThr 0; CThr 1] ++ CBegin OFlush :: repeat CMain 6 ++ CBegin OFlush :: repeat CMain 2.
Example C95_never_example : v_main (cv_run s95d) = CSleep OFlush /\ ~ served (cv_run s95d).
Proof.
  split; [reflexivity|]. intros [X|[X|[X|(i & t & E & X)]]]; try discriminate; [exact X|].
  destruct i as [|[|i]]; vm_compute in E; try (destruct i; discriminate); injection E as <-; unfold merging in X; intuition discriminate.
Qed.
(** one destructor of two has run *)
Definition s95e : list cact := [CNew; CNew; CThr 0; CThr 0; CThr 0; CBegin ODestroy] ++ repeat CMain 6.
Example C95_end_example : v_main (cv_run s95e) = CIdle /\ v_run (cv_run s95e) = false /\ v_thr (cv_run s95e) = [VLock; VHead] /\
  Forall (Forall quiet_act) (repeat [CMain; CSpur 0; CThr 1; CThr 0] 10) /\ Forall (fair_round 2) (repeat [CMain; CSpur 0; CThr 1; CThr 0] 10).
Proof.
  split; [reflexivity|]. split; [reflexivity|]. split; [reflexivity|]. split; apply Forall_forall; intros r I; apply repeat_spec in I; subst r.
  - repeat constructor.
  - split; [cbn; auto|]. intros i Hi. destruct i as [|[|i]]; cbn; auto 6; lia.
Qed.
Example C95_after_example : v_main (cv_run ([CNew; CNew; CBegin ODestroy] ++ repeat CMain 5)) = CNotify ODestroy.
Proof. reflexivity. Qed.
