(** * Cv: the mutex and the condition variable of DKtree_background_wait, include/dktree/DKtree_background_wait.hpp:33-79, :121-154,
    :180-211, :240-245.

    The calling thread and any number of merging threads share m_mutex, cv_w, needs_work_w and run_w.  Only these are kept; the work on
    the graphs is a step without effect.  boost::condition::wait releases the mutex and sleeps in one step, and takes the
    mutex again before it returns; it may return without a notification (CSpurMain, CSpur). *)
From Verif Require Import Base.

(** What the calling thread does: an insertion that flushes, a del_edge that waits, a destructor. *)
Inductive cop := OFlush | ODel | ODestroy.
(** The calling thread: between operations; about to lock (:181, :240, :125); holding the mutex, about to test needs_work_w
    (:182, :241, :126); asleep (:183, :242, :127); past the wait (:186-203); about to lock again (:205, :131); about to assign
    (:206, :132); about to notify (:208, :133) and unlock. *)
Inductive cpc := CIdle | CLock (o : cop) | CTest (o : cop) | CSleep (o : cop) | CBody (o : cop) | CLock2 (o : cop) | CSet (o : cop) | CNotify (o : cop).
(** A merging thread: :40, :42, :43, asleep at :44, :47, :49-71, :72, :73, :74, ended. *)
Inductive vpc := VHead | VLock | VTest | VSleep | VCheck | VWork | VLock2 | VSet | VNotify | VEnd.
Inductive who := WMain | WThr (i : nat).
Record cv := mkcv { v_nw : bool; v_run : bool; v_own : option who; v_main : cpc; v_thr : list vpc }.
Definition cv0 : cv := mkcv false false None CIdle [].

(** notify_all: every sleeper wakes, and must take the mutex before it goes on *)
Definition wake_t (t : vpc) : vpc := match t with VSleep => VLock | _ => t end.
Definition wake_m (m : cpc) : cpc := match m with CSleep o => CLock o | _ => m end.

Inductive cact := CNew | CBegin (o : cop) | CMain | CThr (i : nat) | CSpurMain | CSpur (i : nat).

Definition cmain (v : cv) : cv :=
  let set own m := mkcv (v_nw v) (v_run v) own m (v_thr v) in
  match v_main v with
  | CIdle | CSleep _ => v
  | CLock o => match v_own v with None => set (Some WMain) (CTest o) | Some _ => v end
  | CTest o => if v_nw v then set None (CSleep o) else set None (match o with ODel => CIdle | _ => CBody o end)
  | CBody o => set (v_own v) (CLock2 o)
  | CLock2 o => match v_own v with None => set (Some WMain) (CSet o) | Some _ => v end
  | CSet o => match o with
              | ODestroy => mkcv (v_nw v) false (v_own v) (CNotify o) (v_thr v)
              | _ => mkcv true (v_run v) (v_own v) (CNotify o) (v_thr v)
              end
  | CNotify o => mkcv (v_nw v) (v_run v) None CIdle (map wake_t (v_thr v))
  end.
Definition cthr (i : nat) (v : cv) : cv :=
  let set own t := mkcv (v_nw v) (v_run v) own (v_main v) (upd (v_thr v) i t) in
  match nth_error (v_thr v) i with
  | None => v
  | Some t =>
    match t with
    | VHead => set (v_own v) (if v_run v then VLock else VEnd)
    | VLock => match v_own v with None => set (Some (WThr i)) VTest | Some _ => v end
    | VTest => if negb (v_nw v) && v_run v then set None VSleep else set None VCheck
    | VSleep | VEnd => v
    | VCheck => set (v_own v) (if v_run v then VWork else VEnd)
    | VWork => set (v_own v) VLock2
    | VLock2 => match v_own v with None => set (Some (WThr i)) VSet | Some _ => v end
    | VSet => mkcv false (v_run v) (v_own v) (v_main v) (upd (v_thr v) i VNotify)
    | VNotify => mkcv (v_nw v) (v_run v) None (wake_m (v_main v)) (map wake_t (upd (v_thr v) i VHead))
    end
  end.
Definition cstep (a : cact) (v : cv) : cv :=
  match a with
  (* :147-153, without the mutex *)
  | CNew => match v_main v with CIdle => mkcv false true (v_own v) CIdle (v_thr v ++ [VHead]) | _ => v end
  | CBegin o => match v_main v with CIdle => mkcv (v_nw v) (v_run v) (v_own v) (CLock o) (v_thr v) | _ => v end
  | CMain => cmain v
  | CThr i => cthr i v
  | CSpurMain => mkcv (v_nw v) (v_run v) (v_own v) (wake_m (v_main v)) (v_thr v)
  | CSpur i => match nth_error (v_thr v) i with Some t => mkcv (v_nw v) (v_run v) (v_own v) (v_main v) (upd (v_thr v) i (wake_t t)) | None => v end
  end.
Definition cv_run (s : list cact) : cv := fold_left (fun v a => cstep a v) s cv0.

(** ** Invariant *)
Definition m_holds (m : cpc) : Prop := match m with CTest _ | CSet _ | CNotify _ => True | _ => False end.
Definition t_holds (t : vpc) : Prop := match t with VTest | VSet | VNotify => True | _ => False end.
Record cok (v : cv) : Prop := {
  co_m : m_holds (v_main v) <-> v_own v = Some WMain;
  co_t : forall i, (exists t, nth_error (v_thr v) i = Some t /\ t_holds t) <-> v_own v = Some (WThr i);
  co_ms : forall o, v_main v = CSleep o -> v_nw v = true \/ exists i, nth_error (v_thr v) i = Some VNotify;
  co_ts : forall i, nth_error (v_thr v) i = Some VSleep -> v_nw v = false /\ v_run v = true \/ exists o, v_main v = CNotify o
}.
Lemma nth_upd {A} (l : list A) i t a : nth_error l i = Some t -> forall j, nth_error (upd l i a) j = if i =? j then Some a else nth_error l j.
Proof.
  intros E j. rewrite nth_error_upd. destruct (Nat.eqb_spec i j); [|auto]. assert (i < length l) by (apply nth_error_Some; congruence).
  destruct (Nat.ltb_spec i (length l)); [auto|lia].
Qed.
Lemma nth_snoc {A} (l : list A) j a b : nth_error (l ++ [a]) j = Some b -> nth_error l j = Some b \/ j = length l /\ b = a.
Proof.
  intros E. destruct (Nat.lt_ge_cases j (length l)); [rewrite nth_error_app1 in E; auto|]. rewrite nth_error_app2 in E by auto.
  destruct (j - length l) as [|k] eqn:D; cbn in E; [injection E as <-; right; split; [lia|auto]|destruct k; discriminate].
Qed.
Lemma nth_snoc_l {A} (l : list A) j a b : nth_error l j = Some b -> nth_error (l ++ [a]) j = Some b.
Proof. intros E. rewrite nth_error_app1; auto. apply nth_error_Some. congruence. Qed.
Lemma nth_wake l j t : nth_error (map wake_t l) j = Some t -> exists u, nth_error l j = Some u /\ t = wake_t u.
Proof. rewrite nth_error_map. destruct (nth_error l j) as [u|]; [|discriminate]. intros E. injection E as <-. eauto. Qed.
Lemma holds_wake t : t_holds (wake_t t) <-> t_holds t.
Proof. destruct t; cbn; tauto. Qed.
Lemma m_holds_wake m : m_holds (wake_m m) <-> m_holds m.
Proof. destruct m; cbn; tauto. Qed.
Lemma some_ex l i : (exists t, nth_error l i = Some t /\ t_holds t) <-> exists t, nth_error (map wake_t l) i = Some t /\ t_holds t.
Proof.
  split; intros (t & E & H0).
  - exists (wake_t t). rewrite nth_error_map, E. split; [auto|]. apply holds_wake; auto.
  - apply nth_wake in E. destruct E as (u & E & ->). exists u. split; [auto|]. apply holds_wake; auto.
Qed.

Lemma cok_main v : cok v -> cok (cmain v).
Proof.
  intros [M Th Ms Ts]. unfold cmain. destruct v as [nw run own m thr]. cbn [v_nw v_run v_own v_main v_thr] in *. destruct m; try (constructor; auto; fail).
  - destruct own as [w|]; [constructor; auto|]. constructor; cbn [v_nw v_run v_own v_main v_thr]; [cbn; tauto| |discriminate|].
    + intros i. split; [intros X; apply Th in X; discriminate|discriminate].
    + intros i E. destruct (Ts i E) as [X|[o' X]]; [auto|discriminate].
  - assert (O : own = Some WMain) by (apply M; exact I). subst own.
    assert (Th' : forall i, (exists t, nth_error thr i = Some t /\ t_holds t) <-> None = Some (WThr i)) by (intros i; rewrite Th; split; discriminate).
    assert (Ts' : forall m' i, nth_error thr i = Some VSleep -> nw = false /\ run = true \/ (exists o, m' = CNotify o)).
    { intros m' i E. destruct (Ts i E) as [X|[o' X]]; [auto|discriminate]. }
    destruct nw.
    + constructor; cbn [v_nw v_run v_own v_main v_thr]; [split; [intros []|discriminate]|apply Th'|auto|apply Ts'].
    + constructor; cbn [v_nw v_run v_own v_main v_thr]; [destruct o; (split; [intros []|discriminate])|apply Th'|destruct o; discriminate|apply Ts'].
  - constructor; cbn [v_nw v_run v_own v_main v_thr]; [exact M|exact Th|discriminate|]. intros i E. destruct (Ts i E) as [X|[o' X]]; [auto|discriminate].
  - destruct own as [w|]; [constructor; auto|]. constructor; cbn [v_nw v_run v_own v_main v_thr]; [cbn; tauto| |discriminate|].
    + intros i. split; [intros X; apply Th in X; discriminate|discriminate].
    + intros i E. destruct (Ts i E) as [X|[o' X]]; [auto|discriminate].
  - destruct o; constructor; cbn [v_nw v_run v_own v_main v_thr]; auto; try discriminate; eauto.
  - assert (O : own = Some WMain) by (apply M; exact I). subst own.
    constructor; cbn [v_nw v_run v_own v_main v_thr].
    + split; [intros []|discriminate].
    + intros i. rewrite <- some_ex, Th. split; discriminate.
    + discriminate.
    + intros i E. apply nth_wake in E. destruct E as (u & _ & E). destruct u; discriminate.
Qed.

Lemma cok_thr i v : cok v -> cok (cthr i v).
Proof.
  intros [M Th Ms Ts]. unfold cthr. destruct v as [nw run own m thr]. cbn [v_nw v_run v_own v_main v_thr] in *.
  destruct (nth_error thr i) as [t|] eqn:E; [|constructor; auto]. pose proof (nth_upd thr i t) as U.
  (* a step that does not touch the mutex *)
  assert (PLAIN : forall t', ~ t_holds t -> ~ t_holds t' -> t' <> VSleep -> cok (mkcv nw run own m (upd thr i t'))).
  { intros t' N1 N2 N3. specialize (U t' E). constructor; cbn [v_nw v_run v_own v_main v_thr]; auto.
    - intros j. rewrite <- Th, U. destruct (Nat.eqb_spec i j) as [->|]; [|tauto].
      split; intros (t0 & E0 & H0); exfalso; [injection E0 as <-; auto|rewrite E in E0; injection E0 as <-; auto].
    - intros o Eo. destruct (Ms o Eo) as [X|[j X]]; [auto|]. right. exists j. rewrite U. destruct (Nat.eqb_spec i j) as [->|]; [|auto].
      exfalso. apply N1. rewrite E in X. injection X as ->. exact I.
    - intros j. rewrite U. destruct (Nat.eqb_spec i j) as [->|]; [|apply Ts]. intros X. injection X as ->. congruence. }
  (* taking it *)
  assert (TAKE : forall t', own = None -> t_holds t' -> ~ t_holds t -> cok (mkcv nw run (Some (WThr i)) m (upd thr i t'))).
  { intros t' -> N1 N2. specialize (U t' E). constructor; cbn [v_nw v_run v_own v_main v_thr].
    - rewrite M. split; discriminate.
    - intros j. rewrite U. destruct (Nat.eqb_spec i j) as [->|Ne].
      + split; [auto|]. intros _. exists t'. auto.
      + rewrite Th. split; [discriminate|]. intros X. injection X as ->. congruence.
    - intros o Eo. destruct (Ms o Eo) as [X|[j X]]; [auto|]. exfalso. assert (Y : @None who = Some (WThr j)) by (apply Th; eexists; split; [eauto|exact I]). discriminate.
    - intros j. rewrite U. destruct (Nat.eqb_spec i j) as [->|]; [|apply Ts]. intros X. injection X as ->. destruct N1. }
  destruct t.
  - apply PLAIN; [intros []| |]; destruct run; try discriminate; intros [].
  - destruct own as [w|]; [constructor; auto|]. apply TAKE; [auto|exact I|intros []].
  - assert (O : own = Some (WThr i)) by (apply Th; eexists; split; [eauto|exact I]). subst own.
    assert (NM : forall o, m <> CNotify o). { intros o ->. assert (X : Some (WThr i) = Some WMain) by (apply M; exact I). discriminate. }
    assert (REL : forall t', ~ t_holds t' -> (t' = VSleep -> nw = false /\ run = true) -> cok (mkcv nw run None m (upd thr i t'))).
    { intros t' N1 N2. specialize (U t' E). constructor; cbn [v_nw v_run v_own v_main v_thr].
      - rewrite M. split; discriminate.
      - intros j. rewrite U. destruct (Nat.eqb_spec i j) as [->|Ne].
        + split; [|discriminate]. intros (t0 & E0 & H0). injection E0 as <-. tauto.
        + rewrite Th. split; [|discriminate]. intros X. injection X as ->. congruence.
      - intros o Eo. destruct (Ms o Eo) as [X|[j X]]; [auto|]. right. exists j. rewrite U. destruct (Nat.eqb_spec i j) as [->|]; [|auto]. congruence.
      - intros j. rewrite U. destruct (Nat.eqb_spec i j) as [->|].
        + intros X. injection X as ->. left. auto.
        + intros X. destruct (Ts j X) as [Y|[o Y]]; [auto|]. destruct (NM o Y). }
    destruct (negb nw && run) eqn:C.
    + apply REL; [intros []|]. intros _. destruct nw, run; auto; discriminate.
    + apply REL; [intros []|discriminate].
  - constructor; auto.
  - apply PLAIN; [intros []| |]; destruct run; try discriminate; intros [].
  - apply PLAIN; [intros []|intros []|discriminate].
  - destruct own as [w|]; [constructor; auto|]. apply TAKE; [auto|exact I|intros []].
  - specialize (U VNotify E). constructor; cbn [v_nw v_run v_own v_main v_thr]; auto.
    + intros j. rewrite <- Th, U. destruct (Nat.eqb_spec i j) as [->|]; [|tauto].
      split; intros _; [exists VSet|exists VNotify]; split; auto; exact I.
    + intros o Eo. right. exists i. rewrite U, Nat.eqb_refl. auto.
    + intros j. rewrite U. destruct (Nat.eqb_spec i j) as [->|]; [discriminate|]. intros X. destruct (Ts j X) as [[_ Y]|Y]; auto.
  - assert (O : own = Some (WThr i)) by (apply Th; eexists; split; [eauto|exact I]). subst own. specialize (U VHead E).
    constructor; cbn [v_nw v_run v_own v_main v_thr].
    + rewrite m_holds_wake, M. split; discriminate.
    + intros j. rewrite <- some_ex, U. destruct (Nat.eqb_spec i j) as [->|Ne].
      * split; [|discriminate]. intros (t0 & E0 & H0). injection E0 as <-. destruct H0.
      * rewrite Th. split; [|discriminate]. intros X. injection X as ->. congruence.
    + intros o Eo. destruct m; discriminate.
    + intros j X. apply nth_wake in X. destruct X as (u & _ & X). destruct u; discriminate.
  - constructor; auto.
Qed.

Lemma cok_step a v : cok v -> cok (cstep a v).
Proof.
  intros C. destruct a; cbn [cstep]; try (apply cok_main; auto; fail); try (apply cok_thr; auto; fail); destruct C as [M Th Ms Ts]; destruct v as [nw run own m thr]; cbn [v_nw v_run v_own v_main v_thr] in *.
  - destruct m; try (constructor; auto; fail). constructor; cbn [v_nw v_run v_own v_main v_thr]; auto; [|discriminate].
    intros i. rewrite <- Th. split; intros (t & E & H0).
    + apply nth_snoc in E. destruct E as [E|[_ ->]]; [eauto|destruct H0].
    + exists t. split; [apply nth_snoc_l|]; auto.
  - destruct m; try (constructor; auto; fail). constructor; cbn [v_nw v_run v_own v_main v_thr]; [exact M|exact Th|discriminate|].
    intros i E. destruct (Ts i E) as [X|[o' X]]; [auto|discriminate].
  - constructor; cbn [v_nw v_run v_own v_main v_thr]; auto; [rewrite m_holds_wake; auto| |].
    + intros o Eo. destruct m; discriminate.
    + intros i E. destruct (Ts i E) as [X|[o' ->]]; [auto|right; exists o'; auto].
  - destruct (nth_error thr i) as [t|] eqn:E; [|constructor; auto]. pose proof (nth_upd thr i t (wake_t t) E) as U.
    constructor; cbn [v_nw v_run v_own v_main v_thr]; auto.
    + intros j. rewrite <- Th, U. destruct (Nat.eqb_spec i j) as [->|]; [|tauto]. split; intros (u & Eu & H0).
      * injection Eu as <-. exists t. split; [auto|]. apply holds_wake; auto.
      * exists (wake_t t). split; [auto|]. apply holds_wake. rewrite E in Eu. injection Eu as <-. auto.
    + intros o Eo. destruct (Ms o Eo) as [X|[j X]]; [auto|]. right. exists j. rewrite U. destruct (Nat.eqb_spec i j) as [->|]; [|auto].
      rewrite E in X. injection X as ->. auto.
    + intros j. rewrite U. destruct (Nat.eqb_spec i j) as [->|]; [|apply Ts]. intros X. injection X as X. destruct t; discriminate.
Qed.
Lemma cok_run s : cok (cv_run s).
Proof.
  unfold cv_run. induction s as [|a s IH] using rev_ind; [|rewrite fold_left_app; cbn [fold_left]; apply cok_step, IH].
  cbn. constructor; cbn.
  - split; [intros []|discriminate].
  - intros i. split; [|discriminate]. intros (t & E & _). destruct i; discriminate.
  - discriminate.
  - intros i E. destruct i; discriminate.
Qed.
