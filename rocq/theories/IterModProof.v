(** * IterModProof: what a loop sees when the graph is modified inside it. *)
From Verif Require Import Base Spec Thresholds K2 C0 C0Proof DK DKProof DKHist Iter IterProof Alias AliasProof AliasFrame IterMod.

(** ** The links of the buffer a standing iterator uses *)
(** elements[k].next of a used slot is not changed by an insertion, and by a deletion only if the slot is the predecessor of the deleted one. *)
Lemma insert_nx T c sl e ne c' k nd : c0_inv c sl -> c0_insert T c e ne = Ok c' -> k < length sl -> nth_error (c_els c) k = Some nd ->
  exists nd', nth_error (c_els c') k = Some nd' /\ nx nd' = nx nd.
Proof.
  intros H E Hk Ek. unfold c0_insert in E. destruct (eget e (c_lst c)) as [m|] eqn:Eg; [injection E as <-; eauto|].
  set (r := if length (c_els c) <=? c_n c then _ else _) in E.
  assert (X : forall c1, r = Ok c1 -> c0_inv c1 sl /\ nth_error (c_els c1) k = Some nd).
  { intros c1 E1. unfold r in E1. destruct (length (c_els c) <=? c_n c) eqn:Le; [|injection E1 as <-; auto].
    destruct (maxsz T (N.max (c_nv c) ne) 0) as [m|]; cbn [obind] in E1; [|discriminate]. injection E1 as <-.
    destruct (inv_resize c sl (N.to_nat m) H) as [I1 _]. split; [exact I1|]. unfold c0_resize. destruct (Nat.ltb_spec (c_max c) (N.to_nat m)) as [G|G]; [|auto].
    cbn [c_els]. rewrite nth_error_vresize by (rewrite (iv_els_len _ _ H); lia).
    assert (k < length (c_els c)) by (apply nth_error_Some; congruence). destruct (Nat.ltb_spec k (length (c_els c))); [auto|lia]. }
  destruct r as [c1|]; cbn [obind] in E; [|discriminate]. destruct (X c1 eq_refl) as [H1 E1]. clear X.
  destruct (get (c_free c1) (c_n c1)) as [f|] eqn:Ef; cbn [obind] in E; [|discriminate]. apply get_Ok in Ef.
  assert (Lf : c_n c1 < c_max c1) by (rewrite <- (iv_free_len _ _ H1); apply nth_error_Some; congruence).
  rewrite (iv_free _ _ H1 _ Lf), (iv_n _ _ H1), (proj2 (nth_error_None sl (length sl)) (le_n _)) in Ef. injection Ef as <-.
  destruct (Z.ltb_spec (Z.of_nat (length sl)) 0) as [G|G]; [lia|]. rewrite Nat2Z.id in E.
  destruct (set (c_nodes c1) (length sl) (Some e)) as [nodes|]; cbn [obind] in E; [|discriminate].
  destruct (nget (fst e) (c_adj c1)) as [h|] eqn:Ea.
  - destruct (modify (c_els c1) (length sl) (set_nx (Some h))) as [els|] eqn:M1; cbn [obind] in E; [|discriminate].
    destruct (modify els h (set_pv (Some (length sl)))) as [els'|] eqn:M2; cbn [obind] in E; [|discriminate]. injection E as <-. cbn [c_els].
    apply modify_inv in M1. destruct M1 as (d1 & D1 & ->). apply modify_inv in M2. destruct M2 as (d2 & D2 & ->).
    rewrite nth_error_upd, nth_error_upd_neq by lia. destruct (Nat.eqb_spec h k) as [-> |N].
    + rewrite nth_error_upd_neq in D2 by lia. rewrite E1 in D2. injection D2 as <-.
      assert (G2 : k < length (upd (c_els c1) (length sl) (set_nx (Some k) d1))) by (rewrite length_upd; apply nth_error_Some; congruence).
      rewrite (proj2 (Nat.ltb_lt _ _) G2). eauto.
    + eauto.
  - cbn [obind] in E. injection E as <-. cbn [c_els]. eauto.
Qed.
Lemma erase_nx c e c' j k nd : c0_erase c e = Ok (true, c') -> eget e (c_lst c) = Some j -> nth_error (c_els c) k = Some nd ->
  (forall dj, nth_error (c_els c) j = Some dj -> pv dj <> Some k) -> exists nd', nth_error (c_els c') k = Some nd' /\ nx nd' = nx nd.
Proof.
  intros E Ej Ek Np. unfold c0_erase in E. rewrite Ej in E. destruct (get (c_els c) j) as [dj|] eqn:Ed; cbn [obind] in E; [|discriminate].
  apply get_Ok in Ed. specialize (Np dj Ed).
  set (r := match nx dj, pv dj with None, None => _ | _, _ => _ end) in E.
  destruct r as [[adj els]|] eqn:Er; cbn [obind] in E; [|discriminate]. destruct (set (c_free c) j (-1)%Z) as [fr|]; cbn [obind] in E; [|discriminate].
  injection E as <-. cbn [c_els snd]. subst r. destruct (nx dj) as [q|], (pv dj) as [p|].
  - destruct (modify (c_els c) q (set_pv (Some p))) as [e1|] eqn:M1; cbn [obind] in Er; [|discriminate].
    destruct (modify e1 p (set_nx (Some q))) as [e2|] eqn:M2; cbn [obind] in Er; [|discriminate]. injection Er as <- <-.
    apply modify_inv in M1. destruct M1 as (d1 & D1 & ->). apply modify_inv in M2. destruct M2 as (d2 & D2 & ->).
    rewrite nth_error_upd_neq by congruence. rewrite nth_error_upd. destruct (Nat.eqb_spec q k) as [-> |N]; [|eauto].
    rewrite Ek in D1. injection D1 as <-. assert (G : k < length (c_els c)) by (apply nth_error_Some; congruence). rewrite (proj2 (Nat.ltb_lt _ _) G). eauto.
  - destruct (modify (c_els c) q (set_pv None)) as [e1|] eqn:M1; cbn [obind] in Er; [|discriminate]. injection Er as <- <-.
    apply modify_inv in M1. destruct M1 as (d1 & D1 & ->). rewrite nth_error_upd. destruct (Nat.eqb_spec q k) as [-> |N]; [|eauto].
    rewrite Ek in D1. injection D1 as <-. assert (G : k < length (c_els c)) by (apply nth_error_Some; congruence). rewrite (proj2 (Nat.ltb_lt _ _) G). eauto.
  - destruct (modify (c_els c) p (set_nx None)) as [e1|] eqn:M1; cbn [obind] in Er; [|discriminate]. injection Er as <- <-.
    apply modify_inv in M1. destruct M1 as (d1 & D1 & ->). rewrite nth_error_upd_neq by congruence. eauto.
  - injection Er as <- <-. eauto.
Qed.

(** A standing iterator: slot k of vertex x (live or not), the slots q still to be seen. *)
Definition pos (x : N) (c : c0) (sl : slots) (k : nat) (q : list nat) (seen : list Z) : Prop :=
  k < length sl /\ (exists nd, nth_error (c_els c) k = Some nd /\ nx nd = hd_error q) /\ (exists p, chain sl x = p ++ q) /\
  forall s, In s q -> ~ In (Z.of_N (snd_at sl s)) seen.

Lemma snd_at_app sl s k : k < length sl -> snd_at (sl ++ s) k = snd_at sl k.
Proof. intros H. unfold snd_at. rewrite nth_error_app1 by auto. reflexivity. Qed.
Lemma chain_lt sl x k : In k (chain sl x) -> k < length sl.
Proof. intros H. apply chain_In in H. destruct H as [y H]. apply nth_error_Some. congruence. Qed.

Lemma pos_insert T x c sl k q seen e ne c' : c0_inv c sl -> c0_insert T c e ne = Ok c' -> ~ In e (live_edges sl) ->
  pos x c sl k q seen -> pos x c' (sl ++ [(e, true)]) k q seen.
Proof.
  intros H E Ne (P1 & (nd & P2 & P3) & (p & P4) & P5). destruct (insert_nx T c sl e ne c' k nd H E P1 P2) as (nd' & Q1 & Q2).
  split; [rewrite app_length; lia|]. split; [exists nd'; split; [auto|congruence]|]. split.
  - rewrite chain_snoc_live. destruct (N.eqb (fst e) x); [exists (length sl :: p); cbn; congruence|exists p; auto].
  - intros s Hs. rewrite snd_at_app; [apply P5; auto|]. apply (chain_lt sl x). rewrite P4. apply in_app_iff; auto.
Qed.
Lemma kill_snd sl j s : snd_at (kill sl j) s = snd_at sl s.
Proof. unfold snd_at. rewrite kill_nth. destruct (nth_error sl s) as [[e b]|]; reflexivity. Qed.
Lemma filter_out {A} (f : A -> bool) l : (forall a, In a l -> f a = true) -> filter f l = l.
Proof. induction l as [|a l IH]; intros H; cbn; auto. rewrite (H a) by (left; auto). f_equal. apply IH. intros b Hb. apply H. right; auto. Qed.

Lemma pos_erase x c sl k q seen e c' j : c0_inv c sl -> c0_erase c e = Ok (true, c') -> nth_error sl j = Some (e, true) ->
  (fst e = x -> In (Z.of_N (snd e)) seen) -> pos x c sl k q seen -> pos x c' (kill sl j) k q seen.
Proof.
  intros H E Ej Se (P1 & (nd & P2 & P3) & (p & P4) & P5).
  assert (Nq : ~ In j q).
  { intros G. assert (C : In j (chain sl x)) by (rewrite P4; apply in_app_iff; auto). apply chain_In in C. destruct C as [y C]. rewrite Ej in C. injection C as ->.
    apply (P5 j G). unfold snd_at. rewrite Ej. apply Se. reflexivity. }
  assert (Np : forall dj, nth_error (c_els c) j = Some dj -> pv dj <> Some k).
  { intros dj Ed Z. assert (C : In j (chain sl (fst e))) by (apply chain_In; exists (snd e); rewrite Ej; destruct e; reflexivity).
    apply in_split in C. destruct C as (l1 & l2 & C). pose proof (iv_chain _ _ H (fst e)) as Lk. rewrite C in Lk.
    rewrite (linked_split _ _ _ _ _ Lk) in Ed. injection Ed as <-. cbn [pv] in Z. destruct (rev l1) as [|a t] eqn:R; [discriminate|]. injection Z as ->.
    assert (L1 : l1 = rev t ++ [k]) by (rewrite <- (rev_involutive l1), R; reflexivity). rewrite L1, <- app_assoc in Lk. cbn [app] in Lk.
    pose proof (linked_split _ _ _ _ _ Lk) as Dk. rewrite P2 in Dk. injection Dk as ->. cbn [nx hd_error] in P3.
    destruct q as [|a q]; [discriminate|]. cbn in P3. injection P3 as ->. apply Nq. left; auto. }
  destruct (erase_nx c e c' j k nd E (proj2 (iv_lst _ _ H _ _) Ej) P2 Np) as (nd' & Q1 & Q2).
  split; [rewrite kill_length; auto|]. split; [exists nd'; split; [auto|congruence]|]. split.
  - rewrite chain_kill, P4, filter_app. exists (filter (fun i => negb (i =? j)) p). f_equal. apply filter_out.
    intros a Ha. destruct (Nat.eqb_spec a j) as [-> |]; [contradiction|reflexivity].
  - intros s Hs. rewrite kill_snd. apply P5; auto.
Qed.

Section W.
Context (T : thresholds) (K : k2impl) (L : k2laws K) (n : N) (Hn : (2 <= n)%N).
Local Notation world := (world K).

(** A good state of the process: what every history leads to ([whist_ok], [query_pure]). *)
Definition good (w : world) : Prop := world_ok K L n w /\ heap_pure K L (w_hp w).

Lemma good_obj w i d : good w -> nth_error (w_os w) i = Some d -> obj_ok K n (w_hp w) d.
Proof. intros [[_ B] _] E. rewrite Forall_forall in B. eapply B, nth_error_In; eauto. Qed.

(** Calls in the class of [edge_ok] leave every tree there is as it is. *)
Lemma edge_step w o w' : good w -> wstep T K w (WOp 0 o) = Done w' -> edge_ok K n w o w' -> good w' /\ exists s, w_hp w' = w_hp w ++ s.
Proof.
  intros G E P. pose proof G as [WO PU].
  assert (R : wop_in n (WOp 0 o)) by (destruct o; cbn in *; tauto).
  pose proof (wstep_ok T K L n Hn w (WOp 0 o) WO R) as W'. rewrite E in W'.
  cbn [wstep] in E. destruct (nth_error (w_os w) 0) as [d|] eqn:Ed; [|discriminate]. pose proof (good_obj w 0 d G Ed) as O.
  destruct o as [[x y]|[x y]]; cbn [o_op edge_ok] in *.
  - pose proof (o_add_frame T K L n Hn (w_hp w) d x y (proj1 WO) O R) as F. pose proof (o_add_pure T K L n Hn (w_hp w) d x y (proj1 WO) O R PU) as Pu.
    destruct (o_add T K (w_hp w) d x y) as [[hp d']|[hp d']|]; try discriminate. injection E as <-. destruct F as (_ & _ & _ & F). split; [split; auto|]. exact (F PU).
  - destruct P as [_ (d1 & Ed1 & B)]. rewrite Ed in Ed1. injection Ed1 as <-. destruct (ob_c0 _ _ _ _ O) as (sl & Hc & _).
    rewrite (inv_contains _ _ _ Hc) in B. injection B as B. apply emem_In in B. destruct (erase_present _ _ _ Hc B) as (c' & k & Er & _).
    unfold o_del in E. rewrite Er in E. cbn [rbind] in E. injection E as <-. split; [split; auto|]. exists []. cbn. rewrite app_nil_r. reflexivity.
Qed.
Lemma calls_cons w o b : calls T K w (o :: b) = match wstep T K w (WOp 0 o) with Done w' => calls T K w' b | _ => None end.
Proof. unfold calls. cbn [map wrun]. destruct (wstep T K w (WOp 0 o)); reflexivity. Qed.
Lemma edge_calls b : forall w w', good w -> each T K (edge_ok K n) w b -> calls T K w b = Some w' -> good w' /\ exists s, w_hp w' = w_hp w ++ s.
Proof.
  induction b as [|o b IH]; intros w w' G E C.
  - unfold calls in C. cbn in C. injection C as <-. split; [auto|]. exists []. rewrite app_nil_r. auto.
  - rewrite calls_cons in C. cbn [each] in E. destruct (wstep T K w (WOp 0 o)) as [w1|w1|] eqn:Ew; try discriminate. destruct E as [E1 E2].
    destruct (edge_step w o w1 G Ew E1) as [G1 [s Hs]]. destruct (IH w1 w' G1 E2 C) as [G' [s' Hs']]. split; [auto|]. exists (s ++ s'). rewrite Hs', Hs, app_assoc. reflexivity.
Qed.

(** Whether a body is in one of the classes is decidable. *)
Lemma dec_each P : (forall w o w', P w o w' \/ ~ P w o w') -> forall b w, each T K P w b \/ ~ each T K P w b.
Proof.
  intros D. induction b as [|o b IH]; intros w; cbn [each]; [tauto|]. destruct (wstep T K w (WOp 0 o)) as [w1|w1|]; [destruct (D w o w1), (IH w1); tauto|left; exact I|left; exact I].
Qed.
Lemma dec_range (e : edge) : in_range n e \/ ~ in_range n e.
Proof. unfold in_range. destruct (N.lt_ge_cases (fst e) n), (N.lt_ge_cases (snd e) n); [left; auto|right; lia|right; lia|right; lia]. Qed.
Lemma dec_buffered (w : world) e : buffered K w e \/ ~ buffered K w e.
Proof.
  unfold buffered. destruct (nth_error (w_os w) 0) as [d|]; [|right; intros (d & X & _); discriminate].
  destruct (c0_contains (o_c0 d) e) as [[|]|] eqn:E; [left; eauto| |]; right; intros (d1 & X & Y); injection X as <-; congruence.
Qed.
Lemma dec_trees (w w' : world) : same_trees K w w' \/ ~ same_trees K w w'.
Proof.
  unfold same_trees. destruct (nth_error (w_os w) 0) as [d|]; [|right; intros (a & b & X & _); discriminate].
  destruct (nth_error (w_os w') 0) as [d'|]; [|right; intros (a & b & _ & X & _); discriminate].
  assert (D : {o_ks d' = o_ks d} + {o_ks d' <> o_ks d}) by (repeat decide equality).
  destruct D as [D|D]; [left; eauto|right; intros (a & b & X & Y & Z); congruence].
Qed.
Lemma dec_edge w o w' : edge_ok K n w o w' \/ ~ edge_ok K n w o w'.
Proof. destruct o as [e|e]; cbn; destruct (dec_range e), (dec_buffered w e); tauto. Qed.
Lemma dec_neigh x seen w o w' : neigh_ok K n x seen w o w' \/ ~ neigh_ok K n x seen w o w'.
Proof.
  destruct o as [e|e]; cbn; destruct (dec_range e), (dec_buffered w e), (dec_trees w w');
  (destruct (N.eq_dec (fst e) x); [destruct (in_dec Z.eq_dec (Z.of_N (snd e)) seen)|]; tauto).
Qed.

(** The outcome of a loop that must see l. *)
Definition sees {V} (l : list V) (r : lout K V) : Prop := match r with LEnd s _ => s = l | LStop | LOut => True | LDead => False end.

(** ** Edge loops *)
Lemma eit_next_ks (it it' : eit K) : eit_next K it = Ok it' -> ei_ks it' = ei_ks it.
Proof.
  unfold eit_next. intros E.
  repeat match type of E with
  | context [if ?b then _ else _] => destruct b
  | context [match ?o with Some _ => _ | None => _ end] => destruct o
  | context [obind ?o _] => destruct o; cbn [obind] in E
  | context [match ?l with [] => _ | _ :: _ => _ end] => destruct l
  end; try discriminate; injection E as <-; reflexivity.
Qed.
Theorem eloop_same rs body : forall it l, edge_loop K it l -> forall w seen, good w -> refs_ok (length (w_hp w)) rs -> map (deref K (w_hp w)) rs = ei_ks it ->
  exists r, eloop T K (each T K (edge_ok K n)) rs body w it seen r /\ sees (seen ++ l) r.
Proof.
  intros it l H. induction H as [it E|it it' l E Nx H IH]; intros w seen G R M.
  - exists (LEnd seen w). split; [constructor; auto|]. cbn. rewrite app_nil_r. reflexivity.
  - destruct (dec_each (edge_ok K n) dec_edge (body (seen ++ [ei_ptr it])) w) as [D|D]; [|exists LOut; split; [apply el_out; auto|exact I]].
    destruct (calls T K w (body (seen ++ [ei_ptr it]))) as [w'|] eqn:C; [|exists LStop; split; [apply el_stop; auto|exact I]].
    destruct (edge_calls _ w w' G D C) as [G' [s Hs]].
    assert (R' : refs_ok (length (w_hp w')) rs) by (eapply refs_le; [|exact R]; rewrite Hs, app_length; lia).
    assert (M' : map (deref K (w_hp w')) rs = ei_ks it) by (rewrite Hs, deref_app; auto).
    destruct (IH w' (seen ++ [ei_ptr it]) G' R') as (r & Hr & Sr); [rewrite M'; symmetry; apply eit_next_ks; auto|].
    exists r. split; [eapply el_step; eauto|]. rewrite <- app_assoc in Sr. exact Sr.
Qed.

(** ** Neighbour loops *)
(** What the calls of the class [neigh_ok] leave: the array of trees, max_r, the trees, and the position of a standing iterator of the buffer. *)
Record kept (x : N) (seen : list Z) (w : world) (d : obj) (sl : slots) (w' : world) (d' : obj) (sl' : slots) : Prop := {
  kp_good : good w'; kp_hp : exists s, w_hp w' = w_hp w ++ s; kp_obj : nth_error (w_os w') 0 = Some d'; kp_ks : o_ks d' = o_ks d; kp_r : o_r d' = o_r d;
  kp_c0 : c0_inv (o_c0 d') sl'; kp_snd : length sl <= length sl' /\ forall k, k < length sl -> snd_at sl' k = snd_at sl k;
  kp_pos : forall k q, pos x (o_c0 d) sl k q seen -> pos x (o_c0 d') sl' k q seen
}.
Lemma neigh_step x seen w d sl o w' : good w -> nth_error (w_os w) 0 = Some d -> c0_inv (o_c0 d) sl -> wstep T K w (WOp 0 o) = Done w' ->
  neigh_ok K n x seen w o w' -> exists d' sl', kept x seen w d sl w' d' sl'.
Proof.
  intros G Ed Hc E P. assert (P1 : edge_ok K n w o w') by (destruct o; cbn in *; tauto).
  destruct (edge_step w o w' G E P1) as [G' Hs]. pose proof (good_obj w 0 d G Ed) as O. cbn [wstep] in E. rewrite Ed in E.
  destruct o as [[u v]|[u v]]; cbn [o_op neigh_ok] in *.
  - destruct P as [R (d1 & d2 & X1 & X2 & X3)]. rewrite Ed in X1. injection X1 as <-.
    unfold o_add in E. rewrite (inv_contains _ _ _ Hc) in E. cbn [rbind] in E.
    assert (SAME : forall hp, w' = mkw hp (upd (w_os w) 0 d) -> exists d' sl', kept x seen w d sl w' d' sl').
    { intros hp ->. exists d, sl. constructor; auto. cbn. destruct (w_os w); [discriminate|]. reflexivity. }
    destruct (emem (u, v) (live_edges sl)) eqn:Em; [injection E as <-; eapply SAME; reflexivity|]. apply emem_false in Em.
    destruct (o_adjf_frame2 K L n (o_ks d) u v R (w_hp w) (proj1 (proj1 G))) as (_ & _ & _ & D). specialize (D (proj2 G)).
    destruct (o_adjf K (w_hp w) (o_ks d) u v) as [b hp1]. cbn [snd] in D. subst hp1. destruct b; [injection E as <-; eapply SAME; reflexivity|].
    destruct (maxsz T (N.max (o_nv d) (o_nt d)) 0) as [ms|]; cbn [rbind] in E; [|discriminate].
    destruct (N.of_nat (c0_size (o_c0 d)) <? ms)%N.
    + destruct (c0_insert T (o_c0 d) (u, v) (o_nt d)) as [c|] eqn:Ei; cbn [rbind] in E; [|discriminate]. injection E as <-.
      destruct (insert_inv _ _ _ _ _ _ Hc Ei) as [Hv [_ Hi]]. rewrite (proj2 (emem_false _ _) Em) in Hi.
      exists (mkobj (o_r d) (o_nv d) (o_nt d + 1) c (o_ks d)), (sl ++ [((u, v), true)]). constructor; auto; cbn [w_os o_c0].
      * destruct (w_os w); [discriminate|reflexivity].
      * split; [rewrite app_length; lia|]. intros k Hk. apply snd_at_app; auto.
      * intros k q Pk. eapply pos_insert; eauto.
    + exfalso. destruct (find_level T K (N.max (o_nv d) (o_nt d)) (map (deref K (w_hp w)) (o_ks d)) 0 ms) as [i|] eqn:F; [|discriminate].
      apply (find_level_range T K n Hn) in F. rewrite map_length, (ob_len _ _ _ _ O) in F.
      destruct (c0_converted (o_c0 d)) as [cv|]; cbn [rbind] in E; [|discriminate]. destruct (c0_clean (o_c0 d)) as [c|]; cbn [rbind] in E; [|discriminate].
      injection E as <-. cbn [w_os] in X2. destruct (w_os w) as [|a os]; [discriminate|]. cbn [upd nth_error] in X2. injection X2 as <-. cbn [o_ks] in X3.
      assert (In (Some (length (w_hp w))) (o_ks d)).
      { rewrite <- X3. apply (nth_error_In _ i). rewrite nth_error_upd, Nat.eqb_refl, reset_length, (ob_len _ _ _ _ O). destruct (Nat.ltb_spec i RS); [reflexivity|lia]. }
      pose proof (refs_in _ _ _ (ob_refs _ _ _ _ O) H). lia.
  - destruct P as [R [(d1 & X1 & B) Sn]]. rewrite Ed in X1. injection X1 as <-. rewrite (inv_contains _ _ _ Hc) in B. injection B as B. apply emem_In in B.
    destruct (erase_present _ _ _ Hc B) as (c' & j & Er & Ej & Hc' & _). unfold o_del in E. rewrite Er in E. cbn [rbind] in E. injection E as <-.
    exists (mkobj (o_r d) (o_nv d) (u64_dec (o_nt d)) c' (o_ks d)), (kill sl j). constructor; auto; cbn [w_os o_c0].
    + destruct (w_os w); [discriminate|reflexivity].
    + split; [rewrite kill_length; lia|]. intros k _. apply kill_snd.
    + intros k q Pk. eapply pos_erase; eauto.
Qed.
Lemma kept_refl x seen w d sl : good w -> nth_error (w_os w) 0 = Some d -> c0_inv (o_c0 d) sl -> kept x seen w d sl w d sl.
Proof. intros G E H. constructor; auto. exists []. rewrite app_nil_r. auto. Qed.
Lemma kept_trans x seen w d sl w1 d1 sl1 w2 d2 sl2 : kept x seen w d sl w1 d1 sl1 -> kept x seen w1 d1 sl1 w2 d2 sl2 -> kept x seen w d sl w2 d2 sl2.
Proof.
  intros [A1 [s1 A2] A3 A4 A5 A6 [A7 A8] A9] [B1 [s2 B2] B3 B4 B5 B6 [B7 B8] B9]. constructor; auto; try congruence.
  - exists (s1 ++ s2). rewrite B2, A2, app_assoc. reflexivity.
  - split; [lia|]. intros k Hk. rewrite B8 by lia. auto.
Qed.
Lemma neigh_calls x seen b : forall w d sl w', good w -> nth_error (w_os w) 0 = Some d -> c0_inv (o_c0 d) sl -> each T K (neigh_ok K n x seen) w b ->
  calls T K w b = Some w' -> exists d' sl', kept x seen w d sl w' d' sl'.
Proof.
  induction b as [|o b IH]; intros w d sl w' G Ed Hc E C.
  - unfold calls in C. cbn in C. injection C as <-. exists d, sl. apply kept_refl; auto.
  - rewrite calls_cons in C. cbn [each] in E. destruct (wstep T K w (WOp 0 o)) as [w1|w1|] eqn:Ew; try discriminate. destruct E as [E1 E2].
    destruct (neigh_step x seen w d sl o w1 G Ed Hc Ew E1) as (d1 & sl1 & K1).
    destruct (IH w1 d1 sl1 w' (kp_good _ _ _ _ _ _ _ _ K1) (kp_obj _ _ _ _ _ _ _ _ K1) (kp_c0 _ _ _ _ _ _ _ _ K1) E2 C) as (d2 & sl2 & K2).
    exists d2, sl2. eapply kept_trans; eauto.
Qed.

Lemma kept_view x seen w d sl w' d' sl' : good w -> nth_error (w_os w) 0 = Some d -> kept x seen w d sl w' d' sl' ->
  ks (view K (w_hp w') d') = ks (view K (w_hp w) d) /\ max_r (view K (w_hp w') d') = max_r (view K (w_hp w) d).
Proof.
  intros G Ed [A1 [s A2] A3 A4 A5 _ _ _]. cbn [view ks max_r]. rewrite A4, A5, A2, deref_app; auto. apply (good_obj w 0 d G Ed).
Qed.
Lemma nit_next_tree (g g' : dk K) x it : ni_c0i it = false -> ks g' = ks g -> max_r g' = max_r g -> nit_next K g' x it = nit_next K g x it.
Proof. intros B E1 E2. unfold nit_next, upto. rewrite B, E1, E2. reflexivity. Qed.
Lemma nit_next_tree_stays (g : dk K) x it it' : ni_c0i it = false -> nit_next K g x it = Ok it' -> ni_c0i it' = false.
Proof.
  intros B E. unfold nit_next in E. rewrite B in E.
  repeat match type of E with
  | context [if ?b then _ else _] => destruct b
  | context [match ?o with Some _ => _ | None => _ end] => destruct o
  | context [match ?p with (_, _) => _ end] => destruct p
  | context [match ?l with [] => _ | _ :: _ => _ end] => destruct l
  end; try discriminate; injection E as <-; reflexivity.
Qed.
Lemma cell_ext (w w' : world) d d' it s : obj_ok K n (w_hp w) d -> w_hp w' = w_hp w ++ s -> o_ks d' = o_ks d -> cell K (w_hp w') d' it = cell K (w_hp w) d it.
Proof.
  intros O E Ek. unfold cell. rewrite Ek. destruct (_ || _)%bool; [reflexivity|]. destruct (ni_cur it) as [i|]; [|reflexivity].
  destruct (nth_error (o_ks d) i) as [[r|]|] eqn:X; try reflexivity. rewrite E, nth_error_app1; [reflexivity|].
  apply (refs_in _ _ _ (ob_refs _ _ _ _ O)). eapply nth_error_In; eauto.
Qed.
Lemma cell_usable (w : world) d it : nth_error (w_os w) 0 = Some d -> usable K w (cell K (w_hp w) d it).
Proof.
  intros E. unfold cell, usable. destruct (_ || _)%bool; [exact I|]. destruct (ni_cur it) as [i|]; [|exact I].
  destruct (nth_error (o_ks d) i) as [[r|]|] eqn:X; try exact I. destruct (nth_error (w_hp w) r) eqn:Y; [|exact I].
  split; [exists d; split; eapply nth_error_In; eauto|exact Y].
Qed.
Local Notation okb x := (fun seen w b => each T K (neigh_ok K n x seen) w b).

Lemma nloop_tree x body g it l : neigh_loop K g x it l -> ni_c0i it = false -> forall w d c seen, good w -> nth_error (w_os w) 0 = Some d ->
  ks (view K (w_hp w) d) = ks g -> max_r (view K (w_hp w) d) = max_r g -> nit_at_end it = true \/ c = cell K (w_hp w) d it ->
  exists r, nloop T K (okb x) x body w it c seen r /\ sees (seen ++ l) r.
Proof.
  intros H. induction H as [it E|it it' l E Nx H IH]; intros B w d c seen G Ed Ek Er Hcell.
  - exists (LEnd seen w). split; [constructor; auto|]. cbn. rewrite app_nil_r. reflexivity.
  - destruct Hcell as [Z| ->]; [congruence|].
    destruct (dec_each _ (dec_neigh x (seen ++ [ni_ptr it])) (body (seen ++ [ni_ptr it])) w) as [D|D]; [|exists LOut; split; [apply nl_out; auto|exact I]].
    destruct (calls T K w (body (seen ++ [ni_ptr it]))) as [w'|] eqn:C; [|exists LStop; split; [apply nl_stop; auto|exact I]].
    destruct (ob_c0 _ _ _ _ (good_obj w 0 d G Ed)) as (sl & Hc & _).
    destruct (neigh_calls x _ _ w d sl w' G Ed Hc D C) as (d' & sl' & Kp). destruct (kept_view _ _ _ _ _ _ _ _ G Ed Kp) as [V1 V2].
    destruct (kp_hp _ _ _ _ _ _ _ _ Kp) as [s Hs]. pose proof (cell_ext w w' d d' it s (good_obj w 0 d G Ed) Hs (kp_ks _ _ _ _ _ _ _ _ Kp)) as CE.
    pose proof (kp_obj _ _ _ _ _ _ _ _ Kp) as Ed'. pose proof (kp_good _ _ _ _ _ _ _ _ Kp) as G'.
    rewrite <- (nit_next_tree g (view K (w_hp w') d') x it B) in Nx by congruence.
    pose proof (nit_next_tree_stays _ _ _ _ B Nx) as B'.
    destruct (IH B' w' d' (if stayed it it' then cell K (w_hp w) d it else cell K (w_hp w') d' it') (seen ++ [ni_ptr it]) G' Ed') as (r & Hr & Sr); try congruence.
    + destruct (stayed it it') eqn:St; [|auto]. destruct (nit_at_end it') eqn:En; [auto|right].
      rewrite <- CE. unfold cell. rewrite B, B', E, En. unfold stayed in St. destruct (ni_cur it) as [i|], (ni_cur it') as [j|]; try discriminate.
      apply andb_true_iff in St. destruct St as [_ St]. apply Nat.eqb_eq in St. subst j. reflexivity.
    + exists r. split; [|rewrite <- app_assoc in Sr; exact Sr]. eapply nl_step; eauto. rewrite <- CE. apply cell_usable; auto.
Qed.

Lemma live_small (d : obj) sl x k (w : world) : (n <= 2 ^ 31)%N -> c0_inv (o_c0 d) sl -> Forall (in_range n) (live_edges sl) -> In k (chain sl x) ->
  node_at (o_c0 d) k = Ok (x, snd_at sl k) /\ (snd_at sl k < n)%N.
Proof.
  intros Hn2 Hc F C. apply chain_In in C. destruct C as [y C]. split; [erewrite inv_node_at by eauto; unfold snd_at; rewrite C; reflexivity|].
  unfold snd_at. rewrite C. cbn. rewrite Forall_forall in F. apply (F (x, y)). apply In_live_edges. eauto.
Qed.
Lemma live_in (w : world) d sl : good w -> nth_error (w_os w) 0 = Some d -> c0_inv (o_c0 d) sl -> Forall (in_range n) (live_edges sl).
Proof.
  intros G E H. destruct (ob_c0 _ _ _ _ (good_obj w 0 d G E)) as (sl0 & H0 & F). apply Forall_forall. intros e Ie. rewrite Forall_forall in F. apply F.
  apply emem_In. pose proof (inv_contains _ _ e H) as X. rewrite (inv_contains _ _ e H0) in X. injection X as ->. apply emem_In; auto.
Qed.
Definition bit (y : N) (k : nat) : nit := mknit (Z.of_N y) (mkc0it (Z.of_N y) k) true None [].

Lemma nloop_buffer x body g lt : (n <= 2 ^ 31)%N -> max_r g < length (ks g) -> (forall ci, neigh_loop K g x (from_start K g x ci) lt) ->
  forall q w d sl k seen, good w -> nth_error (w_os w) 0 = Some d -> c0_inv (o_c0 d) sl ->
  ks (view K (w_hp w) d) = ks g -> max_r (view K (w_hp w) d) = max_r g -> pos x (o_c0 d) sl k q (seen ++ [Z.of_N (snd_at sl k)]) ->
  exists r, nloop T K (okb x) x body w (bit (snd_at sl k) k) None seen r /\
    sees (seen ++ Z.of_N (snd_at sl k) :: map (fun s => Z.of_N (snd_at sl s)) q ++ lt) r.
Proof.
  intros Hn2 Hm Hlt. induction q as [|s q IH]; intros w d sl k seen G Ed Hc Ek Er Pk; set (it := bit (snd_at sl k) k); set (z := Z.of_N (snd_at sl k)) in *.
  all: assert (Ne : nit_at_end it = false) by (unfold nit_at_end, it, bit; cbn [ni_ptr]; apply Z.eqb_neq; lia).
  all: destruct (dec_each _ (dec_neigh x (seen ++ [z])) (body (seen ++ [z])) w) as [D|D]; [|exists LOut; split; [apply nl_out; auto|exact I]].
  all: destruct (calls T K w (body (seen ++ [z]))) as [w'|] eqn:C; [|exists LStop; split; [apply nl_stop; auto|exact I]].
  all: destruct (neigh_calls x _ _ w d sl w' G Ed Hc D C) as (d' & sl' & Kp); destruct (kept_view _ _ _ _ _ _ _ _ G Ed Kp) as [V1 V2].
  all: pose proof (kp_obj _ _ _ _ _ _ _ _ Kp) as Ed'; pose proof (kp_good _ _ _ _ _ _ _ _ Kp) as G'; pose proof (kp_c0 _ _ _ _ _ _ _ _ Kp) as Hc'.
  all: pose proof (kp_pos _ _ _ _ _ _ _ _ Kp k _ Pk) as (Q1 & (nd & Q2 & Q3) & (p & Q4) & Q5); destruct (kp_snd _ _ _ _ _ _ _ _ Kp) as [S1 S2].
  all: assert (Post : c0it_post (C0_ (view K (w_hp w') d')) (ni_c0 it) = c0it_next (o_c0 d') (mkc0it z k))
         by (unfold c0it_post; cbn [it bit ni_c0 ci_ptr view C0_]; destruct (Z.eqb_spec (Z.of_N (snd_at sl k)) (-1)); [lia|reflexivity]).
  all: unfold c0it_next in Post; cbn [ci_k] in Post; rewrite (proj2 (get_Ok _ _ _) Q2) in Post; cbn [obind] in Post; rewrite Q3 in Post; cbn [hd_error] in Post.
  - set (ci := mkc0it (-1) k) in *.
    assert (Nx : nit_next K (view K (w_hp w') d') x it = Ok (from_start K g x ci)).
    { unfold nit_next. cbn [it bit ni_c0i ni_cur]. fold it. rewrite Post. cbn [obind ci_ptr ci Z.eqb negb Pos.eqb].
      assert (X : (max_r (view K (w_hp w') d') <? length (ks (view K (w_hp w') d'))) = true) by (apply Nat.ltb_lt; rewrite V1, V2, Ek, Er; exact Hm).
      rewrite X. unfold from_start, upto. rewrite V1, V2, Ek, Er. destruct (scan_n K _ x 0) as [[i r]|]; reflexivity. }
    assert (B : ni_c0i (from_start K g x ci) = false) by (unfold from_start; destruct (scan_n K (upto K g) x 0) as [[i r]|]; reflexivity).
    destruct (nloop_tree x body g _ _ (Hlt ci) B w' d' (cell K (w_hp w') d' (from_start K g x ci)) (seen ++ [z]) G' Ed' ltac:(congruence) ltac:(congruence) (or_intror eq_refl)) as (r & Hr & Sr).
    exists r. split; [|rewrite <- app_assoc in Sr; exact Sr]. refine (nl_step T K _ x body w it None seen w' d' _ r Ne D C I Ed' Nx _). exact Hr.
  - assert (Cs : In s (chain sl' x)) by (rewrite Q4; apply in_app_iff; right; left; auto).
    destruct (live_small d' sl' x s w' Hn2 Hc' (live_in w' d' sl' G' Ed' Hc') Cs) as [Na Nb]. rewrite Na in Post. cbn [obind snd] in Post.
    assert (Ls : s < length sl). { destruct Pk as (_ & _ & (p0 & P4) & _). apply (chain_lt sl x). rewrite P4. apply in_app_iff; right; left; auto. }
    assert (Lq : forall a, In a q -> a < length sl). { intros a Ha. destruct Pk as (_ & _ & (p0 & P4) & _). apply (chain_lt sl x). rewrite P4. apply in_app_iff; right; right; auto. }
    assert (Nx : nit_next K (view K (w_hp w') d') x it = Ok (bit (snd_at sl' s) s)).
    { unfold nit_next. cbn [it bit ni_c0i ni_cur ni_kit]. fold it. rewrite Post. cbn [obind ci_ptr]. destruct (Z.eqb_spec (Z.of_N (snd_at sl' s)) (-1)) as [X|X]; [lia|]. cbn [negb].
      rewrite to_int_id by lia. reflexivity. }
    assert (Ps : pos x (o_c0 d') sl' s q ((seen ++ [z]) ++ [Z.of_N (snd_at sl' s)])).
    { split; [eapply chain_lt; eauto|]. split.
      - pose proof (iv_chain _ _ Hc' x) as Lk. rewrite Q4 in Lk. apply linked_split in Lk. eexists. split; [exact Lk|reflexivity].
      - split; [exists (p ++ [s]); rewrite <- app_assoc; exact Q4|]. intros a Ha Ia. apply in_app_iff in Ia. destruct Ia as [Ia|[Ia|[]]]; [apply (Q5 a); [right; auto|auto]|].
        assert (Ca : In a (chain sl' x)) by (rewrite Q4; apply in_app_iff; right; right; auto). apply N2Z.inj in Ia.
        apply chain_In in Ca. destruct Ca as [ya Ca]. apply chain_In in Cs. destruct Cs as [ys Cs]. unfold snd_at in Ia. rewrite Ca, Cs in Ia. cbn in Ia. subst ys.
        pose proof (inv_uniq _ _ Hc' _ _ _ Ca Cs) as Eq. subst a. pose proof (chain_nodup sl' x) as ND. rewrite Q4 in ND. apply NoDup_remove_2 in ND. apply ND, in_app_iff; auto. }
    destruct (IH w' d' sl' s (seen ++ [z]) G' Ed' Hc' ltac:(congruence) ltac:(congruence) Ps) as (r & Hr & Sr).
    exists r. split; [refine (nl_step T K _ x body w it None seen w' d' _ r Ne D C I Ed' Nx _); exact Hr|].
    rewrite <- app_assoc in Sr. cbn [app map] in *. rewrite (S2 s Ls) in Sr.
    rewrite (map_ext_in (fun s => Z.of_N (snd_at sl' s)) (fun s => Z.of_N (snd_at sl s)) q) in Sr by (intros a Ha; rewrite S2 by auto; reflexivity). exact Sr.
Qed.

Theorem nloop_same x body w d l : (n <= 2 ^ 31)%N -> (x < n)%N -> good w -> nth_error (w_os w) 0 = Some d -> dk_neigh K (view K (w_hp w) d) x = Ok l ->
  exists it r, nit_begin K (view K (w_hp w) d) x = Ok it /\ nloop T K (okb x) x body w it (cell K (w_hp w) d it) [] r /\ sees (map Z.of_N l) r.
Proof.
  intros Hn2 Hx G Ed El. set (g := view K (w_hp w) d) in *. destruct (ob_c0 _ _ _ _ (good_obj w 0 d G Ed)) as (sl & Hc & Fr).
  unfold dk_neigh in El. cbn [g view C0_] in El. fold g in El. rewrite (inv_neigh _ _ x Hc), <- chain_neigh in El. cbn [obind] in El.
  destruct (max_r g <? length (ks g)) eqn:Hm; [|discriminate]. injection El as <-.
  assert (Tr : forall y, In y (ks_neigh K (upto K g) x) -> (y < n)%N).
  { assert (W : ks_wf K L n (ks g)) by (apply wf_deref; apply G). intros y. unfold upto. revert W. generalize (S (max_r g)) as m. generalize (ks g) as kk.
    induction kk as [|[t|] kk IH]; intros m W; destruct m as [|m]; cbn [firstn ks_neigh]; try contradiction.
    - unfold ks_wf in W. inversion W; subst. rewrite in_app_iff. intros [Y|Y]; [|eapply IH; eauto; assumption].
      apply (law_neigh L n t x y) in Y; auto. apply (law_edges_range L n) in Y; auto. apply Y.
    - unfold ks_wf in W. inversion W; subst. apply IH; auto. }
  assert (VI : map v_int (ks_neigh K (upto K g) x) = map Z.of_N (ks_neigh K (upto K g) x)) by (apply map_ext_in; intros y Hy; apply Tr in Hy; apply to_int_id; lia).
  assert (Lt : forall ci, neigh_loop K g x (from_start K g x ci) (map Z.of_N (ks_neigh K (upto K g) x))).
  { intros ci. rewrite <- VI. apply from_start_loop; [apply Nat.ltb_lt; auto|]. apply Forall_forall. intros y Hy. apply Tr in Hy. unfold small. lia. }
  pose proof (proj1 (Nat.ltb_lt _ _) Hm) as Hm'.
  unfold nit_begin, c0it_begin. cbn [g view C0_]. fold g. rewrite (iv_adj _ _ Hc).
  destruct (chain sl x) as [|k q] eqn:Ch; cbn [hd_error map app].
  - exists (from_start K g x (mkc0it (-1) 0)).
    assert (B : ni_c0i (from_start K g x (mkc0it (-1) 0)) = false) by (unfold from_start; destruct (scan_n K (upto K g) x 0) as [[i r]|]; reflexivity).
    destruct (nloop_tree x body g _ _ (Lt (mkc0it (-1) 0)) B w d (cell K (w_hp w) d (from_start K g x (mkc0it (-1) 0))) [] G Ed eq_refl eq_refl (or_intror eq_refl)) as (r & Hr & Sr).
    exists r. split; [|auto]. cbn [obind ci_ptr Z.eqb Pos.eqb negb]. rewrite Hm. unfold from_start. destruct (scan_n K (upto K g) x 0) as [[i rr]|]; reflexivity.
  - assert (Ck : In k (chain sl x)) by (rewrite Ch; left; auto). destruct (live_small d sl x k w Hn2 Hc Fr Ck) as [Na Nb].
    pose proof (iv_chain _ _ Hc x) as Lk. rewrite Ch in Lk. cbn [linked] in Lk. destruct Lk as [Lk _].
    destruct (c_els (o_c0 d)) as [|e0 els] eqn:Ee; [destruct k; discriminate|].
    rewrite Na. cbn [obind snd ci_ptr]. destruct (Z.eqb_spec (Z.of_N (snd_at sl k)) (-1)) as [X|X]; [lia|]. cbn [negb]. rewrite to_int_id by lia.
    assert (Pk : pos x (o_c0 d) sl k q ([] ++ [Z.of_N (snd_at sl k)])).
    { split; [eapply chain_lt; eauto|]. split; [exists (mknode (hd_error q) None); rewrite Ee; auto|]. split; [exists [k]; rewrite Ch; reflexivity|].
      intros a Ha [Ia|[]]. assert (Ca : In a (chain sl x)) by (rewrite Ch; right; auto). apply N2Z.inj in Ia.
      apply chain_In in Ca. destruct Ca as [ya Ca]. apply chain_In in Ck. destruct Ck as [ys Cs]. unfold snd_at in Ia. rewrite Ca, Cs in Ia. cbn in Ia. subst ys.
      pose proof (inv_uniq _ _ Hc _ _ _ Ca Cs) as Eq. subst a. pose proof (chain_nodup sl x) as ND. rewrite Ch in ND. inversion ND; auto. }
    destruct (nloop_buffer x body g _ Hn2 Hm' Lt q w d sl k [] G Ed Hc eq_refl eq_refl Pk) as (r & Hr & Sr).
    exists (bit (snd_at sl k) k), r. split; [reflexivity|]. split; [exact Hr|]. cbn [app map]. rewrite map_app, map_map. exact Sr.
Qed.
End W.
