(** * Prop_MunroSerial: saving and loading the incremental-union graph, and comparing two of them (C77).

    [mg_serialize d g]: serialize into the directory d; the archive and the directory afterwards.  [mg_load T hd d g0]: load into g0.
    [mg_eqb a b]: a == b. *)
From Verif Require Import Base Spec Thresholds Table C0 C0Proof Bits Union UnionProof UnionMerge UnionEdges Prop_Union Munro MunroProof Prop_Munro MunroSerial.

(** Two graphs that no caller can tell apart by contains, get_number_edges and get_max_r, nor by list_neighbour except that one may list vertex
    0 as a neighbour of itself and that the number of times a neighbour is listed is left open. *)
Definition alike (n : N) (a b : mg) : Prop :=
  mg_edges a = mg_edges b /\ mg_max_r a = mg_max_r b /\ mg_finished a = mg_finished b /\
  (forall x y, (x < n)%N -> (y < n)%N -> mg_contains a x y = mg_contains b x y) /\
  (forall x, (x < n)%N -> exists la lb, mg_neigh a x = Ok la /\ mg_neigh b x = Ok lb /\ forall y, (x, y) <> (0, 0)%N -> (In y la <-> In y lb)).

Lemma trees_adj_sub hgt n Ls ks x y : 1 <= hgt n -> (n <= 2 ^ N.of_nat (hgt n))%N -> in_rng n (tl Ls) -> (x < n)%N -> (y < n)%N ->
  (forall j t, nth_error ks j = Some (Some t) -> nth_error (lev hgt n Ls) j = Some (Some t)) -> trees_adj ks x y = true -> In (x, y) (tl Ls).
Proof.
  intros H1 Hn R Hx Hy. revert Ls R. induction ks as [|[t|] ks IH]; intros Ls R Sub A; cbn [trees_adj] in A; [discriminate| |].
  - destruct Ls as [|[l|] Ls]; [specialize (Sub 0 t eq_refl); discriminate| |specialize (Sub 0 t eq_refl); discriminate].
    specialize (Sub 0 t eq_refl) as S0. unfold lev in S0. cbn in S0. injection S0 as <-.
    unfold tl in *. cbn [somes concat app] in *. apply (rng_app n) in R. destruct R as [R1 R2].
    apply orb_true_iff in A. apply in_app_iff. destruct A as [A|A]; [left; apply (built_adj hgt n H1 Hn l x y R1 Hx Hy); exact A|].
    right. apply IH; auto. intros j s G. apply (Sub (S j) s G).
  - destruct Ls as [|o Ls].
    { exfalso. apply (IH []); auto. intros j s G. specialize (Sub (S j) s G). destruct j; discriminate. }
    assert (X : In (x, y) (tl Ls)).
    { apply IH; auto; [|intros j s G; apply (Sub (S j) s G)]. unfold tl in *. destruct o as [l|]; cbn [somes concat] in R; auto. apply (rng_app n) in R. tauto. }
    unfold tl in *. destruct o as [l|]; cbn [somes concat]; auto. apply in_app_iff. auto.
Qed.

(** C77, what holds: into a newly built graph (of any size), serialize and load succeed at every point of every history; the loaded graph has the same
    number of vertices and edges, operator== holds both ways, and what it contains the original contains.  If no union is in progress, the two
    then go on alike for ever: every further history ends the same way in both (completed, std::logic_error, or undefined behaviour), and
    if it completes the two graphs answer alike. *)
Theorem C77_round_trip_partial : forall T hgt n h g n0 g0, (2 <= n)%N -> mreached T hgt n h g -> mg_new T n0 = Ok g0 ->
  exists hd d g', mg_serialize mdir_empty g = Ok (hd, d) /\ mg_load T hd d g0 = Ok g' /\
    mg_eqb g g' = Ok true /\ mg_eqb g' g = Ok true /\ mg_edges g' = mg_edges g /\ mg_max_r g' = mg_max_r g /\ m_n g' = n /\
    (forall x y, (x < n)%N -> (y < n)%N -> exists b, mg_contains g' x y = Ok b /\ (b = true -> mg_contains g x y = Ok true)) /\
    (mg_finished g = true -> forall h2, Forall (op_in_range n) h2 -> small_hist hgt n (h ++ h2) ->
       match mg_ops T hgt g h2, mg_ops T hgt g' h2 with
       | Done a, Done b => alike n a b
       | Thrown _, Thrown _ | Undefined, Undefined => True
       | _, _ => False
       end).
Proof.
  intros T hgt n h g n0 g0 Hn2 (HO & F & Sm & E) E0. pose proof HO as (H1 & H256 & Hn).
  destruct (hist_inv T hgt n Hn2 HO h F Sm g E) as (Ls & P & B & c & V & _).
  pose proof (hist_top T hgt n h g E) as O.
  destruct (serialize_load T hgt n _ g Ls P B c n0 g0 V O E0) as (hd & d & g' & S1 & S2 & A1 & A2 & A3 & A4 & A5 & A6 & A7).
  destruct (eqb_refl_sim g g' O A5 A1 A2 A3 A4) as [Q1 Q2].
  exists hd, d, g'. do 2 (split; [assumption|]). split; [exact Q1|]. split; [exact Q2|]. split; [exact A3|]. split; [exact A1|].
  split; [rewrite A2; apply (mv_n _ _ _ _ _ _ _ _ V)|]. split.
  - intros x y Hx Hy. rewrite (contains_spec hgt n H1 Hn _ _ _ _ _ _ x y V Hx Hy). destruct (minv_rng _ _ _ _ _ _ _ _ V) as [_ [R2 _]].
    unfold mg_contains. rewrite (sim_c0_contains _ _ _ A5), (inv_contains _ _ _ (mv_c0 _ _ _ _ _ _ _ _ V)), live_lv. cbn [obind].
    destruct (emem (x, y) B) eqn:Eb.
    { eexists. split; [reflexivity|]. intros _. f_equal. apply emem_In. apply emem_In in Eb. apply in_app_iff. auto. }
    rewrite A6. cbn [us_idle s_fin]. eexists. split; [reflexivity|]. rewrite A4. intros A. f_equal. apply emem_In. unfold vis. rewrite !in_app_iff. right; left.
    apply (trees_adj_sub hgt n Ls (m_ks g)); auto. intros j t.
    destruct (mv_phase _ _ _ _ _ _ _ _ V) as [[_ [K1 _]]|(ks0 & u0 & mi & conv & EP & _ & _ & U & C & Fn & _)]; [rewrite K1; auto|].
    destruct (calls_frame hgt _ _ _ _ _ C Fn) as [_ [_ Sh]]. intros G. destruct (Sh _ _ G) as [G'|[X _]]; [|discriminate].
    unfold us_new in U. cbv zeta in U.
    match type of U with (if ?a then _ else _) = _ => destruct a; [discriminate|] end.
    match type of U with (if ?a then _ else _) = _ => destruct a; [discriminate|] end.
    destruct (first_tree (lev hgt n Ls) 0 (S mi)).
    + injection U as <- <-. exact G'.
    + exfalso. unfold set in U. destruct (mi <? length (lev hgt n Ls)); [|discriminate]. cbn [obind] in U. injection U as <- <-.
      clear - C Fn. assert (X : forall k w, s_fin w = true -> union_calls K4 hgt k (upd (lev hgt n Ls) mi (Some (built hgt n P))) w = Ok (m_ks g, m_us g) -> False).
      { induction k as [|k IH]; intros w Fw; cbn [union_calls]; [intros Y; injection Y as _ Y; congruence|]. rewrite (op_fin hgt _ _ Fw). cbn [obind]. apply IH, Fw. }
      eapply X; [|exact C]. reflexivity.
  - intros Fn h2 F2 Sm2.
    assert (M : msim g g').
    { unfold mg_finished in Fn. constructor; auto; [rewrite A6, Fn; reflexivity|congruence]. }
    pose proof (ops_sim T hgt h2 _ _ M) as S. destruct (mg_ops T hgt g h2) as [a| |] eqn:Ea, (mg_ops T hgt g' h2) as [b| |]; cbn [rsim] in S; try tauto.
    assert (Eh : mg_hist T hgt n (h ++ h2) = Done a).
    { unfold mg_hist in *. destruct (mg_new T n) as [gn|]; [|discriminate]. cbn [rbind] in *. rewrite mg_ops_app, E. exact Ea. }
    assert (Fa : Forall (op_in_range n) (h ++ h2)) by (apply Forall_app; auto).
    destruct (hist_inv T hgt n Hn2 HO _ Fa Sm2 a Eh) as (Ls2 & P2 & B2 & c2 & Va & _ & Tm & _).
    pose proof (minv_sim hgt n _ a b _ _ _ _ S Va) as Vb.
    unfold alike. split; [symmetry; apply (ms_nt _ _ S)|]. split; [symmetry; apply (ms_r _ _ S)|]. split; [symmetry; apply (ms_fin _ _ S)|].
    split; [intros x y _ _; symmetry; apply contains_sim, S|]. intros x Hx.
    destruct (neigh_spec hgt n _ _ _ _ _ _ x Va H1 Hn Hx) as (la & Ela & La). destruct (neigh_spec hgt n _ _ _ _ _ _ x Vb H1 Hn Hx) as (lb & Elb & Lb).
    exists la, lb. split; [exact Ela|]. split; [exact Elb|]. intros y Hxy. rewrite La, Lb.
    assert (Key : forall q, (m_tmp q = (0, 0)%N \/ In (m_tmp q) (added (h ++ h2))) -> mg_finished a = true -> m_tmp q = (x, y) -> In (x, y) (B2 ++ tl Ls2)).
    { intros q Tq Fq Eq. destruct Tq as [Tq|Tq]; [congruence|]. rewrite Eq in Tq.
      pose proof (vis_fin hgt n _ _ _ _ _ _ (x, y) Va Fq Tq) as G. unfold mg_finished in Fq. rewrite (phase_fin _ _ _ _ _ _ _ _ Va) in Fq.
      destruct (is_nil P2) as [->|]; [|discriminate]. unfold vis in G. rewrite app_nil_r in G. exact G. }
    assert (Tb : m_tmp b = (0, 0)%N \/ In (m_tmp b) (added (h ++ h2))) by (destruct (ms_tmp _ _ S) as [-> | ->]; auto).
    pose proof (ms_fin _ _ S) as Fs. unfold mg_finished in *. split; (intros [G|[G1 G2]]; [auto|]); left; [apply (Key a Tm)|apply (Key b Tb)]; congruence.
Qed.

(** C77 refuted with a union in progress: 12 distinct insertions into a graph with 16 vertices.  The loaded graph says it has 12 edges and operator==
    holds, but it does not contain the edge inserted last, which the original contains, and for good: one more insertion, and the original
    contains an edge inserted before that the loaded graph does not. *)
Definition lost (T : thresholds) (r : res mg) : Prop :=
  match r, mg_new T 16 with
  | Done g, Ok g0 =>
    mg_finished g = false /\
    match mg_serialize mdir_empty g with
    | Ok (hd, d) =>
      match mg_load T hd d g0 with
      | Ok g' =>
        mg_eqb g g' = Ok true /\ mg_edges g' = 12%N /\ mg_contains g 9 12 = Ok true /\ mg_contains g' 9 12 = Ok false /\
        match mg_add T lg g 1 1, mg_add T lg g' 1 1 with
        | Done a, Done b => mg_finished a = true /\ mg_finished b = true /\ mg_contains a 8 15 = Ok true /\ mg_contains b 8 15 = Ok false /\ mg_edges b = 13%N
        | _, _ => False
        end
      | UB => False
      end
    | UB => False
    end
  | _, _ => False
  end.
Theorem C77_refuted : forall T, th_real T -> (forall g, mg_hist T lg 16 (ex_mh 12) = Done g -> mreached T lg 16 (ex_mh 12) g) /\
  In (Add (9, 12)%N) (ex_mh 12) /\ In (Add (8, 15)%N) (ex_mh 12) /\ lost T (mg_hist T lg 16 (ex_mh 12)).
Proof.
  intros T HT. split; [intros g E; apply ex_reached; auto|]. split; [apply in_hist_ok; vm_compute; reflexivity|]. split; [apply in_hist_ok; vm_compute; reflexivity|].
  rewrite <- (tabled_eq T HT). vm_compute. repeat split.
Qed.
(** ... and, with no union in progress, load brings back the neighbour 0 of vertex 0 that an empty graph lists (C29_refuted_fresh) and the saved
    graph did not. *)
Definition loop0 (T : thresholds) (r : res mg) : Prop :=
  match r, mg_new T 16 with
  | Done g, Ok g0 =>
    mg_finished g = true /\
    match mg_serialize mdir_empty g with
    | Ok (hd, d) =>
      match mg_load T hd d g0 with
      | Ok g' => exists la lb, mg_neigh g 0 = Ok la /\ mg_neigh g' 0 = Ok lb /\ ~ In 0%N la /\ In 0%N lb /\ mg_contains g' 0 0 = Ok false
      | UB => False
      end
    | UB => False
    end
  | _, _ => False
  end.
Theorem C77_refuted_neighbour : forall T, th_real T -> (forall g, mg_hist T lg 16 (ex_mh 11) = Done g -> mreached T lg 16 (ex_mh 11) g) /\ loop0 T (mg_hist T lg 16 (ex_mh 11)).
Proof.
  intros T HT. split; [intros g E; apply ex_reached; auto|]. rewrite <- (tabled_eq T HT). vm_compute. split; [reflexivity|].
  do 2 eexists. split; [reflexivity|]. split; [reflexivity|]. split; [|split; [|reflexivity]].
  - intros G. repeat (destruct G as [G|G]; [discriminate|]). exact G.
  - repeat (first [left; reflexivity|right]).
Qed.
(** The hypotheses are met: after 11 insertions two trees exist and no union is in progress; a further insertion begins one, in both graphs. *)
Example C77_example : forall T, th_real T -> exists g g0 hd d g' a b, mreached T lg 16 (ex_mh 11) g /\ mg_finished g = true /\ mg_new T 5 = Ok g0 /\
  mg_serialize mdir_empty g = Ok (hd, d) /\ mg_load T hd d g0 = Ok g' /\ (exists t, d 1 = Some t \/ d 2 = Some t) /\
  mg_ops T lg g [Add (9, 12)%N] = Done a /\ mg_ops T lg g' [Add (9, 12)%N] = Done b /\ mg_finished a = false /\ mg_edges b = 12%N.
Proof.
  intros T HT.
  assert (W : match mg_hist T lg 16 (ex_mh 11), mg_new T 5 with
    | Done g, Ok g0 => mg_finished g = true /\ match mg_serialize mdir_empty g with
       | Ok (hd, d) => match mg_load T hd d g0 with
          | Ok g' => match d 1, d 2 with None, None => False | _, _ => True end /\
             match mg_ops T lg g [Add (9, 12)%N], mg_ops T lg g' [Add (9, 12)%N] with Done a, Done b => mg_finished a = false /\ mg_edges b = 12%N | _, _ => False end
          | UB => False end
       | UB => False end
    | _, _ => False end).
  { rewrite <- (tabled_eq T HT). vm_compute. repeat split. }
  destruct (mg_hist T lg 16 (ex_mh 11)) as [g| |] eqn:E; [|destruct W|destruct W]. destruct (mg_new T 5) as [g0|]; [|destruct W]. destruct W as [W1 W2].
  destruct (mg_serialize mdir_empty g) as [[hd d]|] eqn:Es; [|tauto]. destruct (mg_load T hd d g0) as [g'|] eqn:El; [|tauto]. destruct W2 as [W2 W3].
  destruct (mg_ops T lg g _) as [a| |] eqn:Ea; try tauto. destruct (mg_ops T lg g' _) as [b| |] eqn:Eb; try tauto. destruct W3 as [W3 W4].
  exists g, g0, hd, d, g', a, b. split; [apply ex_reached; auto|]. do 4 (split; [assumption || reflexivity|]). split; [|auto].
  destruct (d 1) as [t|]; [eauto|]. destruct (d 2) as [t|]; [eauto|tauto].
Qed.
