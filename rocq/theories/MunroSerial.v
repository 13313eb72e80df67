(** * MunroSerial: serialize, load and operator== of the incremental-union graph: include/dktree/DKtree_delay_.hpp:240-314 (line numbers
    without a file refer to it).

    Simplifications: as in Serial.v, a tree file holds the tree and 0.kt holds the archive (boost's and sdsl's load are trusted to
    invert their serialize, Container0's own part is C0.c0_save and c0_load); mkdir succeeds or the directory exists; nobody else touches
    the directory.  k_tree::equal is equality of the bitmaps, of the number of vertices, of the height and of the number of edges. *)
From Verif Require Import Base Spec Thresholds C0 C0Proof C0Hist Bits Union UnionProof UnionMerge UnionEdges Munro MunroProof.

(** the archive, :240-248: max_r, n_vertices, n_total_edges, C0.  (union_support, tmp_edge and k_collection_copy are not in it.) *)
Record mhead := mkmhead { mh_r : nat; mh_v : N; mh_e : N; mh_c : c0_image }.
(** the directory: "<j>.kt", j >= 1 *)
Definition mdir := nat -> option bt.
Definition mdir_empty : mdir := fun _ => None.
(** :254-263: "<l+1>.kt" is written for every tree at a level l <= r *)
Definition mput (r : nat) (l : list (option bt)) (d : mdir) : mdir :=
  fun j => match j with
           | O => d O
           | S i => if i <=? r then match nth_error l i with Some (Some t) => Some t | _ => d j end else d j
           end.
(** serialize, :250-268 *)
Definition mg_serialize (d : mdir) (g : mg) : out (mhead * mdir) :=
  if m_maxr g <? length (m_ks g) then
    let* im := c0_save (m_c0 g) in
    Ok (mkmhead (m_maxr g) (m_n g) (m_nt g) im, mput (m_maxr g) (m_ks g) d)
  else UB.
(** :277-291: k_collection[l] is replaced if "<l+1>.kt" can be opened *)
Fixpoint mget (d : mdir) (cnt i : nat) (l : list (option bt)) : list (option bt) :=
  match cnt, l with
  | S c, o :: l => (match d (S i) with Some t => Some t | None => o end) :: mget d c (S i) l
  | _, _ => l
  end.
(** load, :270-295, into the graph g0, whose union_support, tmp_edge and k_collection_copy stay as they are *)
Definition mg_load (T : thresholds) (h : mhead) (d : mdir) (g0 : mg) : out mg :=
  let* c := c0_load T (mh_c h) in
  if mh_r h <? length (m_ks g0) then
    Ok (mkmg (mh_r h) (mh_v h) (mh_e h) c (mget d (S (mh_r h)) 0 (m_ks g0)) (m_us g0) (m_tmp g0) (m_copy g0))
  else UB.

(** k2_tree::equal *)
Fixpoint bits_eqb (a b : list bool) : bool :=
  match a, b with
  | [], [] => true
  | x :: a, y :: b => Bool.eqb x y && bits_eqb a b
  | _, _ => false
  end.
Definition bt_eqb (a b : bt) : bool :=
  N.eqb (b_n a) (b_n b) && Nat.eqb (b_h a) (b_h b) && bits_eqb (b_t a) (b_t b) && bits_eqb (b_l a) (b_l b) && N.eqb (b_m a) (b_m b).
(** the loop :304-311 *)
Fixpoint mtrees_eqb (a b : list (option bt)) : bool :=
  match a, b with
  | Some s :: a, Some t :: b => bt_eqb s t && mtrees_eqb a b
  | None :: a, None :: b => mtrees_eqb a b
  | [], [] => true
  | _, _ => false
  end.
(** operator==, :297-314 *)
Definition mg_eqb (a b : mg) : out bool :=
  let* r := c0_eqb (m_c0 a) (m_c0 b) in
  if m_maxr a <? length (m_ks a) then
    Ok (Nat.eqb (m_maxr a) (m_maxr b) && N.eqb (m_n a) (m_n b) && N.eqb (m_nt a) (m_nt b) && r
        && mtrees_eqb (firstn (S (m_maxr a)) (m_ks a)) (firstn (S (m_maxr a)) (m_ks b)))
  else UB.

(** ** Proofs *)
Lemma bits_eqb_eq : forall a b, bits_eqb a b = true <-> a = b.
Proof.
  induction a as [|x a IH]; intros [|y b]; cbn [bits_eqb]; try (split; [reflexivity || discriminate|reflexivity || discriminate]).
  rewrite andb_true_iff, eqb_true_iff, IH. split; [intros [-> ->]; reflexivity|intros E; injection E; auto].
Qed.
Lemma bt_eqb_eq a b : bt_eqb a b = true <-> a = b.
Proof.
  destruct a as [a1 a2 a3 a4 a5], b as [b1 b2 b3 b4 b5]. unfold bt_eqb. cbn [b_n b_h b_t b_l b_m]. rewrite !andb_true_iff, !N.eqb_eq, Nat.eqb_eq, !bits_eqb_eq.
  split; [intros ((((-> & ->) & ->) & ->) & ->); reflexivity|intros E; injection E; intros; subst; auto].
Qed.
Lemma mtrees_eqb_eq : forall a b, mtrees_eqb a b = true <-> a = b.
Proof.
  induction a as [|[s|] a IH]; intros [|[t|] b]; cbn [mtrees_eqb]; try (split; [reflexivity || discriminate|reflexivity || discriminate]).
  - rewrite andb_true_iff, bt_eqb_eq, IH. split; [intros [-> ->]; reflexivity|intros E; injection E; auto].
  - rewrite IH. split; [intros ->; reflexivity|intros E; injection E; auto].
Qed.

Lemma mget_nth d cnt : forall i l j, nth_error (mget d cnt i l) j =
  match nth_error l j with
  | None => None
  | Some o => Some (if j <? cnt then match d (S (i + j)) with Some t => Some t | None => o end else o)
  end.
Proof.
  induction cnt as [|cnt IH]; intros i [|o l] [|j]; cbn [mget nth_error]; auto.
  - destruct (nth_error l j); reflexivity.
  - rewrite Nat.add_0_r. reflexivity.
  - rewrite IH. rewrite <- plus_n_Sm. destruct (nth_error l j); [|reflexivity]. reflexivity.
Qed.
Definition no_above (r : nat) (l : list (option bt)) : Prop := forall i t, nth_error l i = Some (Some t) -> i <= r.
Lemma mtrees_back r l l0 : length l = length l0 -> no_above r l -> (forall o, In o l0 -> o = None) ->
  mget (mput r l mdir_empty) (S r) 0 l0 = l.
Proof.
  intros E A Z. apply nth_ext'. intros j. rewrite mget_nth. destruct (nth_error l0 j) as [o|] eqn:Eo.
  - assert (o = None) by (apply Z; eapply nth_error_In; eauto). subst o.
    assert (j < length l) by (rewrite E; apply nth_error_Some; congruence).
    destruct (nth_error l j) as [o|] eqn:El; [|apply nth_error_None in El; lia]. f_equal. cbn [Nat.add mput].
    destruct (Nat.ltb_spec j (S r)) as [C|C].
    + destruct (Nat.leb_spec j r); [|lia]. rewrite El. destruct o; reflexivity.
    + destruct o as [t|]; [|reflexivity]. apply A in El. lia.
  - symmetry. apply nth_error_None. rewrite E. apply nth_error_None, Eo.
Qed.

(** ** What a union may change in the collection *)
Lemma upd_nth {A} (l : list A) i (a : A) j : nth_error (upd l i a) j = if (i =? j) && (j <? length l) then Some a else nth_error l j.
Proof.
  revert i j. induction l as [|x l IH]; intros i j.
  - cbn [upd length]. destruct (Nat.ltb_spec j 0); [lia|]. rewrite andb_false_r. reflexivity.
  - destruct i as [|i], j as [|j]; try reflexivity. cbn [upd nth_error length]. rewrite IH. reflexivity.
Qed.
Section Frame.
Context (T : thresholds) (hgt : N -> nat).
(** every level keeps its tree or loses it, except that the last step puts the result at the level chosen *)
Definition shrinks (mi : nat) (ks ks' : list (option bt)) (fin : bool) : Prop :=
  length ks' = length ks /\ forall j t, nth_error ks' j = Some (Some t) -> nth_error ks j = Some (Some t) \/ (fin = true /\ j = mi).
Lemma upd_shrinks mi ks i : shrinks mi ks (upd ks i None) false.
Proof.
  split; [apply length_upd|]. intros j t. rewrite upd_nth. destruct ((i =? j) && (j <? length ks)); [discriminate|auto].
Qed.
Lemma shrinks_trans mi a b c f : shrinks mi a b false -> shrinks mi b c f -> shrinks mi a c f.
Proof.
  intros [L1 A1] [L2 A2]. split; [congruence|]. intros j t E. destruct (A2 _ _ E) as [X|X]; [|auto].
  destruct (A1 _ _ X) as [Y|[Y _]]; [auto|discriminate].
Qed.
Lemma op_frame : forall fuel ks u ks' u', union_op K4 hgt fuel ks u = Ok (ks', u') -> s_fin u = false ->
  s_mi u' = s_mi u /\ shrinks (s_mi u) ks ks' (s_fin u').
Proof.
  induction fuel as [fuel IH] using (well_founded_induction lt_wf). intros ks u ks' u' E F.
  rewrite union_op_body in E. unfold ubody in E. rewrite F in E.
  destruct (nth_error ks (s_ki u)) as [[B|]|]; try discriminate. destruct (s_tmp u) as [A|]; [|discriminate].
  destruct (s_q u) as [|[[l rA] rB] q] eqn:Eq; [discriminate|]. cbv zeta in E.
  match type of E with context [pop_loop ?a ?b ?c ?d ?e ?f] => destruct (pop_loop a b c d e f) as [[left s]|]; [|discriminate] end.
  cbn [obind] in E. destruct (l_q s) as [|q0' qq] eqn:Els.
  2: { injection E as <- <-. cbn [s_mi s_fin]. split; [reflexivity|]. split; auto. }
  destruct (us_result hgt A s) as [A'|]; [|discriminate]. cbn [obind] in E.
  destruct (first_tree (upd ks (s_ki u) None) (s_ki u) _) as [j|].
  - destruct (left =? 0).
    + injection E as <- <-. cbn [s_mi s_fin]. split; [reflexivity|]. apply upd_shrinks.
    + destruct fuel as [|fuel]; [discriminate|]. cbn [urec] in E. apply (IH fuel ltac:(lia)) in E; [|reflexivity]. cbn [s_mi] in E.
      destruct E as [E1 E2]. split; [exact E1|]. eapply shrinks_trans; [apply upd_shrinks|exact E2].
  - unfold set in E. destruct (s_mi u <? length (upd ks (s_ki u) None)) eqn:El; [|discriminate]. cbn [obind] in E. injection E as <- <-. cbn [s_mi s_fin].
    split; [reflexivity|]. split; [rewrite !length_upd; reflexivity|]. intros i t. rewrite upd_nth.
    destruct (Nat.eqb_spec (s_mi u) i); cbn [andb]; [auto|]. rewrite upd_nth. destruct ((s_ki u =? i) && _); [discriminate|auto].
Qed.
Lemma calls_frame c : forall ks u ks' u', union_calls K4 hgt c ks u = Ok (ks', u') -> s_fin u' = false ->
  s_mi u' = s_mi u /\ shrinks (s_mi u) ks ks' false.
Proof.
  induction c as [|c IH]; intros ks u ks' u' E F; cbn [union_calls] in E; [injection E as <- <-; split; [reflexivity|split; auto]|].
  destruct (union_op K4 hgt RSZ ks u) as [[k v]|] eqn:E1; [|discriminate]. cbn [obind] in E.
  destruct (s_fin v) eqn:Fv.
  { exfalso. assert (X : u' = v); [|congruence]. clear - E Fv. revert E. revert c. induction c as [|c IH]; cbn [union_calls]; [congruence|].
    rewrite (op_fin hgt _ _ Fv). cbn [obind]. exact IH. }
  destruct (s_fin u) eqn:Fu. { rewrite (op_fin hgt _ _ Fu) in E1. congruence. }
  destruct (op_frame _ _ _ _ _ E1 Fu) as [M1 S1]. rewrite Fv in S1. destruct (IH _ _ _ _ E F) as [M2 S2]. rewrite M1 in *.
  split; [exact M2|]. eapply shrinks_trans; eauto.
Qed.

(** No tree lies above max_r. *)
Record top_ok (g : mg) : Prop := {
  to_len : length (m_ks g) = RSZ;
  to_r : m_maxr g < RSZ;
  to_mi : s_fin (m_us g) = false -> s_mi (m_us g) <= m_maxr g;
  to_above : no_above (m_maxr g) (m_ks g)
}.
Lemma step_top g g' : mg_step hgt g = Ok g' -> top_ok g -> top_ok g'.
Proof.
  unfold mg_step. destruct (union_op K4 hgt RSZ (m_ks g) (m_us g)) as [[ks u]|] eqn:E; [|discriminate]. cbn [obind fst snd].
  intros X [A B C D]. injection X as <-. destruct (s_fin (m_us g)) eqn:F.
  - rewrite (op_fin hgt _ _ F) in E. injection E as <- <-. constructor; cbn [m_ks m_maxr m_us]; auto. rewrite F. discriminate.
  - destruct (op_frame _ _ _ _ _ E F) as [M [L S]]. specialize (C eq_refl). constructor; cbn [m_ks m_maxr m_us]; try congruence.
    intros i t G. destruct (S _ _ G) as [G'|[_ ->]]; [apply D in G'; exact G'|exact C].
Qed.
Lemma level_range m l : forall i acc j, lev_find T m l i acc = Some j -> i <= j < i + length l.
Proof.
  induction l as [|o l IH]; cbn [lev_find]; intros i acc j E; [discriminate|].
  destruct (_ <? _)%N; [injection E as <-; cbn; lia|]. apply IH in E. cbn. lia.
Qed.
Lemma add_top g x y g' : mg_add T hgt g x y = Done g' -> top_ok g -> top_ok g'.
Proof.
  unfold mg_add. destruct (mg_step hgt g) as [g1|] eqn:E1; [|discriminate]. cbn [rbind]. intros E O. apply (step_top _ _ E1) in O. clear E1 g. rename g1 into g.
  destruct (mg_contains g x y) as [[|]|]; try discriminate; cbn [rbind] in E; [injection E as <-; exact O|].
  cbv zeta in E. destruct (maxsz T (mg_m g) 0) as [ms|]; [|discriminate]. cbn [rbind] in E. destruct (_ <? _)%N.
  { destruct (c0_insert T (m_c0 g) (x, y) (m_nt g)) as [c|]; [|discriminate]. cbn [rbind] in E. injection E as <-. destruct O. constructor; cbn [m_ks m_maxr m_us]; auto. }
  destruct (s_fin (m_us g)); [|discriminate]. destruct (lev_find T (mg_m g) (m_ks g) 0 ms) as [i|] eqn:El; [|discriminate].
  destruct (c0_converted (m_c0 g)) as [conv|]; [|discriminate]. cbn [rbind] in E. destruct (c0_clean (m_c0 g)) as [c|]; [|discriminate]. cbn [rbind] in E.
  destruct (us_new _ _ (m_ks g) i) as [[ks u]|] eqn:Eu; [|discriminate]. cbn [rbind fst snd] in E.
  destruct (mg_step hgt _) as [g2|] eqn:E2; [|discriminate]. cbn [rbind] in E. injection E as <-.
  apply level_range in El. destruct O as [A B C D].
  assert (O2 : top_ok (mkmg (Nat.max i (m_maxr g)) (m_n g) (m_nt g) c ks u (x, y) (m_ks g))).
  { unfold us_new in Eu. cbv zeta in Eu.
    match type of Eu with (if ?a then _ else _) = _ => destruct a; [discriminate|] end.
    match type of Eu with (if ?a then _ else _) = _ => destruct a; [discriminate|] end.
    destruct (first_tree (m_ks g) 0 (S i)).
    - injection Eu as <- <-. constructor; cbn [m_ks m_maxr m_us s_mi s_fin]; auto; try lia. intros j t G. apply D in G. lia.
    - unfold set in Eu. destruct (i <? length (m_ks g)); [|discriminate]. cbn [obind] in Eu. injection Eu as <- <-.
      constructor; cbn [m_ks m_maxr m_us s_mi s_fin]; try lia; [rewrite length_upd; auto|].
      intros j t. rewrite upd_nth. destruct (Nat.eqb_spec i j); cbn [andb]; [intros _; lia|intros G; apply D in G; lia]. }
  apply (step_top _ _ E2) in O2. destruct O2. constructor; cbn [m_ks m_maxr m_us]; auto.
Qed.
Lemma ops_top h : forall g g', mg_ops T hgt g h = Done g' -> top_ok g -> top_ok g'.
Proof.
  induction h as [|[[x y]|[x y]] h IH]; cbn [mg_ops mg_op]; intros g g' E O; [injection E as <-; exact O| |].
  - destruct (mg_add T hgt g x y) as [g1| |] eqn:E1; try discriminate. eapply IH; [exact E|]. eapply add_top; eauto.
  - cbn [mg_del] in E. eapply IH; eauto.
Qed.
Lemma hist_top n h g : mg_hist T hgt n h = Done g -> top_ok g.
Proof.
  unfold mg_hist, mg_new. destruct (c0_new T n) as [c|]; [|discriminate]. cbn [obind rbind]. intros E. apply ops_top in E; auto.
  constructor; cbn [m_ks m_maxr m_us]; [reflexivity|unfold RSZ; lia|discriminate|].
  intros i t G. apply nth_error_In, repeat_spec in G. discriminate.
Qed.
End Frame.

(** ** Two graphs that go on alike *)
Section Sim.
Context (T : thresholds) (hgt : N -> nat).
Definition c0sim (a b : c0) : Prop := c_max b = c_max a /\ c_nv b = c_nv a /\ exists sl, c0_inv a sl /\ c0_inv b sl.
Definition osim {A B} (R : A -> B -> Prop) (a : out A) (b : out B) : Prop :=
  match a, b with Ok a, Ok b => R a b | UB, UB => True | _, _ => False end.

Lemma insert_max c sl e ne c' : c0_inv c sl -> ~ In e (live_edges sl) -> c0_insert T c e ne = Ok c' ->
  c_max c' = if c_max c <=? c_n c then Nat.max (c_max c) (N.to_nat (th_max T (N.max (c_nv c) ne) 0)) else c_max c.
Proof.
  intros H Hnin E. pose proof (insert_room _ _ _ _ _ _ H Hnin E) as Hroom. unfold c0_insert in E.
  rewrite (proj2 (inv_find_none _ _ _ H) Hnin) in E. rewrite (iv_els_len _ _ H) in E.
  destruct (Nat.leb_spec (c_max c) (c_n c)) as [Hfull|Hfree].
  - destruct Hroom as [?|[Hm Hr]]; [lia|].
    unfold maxsz in E. destruct (N.eqb_spec (N.max (c_nv c) ne) 1); [congruence|]. cbn [obind] in E.
    destruct (inv_resize c sl (N.to_nat (th_max T (N.max (c_nv c) ne) 0)) H) as [H' [Hx [Hv [Hl Hn]]]].
    destruct (insert_core_ok _ _ e H' Hnin ltac:(lia)) as [c2 [E2 [Hi [Hmx Hnv]]]].
    assert (X : Ok c2 = Ok c') by (rewrite <- E2, <- E; reflexivity). injection X as <-. lia.
  - destruct (insert_core_ok _ _ e H Hnin Hfree) as [c2 [E2 [Hi [Hmx Hnv]]]].
    assert (X : Ok c2 = Ok c') by (rewrite <- E2, <- E; reflexivity). injection X as <-. lia.
Qed.
Lemma insert_sim a b e ne : c0sim a b -> osim c0sim (c0_insert T a e ne) (c0_insert T b e ne).
Proof.
  intros (M & V & sl & Ia & Ib). destruct (emem e (live_edges sl)) eqn:Em.
  { apply emem_In in Em. rewrite (insert_present T _ _ _ ne Ia Em), (insert_present T _ _ _ ne Ib Em). cbn. repeat split; auto. eauto. }
  apply emem_false in Em.
  assert (R : room T a ne <-> room T b ne) by (unfold room; rewrite M, V, (iv_n _ _ Ia), (iv_n _ _ Ib); tauto).
  destruct (c0_insert T a e ne) as [a'|] eqn:Ea.
  - pose proof (insert_room _ _ _ _ _ _ Ia Em Ea) as Ra. apply R in Ra.
    destruct (insert_ok T _ _ e ne Ia Em (proj2 R Ra)) as (a2 & Ea2 & Ia2 & _ & Va). rewrite Ea in Ea2. injection Ea2 as <-.
    destruct (insert_ok T _ _ e ne Ib Em Ra) as (b2 & Eb2 & Ib2 & _ & Vb). rewrite Eb2. cbn. split; [|split; [congruence|eauto]].
    rewrite (insert_max _ _ _ _ _ Ia Em Ea), (insert_max _ _ _ _ _ Ib Em Eb2), M, V, (iv_n _ _ Ia), (iv_n _ _ Ib). reflexivity.
  - destruct (c0_insert T b e ne) as [b'|] eqn:Eb; [|exact I].
    pose proof (insert_room _ _ _ _ _ _ Ib Em Eb) as Rb. apply R in Rb.
    destruct (insert_ok T _ _ e ne Ia Em Rb) as (a2 & Ea2 & _). congruence.
Qed.

(** the same slots *)
Lemma slots_unique c s1 s2 : c0_inv c s1 -> c0_inv c s2 -> s1 = s2.
Proof.
  intros I1 I2. apply nth_ext'. intros i. pose proof (iv_n _ _ I1) as N1. pose proof (iv_n _ _ I2) as N2. pose proof (iv_le _ _ I1) as Le.
  destruct (nth_error s1 i) as [[e1 b1]|] eqn:E1.
  - assert (i < length s1) by (apply nth_error_Some; congruence).
    destruct (nth_error s2 i) as [[e2 b2]|] eqn:E2; [|apply nth_error_None in E2; lia].
    pose proof (iv_nodes _ _ I1 _ _ _ E1) as X1. pose proof (iv_nodes _ _ I2 _ _ _ E2) as X2. rewrite X1 in X2. injection X2 as ->.
    pose proof (iv_free _ _ I1 i ltac:(lia)) as F1. pose proof (iv_free _ _ I2 i ltac:(lia)) as F2. rewrite E1 in F1. rewrite E2, F1 in F2. injection F2 as F2.
    destruct b1, b2; auto; lia.
  - symmetry. apply nth_error_None. apply nth_error_None in E1. lia.
Qed.

Record msim (a b : mg) : Prop := {
  ms_r : m_maxr b = m_maxr a;
  ms_n : m_n b = m_n a;
  ms_nt : m_nt b = m_nt a;
  ms_c : c0sim (m_c0 a) (m_c0 b);
  ms_ks : m_ks b = m_ks a;
  ms_fin : s_fin (m_us b) = s_fin (m_us a);
  ms_run : s_fin (m_us a) = false -> m_us b = m_us a /\ m_tmp b = m_tmp a /\ m_copy b = m_copy a;
  ms_tmp : m_tmp b = m_tmp a \/ m_tmp b = (0, 0)%N
}.
Lemma sim_c0_contains a b e : c0sim a b -> c0_contains b e = c0_contains a e.
Proof. intros (_ & _ & sl & Ia & Ib). rewrite (inv_contains _ _ _ Ia), (inv_contains _ _ _ Ib). reflexivity. Qed.
Lemma sim_c0_size a b : c0sim a b -> c0_size b = c0_size a.
Proof. intros (_ & _ & sl & Ia & Ib). rewrite (inv_size _ _ Ia), (inv_size _ _ Ib). reflexivity. Qed.
Lemma contains_sim a b x y : msim a b -> mg_contains b x y = mg_contains a x y.
Proof.
  intros V. unfold mg_contains. rewrite (sim_c0_contains _ _ _ (ms_c _ _ V)), (ms_fin _ _ V), (ms_ks _ _ V).
  destruct (c0_contains (m_c0 a) (x, y)) as [[|]|]; auto. cbn [obind]. destruct (s_fin (m_us a)) eqn:F; auto.
  destruct (ms_run _ _ V F) as (_ & -> & ->). reflexivity.
Qed.
Lemma step_sim a b : msim a b -> osim msim (mg_step hgt a) (mg_step hgt b).
Proof.
  intros V. unfold mg_step. rewrite (ms_ks _ _ V). destruct V as [V1 V2 V3 V4 V5 V6 V7 V8]. destruct (s_fin (m_us a)) eqn:F.
  - rewrite (op_fin hgt _ _ F), (op_fin hgt (m_ks a) (m_us b)) by congruence. cbn [obind fst snd osim].
    constructor; cbn [m_maxr m_n m_nt m_c0 m_ks m_us m_tmp m_copy]; auto; congruence.
  - destruct (V7 eq_refl) as (Eu & Et & Ec). rewrite Eu. destruct (union_op K4 hgt RSZ (m_ks a) (m_us a)) as [[k u]|]; [|exact I].
    cbn [obind fst snd osim]. constructor; cbn [m_maxr m_n m_nt m_c0 m_ks m_us m_tmp m_copy]; auto.
Qed.
(** The two calls end alike. *)
Definition rsim (a b : res mg) : Prop :=
  match a, b with Done a, Done b => msim a b | Thrown _, Thrown _ => True | Undefined, Undefined => True | _, _ => False end.
Lemma add_sim a b x y : msim a b -> rsim (mg_add T hgt a x y) (mg_add T hgt b x y).
Proof.
  intros V0. unfold mg_add. pose proof (step_sim _ _ V0) as S. destruct (mg_step hgt a) as [a1|], (mg_step hgt b) as [b1|]; cbn [osim] in S; try (exfalso; exact S); [|exact I].
  clear V0 a b. rename a1 into a, b1 into b, S into V. cbn [rbind]. rewrite (contains_sim _ _ _ _ V).
  destruct (mg_contains a x y) as [[|]|]; cbn [rbind]; [exact V| |exact I]. cbv zeta. unfold mg_m. rewrite (ms_n _ _ V), (ms_nt _ _ V). fold (mg_m a).
  destruct (maxsz T (mg_m a) 0) as [ms|]; cbn [rbind]; [|exact I]. rewrite (sim_c0_size _ _ (ms_c _ _ V)).
  destruct (N.of_nat (c0_size (m_c0 a)) <? ms)%N.
  { pose proof (insert_sim _ _ (x, y) (m_nt a) (ms_c _ _ V)) as S.
    destruct (c0_insert T (m_c0 a) (x, y) (m_nt a)) as [ca|], (c0_insert T (m_c0 b) (x, y) (m_nt a)) as [cb|]; cbn [osim] in S; try (exfalso; exact S); [|exact I].
    cbn [rbind rsim]. destruct V as [V1 V2 V3 V4 V5 V6 V7 V8]. constructor; cbn [m_maxr m_n m_nt m_c0 m_ks m_us m_tmp m_copy]; auto; congruence. }
  rewrite (ms_fin _ _ V), (ms_ks _ _ V), (ms_r _ _ V). destruct (s_fin (m_us a)); [|exact I].
  destruct (lev_find T (mg_m a) (m_ks a) 0 ms) as [i|]; [|exact I].
  destruct (ms_c _ _ V) as (CM & CV & sl & Ia & Ib). rewrite (inv_converted _ _ Ia), (inv_converted _ _ Ib). cbn [rbind].
  destruct (inv_clean _ _ Ia) as (ca & Ea & Ia2 & Ma & Va). destruct (inv_clean _ _ Ib) as (cb & Eb & Ib2 & Mb & Vb). rewrite Ea, Eb. cbn [rbind].
  destruct (us_new _ _ (m_ks a) i) as [[ks u]|]; [|exact I]. cbn [rbind fst snd].
  assert (V2 : msim (mkmg (Nat.max i (m_maxr a)) (m_n a) (m_nt a) ca ks u (x, y) (m_ks a)) (mkmg (Nat.max i (m_maxr a)) (m_n a) (m_nt a) cb ks u (x, y) (m_ks a))).
  { constructor; cbn [m_maxr m_n m_nt m_c0 m_ks m_us m_tmp m_copy]; auto. split; [congruence|]. split; [congruence|]. eauto. }
  pose proof (step_sim _ _ V2) as S.
  match goal with |- rsim (rbind ?p _) (rbind ?q _) => destruct p as [a2|], q as [b2|]; cbn [osim] in S; try (exfalso; exact S); [|exact I] end.
  cbn [rbind rsim]. destruct S as [S1 S2 S3 S4 S5 S6 S7 S8]. constructor; cbn [m_maxr m_n m_nt m_c0 m_ks m_us m_tmp m_copy]; auto; congruence.
Qed.
Lemma ops_sim h : forall a b, msim a b -> rsim (mg_ops T hgt a h) (mg_ops T hgt b h).
Proof.
  induction h as [|[[x y]|[x y]] h IH]; intros a b V; cbn [mg_ops mg_op]; [exact V| |apply IH; exact V].
  pose proof (add_sim _ _ x y V) as S. destruct (mg_add T hgt a x y), (mg_add T hgt b x y); cbn [rsim] in *; try tauto. apply IH, S.
Qed.

(** the invariant carries over *)
Lemma minv_sim n hs a b Ls P B c : msim a b -> minv hgt n hs a Ls P B c -> minv hgt n hs b Ls P B c.
Proof.
  intros [S1 S2 S3 (CM & CV & sl & Ia & Ib) S5 S6 S7 S8] [V1 V2 V3 V4 V5 V6 V7 V8 V9 V10 V11].
  constructor; try congruence; auto.
  - rewrite (slots_unique _ _ _ V2 Ia). exact Ib.
  - destruct V10 as [[E [E1 E2]]|(ks0 & u0 & mi & conv & A1 & A2 & A3 & A4 & A5 & A6 & A7)].
    + left. split; [exact E|]. split; congruence.
    + right. destruct (S7 A6) as (B1 & B2 & B3). exists ks0, u0, mi, conv. rewrite B1, B2, B3, S1, S5. auto 10.
Qed.
End Sim.

(** ** Saving and loading *)
Section Load.
Context (T : thresholds) (hgt : N -> nat) (n : N).
Lemma dead_lv B : dead_count (lv B) = 0.
Proof. unfold dead_count. induction B as [|e B IH]; cbn; auto. Qed.
Lemma serialize_load hs g Ls P B c n0 g0 : minv hgt n hs g Ls P B c -> top_ok g -> mg_new T n0 = Ok g0 ->
  exists hd d g', mg_serialize mdir_empty g = Ok (hd, d) /\ mg_load T hd d g0 = Ok g' /\
    m_maxr g' = m_maxr g /\ m_n g' = m_n g /\ m_nt g' = m_nt g /\ m_ks g' = m_ks g /\ c0sim (m_c0 g) (m_c0 g') /\
    m_us g' = us_idle /\ m_tmp g' = (0, 0)%N.
Proof.
  intros V [O1 O2 O3 O4] E0. pose proof (mv_c0 _ _ _ _ _ _ _ _ V) as IC.
  assert (Ei : c0_save (m_c0 g) = Ok (c_nv (m_c0 g), c_max (m_c0 g), live_edges (lv B))).
  { rewrite (inv_save _ _ IC), dead_lv. reflexivity. }
  destruct (inv_load T _ _ _ IC Ei) as (c' & Ec & IC' & Hm & Hv).
  unfold mg_serialize. destruct (Nat.ltb_spec (m_maxr g) (length (m_ks g))) as [_|]; [|lia]. rewrite Ei. cbn [obind].
  do 3 eexists. split; [reflexivity|]. unfold mg_load. cbn [mh_c mh_r mh_v mh_e]. rewrite Ec. cbn [obind].
  assert (X : m_ks g0 = repeat None RSZ /\ m_us g0 = us_idle /\ m_tmp g0 = (0, 0)%N).
  { unfold mg_new in E0. destruct (c0_new T n0) as [c1|]; [|discriminate]. cbn [obind] in E0. inversion E0. auto. }
  destruct X as (X1 & X2 & X3). rewrite X1, repeat_length. destruct (Nat.ltb_spec (m_maxr g) RSZ) as [_|X]; [|lia]. split; [reflexivity|].
  cbn [m_maxr m_n m_nt m_c0 m_ks m_us m_tmp m_copy]. do 3 (split; [reflexivity|]). split.
  { apply mtrees_back; [rewrite repeat_length; exact O1|exact O4|]. intros o I. apply repeat_spec in I. exact I. }
  split; [|auto]. split; [exact Hm|]. split; [exact Hv|]. eauto.
Qed.
Lemma eqb_refl_sim a b : top_ok a -> c0sim (m_c0 a) (m_c0 b) -> m_maxr b = m_maxr a -> m_n b = m_n a -> m_nt b = m_nt a -> m_ks b = m_ks a ->
  mg_eqb a b = Ok true /\ mg_eqb b a = Ok true.
Proof.
  intros [O1 O2 _ _] (CM & CV & sl & Ia & Ib) E1 E2 E3 E4.
  assert (X : forall l, mtrees_eqb l l = true) by (intros l; apply mtrees_eqb_eq; reflexivity).
  unfold mg_eqb. rewrite (c0_eqb_same _ _ sl Ia Ib), (c0_eqb_same _ _ sl Ib Ia) by congruence. cbn [obind]. rewrite E1, E2, E3, E4, X, Nat.eqb_refl, !N.eqb_refl.
  destruct (Nat.ltb_spec (m_maxr a) (length (m_ks a))); [auto|lia].
Qed.
End Load.
