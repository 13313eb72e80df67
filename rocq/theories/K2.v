(** * K2: the contract of the external class sdsl::k2_tree.

    The class lives in a fork of sdsl-lite that is not part of /repo.  The
    record lists the members the repository calls; the laws state what those
    call sites rely on.  Every theorem about the graph classes quantifies over
    every implementation and every proof of the laws.  [K2Ref] below (a list)
    and [K2Rev] (a real k^2-ary trie) show the laws can be met. *)
From Verif Require Import Base.

Record k2impl := {
  kt : Type;
  (** k2_tree(vector<tuple>&, size), called at DKtree.hpp:132, :233 *)
  kt_build : list edge -> N -> kt;
  (** k2_tree(size), called at DKtree_delay.hpp:236 *)
  kt_new : N -> kt;
  (** k2_tree(), called at DKtree_delay_.hpp:137, :181 *)
  kt_null : kt;
  (** get_number_nodes, DKtree_delay_.hpp:159 *)
  kt_size : kt -> N;
  (** adj, DKtree.hpp:157 *)
  kt_adj : kt -> N -> N -> bool;
  (** adj_forced, DKtree.hpp:173: result and the tree afterwards *)
  kt_adjf : kt -> N -> N -> bool * kt;
  (** erase, DKtree.hpp:189 *)
  kt_erase : kt -> N -> N -> bool * kt;
  (** a->unionOp(b), DKtree.hpp:137: a afterwards (b is not changed) *)
  kt_union : kt -> kt -> kt;
  (** total_edges, DKtree.hpp:114 *)
  kt_total : kt -> N;
  (** get_marked_edges, DKtree.hpp:197 *)
  kt_marked : kt -> N;
  (** neigh, DKtree.hpp:258; also the sequence its neighbour_iterator yields *)
  kt_neigh : kt -> N -> list N;
  (** the sequence its edge_iterator yields, DKtreeEdgeIterator.hpp:65 *)
  kt_edges : kt -> list edge;
  (** equal, DKtree.hpp:410 *)
  kt_eq : kt -> kt -> bool
}.

(** The contract.  [wf n t] : t is a tree over n vertices built by the calls below. *)
Record k2laws (K : k2impl) := {
  wf : N -> kt K -> Prop;

  law_build : forall n es, (2 <= n)%N -> es <> [] -> NoDup es -> Forall (fun e => fst e < n /\ snd e < n)%N es ->
    wf n (kt_build K es n) /\ kt_marked K (kt_build K es n) = 0%N /\
    forall e, In e (kt_edges K (kt_build K es n)) <-> In e es;
  law_new : forall n, (2 <= n)%N -> wf n (kt_new K n) /\ kt_marked K (kt_new K n) = 0%N /\ kt_edges K (kt_new K n) = [];
  law_null : kt_size K (kt_null K) = 0%N;
  law_size : forall n t, wf n t -> kt_size K t = n;

  law_edges_nodup : forall n t, wf n t -> NoDup (kt_edges K t);
  law_edges_range : forall n t e, wf n t -> In e (kt_edges K t) -> (fst e < n /\ snd e < n)%N;
  law_adj : forall n t x y, wf n t -> (x < n)%N -> (y < n)%N ->
    (kt_adj K t x y = true <-> In (x, y) (kt_edges K t));
  law_neigh_nodup : forall n t x, wf n t -> (x < n)%N -> NoDup (kt_neigh K t x);
  law_neigh : forall n t x y, wf n t -> (x < n)%N ->
    (In y (kt_neigh K t x) <-> In (x, y) (kt_edges K t));
  law_total : forall n t, wf n t -> kt_total K t = (N.of_nat (length (kt_edges K t)) + kt_marked K t)%N;

  law_erase_res : forall n t x y, wf n t -> (x < n)%N -> (y < n)%N ->
    (fst (kt_erase K t x y) = true <-> In (x, y) (kt_edges K t));
  law_erase : forall n t x y, wf n t -> (x < n)%N -> (y < n)%N ->
    let t' := snd (kt_erase K t x y) in
    wf n t' /\
    (forall e, In e (kt_edges K t') <-> In e (kt_edges K t) /\ e <> (x, y)) /\
    kt_marked K t' = (kt_marked K t + if fst (kt_erase K t x y) then 1 else 0)%N;

  law_union : forall n a b, wf n a -> wf n b ->
    wf n (kt_union K a b) /\
    (forall e, In e (kt_edges K (kt_union K a b)) <-> In e (kt_edges K a) \/ In e (kt_edges K b)) /\
    (kt_marked K a = 0%N -> kt_marked K (kt_union K a b) = 0%N);

  (** adj_forced, "checks if an edge exists ..., and add it if possible" (DKtree.hpp:162).  [known t e]: the
      tree answers adj_forced(e) with true.  Every live edge is known; an implementation may also know (and
      revive) edges erased earlier.  After true the edge is live and nothing else changed; after false
      nothing changed. *)
  known : kt K -> edge -> Prop;
  law_known_live : forall n t e, wf n t -> In e (kt_edges K t) -> known t e;
  law_known_build : forall n es e, (2 <= n)%N -> es <> [] -> NoDup es ->
    Forall (fun e => fst e < n /\ snd e < n)%N es -> known (kt_build K es n) e -> In e es;
  law_known_new : forall n e, ~ known (kt_new K n) e;
  law_known_erase : forall n t x y e, wf n t -> (x < n)%N -> (y < n)%N ->
    known (snd (kt_erase K t x y)) e -> known t e;
  law_known_union : forall n a b e, wf n a -> wf n b -> known (kt_union K a b) e -> known a e \/ known b e;
  law_adjf : forall n t x y, wf n t -> (x < n)%N -> (y < n)%N ->
    let t' := snd (kt_adjf K t x y) in
    (fst (kt_adjf K t x y) = true <-> known t (x, y)) /\
    if fst (kt_adjf K t x y)
    then wf n t' /\ (forall e, In e (kt_edges K t') <-> In e (kt_edges K t) \/ e = (x, y)) /\
         (forall e, known t' e -> known t e)
    else t' = t;
  (** asking about a live edge changes nothing *)
  law_adjf_live : forall n t x y, wf n t -> (x < n)%N -> (y < n)%N -> In (x, y) (kt_edges K t) ->
    snd (kt_adjf K t x y) = t;

  law_eq_refl : forall t, kt_eq K t t = true;
  law_eq : forall n a b, wf n a -> wf n b -> kt_eq K a b = true ->
    forall e, In e (kt_edges K a) <-> In e (kt_edges K b)
}.
Arguments wf {K}.
Arguments law_build {K}. Arguments law_new {K}. Arguments law_null {K}. Arguments law_size {K}.
Arguments law_edges_nodup {K}. Arguments law_edges_range {K}. Arguments law_adj {K}.
Arguments law_neigh_nodup {K}. Arguments law_neigh {K}. Arguments law_total {K}.
Arguments law_erase_res {K}. Arguments law_erase {K}. Arguments law_union {K}. Arguments law_adjf {K}. Arguments law_adjf_live {K}. Arguments known {K}. Arguments law_known_live {K}.
Arguments law_known_build {K}. Arguments law_known_new {K}. Arguments law_known_erase {K}. Arguments law_known_union {K}.
Arguments law_eq_refl {K}. Arguments law_eq {K}.

(** The stronger reading of adj_forced used by the theorems about counts: it is a membership query
    (an erased edge is not revived). *)
Definition adjf_is_query {K} (L : k2laws K) : Prop :=
  forall n t e, wf L n t -> known L t e -> In e (kt_edges K t).

(** ** A reference implementation: the list of live edges and the number of erased ones *)
Record rtree := { r_n : N; r_edges : list edge; r_marked : N }.

Definition rmem (t : rtree) x y : bool := existsb (eeqb (x, y)) (r_edges t).
Definition radd (es : list edge) (e : edge) : list edge := if existsb (eeqb e) es then es else es ++ [e].

Definition K2Ref : k2impl := {|
  kt := rtree;
  kt_build := fun es n => {| r_n := n; r_edges := fold_left radd es []; r_marked := 0 |};
  kt_new := fun n => {| r_n := n; r_edges := []; r_marked := 0 |};
  kt_null := {| r_n := 0; r_edges := []; r_marked := 0 |};
  kt_size := r_n;
  kt_adj := rmem;
  kt_adjf := fun t x y => (rmem t x y, t);
  kt_erase := fun t x y =>
    if rmem t x y
    then (true, {| r_n := r_n t; r_edges := filter (fun e => negb (eeqb (x, y) e)) (r_edges t);
                   r_marked := (r_marked t + 1)%N |})
    else (false, t);
  kt_union := fun a b => {| r_n := r_n a; r_edges := fold_left radd (r_edges b) (r_edges a); r_marked := 0 |};
  kt_total := fun t => (N.of_nat (length (r_edges t)) + r_marked t)%N;
  kt_marked := r_marked;
  kt_neigh := fun t x => succs x (r_edges t);
  kt_edges := r_edges;
  kt_eq := fun a b => forallb (fun e => existsb (eeqb e) (r_edges b)) (r_edges a)
                      && forallb (fun e => existsb (eeqb e) (r_edges a)) (r_edges b)
|}.

Lemma existsb_eeqb e l : existsb (eeqb e) l = true <-> In e l.
Proof.
  rewrite existsb_exists. split.
  - intros [f [H1 H2]]. apply eeqb_eq in H2; subst; auto.
  - intros H; exists e; split; auto. apply eeqb_refl.
Qed.
Lemma existsb_eeqb_false e l : existsb (eeqb e) l = false <-> ~ In e l.
Proof. rewrite <- existsb_eeqb. destruct (existsb (eeqb e) l); split; congruence. Qed.

Lemma radd_In l f e : In e (radd l f) <-> e = f \/ In e l.
Proof.
  unfold radd. destruct (existsb (eeqb f) l) eqn:E.
  - apply existsb_eeqb in E. intuition congruence.
  - rewrite in_app_iff; cbn. intuition.
Qed.
Lemma radd_nodup l f : NoDup l -> NoDup (radd l f).
Proof.
  intros H. unfold radd. destruct (existsb (eeqb f) l) eqn:E; auto.
  apply existsb_eeqb_false in E. apply NoDup_app; repeat split; auto.
  - repeat constructor; auto.
  - intros a Ha [->|[]]; auto.
Qed.
Lemma fold_radd_In es l e : In e (fold_left radd es l) <-> In e es \/ In e l.
Proof.
  revert l; induction es as [|f es IH]; cbn; intros l; [tauto|].
  rewrite IH, radd_In. intuition.
Qed.
Lemma fold_radd_nodup es l : NoDup l -> NoDup (fold_left radd es l).
Proof. revert l; induction es as [|f es IH]; cbn; intros l H; auto. apply IH, radd_nodup; auto. Qed.

Definition rwf (n : N) (t : rtree) : Prop :=
  r_n t = n /\ NoDup (r_edges t) /\ Forall (fun e => fst e < n /\ snd e < n)%N (r_edges t).

Definition K2Ref_laws : k2laws K2Ref.
Proof.
  refine {| wf := (rwf : N -> kt K2Ref -> Prop); known := fun (t : kt K2Ref) e => In e (r_edges t) |}; cbn -[fold_left].
  - intros n es Hn Hne Hnd Hr. split; [split; [|split]|split]; cbn -[fold_left]; auto.
    + apply fold_radd_nodup; constructor.
    + apply Forall_forall; intros e He. apply fold_radd_In in He. cbn in He.
      destruct He as [He|[]]. rewrite Forall_forall in Hr; auto.
    + intros e. rewrite fold_radd_In; cbn; tauto.
  - intros n Hn. split; [split; [|split]|split]; cbn; auto; constructor.
  - reflexivity.
  - intros n t [H _]; auto.
  - intros n t [_ [H _]]; auto.
  - intros n t e [_ [_ H]] He. rewrite Forall_forall in H; auto.
  - intros n t x y _ _ _. apply existsb_eeqb.
  - intros n t x [_ [H _]] _. apply NoDup_succs; auto.
  - intros n t x y _ _. apply In_succs.
  - reflexivity.
  - intros n t x y _ _ _. unfold rmem.
    destruct (existsb (eeqb (x, y)) (r_edges t)) eqn:E; cbn.
    + apply existsb_eeqb in E; tauto.
    + apply existsb_eeqb_false in E. split; [discriminate|tauto].
  - intros n t x y [H1 [H2 H3]] _ _. unfold rmem.
    destruct (existsb (eeqb (x, y)) (r_edges t)) eqn:E; cbn.
    + split; [split; [|split]|split]; cbn; auto.
      * apply NoDup_filter; auto.
      * rewrite Forall_forall in *. intros e He. apply filter_In in He. apply H3; tauto.
      * intros e. rewrite filter_In, negb_true_iff, eeqb_neq. intuition.
    + apply existsb_eeqb_false in E. split; [repeat split; auto|split].
      * intros e. split; [|tauto]. intros He; split; auto. intros ->; tauto.
      * lia.
  - intros n a b [H1 [H2 H3]] [H4 [H5 H6]]. split; [split; [|split]|split]; cbn -[fold_left]; auto.
    + apply fold_radd_nodup; auto.
    + rewrite Forall_forall in *. intros e He. apply fold_radd_In in He. destruct He; auto.
    + intros e. rewrite fold_radd_In. tauto.
  - auto.
  - intros n es e _ _ _ _ H. apply fold_radd_In in H. cbn in H. tauto.
  - tauto.
  - intros n t x y e _ _ _. unfold rmem. destruct (existsb (eeqb (x, y)) (r_edges t)); cbn; auto.
    intros H. apply filter_In in H. tauto.
  - intros n a b e _ _ H. apply fold_radd_In in H. tauto.
  - intros n t x y H _ _. unfold rmem. rewrite existsb_eeqb. split; [reflexivity|].
    destruct (existsb (eeqb (x, y)) (r_edges t)) eqn:E; cbn; auto.
    apply existsb_eeqb in E. split; auto. split; auto. intros e; split; auto. intros [He| ->]; auto.
  - reflexivity.
  - intros t. apply andb_true_iff; split; apply forallb_forall; intros e He; apply existsb_eeqb; auto.
  - intros n a b _ _ H e. apply andb_true_iff in H. destruct H as [H1 H2].
    rewrite forallb_forall in H1, H2. split; intros He.
    + apply existsb_eeqb, H1; auto.
    + apply existsb_eeqb, H2; auto.
Defined.

Lemma K2Ref_query : adjf_is_query K2Ref_laws.
Proof. intros n t e _ H. exact H. Qed.
