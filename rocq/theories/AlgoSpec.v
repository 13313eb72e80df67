(** * AlgoSpec: what the graph algorithms are supposed to compute, in terms of the edge relation only. *)
From Verif Require Import Base Spec.

(** A list of vertices ordered by distance from the root. *)
Definition by_distance (E : N -> N -> Prop) (r : N) (p : list N) : Prop :=
  forall p1 a p2 b p3 da db, p = p1 ++ a :: p2 ++ b :: p3 -> is_dist E r a da -> is_dist E r b db -> da <= db.

(** Every vertex but the first is an out-neighbour of an earlier one. *)
Definition search_order (E : N -> N -> Prop) (p : list N) : Prop :=
  forall p1 v p2, p = p1 ++ v :: p2 -> p1 <> [] -> exists u, In u p1 /\ E u v.

(** Depth-first order: every vertex v but the first is an out-neighbour of the most recently visited vertex u that had
    an unvisited out-neighbour when v was visited. *)
Definition depth_first (E : N -> N -> Prop) (p : list N) : Prop :=
  forall p1 v p2, p = p1 ++ v :: p2 -> p1 <> [] ->
    exists q1 u q2, p1 = q1 ++ u :: q2 /\ E u v /\ forall w y, In w q2 -> E w y -> In y p1.

(** Directed triangles a -> b -> c -> a. *)
Definition triangle (E : N -> N -> Prop) (t : N * N * N) : Prop :=
  let '(a, b, c) := t in a <> b /\ b <> c /\ c <> a /\ E a b /\ E b c /\ E c a.

(** [m] is the number of [t] with [P t]. *)
Definition count_of {A} (P : A -> Prop) (m : nat) : Prop :=
  exists l, NoDup l /\ (forall t, In t l <-> P t) /\ length l = m.

Lemma count_of_unique {A} (P : A -> Prop) m1 m2 : count_of P m1 -> count_of P m2 -> m1 = m2.
Proof.
  intros [l1 [N1 [H1 <-]]] [l2 [N2 [H2 <-]]]. apply NoDup_length_eq; auto. intros a. rewrite H1, H2. tauto.
Qed.

Lemma walk_reach E r x : reach E r x <-> exists d, walk E r x d.
Proof.
  split.
  - induction 1 as [|x y H [d IH] He]; [exists 0; constructor|]. exists (S d). econstructor; eauto.
  - intros [d H]. induction H; econstructor; eauto.
Qed.
