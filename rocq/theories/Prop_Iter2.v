(** * C05, C09 beyond 2^31 vertices: the iterators hold a 32-bit int. *)
From Verif Require Import Base Spec Thresholds Table K2 C0 C0Proof DK DKProof DKHist Prop_DK Iter IterProof Prop_Iter.

(** C05 for every vertex count the constructor takes (32 bits): the loop ends and sees list_neighbour(x) in order, but a vertex from 2^31 on
    comes out as the negative int v - 2^32. *)
Theorem C05_beyond_int : forall T K (L : k2laws K) n h g x,
  (2 <= n < 2 ^ 32)%N -> reached T K n h g -> (x < n)%N ->
  exists l it, dk_neigh K g x = Ok l /\ nit_begin K g x = Ok it /\
    neigh_loop K g x it (map (fun y => if (y <? 2 ^ 31)%N then Z.of_N y else (Z.of_N y - 4294967296)%Z) l).
Proof.
  intros T K L n h g x [Hn Hn2] [HF E] Hx. destruct (hist_rel T K L n Hn h g HF E) as [sl R].
  pose proof (rl_inv _ _ _ _ _ _ R) as I.
  destruct (dk_neigh_spec K L n Hn g sl x I Hx) as [l [El [_ [Hs _]]]].
  assert (Hb : forall y, In y l -> (y < n)%N).
  { intros y Hy. apply Hs in Hy. apply (dk_all_range K L n g sl) in Hy; auto. apply Hy. }
  destruct (neigh_loop_ok K g x l El) as [it [Eit Hl]].
  { apply Forall_forall. intros y Hy. apply Hb in Hy. unfold small. lia. }
  exists l, it. split; [exact El|]. split; [exact Eit|].
  match goal with |- neigh_loop _ _ _ _ ?m => replace m with (map v_int l); auto end. apply map_ext_in. intros y Hy. apply Hb in Hy.
  unfold v_int, to_int. rewrite Z.mod_small by lia.
  destruct (Z.ltb_spec (Z.of_N y) (2 ^ 31)), (N.ltb_spec y (2 ^ 31)); lia.
Qed.

(** C09: from 2^31 vertices on the node loop is empty. *)
Theorem C09_beyond_int : forall n, (2 ^ 31 <= n < 2 ^ 32)%N -> node_loop (vit_begin n) [].
Proof.
  intros n Hn. unfold vit_begin, to_int. rewrite Z.mod_small by lia. destruct (Z.ltb_spec (Z.of_N n) (2 ^ 31)); [lia|]. cbv zeta.
  destruct (Z.ltb_spec 0 (Z.of_N n - 2 ^ 32)); [lia|]. constructor. reflexivity.
Qed.

(** Met: a graph of three thousand million vertices with the edge (1, 2999999999). *)
Example C05_beyond_example : forall T K (L : k2laws K), th_top T -> exists g it l, dk_hist T K 3000000000 [a 1 2999999999]%N = Done g /\
  nit_begin K g 1 = Ok it /\ neigh_loop K g 1 it l /\ In (-1294967297)%Z l.
Proof.
  intros T K L HT.
  destruct (C04_neighbours_after_inserts T K L 3000000000 [(1, 2999999999)]%N 1 HT ltac:(lia) ltac:(repeat constructor) ltac:(lia)) as [g [l [E [El [Hnd Hs]]]]].
  destruct (C05_beyond_int T K L 3000000000 (map Add [(1, 2999999999)]%N) g 1 ltac:(lia)) as (l' & it & El' & Eit & Hl).
  { split; [repeat constructor|exact E]. } { lia. }
  rewrite El in El'. injection El' as <-. exists g, it. eexists. split; [exact E|]. split; [exact Eit|]. split; [exact Hl|].
  apply in_map_iff. exists 2999999999%N. split; [reflexivity|]. apply Hs. left. reflexivity.
Qed.
