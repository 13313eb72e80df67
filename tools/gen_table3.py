#!/usr/bin/env python3
# Generates rocq/theories/Table3.v: certified values of MAXSZ for the run of Prop_Munro.C59_refuted.
src=open("/verif/tools/gen_table.py").read()
exec(src[:src.index("ms=[];ts=[]")])
# the level tests of the run (m, i), and the ranges of m on which MAXSZ(m,0) is constant
need=[(1000, 1), (1000, 2), (1000, 3), (1000, 4), (1000, 5), (1000, 6), (1000, 7), (1007, 1), (1007, 2), (1007, 3), (1007, 4), (1007, 5), (1028, 1), (1049, 1), (1049, 2), (1071, 1), (1093, 1), (1093, 2), (1093, 3), (1115, 1), (1138, 1), (1138, 2), (1161, 1), (1184, 1), (1184, 2), (1184, 3), (1184, 4), (1208, 1), (1232, 1), (1232, 2), (1256, 1), (1281, 1), (1281, 2), (1281, 3), (1306, 1), (1331, 1), (1331, 2), (1357, 1), (1383, 1), (1383, 2), (1383, 3), (1383, 4), (1383, 5), (1383, 6), (1409, 1), (1436, 1), (1436, 2), (1463, 1), (1490, 1), (1490, 2), (1490, 3), (1518, 1), (1546, 1), (1546, 2), (1574, 1), (1603, 1), (1603, 2), (1603, 3), (1603, 4), (1632, 1), (1662, 1), (1662, 2), (1692, 1), (1722, 1), (1722, 2), (1722, 3), (1753, 1), (1784, 1), (1784, 2), (1815, 1), (1847, 1), (1847, 2), (1847, 3), (1847, 4), (1847, 5), (1879, 1), (1912, 1), (1912, 2), (1945, 1), (1978, 1), (1978, 2), (1978, 3), (2012, 1), (2046, 1), (2046, 2), (2081, 1), (2116, 1), (2116, 2), (2116, 3), (2116, 4), (2152, 1), (2188, 1), (2188, 2), (2224, 1), (2261, 1), (2261, 2), (2261, 3), (2298, 1), (2336, 1), (2336, 2), (2374, 1), (2413, 1), (2413, 2), (2413, 3), (2413, 4), (2413, 5), (2413, 6), (2413, 7)]
rgs=[(1000, 1060, 20), (1061, 1132, 21), (1133, 1204, 22), (1205, 1277, 23), (1278, 1352, 24), (1353, 1427, 25), (1428, 1503, 26), (1504, 1580, 27), (1581, 1658, 28), (1659, 1737, 29), (1738, 1817, 30), (1818, 1897, 31), (1898, 1978, 32), (1979, 2060, 33), (2061, 2142, 34), (2143, 2225, 35), (2226, 2309, 36), (2310, 2394, 37), (2395, 2452, 38)]
def ent(m,i):
    v,p1,p2,q=mcert(m,i)
    return "M %d %d %d %d %d %d"%(m,i,v,p1,p2,q)
ms=[ent(m,i) for m,i in need]
rs=["(%s, %s)"%(ent(a,0),ent(b,0)) for a,b,v in rgs]
with open("/verif/rocq/theories/Table3.v","w") as f:
    f.write("""(** * Table3: certified values of MAXSZ(m,i) for a longer run (generated by tools/gen_table3.py; the kernel checks every entry).
    MAXSZ(m,0) does not decrease from 9 on, so equal values at the ends of a range fix the value on it. *)
From Coq Require Import Reals FunctionalExtensionality.
From Verif Require Import Base Thresholds MunroTime.
Local Notation M a b c d e f := (Build_mentry a b c d e f).
Open Scope N_scope.
Definition mtable3 : list mentry := [
  %s].
Definition rtable3 : list (mentry * mentry) := [
  %s].
Definition rcheck (r : mentry * mentry) : bool := let (a, b) := r in
  mcheck a && mcheck b && (me_i a =? 0)%%nat && (me_i b =? 0)%%nat && (me_v a =? me_v b) && (9 <=? me_m a) && (me_m a <=? me_m b).
Fixpoint rlookup (l : list (mentry * mentry)) (m : N) : option N :=
  match l with
  | [] => None
  | (a, b) :: t => if (me_m a <=? m) && (m <=? me_m b) then Some (me_v a) else rlookup t m
  end.
Definition with_ranges (l : list (mentry * mentry)) (T : thresholds) : thresholds := {|
  th_max := fun m i => match i with O => match rlookup l m with Some v => v | None => th_max T m i end | _ => th_max T m i end;
  th_trig := th_trig T |}.
Close Scope N_scope.
Lemma with_ranges_eq l T : th_real T -> forallb rcheck l = true -> with_ranges l T = T.
Proof.
  intros HT Hc. destruct T as [tm tt] eqn:ET. rewrite <- ET in *. unfold with_ranges. transitivity {| th_max := th_max T; th_trig := th_trig T |}; [|subst; reflexivity]. f_equal.
  extensionality m; extensionality i. destruct i as [|i]; [|reflexivity]. induction l as [|[a b] l IH]; cbn [rlookup]; [reflexivity|].
  cbn [forallb] in Hc. apply andb_true_iff in Hc. destruct Hc as [Hc1 Hc2]. specialize (IH Hc2).
  destruct ((me_m a <=? m)%%N && (m <=? me_m b)%%N)%%bool eqn:Er; [|exact IH].
  apply andb_true_iff in Er. destruct Er as [L1 L2]. apply N.leb_le in L1, L2.
  unfold rcheck in Hc1. rewrite !andb_true_iff in Hc1. destruct Hc1 as ((((((A1 & A2) & A3) & A4) & A5) & A6) & A7).
  apply Nat.eqb_eq in A3, A4. apply N.eqb_eq in A5. apply N.leb_le in A6, A7.
  pose proof (cert_max_ok T _ _ _ _ _ _ HT A1) as Va. pose proof (cert_max_ok T _ _ _ _ _ _ HT A2) as Vb. rewrite A3 in Va. rewrite A4 in Vb.
  pose proof (th_max0_mono T (me_m a) m HT ltac:(lia)). pose proof (th_max0_mono T m (me_m b) HT ltac:(lia)). lia.
Qed.
Lemma mtable3_ok : forallb mcheck mtable3 = true. Proof. vm_compute. reflexivity. Qed.
Lemma rtable3_ok : forallb rcheck rtable3 = true. Proof. vm_compute. reflexivity. Qed.
Definition tabled3 (T : thresholds) : thresholds := with_table mtable3 [] (with_ranges rtable3 T).
Lemma tabled3_eq T : th_real T -> tabled3 T = T.
Proof. intros H. unfold tabled3. rewrite (with_ranges_eq rtable3 T H rtable3_ok). apply with_table_eq; auto using mtable3_ok. Qed.
"""%(";\n  ".join("; ".join(ms[i:i+6]) for i in range(0,len(ms),6)),";\n  ".join("; ".join(rs[i:i+3]) for i in range(0,len(rs),3))))
