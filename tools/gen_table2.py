#!/usr/bin/env python3
# Generates rocq/theories/Table2.v: the certified values of MAXSZ that the longer concrete runs need.
import re
src=open("/verif/tools/gen_table.py").read()
exec(src[:src.index("ms=[];ts=[]")])
# 20 vertices: the buffer test for 20..80 edges, the levels when the buffer is full
need=set((m,0) for m in range(20,81))|set([(20, 1), (20, 2), (20, 3), (20, 4), (20, 5), (23, 1), (23, 2), (23, 3), (23, 4), (23, 5), (23, 6), (23, 7), (26, 1), (26, 2), (29, 1), (29, 2), (29, 3), (32, 1), (32, 2), (35, 1), (38, 1), (38, 2), (38, 3), (38, 4), (38, 5), (41, 1), (44, 1), (44, 2), (44, 3), (48, 1), (48, 2), (52, 1), (52, 2), (52, 3), (52, 4), (56, 1), (60, 1), (60, 2), (60, 3), (64, 1), (68, 1), (68, 2), (72, 1), (76, 1), (76, 2), (76, 3), (76, 4), (76, 5), (76, 6)])
ms=[]
for m,i in sorted(need):
    try: v,p1,p2,q=mcert(m,i)
    except Exception: continue
    ms.append("M %d %d %d %d %d %d"%(m,i,v,p1,p2,q))
with open("/verif/rocq/theories/Table2.v","w") as f:
    f.write("""(** * Table2: more certified values of MAXSZ(m,i) (generated by tools/gen_table2.py; as Table, the kernel checks every entry). *)
From Verif Require Import Base Thresholds.
Local Notation M a b c d e f := (Build_mentry a b c d e f).
Open Scope N_scope.
Definition mtable2 : list mentry := [
  %s].
Close Scope N_scope.
Lemma mtable2_ok : forallb mcheck mtable2 = true. Proof. vm_compute. reflexivity. Qed.
Definition tabled2 (T : thresholds) : thresholds := with_table mtable2 [] T.
Lemma tabled2_eq T : th_real T -> tabled2 T = T.
Proof. intros H. apply with_table_eq; auto using mtable2_ok. Qed.
"""%";\n  ".join("; ".join(ms[i:i+6]) for i in range(0,len(ms),6)))
