#!/usr/bin/env python3
# Generates rocq/theories/Table.v: certified values of MAXSZ and of the rebuild test for small arguments.
MM=48; TK=24; TN=32
def fl(m,q): # floor(q*log2 m) exactly
    return (m**q).bit_length()-1
def bracket(m,q):
    p1=fl(m,q); p2=p1 if (1<<p1)==m**q else p1+1
    return p1,p2
out=[]
QS=list(range(1,600))
def mcert(m,i):
    e=8-i
    for q in QS:
        p1,p2=bracket(m,q)
        A=(2*m)**4*q**e
        # v^4 p2^e <= A < (v+1)^4 p1^e
        v=0
        while (v+1)**4*p2**e<=A: v+=1
        if v**4*p2**e<=A<(v+1)**4*p1**e: return v,p1,p2,q
    raise Exception((m,i))
def tcert(k,n):
    for q in QS:
        p1,p2=bracket(n,q)
        if not q<p1: continue
        if 2**n*q**k<p1**k: return True,p1,p2,q
        if p2**k<=2**n*q**k: return False,p1,p2,q
    raise Exception((k,n))
ms=[];ts=[]
for m in range(2,MM+1):
    for i in range(9):
        try: v,p1,p2,q=mcert(m,i)
        except Exception: continue  # too close to an integer to certify cheaply: left out
        ms.append("M %d %d %d %d %d %d"%(m,i,v,p1,p2,q))
for n in range(3,TN+1):
    for k in range(0,TK+1):
        b,p1,p2,q=tcert(k,n)
        ts.append("W %d %d %s %d %d %d"%(k,n,"true" if b else "false",p1,p2,q))
with open("/verif/rocq/theories/Table.v","w") as f:
    f.write("""(** * Table: certified values of MAXSZ(m,i) for 2 <= m <= %d and of the rebuild test for small
    arguments (generated by tools/gen_table.py; every entry carries integers that the kernel checks, so
    the generator is not trusted). *)
From Verif Require Import Base Thresholds.
Local Notation M a b c d e f := (Build_mentry a b c d e f).
Local Notation W a b c d e f := (Build_tentry a b c d e f).
Open Scope N_scope.
Definition mtable : list mentry := [
  %s].
Definition ttable : list tentry := [
  %s].
Close Scope N_scope.
Lemma mtable_ok : forallb mcheck mtable = true. Proof. vm_compute. reflexivity. Qed.
Lemma ttable_ok : forallb tcheck ttable = true. Proof. vm_compute. reflexivity. Qed.

(** Under [th_real] the thresholds can be computed on the table's range. *)
Definition tabled (T : thresholds) : thresholds := with_table mtable ttable T.
Lemma tabled_eq T : th_real T -> tabled T = T.
Proof. intros H. apply with_table_eq; auto using mtable_ok, ttable_ok. Qed.
"""%(MM,";\n  ".join("; ".join(ms[i:i+6]) for i in range(0,len(ms),6)),";\n  ".join("; ".join(ts[i:i+6]) for i in range(0,len(ts),6))))
