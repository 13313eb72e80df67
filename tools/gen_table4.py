#!/usr/bin/env python3
# Generates rocq/theories/Table4.v: the certified values of MAXSZ that the exploration of DelayExact.v needs: for every
# number of vertices below 162, the buffer test and the levels examined by the first 162 insertions into DKtree_delay.
src=open("/verif/tools/gen_table.py").read()
exec(src[:src.index("ms=[];ts=[]")])
QS=list(range(1,7000))
from functools import lru_cache
@lru_cache(None)
def mx(m,i):
    return mcert(m,i)[0]
need=set()
def M(m,i):
    need.add((m,i)); return mx(m,i)
def aud(l,i,prev,fin,tmp):
    l=list(l); j=i
    while j<=fin and not l[j]: j+=1
    if j<=fin:
        if prev<8:
            l[j]=l[j]+l[prev]; l[prev]=None
        else: l[j]=l[j]+tmp
        return tuple(l),j+1,j
    if prev<8:
        l[fin]=l[prev]; 
        l[prev]=None
    else: l[fin]=tmp
    return tuple(l),max(i,fin+1)+1,prev
def work(a):
    c,nt,l,i,p,f=a
    if i>f: return a
    l,i,p=aud(l,i,p,f,None); return (c,nt,l,i,p,f)
def add(n,a):
    c,nt,l,i,p,f=a
    m=max(n,nt); ms=M(m,0)
    if c<ms: return (c+1,nt+1,l,i,p,f)
    if not i>f: return None
    acc=ms
    for q in range(8):
        if l[q]: acc+=l[q]
        if acc+1<M(m,q+1):
            l,i,p=aud(l,0,8,q,c+1); return (0,nt+1,l,i,p,q)
    return None
bad={}
LIM=162
for n in range(2,LIM):
    C={(0,0,(None,)*8,0,8,1)}
    mxC=0
    for k in range(min(n*n,LIM)):
        while True:
            D=C|{work(a) for a in C}
            if D==C: break
            C=D
        mxC=max(mxC,len(C))
        N_=[add(n,work(a)) for a in C]
        if None in N_: bad[n]=k; break
        C=set(N_)
    else:
        if n*n>LIM:
            for a in C:
                c,nt,l,i,p,f=a
                if i<=f and c+f>i+6: print('slack',n,a)
print(bad, len(need))
need|=set((m,0) for m in range(2,163))
ms=["M %d %d %d %d %d %d"%((m,i)+mcert(m,i)) for m,i in sorted(need)]
with open("/verif/rocq/theories/Table4.v","w") as f:
    f.write("""(** * Table4: more certified values of MAXSZ(m,i), 2 <= m <= 162 (generated by tools/gen_table4.py; as Table, the kernel
    checks every entry). *)
From Verif Require Import Base Thresholds.
From Coq Require Import FunctionalExtensionality.
Local Notation M a b c d e f := (Build_mentry a b c d e f).
Open Scope N_scope.
Definition mtable4 : list mentry := [
  %s].
Close Scope N_scope.
Lemma mtable4_ok : forallb mcheck mtable4 = true. Proof. vm_compute. reflexivity. Qed.
(** The same values as an array of arrays, for fast access. *)
Definition rows4 : list (list (option N)) := Eval vm_compute in map (fun m => map (mlookup mtable4 (N.of_nat m)) (seq 0 9)) (seq 0 163).
Lemma rows4_ok : rows4 = map (fun m => map (mlookup mtable4 (N.of_nat m)) (seq 0 9)) (seq 0 163). Proof. vm_compute. reflexivity. Qed.
Definition tabled4 (T : thresholds) : thresholds := {|
  th_max := fun m i => match nth i (nth (N.to_nat m) rows4 []) None with Some v => v | None => th_max T m i end; th_trig := th_trig T |}.
Lemma nth_map_seq {A} (f : nat -> A) k i d : nth i (map f (seq 0 k)) d = if i <? k then f i else d.
Proof.
  destruct (Nat.ltb_spec i k) as [H|H]; [|apply nth_overflow; rewrite map_length, seq_length; auto].
  rewrite (nth_indep _ d (f 0)) by (rewrite map_length, seq_length; auto). rewrite map_nth, seq_nth by auto. reflexivity.
Qed.
Lemma tabled4_eq T : th_real T -> tabled4 T = T.
Proof.
  intros H. pose proof (with_table_eq mtable4 [] T H mtable4_ok eq_refl) as W. unfold tabled4. destruct T as [tm tt]. cbn [th_max th_trig] in *. f_equal.
  extensionality m; extensionality i. rewrite rows4_ok, nth_map_seq. destruct (N.to_nat m <? 163) eqn:E; [|destruct i; reflexivity].
  rewrite nth_map_seq. destruct (i <? 9) eqn:E2; [|reflexivity]. rewrite N2Nat.id. exact (f_equal (fun T => th_max T m i) W).
Qed.
"""%(";\n  ".join("; ".join(ms[i:i+6]) for i in range(0,len(ms),6))))
