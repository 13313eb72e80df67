#!/usr/bin/env python3
# seed_log.py results.jsonl...  -> append to /verif/seeded/LOG.jsonl
import json,sys,re,glob,os
M={c['property']:c['theorems'] for c in json.load(open('/verif/MANIFEST.json'))['claims']}
where={}
for f in glob.glob('/verif/rocq/theories/*.v'):
    for m in re.finditer(r'^(?:Theorem|Lemma|Example)\s+([A-Za-z0-9_\']+)',open(f).read(),re.M): where[m.group(1)]=os.path.basename(f)[:-2]
out=open('/verif/seeded/LOG.jsonl','a')
for f in sys.argv[1:]:
    for l in open(f):
        d=json.loads(l)
        th=[]
        for c in re.findall(r'C\d\d',d['claim']): th+=[t for t in M.get(c,[]) if where.get(t) in d['lost']]
        lost=[x for x in d['lost']]
        rec={'definition':d['file'][:-2]+'.'+d['definition'],'edit':d['edit'],'claim':d['claim'],
             'theorems_failed':(['%s.%s'%tuple(x) for x in d['fails']]+['(no longer derivable: %s)'%t for t in th]) if d['rc'] else [],
             'files_no_longer_built':lost,
             'theorems_tightened':d.get('tightened',[])}
        if 'note' in d: rec['note']=d['note']
        out.write(json.dumps(rec)+'\n')
