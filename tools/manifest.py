#!/usr/bin/env python3
"""Regenerates MANIFEST.json from the theorem names of rocq/theories/*Props.v and tools/notes.json."""
import json,re,glob,os
root=os.path.dirname(os.path.dirname(os.path.abspath(__file__)))
ths={}
for f in sorted(glob.glob(root+'/rocq/theories/*Props.v')):
    for m in re.finditer(r'^(?:Theorem|Corollary)\s+((C\d\d+)_\w+)',open(f).read(),re.M):
        ths.setdefault(m.group(2),[]).append(m.group(1))
notes=json.load(open(root+'/tools/notes.json'))
claims=[]
for l in open(root+'/properties.jsonl'):
    i=json.loads(l)['id']
    t=ths.get(i,[])
    if not t: continue
    st='partial' if any(n.endswith('_partial') or n.endswith('_refuted') for n in t) else 'proved'
    n=notes.get(i,{})
    if isinstance(n,str): n={'note':n}
    claims.append(dict(property=i,status=n.get('status',st),theorems=t,note=n.get('note','')))
json.dump({'claims':claims},open(root+'/MANIFEST.json','w'),indent=1)
from collections import Counter
print(Counter(c['status'] for c in claims), 'missing:',[json.loads(l)['id'] for l in open(root+'/properties.jsonl') if json.loads(l)['id'] not in ths], 'no note:',[c['property'] for c in claims if not c['note']])
