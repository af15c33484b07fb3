#!/usr/bin/env python3
"""Regenerates MANIFEST.json from properties.jsonl and the theorem names of Props_*.v.
A property is 'partial' when one of its theorems carries the suffix _partial."""
import json,re,glob,os
root=os.path.dirname(os.path.dirname(os.path.abspath(__file__)))
notes=json.load(open(root+'/tools/notes.json'))
th={}
for f in sorted(glob.glob(root+'/rocq/theories/Props_*.v')):
    for m in re.finditer(r'^Theorem (C(\d+)_\w+)',open(f).read(),re.M):
        th.setdefault('C'+m.group(2),[]).append(m.group(1))
claims=[]
for l in open(root+'/properties.jsonl'):
    i=json.loads(l)['id']
    t=th.get(i,[])
    st='partial' if (not t or any(x.endswith('_partial') for x in t)) else 'proved'
    claims.append({'property':i,'status':st,'theorems':t,'note':notes.get(i,'' if t else 'no theorem yet')})
json.dump({'claims':claims},open(root+'/MANIFEST.json','w'),indent=1)
print(sum(c['status']=='proved' for c in claims),'proved of',len(claims), [c['property'] for c in claims if not c['theorems']])
