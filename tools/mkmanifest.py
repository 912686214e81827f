#!/usr/bin/env python3
"""Builds MANIFEST.json: property theorems are named Cnn_* in theories/Props*.v."""
import re,glob,json,collections
thms=collections.defaultdict(list)
for f in sorted(glob.glob('/verif/rocq/theories/Props*.v')):
    for m in re.finditer(r'^(?:Theorem|Corollary)\s+(C\d\d+(?:_C\d\d)*_\w+)',open(f).read(),re.M):
        for c in re.findall(r'C\d\d+(?=_)',m.group(1)): thms[c].append(m.group(1))
notes={}
exec(open('/verif/tools/notes.py').read())
claims=[]
for l in open('/verif/properties.jsonl'):
    i=json.loads(l)['id']
    st,note=notes.get(i,(None,''))
    t=thms.get(i,[])
    if st is None: st='partial' if (not t or all(x.endswith('_partial') for x in t)) else 'proved'
    if not t and st=='proved': st='partial'
    claims.append(dict(property=i,status=st,theorems=t,note=note or ('' if t else 'not yet proved')))
json.dump({'claims':claims},open('/verif/MANIFEST.json','w'),indent=1)
from collections import Counter
print(Counter(c['status'] for c in claims), 'no theorems:',[c['property'] for c in claims if not c['theorems']])
