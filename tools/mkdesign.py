import json
head=open('/verif/tools/design_head.md').read()
M={c['property']:c for c in json.load(open('/verif/MANIFEST.json'))['claims']}
exec(open('/verif/tools/design_how.py').read())
head=head.replace('@EXTRA_ROWS@',extra_rows).replace('@EXTRA_SPEC@',extra_spec)
out=[head.rstrip('\n'),'','| id | property | status | model and proof |','|---|---|---|---|']
for l in open('/verif/properties.jsonl'):
    d=json.loads(l); i=d['id']; m=M[i]
    assert i in how,i
    note=m.get('note','')
    out.append(f"| {i} | {d['title']} | {m['status']} | {how[i]}{(' Note: '+note+'.') if note else ''} |")
open('/verif/DESIGN.md','w').write('\n'.join(out)+'\n')
