#!/usr/bin/env python3
"""MANIFEST.json from the theorems in P_*.v (prefix Cxx_) and tools/notes.json {"C13": "note", ...}."""
import re,glob,json,collections
th=collections.OrderedDict()
for f in sorted(glob.glob('/verif/rocq/theories/P_*.v')):
    for m in re.finditer(r'^Theorem (C\d+)_(\S+)',open(f).read(),re.M): th.setdefault(m.group(1),[]).append(f'{m.group(1)}_{m.group(2)}')
props=[json.loads(l) for l in open('/verif/properties.jsonl')]
notes=json.load(open('/verif/tools/notes.json'))
claims=[]
for p in props:
    i=p['id']
    if i not in th:
        n=notes.get(i,'')
        if n.startswith('NA:'): claims.append(dict(property=i,status='not_applicable',theorems=[],note=n[3:].strip()))
        continue
    t=th[i]; part=any(x.endswith('_refuted') or x.endswith('_partial') for x in t)
    claims.append(dict(property=i,status='partial' if part else 'proved',theorems=t,note=notes.get(i,'')))
json.dump(dict(claims=claims),open('/verif/MANIFEST.json','w'),indent=1)
print(len(claims),'claims;',sum(c['status']=='proved' for c in claims),'proved; missing',[p['id'] for p in props if p['id'] not in th])
for c in claims:
    if c['status']=='partial' and not c['note']: print('no note',c['property'])
