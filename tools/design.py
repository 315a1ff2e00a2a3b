#!/usr/bin/env python3
"""DESIGN.md = tools/design_head.md + a line per property (tools/design_rows.json, properties.jsonl, MANIFEST.json)."""
import json
rows = json.load(open('/verif/tools/design_rows.json'))
man = {c['property']: c for c in json.load(open('/verif/MANIFEST.json'))['claims']}
out = open('/verif/tools/design_head.md').read()
for l in open('/verif/properties.jsonl'):
    d = json.loads(l); r = rows.get(d['id'], ['see anchors', 'see theorem']); m = man.get(d['id'], {})
    out += '| %s | %s (%s, %d theorems) | %s | %s |\n' % (d['id'], d['title'], m.get('status', '-'), len(m.get('theorems', [])), r[0], r[1])
out += '\n## 5. Findings\n\nDisagreements between the intended property and the code, each proved (`_refuted`) on the model:\n\n'
for c in man.values():
    if 'FINDING' in c.get('note', '') or c['status'] == 'partial': out += '* **%s** %s\n' % (c['property'], c['note'])
open('/verif/DESIGN.md', 'w').write(out)
