#!/usr/bin/env python3
# topologically sort theories by Require and write _CoqProject
import re,glob,os
os.chdir('/verif/rocq')
mods={os.path.basename(f)[:-2]:f for f in glob.glob('theories/*.v')}
dep={}
for m,f in mods.items():
    s=open(f).read();d=set()
    for x in re.finditer(r'From\s+Verif\s+Require\s+(?:Import|Export)\s+([^.]*)\.',s): d|=set(x.group(1).split())
    dep[m]=d
out=[];seen=set()
def go(m):
    if m in seen: return
    seen.add(m)
    for d in sorted(dep[m]): go(d)
    out.append(m)
for m in sorted(mods): go(m)
open('_CoqProject','w').write('-Q theories Verif\n'+''.join(f'theories/{m}.v\n' for m in out))
