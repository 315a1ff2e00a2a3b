#!/usr/bin/env python3
"""Expand tools/P/*.v.in into rocq/theories/P_*.v.
A line  `@thm NEW File.old  -- comment`  becomes a Theorem with the statement of lemma `old` (copied verbatim from
theories/File.v), closed by `exact old`, followed by Print Assumptions."""
import re,sys,glob,os
T='/verif/rocq/theories/'
def strip(s):
    out='';d=0;i=0
    while i<len(s):
        if s.startswith('(*',i): d+=1;i+=2;continue
        if s.startswith('*)',i) and d: d-=1;i+=2;continue
        if not d: out+=s[i]
        i+=1
    return out
cache={}
def stmt(f,name):
    if f not in cache: cache[f]=strip(open(T+f+'.v').read())
    s=cache[f]
    m=re.search(r'\b(?:Theorem|Lemma|Corollary|Proposition|Fact|Remark)\s+'+re.escape(name)+r'(?![\w\'])',s)
    if not m: raise SystemExit(f'no lemma {f}.{name}')
    i=m.end();e=re.search(r'\.\s+Proof\b',s[i:]).start()+i
    body=s[i:e]
    d=0
    for k,ch in enumerate(body):
        if ch in '([{': d+=1
        elif ch in ')]}': d-=1
        elif ch==':' and d==0 and body[k+1]!='=': break
    b=body[:k].strip();t=body[k+1:].strip()
    t=re.sub(r'\n\s*','\n  ',t)
    return ('forall '+b+',\n  '+t) if b else '\n  '+t
names=[]
for fn in sorted(glob.glob('/verif/tools/P/*.v.in')):
    out=[]
    for l in open(fn):
        m=re.match(r'@thm\s+(\S+)\s+(\w+)\.(\S+)(?:\s+--\s*(.*))?$',l.rstrip())
        if m:
            n,f,o,c=m.groups()
            names.append(n)
            if c: out.append(f'(** {c} *)\n')
            out.append(f'Theorem {n} : {stmt(f,o)}.\nProof. exact {f}.{o}. Qed.\nPrint Assumptions {n}.\n\n')
        elif l.startswith('@sthm '):
            # @sthm NEW File.old | prefix | proof | comment : lemma proved inside a section, restated with its context
            h,p,pr,*c=[x.strip() for x in l[6:].rstrip().split(' | ')]
            n,fo=h.split();f,o=fo.split('.',1)
            names.append(n)
            if c and c[0]: out.append(f'(** {c[0]} *)\n')
            out.append(f'Theorem {n} : {p}\n  {stmt(f,o)}.\nProof. {pr} Qed.\nPrint Assumptions {n}.\n\n')
        else: out.append(l)
    o=T+os.path.basename(fn)[:-3]
    txt='(* generated from tools/P/%s by tools/genp.py: statements only, proofs are references *)\n'%os.path.basename(fn)+''.join(out)
    if not os.path.exists(o) or open(o).read()!=txt: open(o,'w').write(txt)
print(len(names),'theorems')
