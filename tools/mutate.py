#!/usr/bin/env python3
"""Seeded-bug runner.  usage: mutate.py mutants.json [ids...]
Each mutant: {id, file, old, new, definition, edit, claim:[Cxx..], targets:[P_..], tightened:[]}.
In a scratch copy (/tmp/scratch) the edit is made in the model, every dependent file needed for the targets is rebuilt,
a lemma whose proof fails is replaced by an appeal to an axiom `cheat` so that the rest is still tried, and
Print Assumptions in the P files tells which claim theorems no longer hold.  Appends to /verif/seeded/LOG.jsonl."""
import json,sys,os,re,subprocess,shutil,concurrent.futures as cf,time
S=os.environ.get('SCRATCH','/tmp/scratch'); T=S+'/theories'; V='/verif/rocq/theories'
def sh(c,t=900):
    try:
        p=subprocess.run(c,shell=True,capture_output=True,text=True,timeout=t); return p.returncode,p.stdout+p.stderr
    except subprocess.TimeoutExpired: return 124,'TIMEOUT'
def setup():
    os.makedirs(T,exist_ok=True)
    sh(f'rm -rf {T} && cp -a {V} {T}')
    open(T+'/Cheat.v','w').write('Axiom cheat : forall P : Prop, P.\n')
    sh(f'cd {T} && coqc -Q . Verif Cheat.v')
def deps():
    rc,o=sh(f'cd {T} && coqdep -Q . Verif *.v')
    d={}
    for l in o.split('\n'):
        m=re.match(r'(\w+)\.vo .*?:(.*)',l)
        if m: d[m[1]]=[x[:-3] for x in m[2].split() if x.endswith('.vo') and '/' not in x]
    return d
HEAD=re.compile(r'^\s*(?:Local |Global |#\[[^\]]*\]\s*)?(Lemma|Theorem|Corollary|Example|Fact|Remark|Proposition|Instance|Definition|Fixpoint|Program\s+\w+|Let|Record|Inductive|Notation|Ltac|Add)\s+(?:Parametric\s+\w+\s+)?([\w\']+)')
def mask(s):
    """blank out comments, same length"""
    out=list(s);d=0;i=0
    while i<len(s):
        if s.startswith('(*',i): d+=1;out[i]=out[i+1]=' ';i+=2;continue
        if s.startswith('*)',i) and d: d-=1;out[i]=out[i+1]=' ';i+=2;continue
        if d and s[i]!='\n': out[i]=' '
        i+=1
    return ''.join(out)
def repair(f,line):
    """cheat the lemma containing line; returns its name or None"""
    p=f'{T}/{f}.v'; s=open(p).read(); m=mask(s); ls=s.split('\n'); ml=m.split('\n')
    offs=[0]
    for l in ls: offs.append(offs[-1]+len(l)+1)
    k=line-1
    while k>=0:
        h=HEAD.match(ml[k])
        if h: break
        k-=1
    if k<0: return None
    kind,name=h[1],h[2]
    start=offs[k]
    mm=re.compile(r'\bProof\b[^.]*\.').search(m,start)
    e=re.compile(r'\b(Qed|Defined)\.').search(m,start)
    if not mm or not e or mm.start()>e.start(): return None
    # the statement itself must not be where the error is
    if offs[line-1]+len(ls[line-1])<mm.start(): return None
    if kind in ('Definition','Fixpoint','Record','Inductive'): 
        if e[1]=='Defined': return None
    body='Proof. intros; exact (Verif.Cheat.cheat _). Qed.'
    new=s[:mm.start()]+body+'\n'*s[mm.start():e.end()].count('\n')+s[e.end():]
    if 'Verif Require Cheat.' not in new:
        # keep line numbers: prepend on the first line
        new='From Verif Require Cheat. '+new
    open(p,'w').write(new)
    return name
def compile(f):
    failed=[]
    for it in range(60):
        rc,o=sh(f'cd {T} && timeout 800 coqc -set "Default Timeout=120" -Q . Verif {f}.v',850)
        if rc==0: return f,failed,o,True
        mm=re.findall(r'File "\./?%s\.v", line (\d+), characters [^\n]*\n(?:Error|.*\nError)'%f,o) or re.findall(r'line (\d+), characters [^\n]*:\nError',o)
        if not mm: return f,failed,o[-600:],False
        n=repair(f,int(mm[-1]))
        if n is None or n in failed: return f,failed+['!'+str(n)],o[-600:],False
        failed.append(n)
    return f,failed,o,False
def run(mu):
    setup(); d=deps()
    p=f"{T}/{mu['file']}.v"; s=open(p).read()
    if s.count(mu['old'])!=1: return dict(error='old string occurs %d times'%s.count(mu['old']))
    open(p,'w').write(s.replace(mu['old'],mu['new']))
    targets=[f for f in d if f.startswith('P_') and any(('Theorem %s_'%c) in open(f'{V}/{f}.v').read() for c in mu['claim'])]
    anc=set()
    def up(f):
        if f in anc: return
        anc.add(f)
        for x in d.get(f,[]): up(x)
    for t in targets: up(t)
    dirty={mu['file']}; ch=True
    while ch:
        ch=False
        for f in d:
            if f in anc and f not in dirty and any(x in dirty for x in d[f]): dirty.add(f); ch=True
    dirty&=anc
    for f in dirty:
        try: os.remove(f'{T}/{f}.vo')
        except OSError: pass
    done=set(); failed=[]; broken={}; outs={}
    with cf.ThreadPoolExecutor(4) as ex:
        fut={}
        while True:
            for f in dirty:
                if f in done or f in fut.values() or f in broken: continue
                if any(x in broken for x in d[f]): broken[f]='dependency'; continue
                if all(x not in dirty or x in done for x in d[f]): fut[ex.submit(compile,f)]=f
            if not fut: break
            dn,_=cf.wait(fut,return_when=cf.FIRST_COMPLETED)
            for x in dn:
                fut.pop(x); f,fl,o,ok=x.result()
                failed+=[f+'.'+n for n in fl]
                if ok: done.add(f); outs[f]=o
                else: broken[f]=o
    th=[]
    for t in targets:
        src=open(f'{V}/{t}.v').read()
        names=re.findall(r'^Print Assumptions ([\w\']+)\.',mask(src),re.M)
        if t in broken: th+=names; continue
        if t not in dirty: continue
        src2=open(f'{T}/{t}.v').read(); names2=re.findall(r'^Print Assumptions ([\w\']+)\.',mask(src2),re.M)
        blocks=re.split(r'(?=^(?:Axioms:|Closed under))',outs[t],flags=re.M)
        blocks=[b for b in blocks if b.startswith(('Axioms:','Closed under'))]
        for n,b in zip(names2,blocks):
            if 'cheat' in b: th.append(n)
    return dict(lemmas=failed,broken={k:(v if v=='dependency' else v[-300:]) for k,v in broken.items()},theorems=th)
if __name__=='__main__':
    ms=json.load(open(sys.argv[1])); ids=sys.argv[2:]
    for mu in ms:
        if ids and mu['id'] not in ids: continue
        if not ids and os.path.exists('/verif/seeded/LOG.jsonl') and any(json.loads(l).get('id')==mu['id'] for l in open('/verif/seeded/LOG.jsonl')): continue
        t=time.time(); r=run(mu)
        hit=[c for c in mu['claim'] if any(n.startswith(c+'_') for n in r.get('theorems',[]))]
        print(mu['id'],mu['definition'],'claims',mu['claim'],'HIT' if set(hit)==set(mu['claim']) else 'MISSED %s'%sorted(set(mu['claim'])-set(hit)),'|',r.get('error',''),r.get('theorems'),r.get('lemmas'),r.get('broken'),'%.0fs'%(time.time()-t),flush=True)
        if 'error' in r: continue
        rec=dict(id=mu['id'],definition=mu['file']+'.v: '+mu['definition'],edit=mu['edit'],claim=mu['claim'],theorems_failed=r['theorems'],lemmas_failed=r['lemmas'],files_broken=sorted(k for k,v in r['broken'].items() if v!='dependency'),missed=sorted(set(mu['claim'])-set(hit)),theorems_tightened=mu.get('tightened',[]))
        open('/verif/seeded/LOG.jsonl','a').write(json.dumps(rec)+'\n')
