#!/usr/bin/env python3
"""Test the theorems against wrong programs.
usage: mutate.py SPEC.json OUT.jsonl
SPEC: list of {definition, file, old, new, edit, breaks, refute?}. For each: copy /verif/rocq to a scratch directory,
replace `old` by `new` in theories/<file>, rebuild; every lemma whose proof no longer compiles is turned into Admitted
(in the scratch copy only) and the build goes on; at the end Print Assumptions tells which of the theorems in
MANIFEST.json rest on a failed lemma. `refute` (optional) is Coq text, compiled after the definitions files only, that
proves a property's statement false of the edited program."""
import json, os, re, subprocess, sys, shutil
ROOT=os.environ.get('MUTROOT','/verif/rocq'); W=os.environ.get('MUTDIR','/tmp/mutwork/rocq')
JOBS=os.environ.get('MUTJOBS','2')
TEE=os.path.dirname(W)+'/tee.sh'
def sh(c,**k): return subprocess.run(c,shell=True,capture_output=True,text=True,**k)
def setup():
    shutil.rmtree(W,ignore_errors=True); os.makedirs(os.path.dirname(W),exist_ok=True)
    sh(f"cp -a {ROOT} {W}; rm -f {W}/theories/*.out")
    open(TEE,'w').write('f="${@: -1}"; timeout 240 coqc "$@" > $f.out 2>&1; rc=$?; cat $f.out; exit $rc\n')
def admit(path,line):
    """replace the proof around `line` by Admitted; returns lemma name"""
    L=open(path).read().split('\n')
    i=line-1
    s=i
    kw=re.compile(r'^\s*(#\[\w+\]\s*)?(Local |Global )?(Lemma|Theorem|Corollary|Fact|Remark|Example|Instance)\s+(\w+)')
    while s>=0 and not kw.match(L[s]): s-=1
    if s<0: return None
    name=kw.match(L[s]).group(4)
    p=s
    while p<len(L) and not re.search(r'\bProof\b',L[p]): p+=1
    e=p
    while e<len(L) and not re.search(r'\b(Qed|Defined|Admitted)\.',L[e]): e+=1
    if e>=len(L) or e<i: return None
    if 'Admitted' in L[e]: return None
    pre=L[p][:L[p].index('Proof')]
    new=[pre+'Proof. Admitted.']
    new+=['']*(e-p)
    post=re.split(r'\b(?:Qed|Defined)\.',L[e])[-1]
    if e>p: new[-1]=post
    else: new[0]+=post
    L[p:e+1]=new
    open(path,'w').write('\n'.join(L))
    return name
def run(m):
    setup()
    f=f"{W}/theories/{m['file']}"
    t=open(f).read()
    if t.count(m['old'])!=m.get('count',1): return {'error':f"old text occurs {t.count(m['old'])} times"}
    t=t.replace(m['old'],m['new']); open(f,'w').write(t)
    sh(f"cd {W} && coq_makefile -f _CoqProject -o Makefile")
    failed=[]; broken=[]
    for it in range(60):
        r=sh(f"cd {W} && timeout 3000 make -k -j{JOBS} COQC='bash {TEE}' 2>&1")
        out=r.stdout
        errs=re.findall(r'File "\./(theories/\w+\.v)", line (\d+), characters[^\n]*\n(Error[^\n]*(?:\n[^\n]+)?)',out)
        errs=list(errs)
        for hung in re.findall(r'(theories/\w+)\.vo\] Error 124',out):
            h=sh(f"cd {W} && timeout 240 coqc -time -Q theories Verif {hung}.v 2>&1").stdout
            offs=[int(x) for x in re.findall(r'Chars \d+ - (\d+) ',h)]
            pos=(max(offs) if offs else 0)+2
            errs.append((hung+'.v',str(open(f"{W}/{hung}.v",'rb').read()[:pos].count(b'\n')+1),'Error: timeout'))
        if not errs: 
            if r.returncode!=0: broken.append(out[-500:])
            break
        prog=False
        seen=set()
        for p,l,e in errs:
            if p in seen: continue
            seen.add(p)
            n=admit(f"{W}/{p}",int(l))
            if n: failed.append(f"{os.path.basename(p)}:{n}"); prog=True
            else: broken.append(f"{p}:{l} {e[:200]}")
        if not prog: break
    res={'failed_lemmas':failed}
    if broken: res['broken']=broken
    thms=sorted({t for c in json.load(open('/verif/MANIFEST.json'))['claims'] for t in c['theorems']})
    mods=[re.sub(r'.*/(\w+)\.v',r'\1',l.strip()) for l in open(f"{W}/_CoqProject") if 'Properties' in l]
    ok=[x for x in mods if os.path.exists(f"{W}/theories/{x}.vo")]
    src=''.join(f'From Verif Require {x}.\n' for x in ok)
    owner={}
    for x in mods:
        for n in re.findall(r'^Theorem (\w+)',open(f"{W}/theories/{x}.v").read(),re.M): owner[n]=x
    # the Properties files print the assumptions of each theorem when compiled; what was not recompiled is unaffected
    bad=[]
    for x in ok:
        f=f"{W}/theories/{x}.v.out"
        if not os.path.exists(f): continue
        verdicts=re.findall(r'^(Closed under the global context|Axioms:)',open(f).read(),re.M)
        names=re.findall(r'^Print Assumptions (\w+)\.',open(f"{W}/theories/{x}.v").read(),re.M)
        if len(names)!=len(verdicts): broken.append(f"{x}: {len(names)} theorems, {len(verdicts)} verdicts"); res['broken']=broken
        bad+=[n for n,v in zip(names,verdicts) if v=='Axioms:' and n in thms]
    res['theorems_failed']=bad
    if len(ok)<len(mods): res['not_built']=[x for x in mods if x not in ok]
    if 'refute' in m:
        open('/tmp/mutwork/rf.v','w').write(m['refute'])
        o=sh(f"cd {W} && coqc -Q theories Verif /tmp/mutwork/rf.v 2>&1")
        res['refuted']= o.returncode==0
        if o.returncode: res['refute_error']=o.stdout[-300:]
    return res
if __name__=='__main__':
    for m in json.load(open(sys.argv[1])):
        r=run(m)
        d={'definition':m['definition'],'edit':m['edit'],'breaks':m['breaks'],**r}
        open(sys.argv[2],'a').write(json.dumps(d)+'\n')
        print(m['definition'],len(r.get('failed_lemmas',[])),r.get('theorems_failed'),r.get('error'),flush=True)
