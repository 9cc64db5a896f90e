#!/usr/bin/env python3
"""Random small edits of the model; which of them does no proof notice?
usage: survive.py SEED COUNT OUT.jsonl FILE...
For each edit: compile the edited file, then its dependents (the Examples left out) until the first failure. An edit
that nothing notices is a survivor, to be looked at by hand: it is harmless, or a theorem is missing.
The scratch copy is made in $MUTDIR (default /tmp/auto/rocq) from $MUTROOT (default /verif/rocq, compiled)."""
import json, os, random, re, subprocess, sys
ROOT=os.environ.get('MUTROOT','/verif/rocq'); W=os.environ.get('MUTDIR','/tmp/auto/rocq'); JOBS=os.environ.get('MUTJOBS','2')
def sh(c): return subprocess.run(c,shell=True,capture_output=True,text=True)
def plain(t):
    """positions of t outside comments; strings are kept"""
    ok=[True]*len(t); i=0; d=0
    while i<len(t):
        if t.startswith('(*',i): d+=1; ok[i]=ok[i+1]=False; i+=2; continue
        if d and t.startswith('*)',i): d-=1; ok[i]=ok[i+1]=False; i+=2; continue
        if d: ok[i]=False
        elif t[i]=='"':
            j=i+1
            while not (t[j]=='"' and t[j+1:j+2]!='"'):
                j+=2 if t[j]=='"' else 1
            i=j
        i+=1
    return ok
def strings(t,ok):
    return [(m.start(),m.end()) for m in re.finditer(r'"(?:[^"]|"")*"',t) if ok[m.start()]]
OPS=[(r'<=\?','<?'),(r'(?<![<>])<\?','<=?'),(r'&&','||'),(r'\|\|','&&'),(r'\bnegb\b','id'),(r'\btrue\b','false'),(r'\bfalse\b','true'),
     (r'(?<![\w.\'])(\d+)(?![\w.])',lambda m:str(int(m.group(1))+1)),(r'\bNone\b','(Some _)'),(r'\bOptional\b','Required'),(r'\bAsymmetric\b','Optional'),
     (r'\bRequired\b','Asymmetric'),(r'\bSIn\b','SOut'),(r'\bSOut\b','SIn'),(r'\bfst\b','snd'),(r'\bsnd\b','fst'),(r'\bexistsb\b','forallb'),(r'\bforallb\b','existsb'),
     (r'\bapp\b','rev_append'),(r' - ',' + '),(r' \+ ',' - '),(r'\bS (\w+)',lambda m:m.group(1)),(r'\bN\.min\b','N.max'),(r'\brev\b','id'),(r'\bmap2?\b(?= \()',None),
     (r'\bPascal\b','Camel'),(r'\bSnake\b','Camel'),(r'\bCamel\b','Pascal'),(r'N\.land','N.lor'),(r'N\.lor\b','N.lxor'),(r'N\.shiftl','N.shiftr'),
     (r'\bEOF\b','InvalidData'),(r'\bInvalidData\b','EOF'),(r'\bOk\b','id')]
def mutants(f):
    t=open(f"{ROOT}/theories/{f}.v").read(); ok=plain(t); ss=strings(t,ok); out=[]
    ins=[False]*len(t)
    for a,b in ss:
        for k in range(a,b): ins[k]=True
        if b-a>3 and not t[:a].rstrip().endswith('Scope'): out.append((a+1,b-1,t[a+1:b-1]+'x','string'))
    for p,r in OPS:
        if r is None: continue
        for m in re.finditer(p,t):
            if ok[m.start()] and not ins[m.start()] and t[t.rfind('\n',0,m.start())+1:].split(' ')[0] not in ('From','Arguments','Local'):
                out.append((m.start(),m.end(),r(m) if callable(r) else r,p))
    # swap two branches of an if on one line
    for m in re.finditer(r'if ([^\n]*?) then ([^\n]*?) else ([^\n;|]*?)(?=\n|\))',t):
        if ok[m.start()] and m.group(2)!=m.group(3): out.append((m.start(2),m.end(3),m.group(3)+' else '+m.group(2),'swap if'))
    return t,out
def name_at(t,pos):
    ms=[m.group(2) for m in re.finditer(r'^(?:#\[\w+\] )?(Definition|Fixpoint|with|Inductive|Record) (\w+)',t[:pos],re.M)]
    return ms[-1] if ms else '?'
def main():
    seed,count,out,files=int(sys.argv[1]),int(sys.argv[2]),sys.argv[3],sys.argv[4:]
    rnd=random.Random(seed); pool=[]
    for f in files:
        t,ms=mutants(f)
        for m in ms: pool.append((f,t,m))
    # one file as likely as another
    byf={f:[x for x in pool if x[0]==f] for f in files}
    os.makedirs(os.path.dirname(W),exist_ok=True)
    done=0
    while done<count:
        f=rnd.choice(files)
        if not byf[f]: continue
        f,t,(a,b,new,op)=byf[f].pop(rnd.randrange(len(byf[f])))
        sh(f"rm -rf {W}; cp -a {ROOT} {W}; cd {W} && sed -i -E '/Examples(2|3|4|6|8|11|13|14|15|16)\\.v/d' _CoqProject && coq_makefile -f _CoqProject -o Makefile")
        old=t[a:b]; open(f"{W}/theories/{f}.v",'w').write(t[:a]+new+t[b:])
        line=t[:a].count('\n'); ctx=t.split('\n')[line].strip()
        d={'file':f,'definition':name_at(t,a),'line':line+1,'old':old[:80],'new':new[:80],'context':ctx[:160]}
        r=sh(f"cd {W} && timeout 120 coqc -Q theories Verif theories/{f}.v")
        if r.returncode: continue
        done+=1
        open(f"{W}/tee.sh",'w').write('timeout 300 coqc "$@"\n')
        r=sh(f"cd {W} && timeout 3000 make -j{JOBS} COQC='bash tee.sh' 2>&1")
        find=lambda o:re.search(r'File "\./theories/((?!Examples)\w+)\.v", line (\d+)',re.sub(r'File[^\n]*\n(Error: Cannot find|Warning)','',o))
        e=find(r.stdout)
        if r.returncode and not e:
            r=sh(f"cd {W} && timeout 3000 make -k -j{JOBS} COQC='bash tee.sh' 2>&1"); e=find(r.stdout)
            d['examples']=True
            if not e and 'Error 124' not in r.stdout: r.returncode=0
        if r.returncode==0: d['result']='survived'
        elif e:
            g=open(f"{W}/theories/{e.group(1)}.v").read().split('\n'); k=int(e.group(2))-1
            while k>=0 and not re.match(r'\s*(Lemma|Theorem|Corollary|Example|Definition|Fixpoint)',g[k]): k-=1
            d['result']='noticed'; d['by']=e.group(1)+':'+(g[k].split()[1] if k>=0 else '?')
        else: d['result']='noticed'; d['by']='timeout'
        open(out,'a').write(json.dumps(d)+'\n')
main()
