#!/usr/bin/env python3
"""Writes MANIFEST.json from the comments (** Cnn ... *) in rocq/theories/Properties*.v and tools/notes.json."""
import json, re, glob, os
root=os.path.dirname(os.path.dirname(os.path.abspath(__file__)))
props=[json.loads(l)['id'] for l in open(root+'/properties.jsonl') if l.strip()]
thms={p:[] for p in props}
for f in sorted(glob.glob(root+'/rocq/theories/Properties*.v'), key=lambda f:int(re.search(r'(\d+)\.v',f).group(1))):
    cur=None
    for line in open(f):
        m=re.match(r'\(\*\* (C\d\d(?:, C\d\d)*)',line)
        if m: cur=m.group(1).split(', ')
        m=re.match(r'Theorem (\w+)',line)
        if m:
            for c in cur: thms[c].append(m.group(1))
notes=json.load(open(root+'/tools/notes.json')) if os.path.exists(root+'/tools/notes.json') else {}
claims=[]
for p in props:
    n=notes.get(p,{})
    ts=thms[p]
    st=n.get('status', 'proved' if ts and not any(t.endswith('_partial') for t in ts) else 'partial')
    claims.append({"property":p,"status":st,"theorems":ts,"note":n.get('note','') if ts or 'note' in n else 'not yet proved'})
json.dump({"claims":claims},open(root+'/MANIFEST.json','w'),indent=1)
for c in claims:
    if not c['theorems']: print('missing',c['property'])
