#!/usr/bin/env python3
"""addprop.py < json lines: append or replace properties."""
import json,sys,os
root=os.path.dirname(os.path.dirname(os.path.abspath(__file__)))
p=root+'/properties.jsonl'
ds=[json.loads(l) for l in open(p) if l.strip()]
idx={d['id']:i for i,d in enumerate(ds)}
for l in sys.stdin:
    if not l.strip(): continue
    d=json.loads(l)
    if d['id'] in idx: ds[idx[d['id']]].update(d)
    else: ds.append(d); idx[d['id']]=len(ds)-1
open(p,'w').write(''.join(json.dumps(d)+'\n' for d in ds))
