#!/usr/bin/env python3
"""logmut.py OUT.jsonl: append mutate.py results to /verif/seeded/LOG.jsonl"""
import json,sys
have={(json.loads(l)['definition'],json.loads(l)['edit']) for l in open('/verif/seeded/LOG.jsonl') if l.strip()}
with open('/verif/seeded/LOG.jsonl','a') as f:
    for l in open(sys.argv[1]):
        d=json.loads(l)
        if 'error' in d or (d['definition'],d['edit']) in have: continue
        f.write(json.dumps({'definition':d['definition'],'edit':d['edit'],'claim_broken':d['breaks'],
          'lemmas_failed':d['failed_lemmas'],'theorems_failed':d['theorems_failed'],
          'theorems_tightened':d.get('tightened',[])})+'\n')
