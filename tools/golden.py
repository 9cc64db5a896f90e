#!/usr/bin/env python3
"""Compares the text that the model generates for /repo/integration_tests/types/types.t with the file the project itself
keeps as the expected output.  usage: golden.py rust|ts  (needs the compiled theories in /verif/rocq)"""
import os, subprocess, sys, re
which = sys.argv[1]
root = '/repo/integration_tests/types'
files = []
for d, _, fs in os.walk(root):
    for f in sorted(fs):
        if f.endswith('.t'):
            p = os.path.join(d, f)
            files.append((os.path.relpath(p, root).split('/'), open(p).read()))
q = lambda s: 'txt "' + s.replace('"', '""') + '"'
fs = ';\n'.join('([%s], concat (map (fun l => l ++ [10]) [%s]))' % ('; '.join(map(q, p)), ';\n '.join(map(q, t.split('\n')[:-1]))) for p, t in files)
mod, fn = {'rust': ('RustText', 'rust_code'), 'ts': ('TsText', 'ts_code')}[which]
src = '''From Coq Require Import String.
From Verif Require Import PlainFiles %s.
Open Scope N_scope. Open Scope list_scope.
Definition fs := plain_files (txt "types.t") [%s].
Definition out := match load_schemas ascii_unicode plain_stem fs with LoadOk l => %s ascii_unicode (txt "0.0.0") (schemas_of l) | _ => None end.
Set Printing Width 100000. Set Printing Depth 10000000.
Eval vm_compute in match out with Some l => l | None => [0] end.
''' % (mod, fs, fn)
os.makedirs('/tmp/gen', exist_ok=True)
open('/tmp/gen/golden.v', 'w').write(src)
r = subprocess.run('cd /tmp/gen && ulimit -s unlimited; coqc -Q /verif/rocq/theories Verif golden.v', shell=True, capture_output=True, text=True)
if r.returncode: print(r.stderr[:2000]); sys.exit(1)
body = r.stdout[r.stdout.index('['):r.stdout.rindex(']') + 1]
text = ''.join(chr(int(x)) for x in re.findall(r'\d+', body))
open('/tmp/gen/out.' + which, 'w').write(text)
want = open('/repo/test_data/types.' + {'rust': 'rs', 'ts': 'ts'}[which]).read()
print('same' if text == want else 'different', len(text), len(want))
