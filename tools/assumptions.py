#!/usr/bin/env python3
"""Print what `Print Assumptions` lists for every theorem named in MANIFEST.json, grouped by
the set of axioms.  Run after a build:  python3 tools/assumptions.py"""
import json, os, re, subprocess, sys, tempfile
here = os.path.dirname(os.path.abspath(__file__))
th = os.path.join(here, '..', 'rocq', 'theories')
names = [t for c in json.load(open(os.path.join(here, '..', 'MANIFEST.json')))['claims'] for t in c['theorems']]
seen = []
for n in names:
    if n not in seen:
        seen.append(n)
mods = sorted(set(n.split('.')[1] for n in seen))
src = ''.join('From Verif Require %s.\n' % m for m in mods)
src += 'Definition marker := tt.\n'
for n in seen:
    src += 'Print marker.\nPrint Assumptions %s.\nPrint marker.\n' % n
d = tempfile.mkdtemp()
open(os.path.join(d, 'pa.v'), 'w').write(src)
out = subprocess.run(['coqc', '-w', 'none', '-Q', th, 'Verif', os.path.join(d, 'pa.v')], capture_output=True, text=True)
if out.returncode:
    sys.exit(out.stderr)
parts = re.split(r'marker =\s+tt\s+: unit\n', out.stdout)
res = parts[1::2]
assert len(res) == len(seen), (len(res), len(seen))
groups = {}
for n, r in zip(seen, res):
    if 'Closed under the global context' in r:
        key = ()
    else:
        key = tuple(sorted(set(re.findall(r'^([A-Za-z_][\w.\']*)\s*(?::|$)', r.replace('Axioms:\n', ''), re.M))))
    groups.setdefault(key, []).append(n)
for key, ns in sorted(groups.items(), key=lambda kv: len(kv[0])):
    print('*', ', '.join('`%s`' % n.split('.')[-1] for n in ns))
    print('  :', ', '.join('`%s`' % k for k in key) if key else 'closed under the global context (no axioms)')
    print()
