#!/usr/bin/env python3
"""Print Assumptions for every theorem of MANIFEST.json, in a built copy of rocq/.
usage: assumptions.py BUILT_ROCQ_DIR"""
import json, subprocess, sys, os, re
root = os.path.dirname(os.path.dirname(os.path.abspath(__file__)))
d = sys.argv[1]
mods = [os.path.basename(l.strip())[:-2] for l in open(d + '/_CoqProject') if l.strip().endswith('.v')]
ths = [t for c in json.load(open(root + '/MANIFEST.json'))['claims'] for t in c['theorems']]
where = {}
for m in mods:
    for t in re.findall(r'^\s*(?:Theorem|Corollary)\s+(C\d\d_\w+)', open(f'{d}/theories/{m}.v').read(), re.M): where[t] = m
src = ''.join(f'From Verif Require {m}.\n' for m in sorted(set(where.values())))
src += ''.join(f'Print Assumptions Verif.{where[t]}.{t}.\n' for t in ths)
open('/tmp/assume.v', 'w').write(src)
out = subprocess.run(['coqc', '-Q', d + '/theories', 'Verif', '/tmp/assume.v'], capture_output=True, text=True)
print(out.stderr[-2000:])
closed = out.stdout.count('Closed under the global context')
print(len(ths), 'theorems;', closed, 'closed under the global context')
rest = [l for l in out.stdout.split('\n') if l and 'Closed under' not in l]
print('\n'.join(rest[:60]))
