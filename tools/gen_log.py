#!/usr/bin/env python3
"""seeded/LOG.jsonl from tools/mutants.json (edits) and tools/mutant_results.jsonl (output of mutate.py)."""
import json, os
root = os.path.dirname(os.path.dirname(os.path.abspath(__file__)))
ms = {m['id']: m for m in json.load(open(root + '/tools/mutants.json'))}
rs = {}
for l in open(root + '/tools/mutant_results.jsonl'):
    r = json.loads(l); rs[r['id']] = r
out = open(root + '/seeded/LOG.jsonl', 'w')
for i, m in ms.items():
    if i not in rs: continue
    r = rs[i]
    lost = r.get('lost', [])
    mine = [t for c in m['claim'].replace(',', ' ').split() for t in lost if t.startswith(c[:3])]
    out.write(json.dumps({'id': i, 'definition': m['definition'], 'file': 'rocq/theories/' + m['file'], 'edit': m['edit'],
        'claim_broken': m['claim'], 'first_failing_proofs': ['%s:%s' % tuple(x) for x in r.get('failed', [])],
        'theorems_failed': mine, 'other_theorems_no_longer_built': len(lost) - len(mine),
        'detected': bool(r.get('failed')), 'tightened': m.get('tightened', [])}) + '\n')
import sys; sys.path.insert(0, root + '/tools')
import add_random
for e in add_random.entries(): out.write(json.dumps(e) + '\n')
