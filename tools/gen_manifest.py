#!/usr/bin/env python3
"""Write MANIFEST.json: claims per property; theorem names are collected by prefix from the theories."""
import json, re, glob, os
root = os.path.dirname(os.path.dirname(os.path.abspath(__file__)))
names = []
listed = [l.strip() for l in open(root + '/rocq/_CoqProject') if l.strip().endswith('.v')]
for f in listed:
    src = open(root + '/rocq/' + f).read()
    names += re.findall(r'^\s*(?:Theorem|Corollary)\s+(C\d\d_\w+)', src, re.M)
notes = json.load(open(root + '/tools/manifest_notes.json'))
claims = []
for l in open(root + '/properties.jsonl'):
    i = json.loads(l)['id']
    ths = [n for n in names if n.startswith(i + '_')]
    n = notes.get(i, {})
    status = n.get('status') or ('proved' if ths else None)
    if not ths and status != 'not_applicable':
        continue
    if 'partial' not in n.get('status', '') and any(t.endswith('_partial') or t.endswith('_refuted') for t in ths) and 'status' not in n:
        status = 'partial'
    claims.append({'property': i, 'status': status, 'theorems': ths, 'note': n.get('note', '')})
json.dump({'claims': claims}, open(root + '/MANIFEST.json', 'w'), indent=1)
print(len(claims), 'claims')
