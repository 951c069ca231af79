#!/usr/bin/env python3
"""tools/random_results.jsonl (random edits of the model; make stops at the first file that fails) as lines of seeded/LOG.jsonl."""
import json, os, re
root = os.path.dirname(os.path.dirname(os.path.abspath(__file__)))
T = root + '/rocq/theories/'
claims = {'GrammarQuery': 'C41 C42 C34', 'GrammarProof': 'C41', 'Grammar': 'C41', 'GrammarOps': 'C41', 'TokRules': 'C41 C46 C47', 'StmtGrammar': 'C46', 'DdlTable': 'C47',
    'DdlProc': 'C47', 'GrammarStmt': 'C48', 'LexerFacts': 'C35', 'LexerComplete': 'C35', 'ExprRead': 'C09', 'PropsExpr': 'C09', 'View': 'C19 C20 C21', 'PropsBasic': 'C14 C26',
    'AcceptQuery': 'C51', 'AcceptCreate': 'C51'}
deps = {f[:-2]: {x for l in re.findall(r'^From Verif Require (?:Export|Import) ([^.]*)\.', open(T + f).read(), re.M) for x in l.split()} for f in os.listdir(T) if f.endswith('.v')}
def above(fs):
    out = set(fs)
    while True:
        n = {g for g in deps if deps[g] & out} - out
        if not n: return out
        out |= n
def definition(r):
    s = open(T + r['file']).read(); i = s.find(r['old'])
    d = None
    for k, l in enumerate((s[:i] if i >= 0 else '\n'.join(s.split('\n')[:int(r['line'])])).split('\n')):
        m = re.match(r'\s*(?:Definition|Fixpoint)\s+(\w+)', l)
        if m: d = m.group(1)
    if i >= 0:
        m = re.match(r'\s*(?:Definition|Fixpoint)\s+(\w+)', r['old'])
        if m: d = m.group(1)
    return d
def entries():
    for n, l in enumerate(open(root + '/tools/random_results.jsonl'), 1):
        r = json.loads(l)
        fl = r.get('failed', r.get('err')) or []
        fl = [(os.path.basename(a), b) for a, b in fl] if isinstance(fl, list) else []
        fs = [a[:-2] for a, b in fl]
        lost = sum((re.findall(r'^\s*(?:Theorem|Corollary)\s+(C\d\d_\w+)', open(T + g + '.v').read(), re.M) for g in sorted(above(fs))), []) if fs else []
        cl = []
        for f in fs:
            for c in claims.get(f, 'C01 C04 C25').split():
                if c not in cl: cl.append(c)
        e = {'id': 'r%02d' % n, 'definition': r.get('defn') or definition(r), 'file': 'rocq/theories/' + r['file'],
            'edit': 'random: %s: %s => %s' % (r.get('desc') or r.get('edit'), ' '.join(r['old'].split())[:120], ' '.join(r['new'].split())[:120]),
            'claim_broken': 'random edit, the claim was not chosen beforehand; the first proof to fail serves ' + ' '.join(cl), 'first_failing_proofs': ['%s:%s' % x for x in fl],
            'theorems_failed': [t for t in lost if t[:3] in cl], 'other_theorems_no_longer_built': len([t for t in lost if t[:3] not in cl]), 'detected': bool(fl), 'tightened': []}
        if not fl and r.get('verdict') == 'SURVIVED':
            e.update(claim_broken='C50', tightened=['C50_statement_insert', 'C50_statements_insert'], note='survived; C50 was added for it, see m62')
        elif not fl:
            e.update(detected=None, claim_broken='random edit', note='inconclusive: the build was ended before any proof had failed')
        yield e
if __name__ == '__main__':
    for e in entries(): print(json.dumps(e))
