#!/usr/bin/env python3
"""Seeded-bug runner.  usage: mutate.py mutants.json [ids..]
Copies the built rocq tree to a scratch directory, applies one textual edit to the model, drops the
Examples and Conformance.v (so that only theorems can object), rebuilds, and reports which lemma
fails in which file and which property theorems are thereby lost."""
import json, re, subprocess, sys, os, shutil, datetime
root = os.path.dirname(os.path.dirname(os.path.abspath(__file__)))
base = '/tmp/mut/base'; work = '/tmp/mut/work'
def strip(src):
    return re.sub(r'^Example\b.*?\b(?:Qed|Defined)\.', '', src, flags=re.M | re.S)
def prepare():
    shutil.rmtree(base, ignore_errors=True); shutil.copytree(root + '/rocq', base)
    p = open(base + '/_CoqProject').read().replace('theories/Conformance.v\n', ''); open(base + '/_CoqProject', 'w').write(p)
    for f in os.listdir(base + '/theories'):
        if f.endswith('.v'):
            s = open(base + '/theories/' + f).read(); t = strip(s)
            if s != t: open(base + '/theories/' + f, 'w').write(t)
    subprocess.run('coq_makefile -f _CoqProject -o Makefile && make -j3', shell=True, cwd=base, check=True, stdout=subprocess.DEVNULL)
def lemma_at(path, line):
    name = None
    for i, l in enumerate(open(path), 1):
        if i > line: break
        m = re.match(r'\s*(?:#\[\w+\]\s*)?(?:Theorem|Corollary|Lemma|Instance|Definition|Fixpoint|Inductive)\s+(\w+)', l)
        if m: name = m.group(1)
    return name
def theorems(path):
    return re.findall(r'^\s*(?:Theorem|Corollary)\s+(C\d\d_\w+)', open(path).read(), re.M)
def deps():
    d = {}
    for f in os.listdir(work + '/theories'):
        if f.endswith('.v'):
            d[f] = {x + '.v' for l in re.findall(r'^From Verif Require (?:Export|Import) ([^.]*)\.', open(work + '/theories/' + f).read(), re.M) for x in l.split()}
    return d
def dependents(f):
    d = deps(); out = {f}
    while True:
        n = {g for g in d if d[g] & out} - out
        if not n: return out
        out |= n
def run(m):
    shutil.rmtree(work, ignore_errors=True); subprocess.run(['cp', '-a', base, work], check=True)
    f = work + '/theories/' + m['file']; s = open(f).read()
    if s.count(m['old']) != 1: return {'id': m['id'], 'error': 'old text occurs %d times' % s.count(m['old'])}
    open(f, 'w').write(s.replace(m['old'], m['new']))
    for g in dependents(m['file']):
        for e in ('vo', 'glob', 'vos', 'vok'):
            q = work + '/theories/' + g[:-1] + e
            if os.path.exists(q): os.remove(q)
    r = subprocess.run('timeout 1500 make -k -j2', shell=True, cwd=work, capture_output=True, text=True)
    out = r.stdout + r.stderr
    failed = []
    for path, line in re.findall(r'File "\./(theories/\w+\.v)", line (\d+), characters [\d-]+:\nError', out):
        failed.append((os.path.basename(path), lemma_at(work + '/' + path, int(line)), int(line)))
    lost = []
    for l in open(work + '/_CoqProject'):
        l = l.strip()
        if l.endswith('.v') and not os.path.exists(work + '/' + l[:-2] + '.vo'):
            hit = [x for x in failed if x[0] == os.path.basename(l)]
            ths = theorems(work + '/' + l)
            if hit:  # theorems before the failing line were accepted
                src = open(work + '/' + l).read().split('\n')
                before = set(re.findall(r'^\s*(?:Theorem|Corollary)\s+(C\d\d_\w+)', '\n'.join(src[:hit[0][2]]), re.M)) - {hit[0][1]}
                ths = [t for t in ths if t not in before]
            lost += ths
    return {'id': m['id'], 'failed': [[a, b] for a, b, _ in failed], 'lost': lost, 'tail': out[-600:] if not failed else ''}
if __name__ == '__main__':
    ms = json.load(open(sys.argv[1])); ids = sys.argv[2:]
    if '--keep' in ids: ids.remove('--keep')
    else: prepare()
    for m in ms:
        if ids and m['id'] not in ids: continue
        r = run(m); print(json.dumps(r), flush=True)
        with open('/tmp/mut/results.jsonl', 'a') as g: g.write(json.dumps(r) + '\n')
