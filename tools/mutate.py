#!/usr/bin/env python3
"""Edit the model in a scratch copy and report which theorems no longer go through.

usage: mutate.py spec.json [workers]
spec: [{"file": "GatesModel", "definition": "...", "old": "...", "new": "...", "claim": "..."}]
Every lemma whose proof breaks is admitted in the scratch copy, so that
Print Assumptions shows which theorems rest on it.  Results are appended to
/verif/seeded/LOG.jsonl ("tightened" is edited by hand when something was)."""
import json, os, re, shutil, subprocess, sys
from concurrent.futures import ThreadPoolExecutor
ROOT = os.environ.get('MUT_ROOT', '/verif/rocq')
def sh(c, cwd, timeout=900):
    try:
        p = subprocess.run(c, shell=True, cwd=cwd, capture_output=True, text=True, timeout=timeout)
        return p.returncode, p.stdout + p.stderr
    except subprocess.TimeoutExpired:
        return 124, 'TIMEOUT'
def order(cwd):
    files = [l.strip() for l in open(cwd + '/_CoqProject') if l.strip().endswith('.v')]
    _, out = sh('coqdep -Q theories Verif ' + ' '.join(files), cwd)
    dep = {}
    for l in out.splitlines():
        m = re.match(r'(\S+)\.vo\s.*?:\s*(.*)', l)
        if m: dep[m.group(1)] = [d[:-3] for d in m.group(2).split() if d.endswith('.vo')]
    return [f[:-2] for f in files], dep
START = re.compile(r'^\s*(?:Local\s+|#\[.*?\]\s*)?(Lemma|Theorem|Example|Corollary|Fact|Remark|Instance|Global Instance)\s+([\w\']+)', re.M)
def admit(path, line, char):
    s = open(path).read()
    pos = sum(len(l) + 1 for l in s.split('\n')[:line - 1]) + char
    cand = [m for m in START.finditer(s) if m.start() <= pos]
    if not cand: return None
    m = cand[-1]
    p = re.compile(r'\bProof\b').search(s, m.start())
    q = re.compile(r'\b(Qed|Defined)\.').search(s, m.start())
    if not q or q.end() < pos and not re.match(r'\s*$', s[q.end():pos]): return None
    start = p.start() if p and p.start() < q.start() else None
    if start is None or start > pos: return None
    s = s[:start] + 'Admitted.' + '\n' * s[start:q.end()].count('\n') + s[q.end():]
    open(path, 'w').write(s)
    return m.group(2)
def run(k, spec):
    cwd = '/tmp/mut%d' % k
    shutil.rmtree(cwd, ignore_errors=True)
    shutil.copytree(ROOT, cwd)
    path = '%s/theories/%s.v' % (cwd, spec['file'])
    s = open(path).read()
    if s.count(spec['old']) < 1: return dict(spec, result='old text not found')
    n = spec.get('occurrence', 1)
    i = -1
    for _ in range(n): i = s.index(spec['old'], i + 1)
    s = s[:i] + spec['new'] + s[i + len(spec['old']):]
    open(path, 'w').write(s)
    files, dep = order(cwd)
    dirty = {'theories/' + spec['file']}
    broken, failed, prints = [], [], []
    for f in files:
        if f not in dirty and not any(d in dirty for d in dep.get(f, [])): continue
        dirty.add(f)
        for tries in range(40):
            rc, out = sh('ulimit -v 7000000; timeout 400 coqc -Q theories Verif %s.v' % f, cwd, 500)
            if rc == 0: break
            m = re.search(r'line (\d+), characters (\d+)-', out)
            if not m:
                return dict(spec, result='no location in %s: %s' % (f, out[-300:]), broken=broken, failed=failed)
            name = admit('%s/%s.v' % (cwd, f), int(m.group(1)), int(m.group(2)))
            if not name:
                return dict(spec, result='broken outside a proof, %s: %s' % (f, out[-300:]), broken=broken, failed=failed)
            broken.append(f.split('/')[1] + '.' + name)
        else:
            return dict(spec, result='too many failures in ' + f, broken=broken, failed=failed)
        if f.endswith('Props'):
            src = open('%s/%s.v' % (cwd, f)).read()
            names = re.findall(r'^Print Assumptions (\w+)\.', src, re.M)
            blocks = re.split(r'^(?=Closed under the global context|Axioms:)', out, flags=re.M)
            blocks = [b for b in blocks if b.startswith(('Closed', 'Axioms:'))]
            if len(blocks) != len(names): prints.append('%s: %d prints, %d blocks' % (f, len(names), len(blocks)))
            for nme, b in zip(names, blocks):
                if b.startswith('Axioms:') and nme not in failed: failed.append(nme)
    return dict(spec, result='done', broken=broken, failed=failed, warn=prints)
def main():
    specs = json.load(open(sys.argv[1]))
    w = int(sys.argv[2]) if len(sys.argv) > 2 else 2
    with ThreadPoolExecutor(w) as ex:
        for r in ex.map(lambda a: run(a[0] % w if False else a[0], a[1]), list(enumerate(specs))):
            k = specs.index({x: r[x] for x in r if x not in ('result', 'broken', 'failed', 'warn')})
            shutil.rmtree('/tmp/mut%d' % k, ignore_errors=True)
            print(json.dumps({x: r.get(x) for x in ('definition', 'result', 'broken', 'failed', 'warn')}))
            sys.stdout.flush()
            if r['result'] == 'done':
                with open('/verif/seeded/LOG.jsonl', 'a') as f:
                    f.write(json.dumps({'definition': r['file'] + '.' + r['definition'], 'edit': r['old'] + '  =>  ' + r['new'],
                        'claim': r['claim'], 'failed': r['failed'], 'broken_lemmas': r['broken'], 'tightened': []}) + '\n')
main()
