#!/usr/bin/env python3
"""Regenerate MANIFEST.json: collects the theorems named Cnn_* from the
*Props.v files; status and notes come from tools/notes.json."""
import json, re, glob, os
root = os.path.dirname(os.path.dirname(os.path.abspath(__file__)))
notes = json.load(open(os.path.join(root, 'tools/notes.json')))
thms = {}
for f in sorted(glob.glob(os.path.join(root, 'rocq/theories/*Props.v'))):
    for m in re.finditer(r'^\s*(?:Theorem|Lemma|Corollary)\s+(C\d\d\w*)', open(f).read(), re.M):
        thms.setdefault(m.group(1)[:3], []).append(m.group(1))
claims = []
for line in open(os.path.join(root, 'properties.jsonl')):
    p = json.loads(line)['id']
    n = notes.get(p)
    if n is None and p not in thms:
        continue
    n = n or {}
    ts = thms.get(p, [])
    st = n.get('status') or ('partial' if any(t.endswith('_partial') or '_refuted' in t for t in ts) else 'proved')
    claims.append({'property': p, 'status': st, 'theorems': ts, 'note': n.get('note', '')})
json.dump({'claims': claims}, open(os.path.join(root, 'MANIFEST.json'), 'w'), indent=1)
print(len(claims), 'claims;', {s: sum(c['status'] == s for c in claims) for s in ('proved', 'partial', 'not_applicable')})
for c in claims:
    if not c['note']: print('no note:', c['property'])
