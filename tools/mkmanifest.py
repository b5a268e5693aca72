#!/usr/bin/env python3
"""Regenerate MANIFEST.json from the property files rocq/theories/P_*.v and tools/notes.json."""
import json, glob, re, os
root = os.path.dirname(os.path.dirname(os.path.abspath(__file__)))
thms = {}
for f in sorted(glob.glob(root + '/rocq/theories/P_*.v')):
    for m in re.finditer(r'^(?:Theorem|Corollary)\s+((C\d\d+)_\w+)', open(f).read(), re.M):
        thms.setdefault(m.group(2), []).append(m.group(1))
notes = json.load(open(root + '/tools/notes.json'))
claims = []
for l in open(root + '/properties.jsonl'):
    if not l.strip(): continue
    c = json.loads(l)['id']
    ts = thms.get(c, [])
    n = notes.get(c, {})
    status = n.get('status') or ('proved' if ts and not any(t.endswith('_partial') for t in ts) else 'partial')
    note = n.get('note', '' if ts else 'not proved yet')
    claims.append({'property': c, 'status': status, 'theorems': ts, 'note': note})
json.dump({'claims': claims}, open(root + '/MANIFEST.json', 'w'), indent=1)
print(sum(1 for c in claims if c['theorems']), 'of', len(claims), 'with theorems;', sum(len(c['theorems']) for c in claims), 'theorems')
