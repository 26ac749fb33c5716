#!/usr/bin/env python3
"""Regenerate MANIFEST.json from the theorem names Cnn_* in rocq/theories/P_*.v and tools/notes.json."""
import json, re, glob, os
root = os.path.dirname(os.path.dirname(os.path.abspath(__file__)))
props = [json.loads(l)['id'] for l in open(root + '/properties.jsonl') if l.strip()]
notes = json.load(open(root + '/tools/notes.json'))
thms = {}
for f in sorted(glob.glob(root + '/rocq/theories/P_*.v')):
    for m in re.finditer(r'^Theorem\s+(C\d{2,3})_(\w+)', open(f).read(), re.M):
        thms.setdefault(m.group(1), []).append(m.group(1) + '_' + m.group(2))
claims = []
for p in props:
    n = notes.get(p, {})
    t = thms.get(p, [])
    if not t and n.get('status') != 'not_applicable':
        continue
    claims.append({'property': p, 'status': n.get('status', 'partial'), 'theorems': t, 'note': n.get('note', '')})
json.dump({'claims': claims}, open(root + '/MANIFEST.json', 'w'), indent=1)
print(len(claims), 'claims', sum(len(c['theorems']) for c in claims), 'theorems; missing:', [p for p in props if p not in thms])
