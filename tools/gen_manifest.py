#!/usr/bin/env python3
"""Writes MANIFEST.json from the theorem names in rocq/theories/Prop_*.v.

Every theorem is named Cnn_...; a name ending in _partial makes its property
"partial" unless listed in FULL. Properties without a theorem are reported as
partial with an explanatory note."""
import glob, json, os, re
root = os.path.join(os.path.dirname(os.path.abspath(__file__)), '..')
props = [json.loads(l) for l in open(os.path.join(root, 'properties.jsonl'))]
notes = {}
np = os.path.join(root, 'tools', 'notes.json')
if os.path.exists(np):
    notes = json.load(open(np))
thms = {}
for f in sorted(glob.glob(os.path.join(root, 'rocq/theories/Prop_*.v'))):
    for m in re.finditer(r'^Theorem\s+(C\d\d)(_\w+)', open(f).read(), re.M):
        thms.setdefault(m.group(1), []).append(m.group(1) + m.group(2))
claims = []
for p in props:
    ts = thms.get(p['id'], [])
    n = notes.get(p['id'], {})
    status = n.get('status')
    if status is None:
        status = 'partial' if (not ts or any(t.endswith('_partial') for t in ts)) else 'proved'
    note = n.get('note', '' if ts else 'no theorem yet')
    claims.append(dict(property=p['id'], status=status, theorems=ts, note=note))
json.dump({'claims': claims}, open(os.path.join(root, 'MANIFEST.json'), 'w'), indent=1)
print({s: sum(c['status'] == s for c in claims) for s in ('proved', 'partial', 'not_applicable')})
