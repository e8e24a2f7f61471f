#!/usr/bin/env python3
"""Writes MANIFEST.json from the theorem names in rocq/theories/Properties*.v and notes.json."""
import glob, json, re
ths = {}
for p in sorted(glob.glob('rocq/theories/Properties*.v')):
    for m in re.finditer(r'^Theorem\s+((C\d\d)_\w+)', open(p).read(), re.M):
        ths.setdefault(m.group(2), []).append(m.group(1))
notes = json.load(open('notes.json'))
claims = []
for line in open('properties.jsonl'):
    d = json.loads(line)
    i = d['id']
    n = notes.get(i, {})
    t = ths.get(i, [])
    st = n.get('status', 'proved' if t else 'partial')
    claims.append({'property': i, 'status': st, 'theorems': t, 'note': n.get('note', '' if t else 'not proved yet')})
json.dump({'claims': claims}, open('MANIFEST.json', 'w'), indent=1)
for c in claims:
    print(c['property'], c['status'], len(c['theorems']))
