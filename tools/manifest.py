#!/usr/bin/env python3
"""Writes MANIFEST.json.  Theorems named Cnn_* in Props_*.v are collected
automatically; the status and note of each property come from NOTES."""
import glob, json, re
root = '/verif/'
thms = {}
for f in sorted(glob.glob(root + 'rocq/theories/Props_*.v')):
    for m in re.finditer(r'^Theorem (C(\d+)_\w+)', open(f).read(), re.M):
        thms.setdefault('C' + m.group(2), []).append(m.group(1))
NOTES = {}
exec(open(root + 'tools/notes.py').read())
claims = []
for l in open(root + 'properties.jsonl'):
    d = json.loads(l)
    i = d['id']
    t = thms.get(i, [])
    st, note = NOTES.get(i, ('proved', ''))
    if not t:
        if st == 'proved':
            continue
    claims.append({'property': i, 'status': st, 'theorems': t, 'note': note})
json.dump({'claims': claims}, open(root + 'MANIFEST.json', 'w'), indent=1)
print(len(claims), 'claims;', sum(len(c['theorems']) for c in claims), 'theorems; missing:',
      [json.loads(l)['id'] for l in open(root + 'properties.jsonl') if json.loads(l)['id'] not in [c['property'] for c in claims]])
