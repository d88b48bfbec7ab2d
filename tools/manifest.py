#!/usr/bin/env python3
"""Writes MANIFEST.json from the theorem names in rocq/theories/*Props.v and the notes in tools/notes.json."""
import json, re, glob, os
root = os.path.dirname(os.path.dirname(os.path.abspath(__file__)))
thms = {}
for f in sorted(glob.glob(root + '/rocq/theories/*Props*.v')):
    for m in re.finditer(r'^(?:Theorem|Corollary) (C\d\d)_(\w+)', open(f).read(), re.M):
        thms.setdefault(m.group(1), []).append(m.group(1) + '_' + m.group(2))
notes = json.load(open(root + '/tools/notes.json'))
claims = []
for line in open(root + '/properties.jsonl'):
    p = json.loads(line)['id']
    if p not in thms and p not in notes: continue
    status, note = notes.get(p, ['proved', ''])
    if p not in thms and status != 'not_applicable': continue
    claims.append({'property': p, 'status': status, 'theorems': thms.get(p, []), 'note': note})
json.dump({'claims': claims}, open(root + '/MANIFEST.json', 'w'), indent=1)
print(len(claims), 'claims', sum(len(c['theorems']) for c in claims), 'theorems')
