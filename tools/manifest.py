#!/usr/bin/env python3
"""Regenerates /verif/MANIFEST.json from the theorems named Cnn_... in
rocq/theories and the statuses/notes below."""
import json, re, glob, os
root = os.path.dirname(os.path.dirname(os.path.abspath(__file__)))
thms = {}
for line in open(root + '/rocq/_CoqProject'):
    line = line.strip()
    if not line.endswith('.v'):
        continue
    for m in re.finditer(r'^(?:Theorem|Corollary)\s+(C\d\d+_\w+)', open(root + '/rocq/' + line).read(), re.M):
        thms.setdefault(m.group(1).split('_')[0], []).append(m.group(1))
notes = json.load(open(root + '/tools/notes.json'))
claims = []
for line in open(root + '/properties.jsonl'):
    p = json.loads(line)['id']
    if p not in thms:
        continue
    status = 'partial' if notes.get(p, {}).get('partial') else 'proved'
    claims.append({'property': p, 'status': status, 'theorems': thms[p], 'note': notes.get(p, {}).get('note', '')})
json.dump({'claims': claims}, open(root + '/MANIFEST.json', 'w'), indent=1)
print(len(claims), 'claims', sum(len(c['theorems']) for c in claims), 'theorems')
