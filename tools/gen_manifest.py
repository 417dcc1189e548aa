#!/usr/bin/env python3
"""Regenerate MANIFEST.json from the theorem names in rocq/theories/*_Props.v.
A theorem CNN_xxx belongs to property CNN; names ending in _partial make the
property partial.  Notes come from tools/notes.json."""
import re, json, glob, os
root = os.path.dirname(os.path.dirname(os.path.abspath(__file__)))
thms = {}
for f in sorted(glob.glob(root + '/rocq/theories/*_Props.v')):
    for m in re.finditer(r'^Theorem\s+((C\d+)_\w+)', open(f).read(), re.M):
        thms.setdefault(m.group(2), []).append(m.group(1))
notes = json.load(open(root + '/tools/notes.json'))
claims = []
for l in open(root + '/properties.jsonl'):
    i = json.loads(l)['id']
    n = notes.get(i, {})
    if i in thms:
        st = n.get('status') or ('partial' if any(t.endswith('_partial') for t in thms[i]) else 'proved')
        claims.append(dict(property=i, status=st, theorems=thms[i], note=n.get('note', '')))
    elif n.get('status') == 'not_applicable':
        claims.append(dict(property=i, status='not_applicable', theorems=[], note=n['note']))
json.dump({'claims': claims}, open(root + '/MANIFEST.json', 'w'), indent=1)
print(len(claims), 'claims', sum(len(c['theorems']) for c in claims), 'theorems')
