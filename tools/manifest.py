#!/usr/bin/env python3
"""Regenerate MANIFEST.json from the theorem names in rocq/theories/*Props.v.

Theorem names start with the property id (C01_...).  Notes and statuses that
cannot be derived from the names live in tools/notes.json."""
import glob, json, os, re
root = os.path.dirname(os.path.dirname(os.path.abspath(__file__)))
ids = [json.loads(l)['id'] for l in open(root + '/properties.jsonl') if l.strip()]
notes = json.load(open(root + '/tools/notes.json'))
thms = {i: [] for i in ids}
for f in sorted(glob.glob(root + '/rocq/theories/*Props.v')):
    for m in re.finditer(r'^Theorem (C\d+)_?(\w*)', open(f).read(), re.M):
        name = m.group(1) + ('_' + m.group(2) if m.group(2) else '')
        thms[m.group(1)].append(name)
claims = []
for i in ids:
    n = notes.get(i, {})
    if not thms[i] and n.get('status') != 'not_applicable':
        continue  # nothing claimed yet
    status = n.get('status') or (
        'partial' if any(t.endswith('_partial') for t in thms[i]) else 'proved')
    note = n.get('note', '')
    claims.append({'property': i, 'status': status, 'theorems': thms[i], 'note': note})
with open(root + '/MANIFEST.json', 'w') as o:
    o.write('{"claims": [\n')
    o.write(',\n'.join(' ' + json.dumps(c) for c in claims))
    o.write('\n]}\n')
print(sum(len(t) for t in thms.values()), 'theorems;', [i for i in ids if not thms[i]], 'without theorems')
