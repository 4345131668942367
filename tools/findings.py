#!/usr/bin/env python3
"""Regenerate FINDINGS.md: every theorem that refutes a claim about the code."""
import glob, json, os, re
root = os.path.dirname(os.path.dirname(os.path.abspath(__file__)))
notes = json.load(open(root + '/tools/notes.json'))
titles = {}
for l in open(root + '/properties.jsonl'):
    if l.strip():
        d = json.loads(l)
        titles[d['id']] = d['title']
found = []
for f in sorted(glob.glob(root + '/rocq/theories/*Props.v')):
    s = open(f).read()
    for m in re.finditer(r'^Theorem ((C\d+)_\w*refuted)\b', s, re.M):
        before = s[:m.start()].rstrip()
        comment = ''
        if before.endswith('*)'):
            comment = ' '.join(before[before.rindex('(*') + 2:-2].split())
        found.append((m.group(2), m.group(1), os.path.basename(f), comment))
found.sort()
with open(root + '/FINDINGS.md', 'w') as o:
    o.write('# Claims that are false of the code\n\nGenerated by tools/findings.py. Each theorem exhibits a case of the '
            'faithful model in which the claim fails.\n')
    last = None
    for p, t, f, c in found:
        if p != last:
            o.write('\n## %s %s\n\n' % (p, titles[p]))
            last = p
        o.write('* `%s` (%s)%s\n' % (t, f, ': ' + c if c else ': see the note of %s in MANIFEST.json: %s' % (p, notes.get(p, {}).get('note', ''))))
print(len(found), 'findings,', sum(1 for x in found if not x[3]), 'without comment')
