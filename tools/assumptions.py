#!/usr/bin/env python3
"""Regenerate ASSUMPTIONS.md: what Print Assumptions lists for every property theorem.

Needs a built rocq/theories (the .vo files)."""
import glob, os, re, subprocess, tempfile, collections
root = os.path.dirname(os.path.dirname(os.path.abspath(__file__)))
lines, names = [], []
for f in sorted(glob.glob(root + '/rocq/theories/*Props.v')):
    mod = os.path.basename(f)[:-2]
    thms = re.findall(r'^Theorem (C\d+\w*)', open(f).read(), re.M)
    if thms:
        lines.append('Require Verif.%s.' % mod)
    for t in thms:
        lines.append('Definition thm_%s := tt. Check thm_%s.' % (t, t))
        lines.append('Print Assumptions Verif.%s.%s.' % (mod, t))
        names.append((t, mod))
tmp = tempfile.mkdtemp()
open(tmp + '/Assume.v', 'w').write('\n'.join(lines) + '\n')
out = subprocess.run(['coqc', '-Q', root + '/rocq/theories', 'Verif', tmp + '/Assume.v'], capture_output=True, text=True)
if out.returncode:
    raise SystemExit(out.stderr)
axioms, current = {}, None
for line in out.stdout.splitlines():
    m = re.match(r'thm_(C\d+\w*)', line)
    if m:
        current = m.group(1)
        axioms[current] = set()
        continue
    if current is None:
        continue
    m = re.match(r'^([\w.]+)\s*(:|$)', line)
    if m and m.group(1) not in ('Axioms', 'Closed', 'The'):
        axioms[current].add(m.group(1))
allax = collections.Counter(a for s in axioms.values() for a in s)
groups = collections.defaultdict(list)
for t, mod in names:
    groups[tuple(sorted(axioms[t]))].append(t)
with open(root + '/ASSUMPTIONS.md', 'w') as o:
    o.write('# What Print Assumptions lists for each theorem\n\n'
            'Generated by tools/assumptions.py from the compiled theories. Every axiom below is of the standard\n'
            'library of Coq 8.16.1.\n\n| Axiom | Theorems |\n|---|---|\n')
    for a, n in sorted(allax.items()):
        o.write('| `%s` | %d |\n' % (a, n))
    for g, ts in sorted(groups.items()):
        o.write('\n## %s\n\n%s\n' % (', '.join('`%s`' % a for a in g) or 'Closed under the global context', ', '.join(sorted(ts))))
print(len(names), 'theorems', dict(allax))
