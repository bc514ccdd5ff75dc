#!/usr/bin/env python3
"""Writes ASSUMPTIONS.md: what Print Assumptions lists for every property theorem of MANIFEST.json.
Needs a built rocq/ directory; scratch files go to /tmp."""
import json, re, glob, os, subprocess
root = os.path.dirname(os.path.dirname(os.path.abspath(__file__)))
names = []
for c in json.load(open(root + '/MANIFEST.json'))['claims']:
    for t in c['theorems']:
        if t not in names: names.append(t)
where = {}
for f in glob.glob(root + '/rocq/theories/Props*.v'):
    for m in re.finditer(r'^\s*(?:Theorem|Corollary)\s+(C\d\d\w+)', open(f).read(), re.M):
        where[m.group(1)] = os.path.basename(f)[:-2]
os.makedirs('/tmp/pa', exist_ok=True)
with open('/tmp/pa/PA.v', 'w') as o:
    for m in sorted(set(where.values())): o.write(f'From Verif Require {m}.\n')
    for n in names:
        o.write(f'Goal True. idtac "@@ {n}". Abort.\nPrint Assumptions {where[n]}.{n}.\n')
out = subprocess.run(['coqc', '-R', root + '/rocq/theories', 'Verif', '/tmp/pa/PA.v'], stdout=subprocess.PIPE, text=True, check=True).stdout
groups = {}
for part in out.split('@@ ')[1:]:
    lines = part.split('\n')
    ax = []
    for l in lines[1:]:
        m = re.match(r'^([A-Za-z_][\w.\']*)(?:\s*:.*)?$', l)
        if m and m.group(1) not in ('Axioms', 'Closed'): ax.append(m.group(1))
    groups.setdefault(tuple(sorted(set(ax))), []).append(lines[0].strip())
with open(root + '/ASSUMPTIONS.md', 'w') as o:
    o.write('# What Print Assumptions lists for each property theorem\n\nGenerated by tools/assumptions.py; '
            f'{len(names)} theorems.  Theorems with the same list are grouped.\n')
    for ax, ns in sorted(groups.items(), key=lambda kv: (len(kv[0]), kv[0])):
        o.write('\n## ' + (f'{len(ns)} theorems: ') + ('Closed under the global context\n\n' if not ax else '\n\n' + '\n'.join('- `' + a + '`' for a in ax) + '\n\n'))
        o.write(', '.join(ns) + '\n')
print(len(names), [(len(k), len(v)) for k, v in groups.items()])
