#!/usr/bin/env python3
"""Runs Print Assumptions on every theorem named in MANIFEST.json (after a build) and writes ASSUMPTIONS.md."""
import json, os, re, subprocess, tempfile
root = os.path.dirname(os.path.dirname(os.path.abspath(__file__)))
th = os.path.join(root, 'rocq', 'theories')
where = {}
for f in sorted(os.listdir(th)):
    if f.startswith('Prop') and f.endswith('.v'):
        for n in re.findall(r"^\s*Theorem\s+([\w']+)", open(os.path.join(th, f)).read(), re.M):
            where[n] = f[:-2]
names = [t for c in json.load(open(os.path.join(root, 'MANIFEST.json')))['claims'] for t in c['theorems']]
q = 'From Verif Require ' + ' '.join(sorted(set(where[n] for n in names))) + '.\nSet Printing Width 1000.\n'
for n in names:
    q += f'Goal True. idtac "@@ {n}". exact I. Qed.\nPrint Assumptions {where[n]}.{n}.\n'
with tempfile.TemporaryDirectory() as d:
    p = os.path.join(d, 'q.v')
    open(p, 'w').write(q)
    out = subprocess.run(['coqc', '-Q', th, 'Verif', p], capture_output=True, text=True)
assert out.returncode == 0, out.stderr[-2000:]
ax, cur = {}, None
for line in out.stdout.split('\n'):
    if line.startswith('@@ '):
        cur = line[3:].strip(); ax[cur] = set()
    elif line and not line[0].isspace() and cur and not line.startswith(('Axioms:', 'Closed')):
        ax[cur].add(re.split(r'[\s:]', line)[0])
groups = {}
for n in names:
    groups.setdefault(tuple(sorted(ax[n])), []).append(n)
with open(os.path.join(root, 'ASSUMPTIONS.md'), 'w') as g:
    g.write('# Print Assumptions of every theorem in MANIFEST.json\n\nGenerated by tools/assumptions.py.\n')
    for k in sorted(groups, key=len):
        g.write('\n## ' + (', '.join('`%s`' % a for a in k) if k else 'Closed under the global context (no axioms)') + '\n\n')
        g.write(', '.join(groups[k]) + '\n')
print({k: len(v) for k, v in groups.items()})
