#!/usr/bin/env python3
"""Runs Print Assumptions for every theorem of MANIFEST.json (the project must be built) and writes ASSUMPTIONS.md."""
import json, os, re, subprocess, tempfile
root = os.path.dirname(os.path.dirname(os.path.abspath(__file__)))
files = [l.strip() for l in open(os.path.join(root, 'rocq/_CoqProject')) if l.strip().endswith('Props.v')]
thms = []
for f in files:
    mod = os.path.basename(f)[:-2]
    for m in re.finditer(r'^\s*Theorem\s+(C\d\d+_\w+)', open(os.path.join(root, 'rocq', f)).read(), re.M):
        thms.append((mod, m.group(1)))
d = tempfile.mkdtemp()
src = ''.join(f'From Verif Require {m}.\n' for m in sorted({m for m, _ in thms}))
src += ''.join(f'Goal True. idtac "@@ {t}". Abort.\nPrint Assumptions {m}.{t}.\n' for m, t in thms)
open(d + '/a.v', 'w').write(src)
out = subprocess.run(['coqc', '-Q', os.path.join(root, 'rocq/theories'), 'Verif', d + '/a.v'], capture_output=True, text=True)
assert out.returncode == 0, out.stderr
res = {}
for part in out.stdout.split('@@ ')[1:]:
    name, body = part.split('\n', 1)
    ax = re.findall(r'^([A-Z]\w*(?:\.\w+)+)\s*:?', body, re.M)
    assert ax or 'Closed under the global context' in body, (name, body)
    res[name] = sorted(ax)
groups = {}
for n, a in res.items(): groups.setdefault(tuple(a), []).append(n)
w = open(os.path.join(root, 'ASSUMPTIONS.md'), 'w')
w.write('# What `Print Assumptions` lists for each property theorem\n\nGenerated by tools/assumptions.py.\n')
for a, ns in sorted(groups.items(), key=lambda x: len(x[0])):
    w.write('\n## ' + ('Closed under the global context (no axioms)' if not a else 'Axioms: ' + ', '.join('`%s`' % x for x in a)) + f' — {len(ns)} theorems\n\n')
    for n in ns: w.write(f'* {n}\n')
print({a: len(n) for a, n in groups.items()})
