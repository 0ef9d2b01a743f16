#!/usr/bin/env python3
"""Rewrites the list of refutations in DESIGN.md section 5 from MANIFEST.json."""
import json,re
names=sorted({t for c in json.load(open('MANIFEST.json'))['claims'] for t in c['theorems'] if t.endswith('_refuted') or '_REFUTED_' in t})
d=open('DESIGN.md').read()
d=re.sub(r'All of them: .*\n','All of them: '+', '.join(f'`{n}`' for n in names)+'.\n',d)
a=open('ASSUMPTIONS.md').read()
open('DESIGN.md','w').write(d)
print(len(names))
