#!/usr/bin/env python3
"""Regenerates /verif/MANIFEST.json from the table below."""
import json, os
T = {}
def c(p, status, theorems, note):
    T[p] = dict(property=p, status=status, theorems=theorems, note=note)
exec(open(os.path.join(os.path.dirname(__file__), 'claims.py')).read())
ids=[json.loads(l)['id'] for l in open('/verif/properties.jsonl')]
for i in ids:
    if i not in T: print('missing', i)
json.dump({"claims":[T[i] for i in ids if i in T]}, open('/verif/MANIFEST.json','w'), indent=1)
